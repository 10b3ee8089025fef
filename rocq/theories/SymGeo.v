(** Geometry of a moved mesh: volumes, areas and the cell equations are the same. *)
From Coq Require Import Reals Lra.
From Verif Require Import Prelude Bytes MeshModel MeshSpec CreateSpec TychoSpec RefineSpec GeometrySpec TransportSpec ViewSpec SymSpec.
Local Open Scope R_scope.

Lemma iso_dot_sub I L : isometry I L -> forall a b c d, dotR (subR (I a) (I b)) (subR (I c) (I d)) = dotR (subR a b) (subR c d).
Proof. intros [S D] a b c d. now rewrite !S, D. Qed.
Lemma vol6_gram p : let u := subR (r1 p) (r0 p) in let v := subR (r2 p) (r0 p) in let w := subR (r3 p) (r0 p) in
  vol6 p * vol6 p = dotR u u * (dotR v v * dotR w w - dotR v w * dotR v w) - dotR u v * (dotR u v * dotR w w - dotR v w * dotR u w) + dotR u w * (dotR u v * dotR v w - dotR v v * dotR u w).
Proof. destruct p as [[a0 a1 a2] [b0 b1 b2] [c0 c1 c2] [d0 d1 d2]]. unfold vol6, dotR, subR. cbn. ring. Qed.
Definition map4 {X Y} (f : X -> Y) (p : q4 X) : q4 Y := Q4 (f (r0 p)) (f (r1 p)) (f (r2 p)) (f (r3 p)).
Lemma vol6_iso I L p : isometry I L -> Rabs (vol6 (map4 I p)) = Rabs (vol6 p).
Proof.
  intros H. assert (E : vol6 (map4 I p) * vol6 (map4 I p) = vol6 p * vol6 p) by (rewrite !vol6_gram; cbn [map4 r0 r1 r2 r3]; now rewrite !(iso_dot_sub I L H)).
  apply Rsqr_eq_abs_0. exact E.
Qed.
(** Renumbering of the four vertices. *)
Definition perm4 (pi : nat -> nat) : Prop := (forall i, (i < 4)%nat -> (pi i < 4)%nat) /\ forall i j, (i < 4)%nat -> (j < 4)%nat -> pi i = pi j -> i = j.
Local Close Scope R_scope.
Lemma perm4_cases pi (P : nat -> nat -> nat -> nat -> Prop) :
  P 0 1 2 3 -> P 0 1 3 2 -> P 0 2 1 3 -> P 0 2 3 1 -> P 0 3 1 2 -> P 0 3 2 1 ->
  P 1 0 2 3 -> P 1 0 3 2 -> P 1 2 0 3 -> P 1 2 3 0 -> P 1 3 0 2 -> P 1 3 2 0 ->
  P 2 0 1 3 -> P 2 0 3 1 -> P 2 1 0 3 -> P 2 1 3 0 -> P 2 3 0 1 -> P 2 3 1 0 ->
  P 3 0 1 2 -> P 3 0 2 1 -> P 3 1 0 2 -> P 3 1 2 0 -> P 3 2 0 1 -> P 3 2 1 0 -> perm4 pi -> P (pi 0) (pi 1) (pi 2) (pi 3).
Proof.
  intros. match goal with H : perm4 _ |- _ => destruct H as [L J] end.
  pose proof (L 0 ltac:(lia)). pose proof (L 1 ltac:(lia)). pose proof (L 2 ltac:(lia)). pose proof (L 3 ltac:(lia)).
  pose proof (J 0 1 ltac:(lia) ltac:(lia)). pose proof (J 0 2 ltac:(lia) ltac:(lia)). pose proof (J 0 3 ltac:(lia) ltac:(lia)).
  pose proof (J 1 2 ltac:(lia) ltac:(lia)). pose proof (J 1 3 ltac:(lia) ltac:(lia)). pose proof (J 2 3 ltac:(lia) ltac:(lia)).
  clear L J. remember (pi 0) as a. remember (pi 1) as b. remember (pi 2) as c. remember (pi 3) as d. clear Heqa Heqb Heqc Heqd.
  destruct a as [|[|[|[|]]]]; destruct b as [|[|[|[|]]]]; try (exfalso; lia);
  destruct c as [|[|[|[|]]]]; try (exfalso; lia); destruct d as [|[|[|[|]]]]; try (exfalso; lia); assumption.
Qed.
Local Open Scope R_scope.
Lemma sum4_perm pi g : perm4 pi -> sum4 (fun i => g (pi i)) = sum4 g.
Proof. intros H. unfold sum4. revert H. apply (perm4_cases pi (fun a b c d => g a + g b + g c + g d = g 0%nat + g 1%nat + g 2%nat + g 3%nat)); ring. Qed.
Lemma perm4_eqb pi i j : perm4 pi -> (i < 4)%nat -> (j < 4)%nat -> Nat.eqb (pi i) (pi j) = Nat.eqb i j.
Proof. intros [_ J] Hi Hj. destruct (Nat.eqb_spec i j) as [->|N]; [apply Nat.eqb_refl|]. apply Nat.eqb_neq. intros E. now apply N, J. Qed.
Lemma sum4_ext f g : (forall i, (i < 4)%nat -> f i = g i) -> sum4 f = sum4 g.
Proof. intros H. unfold sum4. now rewrite !H by lia. Qed.
Lemma dg_perm pi V area sigma Q nb psi : perm4 pi -> dg V area sigma Q nb psi ->
  dg V (fun f => area (pi f)) sigma (fun i => Q (pi i)) (fun f j => nb (pi f) (pi j)) (fun i => psi (pi i)).
Proof.
  intros H D i Hi. specialize (D (pi i) (proj1 H i Hi)). unfold dg_row in *.
  rewrite (sum4_perm pi psi H), (sum4_perm pi Q H). rewrite <- D. f_equal. f_equal. rewrite <- (sum4_perm pi (fun f => if Nat.eqb f (pi i) then 0 else / 12 * area f * (upwind area psi nb f (pi i) + sumFace f (upwind area psi nb f))) H). apply sum4_ext. intros f Hf.
  rewrite (perm4_eqb pi f i H Hf Hi). destruct (Nat.eqb f i); [reflexivity|]. f_equal. f_equal. unfold sumFace.
  rewrite <- (sum4_perm pi (fun j => if Nat.eqb j (pi f) then 0 else upwind area psi nb (pi f) j) H). apply sum4_ext. intros j Hj. now rewrite (perm4_eqb pi j f H Hj Hf).
Qed.
Lemma vol6_perm pi (p p' : q4 (q3 R)) : perm4 pi -> (forall v x, (v < 4)%nat -> corner p v = Some x -> corner p' (pi v) = Some x) -> Rabs (vol6 p') = Rabs (vol6 p).
Proof.
  intros H E. assert (K : vol6 p' = vol6 p \/ vol6 p' = - vol6 p).
  { destruct p as [x0 x1 x2 x3]. pose proof (E 0%nat x0 ltac:(lia) eq_refl) as E0. pose proof (E 1%nat x1 ltac:(lia) eq_refl) as E1. pose proof (E 2%nat x2 ltac:(lia) eq_refl) as E2. pose proof (E 3%nat x3 ltac:(lia) eq_refl) as E3. clear E.
    revert E0 E1 E2 E3. revert H.
    apply (perm4_cases pi (fun a b c d => corner p' a = Some x0 -> corner p' b = Some x1 -> corner p' c = Some x2 -> corner p' d = Some x3 -> vol6 p' = vol6 (Q4 x0 x1 x2 x3) \/ vol6 p' = - vol6 (Q4 x0 x1 x2 x3)));
    (destruct p' as [y0 y1 y2 y3]; unfold corner; cbn [q4l r0 r1 r2 r3 nth_error]; intros; repeat match goal with X : Some _ = Some _ |- _ => apply Some_inj in X; subst end;
     repeat match goal with X : q3 R |- _ => destruct X end; unfold vol6; first [left; ring | right; ring]). }
  destruct K as [->| ->]; [reflexivity|apply Rabs_Ropp].
Qed.
Lemma vol6_moved I L pi p p' : isometry I L -> perm4 pi -> (forall v x, (v < 4)%nat -> corner p v = Some x -> corner p' (pi v) = Some (I x)) -> Rabs (vol6 p') = Rabs (vol6 p).
Proof.
  intros HI H E. rewrite <- (vol6_iso I L p HI). apply (vol6_perm pi); auto. intros v x Hv Hx. destruct p as [x0 x1 x2 x3].
  unfold corner in *. cbn [map4 q4l r0 r1 r2 r3] in *. destruct v as [|[|[|[|]]]]; [| | | |lia]; cbn [nth_error] in Hx; apply Some_inj in Hx; subst x; apply E; auto; lia.
Qed.
(** Triangles with the same corners in another order, moved. *)
Definition shuffled (I : q3 R -> q3 R) (F F' : q3 (q3 R)) : Prop := exists i j k, (i < 3)%nat /\ (j < 3)%nat /\ (k < 3)%nat /\ i <> j /\ i <> k /\ j <> k /\
  option_map I (nth_error (q3l F) i) = Some (t0 F') /\ option_map I (nth_error (q3l F) j) = Some (t1 F') /\ option_map I (nth_error (q3l F) k) = Some (t2 F').
Lemma dist2_dot x y : dist2 x y = dotR (subR x y) (subR x y).
Proof. destruct x, y. unfold dist2, dotR, subR. cbn. ring. Qed.
Lemma dist2_sym x y : dist2 x y = dist2 y x.
Proof. unfold dist2. ring. Qed.
Lemma iso_dist I L x y : isometry I L -> dist2 (I x) (I y) = dist2 x y.
Proof. intros H. now rewrite !dist2_dot, (iso_dot_sub I L H). Qed.
Ltac six H := let i := fresh in let j := fresh in let k := fresh in destruct H as (i & j & k & ? & ? & ? & ? & ? & ? & ? & ? & ?);
  destruct i as [|[|[|]]]; try (exfalso; lia); destruct j as [|[|[|]]]; try (exfalso; lia); destruct k as [|[|[|]]]; try (exfalso; lia);
  cbn [q3l t0 t1 t2 nth_error option_map] in *; repeat match goal with X : Some _ = Some _ |- _ => apply Some_inj in X; subst end.
Lemma heron_moved I L F F' : isometry I L -> shuffled I F F' -> heron16 F' = heron16 F.
Proof.
  intros HI H. destruct F as [a b c], F' as [a' b' c']. unfold heron16. six H; cbn [t0 t1 t2]; rewrite !(iso_dist I L _ _ HI);
  rewrite ?(dist2_sym b a), ?(dist2_sym c b), ?(dist2_sym a c); ring.
Qed.
Lemma dot_sub3 n a b c : dotR n (subR a b) = dotR n (subR a c) - dotR n (subR b c).
Proof. destruct n, a, b, c. unfold dotR, subR. cbn. ring. Qed.
Lemma normal_moved I L p p' lf lf' F F' n : isometry I L -> shuffled I F F' -> (forall x, corner p' lf' = Some x -> exists y, corner p lf = Some y /\ x = I y) ->
  outward_unit_normal p lf F n -> outward_unit_normal p' lf' F' (L n).
Proof.
  intros [S D] H C (U & N1 & N2 & B). split; [now rewrite D|].
  assert (Z : forall x y, dotR (L n) (subR (I x) (I y)) = dotR n (subR x y)) by (intros; now rewrite S, D).
  destruct F as [a b c], F' as [a' b' c']. cbn [t0 t1 t2] in *. assert (N0 : dotR n (subR a a) = 0) by (destruct n, a; unfold dotR, subR; cbn; ring).
  six H; (split; [rewrite Z; rewrite (dot_sub3 n _ _ a), ?N0, ?N1, ?N2; ring|]; split; [rewrite Z; rewrite (dot_sub3 n _ _ a), ?N0, ?N1, ?N2; ring|]; intros v Hv; destruct (C v Hv) as (y & Hy & ->);
  rewrite Z; rewrite (dot_sub3 n _ _ a), ?N0, ?N1, ?N2; pose proof (B y Hy); lra).
Qed.
