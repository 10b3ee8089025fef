(** Refinement of a valid mesh of tetrahedra. *)
From Coq Require Import Reals Lra Permutation.
From Verif Require Import Prelude Bytes MeshModel MeshSpec CreateSpec RefineModel RefineSpec RefineProofs RefineMeshProofs TychoSpec GeometrySpec GeometryProofs ViewSpec RefinedSpec.

(** ** One tetrahedron *)
Section Kids.
  Local Open Scope R_scope.
  Definition kids (k : nat) (t : q4 (q3 R)) : list (q4 (q3 R)) := map (tetL t) (cornersL ++ octaL k).
  Definition pt_eqb (p q : q3 R) : bool := if Req_EM_T (t0 p) (t0 q) then if Req_EM_T (t1 p) (t1 q) then if Req_EM_T (t2 p) (t2 q) then true else false else false else false.
  Lemma pt_eqb_ok p q : pt_eqb p q = true <-> p = q.
  Proof.
    unfold pt_eqb. destruct p as [x y z], q as [x' y' z']. cbn. destruct (Req_EM_T x x'), (Req_EM_T y y'), (Req_EM_T z z'); split; intros E; try discriminate; subst; try reflexivity; injection E; intros; congruence.
  Qed.
  (** For suitable distances every diagonal is chosen. *)
  Lemma any_pick k t : (k < 3)%nat -> vol6 t <> 0 -> exists ltb dist dmax, refineTet rmid ltb dist dmax t = Some (kids k t).
  Proof.
    intros Hk V. assert (K : exists ltb dist dmax, pick ltb dist dmax (opps rmid t) = k).
    { destruct t as [a b c d]. cbn [opps]. destruct k as [|[|[|k]]]; [| | |lia].
      - exists (fun _ _ => false), (fun _ _ => 0), 0. reflexivity.
      - exists (fun x y => if Rlt_dec x y then true else false), (fun p _ => if pt_eqb p (midPt rmid a c) then 0 else if pt_eqb p (midPt rmid a b) then 1 else 2), 3.
        assert (N1 : midPt rmid a b <> midPt rmid a c).
        { intros E. apply V. destruct a as [x0 y0 z0], b as [x1 y1 z1], c as [x2 y2 z2], d as [x3 y3 z3]. unfold midPt, rmid in E. cbn in E. injection E as E1 E2 E3.
          assert (x1 = x2) by lra. assert (y1 = y2) by lra. assert (z1 = z2) by lra. subst. cbn. ring. }
        assert (N2 : midPt rmid a d <> midPt rmid a c).
        { intros E. apply V. destruct a as [x0 y0 z0], b as [x1 y1 z1], c as [x2 y2 z2], d as [x3 y3 z3]. unfold midPt, rmid in E. cbn in E. injection E as E1 E2 E3.
          assert (x3 = x2) by lra. assert (y3 = y2) by lra. assert (z3 = z2) by lra. subst. cbn. ring. }
        assert (N3 : midPt rmid a d <> midPt rmid a b).
        { intros E. apply V. destruct a as [x0 y0 z0], b as [x1 y1 z1], c as [x2 y2 z2], d as [x3 y3 z3]. unfold midPt, rmid in E. cbn in E. injection E as E1 E2 E3.
          assert (x3 = x1) by lra. assert (y3 = y1) by lra. assert (z3 = z1) by lra. subst. cbn. ring. }
        assert (T : forall p, pt_eqb p p = true) by (intros; now apply pt_eqb_ok). assert (F : forall p q, p <> q -> pt_eqb p q = false) by (intros p q H; destruct (pt_eqb p q) eqn:E; auto; now apply pt_eqb_ok in E).
        unfold pick. rewrite (F _ _ N1), (F _ _ N2), (F _ _ N3), !T. cbv zeta. destruct (Rlt_dec 1 3); [|lra]. cbn [snd fst]. destruct (Rlt_dec 0 1); [|lra]. cbn [snd fst]. destruct (Rlt_dec 2 0); [lra|]. reflexivity.
      - exists (fun _ _ => true), (fun _ _ => 0), 0. reflexivity. }
    destruct K as (ltb & dist & dmax & K). exists ltb, dist, dmax. rewrite refineTet_eq, K. f_equal.
    destruct t as [[x0 y0 z0] [x1 y1 z1] [x2 y2 z2] [x3 y3 z3]]. unfold kids.
    destruct k as [|[|[|k]]]; [..|lia]; cbn [corners octa inner app map cornersL octaL tetL];
      repeat (apply f_equal2; [apply q4_eq; apply q3_eq; cbn; unfold rmid, h; field|]); reflexivity.
  Qed.
  Lemma kids_length k t : length (kids k t) = 8%nat.
  Proof. unfold kids. rewrite map_length. destruct k as [|[|k]]; reflexivity. Qed.
  Lemma kids_volume k t u : (k < 3)%nat -> vol6 t <> 0 -> In u (kids k t) -> Rabs (vol6 u) = Rabs (vol6 t) / 8.
  Proof. intros Hk V I. destruct (any_pick k t Hk V) as (ltb & dist & dmax & E). exact (refine_volumes _ _ _ _ _ _ E I). Qed.
  Lemma kids_cover k t x : (k < 3)%nat -> vol6 t <> 0 -> (inside t x <-> exists u, In u (kids k t) /\ inside u x).
  Proof.
    intros Hk V. destruct (any_pick k t Hk V) as (ltb & dist & dmax & E). split.
    - now apply (refine_covers ltb dist dmax).
    - intros (u & Hu & H). eapply refine_within; eauto.
  Qed.
  Lemma kids_apart k t i j u v x : (k < 3)%nat -> vol6 t <> 0 -> nth_error (kids k t) i = Some u -> nth_error (kids k t) j = Some v -> strictly_inside u x -> strictly_inside v x -> i = j.
  Proof. intros Hk V Hi Hj Iu Iv. destruct (any_pick k t Hk V) as (ltb & dist & dmax & E). eapply refine_disjoint; eauto. Qed.
  Lemma kids_strict k t u x : In u (kids k t) -> strictly_inside u x -> strictly_inside t x.
  Proof.
    intros I (a & b & c & d & P & ->). unfold kids in I. apply in_map_iff in I. destruct I as (q & <- & I). rewrite inside_child.
    unfold cornersL, octaL in I. destruct k as [|[|k]]; cbn [app In] in I;
    (repeat (destruct I as [<-|I]; [unfold pt, lcomb, L0, L1, L2, L3, L01, L02, L03, L12, L13, L23, h; eexists _, _, _, _; (split; [|reflexivity]); lra|]); destruct I).
  Qed.
  (** Decoded children. *)
  Context (dec : N -> R) (mid : N -> N -> N) (ltb : N -> N -> bool) (dist : q3 N -> q3 N -> N) (dmax : N).
  Definition decP (p : q3 N) : q3 R := Q3 (dec (t0 p)) (dec (t1 p)) (dec (t2 p)).
  Definition decT (t : q4 (q3 N)) : q4 (q3 R) := Q4 (decP (r0 t)) (decP (r1 t)) (decP (r2 t)) (decP (r3 t)).
  Lemma dec_children t ts : (forall p q, In p (q4l t) -> In q (q4l t) -> decP (midPt mid p q) = midPt rmid (decP p) (decP q)) ->
    refineTet mid ltb dist dmax t = Some ts -> exists k, (k < 3)%nat /\ map decT ts = kids k (decT t).
  Proof.
    intros M E. destruct (refine_lab mid ltb dist dmax t) as (k & Hk & E'). rewrite E in E'. apply Some_inj in E'. subst ts. exists k. split; auto. rewrite map_map. clear E.
    destruct t as [a b c d]. cbn [q4l In] in M.
    pose proof (M a b ltac:(auto) ltac:(auto)) as Mab. pose proof (M a c ltac:(auto) ltac:(auto)) as Mac. pose proof (M a d ltac:(auto) ltac:(auto)) as Mad.
    pose proof (M b c ltac:(auto) ltac:(auto)) as Mbc. pose proof (M b d ltac:(auto) ltac:(auto)) as Mbd. pose proof (M c d ltac:(auto) ltac:(auto)) as Mcd. clear M.
    unfold decT at 2, kids. destruct k as [|[|[|k]]]; [..|lia]; cbn [map app cornersN octaN]; unfold decT, q4map, lab; cbn [r0 r1 r2 r3 nth]; rewrite Mab, Mac, Mad, Mbc, Mbd, Mcd; clear;
      generalize (decP a) as A, (decP b) as B, (decP c) as C, (decP d) as D; clear; intros [x0 y0 z0] [x1 y1 z1] [x2 y2 z2] [x3 y3 z3];
      cbn [map app cornersL octaL tetL];
      repeat (apply f_equal2; [apply q4_eq; apply q3_eq; cbn; unfold rmid, h; field|]); reflexivity.
  Qed.
End Kids.

(** ** Order of refined points *)
Section Order.
  Local Open Scope R_scope.
  Context (dec : N -> R) (lt gt : N -> N -> bool) (P : q3 N -> Prop).
  Hypothesis F : forall p q k, P p -> P q -> In k [t0; t1; t2] -> (lt (k p) (k q) = true <-> dec (k p) < dec (k q)) /\ (gt (k p) (k q) = true <-> dec (k p) > dec (k q)).
  Definition lexlt (p q : q3 R) : Prop := t0 p < t0 q \/ (t0 p = t0 q /\ (t1 p < t1 q \/ (t1 p = t1 q /\ t2 p < t2 q))).
  Lemma nodeLess_lex p q : P p -> P q -> (nodeLess lt gt p q = true <-> lexlt (decP dec p) (decP dec q)).
  Proof.
    intros Pp Pq. destruct (F p q t0 Pp Pq ltac:(cbn; auto)) as (A0 & B0). destruct (F p q t1 Pp Pq ltac:(cbn; auto)) as (A1 & B1). destruct (F p q t2 Pp Pq ltac:(cbn; auto)) as (A2 & B2).
    unfold nodeLess, lexlt, decP. cbn [t0 t1 t2].
    assert (D : forall b (X : Prop), (b = true <-> X) -> (b = true /\ X) \/ (b = false /\ ~ X)) by (intros [] X H; [left; tauto|right; split; auto; intros Y; apply H in Y; discriminate]).
    destruct (D _ _ A0) as [(-> & Q0)|(-> & Q0)]; [split; auto|]. destruct (D _ _ B0) as [(-> & R0)|(-> & R0)]; [split; [discriminate|lra]|].
    destruct (D _ _ A1) as [(-> & Q1)|(-> & Q1)]; [split; auto; intros _; right; split; [lra|auto]|]. destruct (D _ _ B1) as [(-> & R1)|(-> & R1)]; [split; [discriminate|lra]|].
    destruct (D _ _ A2) as [(-> & Q2)|(-> & Q2)]; [split; auto; intros _; right; split; [lra|]; right; split; [lra|auto]|]. destruct (D _ _ B2) as [(-> & R2)|(-> & R2)]; (split; [discriminate|lra]).
  Qed.
  Lemma nodeLess_false p q : P p -> P q -> (nodeLess lt gt p q = false <-> ~ lexlt (decP dec p) (decP dec q)).
  Proof. intros Pp Pq. rewrite <- (nodeLess_lex p q Pp Pq). destruct (nodeLess lt gt p q); split; congruence. Qed.
  Lemma nodeLess_eq p q : P p -> P q -> (incomparable (nodeLess lt gt) p q <-> decP dec p = decP dec q).
  Proof.
    intros Pp Pq. unfold incomparable. rewrite (nodeLess_false p q Pp Pq), (nodeLess_false q p Pq Pp). unfold lexlt. split.
    - intros (A & B). assert (t0 (decP dec p) = t0 (decP dec q)) by lra. assert (t1 (decP dec p) = t1 (decP dec q)) by lra. assert (t2 (decP dec p) = t2 (decP dec q)) by lra. now apply q3_eq.
    - intros ->. lra.
  Qed.
  Lemma nodeLess_weak : strict_weak (nodeLess lt gt) P.
  Proof.
    split; [|split].
    - intros a Pa. apply nodeLess_false; auto. unfold lexlt. lra.
    - intros a b c Pa Pb Pc A B. apply nodeLess_lex in A, B; auto. apply nodeLess_lex; auto. unfold lexlt in *. lra.
    - intros a b c Pa Pb Pc A B C D. assert (E : decP dec a = decP dec b) by (apply nodeLess_eq; [auto|auto|split; auto]). assert (E' : decP dec b = decP dec c) by (apply nodeLess_eq; [auto|auto|split; auto]).
      apply (proj2 (nodeLess_eq a c Pa Pc)). congruence.
  Qed.
End Order.
