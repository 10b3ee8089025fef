(** Energy estimates for the DG sweep; lemmas for PropertiesEnergy. *)
From Coq Require Import Reals Lra Permutation.
From Verif Require TychoProofs.
From Verif Require Import Prelude Bytes MeshModel GeometryModel GaussModel TransportModel TransportSpec TransportProofs.
From Verif Require Import AngleModel TraverseModel TraverseSpec TraverseRun PropertiesTraverse SweepModel SweepSpec SweepProofs PropertiesSweep FluxModel FluxSpec FluxProofs PropertiesFlux SourceModel SourceSpec SourceProofs EnergySpec.
Local Open Scope R_scope.

#[local] Instance rle_transitive : RelationClasses.Transitive Rle := Rle_trans.

(** * Sums *)
Lemma lsum_cons {X} (x : X) l f : lsum (x :: l) f = f x + lsum l f. Proof. reflexivity. Qed.
Lemma lsum_app {X} (l m : list X) f : lsum (l ++ m) f = lsum l f + lsum m f.
Proof. induction l as [|x l IH]; cbn [app]; [unfold lsum at 2; cbn; lra|]. rewrite !lsum_cons, IH. lra. Qed.
Lemma lsum_le {X} (l : list X) f h : (forall x, In x l -> f x <= h x) -> lsum l f <= lsum l h.
Proof. induction l as [|x l IH]; intros H; [unfold lsum; cbn; lra|]. rewrite !lsum_cons. specialize (H x (or_introl eq_refl)) as Hx. specialize (IH (fun y Hy => H y (or_intror Hy))). lra. Qed.
Lemma lsum_nonneg {X} (l : list X) f : (forall x, In x l -> 0 <= f x) -> 0 <= lsum l f.
Proof. induction l as [|x l IH]; intros H; [unfold lsum; cbn; lra|]. rewrite lsum_cons. specialize (H x (or_introl eq_refl)) as Hx. specialize (IH (fun y Hy => H y (or_intror Hy))). lra. Qed.
Lemma lsum_scal {X} (l : list X) f k : lsum l (fun x => k * f x) = k * lsum l f.
Proof. induction l as [|x l IH]; [unfold lsum; cbn; lra|]. rewrite !lsum_cons, IH. lra. Qed.
Lemma lsum_plus {X} (l : list X) f h : lsum l (fun x => f x + h x) = lsum l f + lsum l h.
Proof. induction l as [|x l IH]; [unfold lsum; cbn; lra|]. rewrite !lsum_cons, IH. lra. Qed.
Lemma lsum_swap {X Y} (l : list X) (m : list Y) f : lsum l (fun x => lsum m (fun y => f x y)) = lsum m (fun y => lsum l (fun x => f x y)).
Proof.
  induction l as [|x l IH]; [rewrite (lsum_ext m _ (fun _ => 0 * 0)) by (intros; unfold lsum; cbn; lra); rewrite lsum_scal; unfold lsum; cbn; lra|].
  rewrite lsum_cons, IH, <- lsum_plus. apply lsum_ext. intros. now rewrite lsum_cons.
Qed.
Lemma lsum_perm {X} (l m : list X) f : Permutation l m -> lsum l f = lsum m f.
Proof. induction 1; rewrite ?lsum_cons; lra. Qed.
Lemma lsum_map {X Y} (l : list X) (h : X -> Y) f : lsum (map h l) f = lsum l (fun x => f (h x)).
Proof. induction l as [|x l IH]; [reflexivity|]. cbn [map]. now rewrite !lsum_cons, IH. Qed.
Lemma lsum_flat {X Y} (l : list X) (h : X -> list Y) f : lsum (flat_map h l) f = lsum l (fun x => lsum (h x) f).
Proof. induction l as [|x l IH]; [reflexivity|]. cbn [flat_map]. now rewrite lsum_app, lsum_cons, IH. Qed.
Lemma lsum_incl {X} (l m : list X) f : NoDup l -> incl l m -> (forall x, In x m -> 0 <= f x) -> lsum l f <= lsum m f.
Proof.
  revert m. induction l as [|x l IH]; intros m ND IN P; [unfold lsum at 1; cbn; now apply lsum_nonneg|]. inversion ND as [|? ? NI ND']; subst.
  destruct (in_split x m (IN x (or_introl eq_refl))) as (m1 & m2 & ->). rewrite lsum_cons, lsum_app, lsum_cons.
  assert (K : lsum l f <= lsum (m1 ++ m2) f).
  { apply IH; auto.
    - intros y Hy. specialize (IN y (or_intror Hy)). apply in_app_or in IN. apply in_or_app. destruct IN as [|[->|]]; auto. now destruct NI.
    - intros y Hy. apply P. apply in_app_or in Hy. apply in_or_app. destruct Hy; [now left|right; now right]. }
  rewrite lsum_app in K. lra.
Qed.
Lemma jensen {X} (l : list X) w x : (forall a, In a l -> 0 <= w a) -> (lsum l (fun a => w a * x a)) * (lsum l (fun a => w a * x a)) <= lsum l w * lsum l (fun a => w a * (x a * x a)).
Proof.
  induction l as [|a l IH]; intros P; [unfold lsum; cbn; lra|]. rewrite !lsum_cons. specialize (IH (fun y Hy => P y (or_intror Hy))).
  assert (W0 : 0 <= lsum l w) by (apply lsum_nonneg; intros y Hy; apply P; now right).
  assert (T0 : 0 <= lsum l (fun a => w a * (x a * x a))). { apply lsum_nonneg. intros y Hy. apply Rmult_le_pos; [apply P; now right|apply sq_pos]. }
  pose proof (P a (or_introl eq_refl)) as Wa. set (S := lsum l (fun a => w a * x a)) in *. set (W := lsum l w) in *. set (T := lsum l (fun a => w a * (x a * x a))) in *.
  assert (K : 0 <= W * (x a * x a) - 2 * S * x a + T).
  { destruct (Req_dec W 0) as [E|E].
    - rewrite E, Rmult_0_l in IH. assert (S = 0) as -> by (destruct (Req_dec S 0) as [|N]; auto; assert (0 < S * S) by (apply Rsqr_pos_lt in N; exact N); lra). rewrite E. lra.
    - assert (0 < W) by lra. apply Rmult_le_reg_l with W; auto. rewrite Rmult_0_r. pose proof (sq_pos (W * x a - S)) as Q.
      replace (W * (W * (x a * x a) - 2 * S * x a + T)) with ((W * x a - S) * (W * x a - S) + (W * T - S * S)) by ring. lra. }
  assert (KW : 0 <= w a * (W * (x a * x a) - 2 * S * x a + T)) by now apply Rmult_le_pos.
  replace ((w a * x a + S) * (w a * x a + S)) with (w a * w a * (x a * x a) + 2 * (w a * S * x a) + S * S) by ring.
  replace ((w a + W) * (w a * (x a * x a) + T)) with (w a * w a * (x a * x a) + w a * (W * (x a * x a) + T) + W * T) by ring. lra.
Qed.

(** * One cell *)
Definition faceForm (f : nat) (x y : nat -> R) : R := / 12 * (sumFace f (fun i => x i * y i) + sumFace f x * sumFace f y).
Lemma face_nonneg f x : 0 <= faceForm f x x.
Proof.
  unfold faceForm. apply Rmult_le_pos; [lra|]. apply Rplus_le_le_0_compat; [|apply sq_pos]. unfold sumFace, sum4.
  destruct (Nat.eqb 0 f), (Nat.eqb 1 f), (Nat.eqb 2 f), (Nat.eqb 3 f); pose proof (sq_pos (x 0%nat)); pose proof (sq_pos (x 1%nat)); pose proof (sq_pos (x 2%nat)); pose proof (sq_pos (x 3%nat)); lra.
Qed.
Lemma face_polar f x y : faceForm f (fun i => x i - y i) (fun i => x i - y i) = faceForm f x x - 2 * faceForm f x y + faceForm f y y.
Proof. unfold faceForm, sumFace, sum4. destruct (Nat.eqb 0 f), (Nat.eqb 1 f), (Nat.eqb 2 f), (Nat.eqb 3 f); field. Qed.
Lemma mass_nonneg V x : 0 < V -> 0 <= massForm V x x.
Proof.
  intros HV. unfold massForm. apply Rmult_le_pos; [lra|]. unfold sum4. pose proof (sq_pos (x 0%nat)); pose proof (sq_pos (x 1%nat)); pose proof (sq_pos (x 2%nat)); pose proof (sq_pos (x 3%nat)).
  pose proof (sq_pos (x 0%nat + x 1%nat + x 2%nat + x 3%nat)). lra.
Qed.
Lemma mass_polar V x y k : massForm V (fun i => k * x i - y i) (fun i => k * x i - y i) = k * k * massForm V x x - 2 * k * massForm V x y + massForm V y y.
Proof. unfold massForm, sum4. field. Qed.

Lemma face_term area f e nb : area f * faceForm f e (TransportSpec.upwind area e nb f) - / 2 * area f * faceForm f e e >= / 2 * (pp (area f) * faceForm f e e + nn (area f) * faceForm f (nb f) (nb f)).
Proof.
  unfold pp, nn. destruct (Rgt_dec (area f) 0) as [P|P].
  - assert (E : faceForm f e (TransportSpec.upwind area e nb f) = faceForm f e e). { unfold faceForm, sumFace, sum4, TransportSpec.upwind. destruct (Rgt_dec (area f) 0); [reflexivity|lra]. }
    rewrite E. destruct (Rgt_dec 0 (area f)); lra.
  - assert (E : faceForm f e (TransportSpec.upwind area e nb f) = faceForm f e (nb f)). { unfold faceForm, sumFace, sum4, TransportSpec.upwind. destruct (Rgt_dec (area f) 0); [lra|reflexivity]. }
    rewrite E. pose proof (face_nonneg f (fun i => e i - nb f i)) as N. rewrite face_polar in N.
    assert (N' : 0 <= - area f * (faceForm f e e - 2 * faceForm f e (nb f) + faceForm f (nb f) (nb f))) by (apply Rmult_le_pos; lra).
    destruct (Rgt_dec 0 (area f)); [lra|]. assert (area f = 0) as -> by lra. lra.
Qed.
Lemma energy_identity V area sg Q nb e : sum4 area = 0 -> dg V area sg Q nb e ->
  sg * massForm V e e + sum4 (fun f => area f * faceForm f e (TransportSpec.upwind area e nb f) - / 2 * area f * faceForm f e e) = massForm V Q e.
Proof.
  intros Z D. pose proof (D 0%nat ltac:(lia)) as D0. pose proof (D 1%nat ltac:(lia)) as D1. pose proof (D 2%nat ltac:(lia)) as D2. pose proof (D 3%nat ltac:(lia)) as D3. clear D.
  assert (EN : e 0%nat * (V / 20 * (Q 0%nat + sum4 Q)) + e 1%nat * (V / 20 * (Q 1%nat + sum4 Q)) + e 2%nat * (V / 20 * (Q 2%nat + sum4 Q)) + e 3%nat * (V / 20 * (Q 3%nat + sum4 Q)) = massForm V Q e) by (unfold massForm, sum4; field).
  unfold dg_row in *. rewrite <- D0, <- D1, <- D2, <- D3 in EN. rewrite <- EN. clear D0 D1 D2 D3 EN.
  set (u := TransportSpec.upwind area e nb). unfold massForm, faceForm, sumFace, sum4 in *. cbn [Nat.eqb].
  assert (A3 : area 3%nat = - area 0%nat - area 1%nat - area 2%nat) by lra. rewrite A3. field.
Qed.
Lemma energy_cell V area sg Q nb e : sum4 area = 0 -> dg V area sg Q nb e ->
  sg * massForm V e e + / 2 * sum4 (fun f => pp (area f) * faceForm f e e) <= massForm V Q e + / 2 * sum4 (fun f => - nn (area f) * faceForm f (nb f) (nb f)).
Proof.
  intros Z D. pose proof (energy_identity V area sg Q nb e Z D) as E. unfold sum4 in *.
  pose proof (face_term area 0 e nb); pose proof (face_term area 1 e nb); pose proof (face_term area 2 e nb); pose proof (face_term area 3 e nb). lra.
Qed.

(** * All cells *)
Lemma match_list {A B} (P : A -> B -> Prop) (l : list A) : (forall x, In x l -> exists y, P x y) -> exists m, Forall2 P l m.
Proof.
  induction l as [|x l IH]; intros H; [exists []; constructor|]. destruct (H x (or_introl eq_refl)) as (y & Hy). destruct (IH (fun z Hz => H z (or_intror Hz))) as (m & Hm). exists (y :: m). now constructor.
Qed.
Lemma forall2_lsum {A B} (P : A -> B -> Prop) l m f h : Forall2 P l m -> (forall x y, P x y -> f x = h y) -> lsum l f = lsum m h.
Proof. intros F E. induction F as [|x y l m HP F IH]; [reflexivity|]. rewrite !lsum_cons, IH, (E x y HP). reflexivity. Qed.
Lemma forall2_in {A B} (P : A -> B -> Prop) l m y : Forall2 P l m -> In y m -> exists x, In x l /\ P x y.
Proof. induction 1 as [|x y' l m HP F IH]; intros I; [destruct I|]. destruct I as [->|I]; [exists x; split; [now left|auto]|]. destruct (IH I) as (z & ? & ?). exists z. split; [now right|auto]. Qed.
Lemma forall2_nodup {A B} (P : A -> B -> Prop) l m : Forall2 P l m -> NoDup l -> (forall x x' y, In x l -> In x' l -> P x y -> P x' y -> x = x') -> NoDup m.
Proof.
  induction 1 as [|x y l m HP F IH]; intros ND INJ; constructor; inversion ND as [|? ? NI ND']; subst.
  - intros I. destruct (forall2_in _ _ _ _ F I) as (z & Hz & PZ). apply NI. rewrite (INJ x z y); auto; [now left|now right].
  - apply IH; auto. intros u u' w Hu Hu'. apply INJ; now right.
Qed.
Lemma forall2_length {A B} (P : A -> B -> Prop) l m : Forall2 P l m -> length l = length m. Proof. induction 1; cbn; congruence. Qed.
Definition faceVs (f : nat) : list nat := filter (fun j => negb (Nat.eqb j f)) (seq 0 4).
Lemma faceVs_In f j : In j (faceVs f) <-> (j < 4)%nat /\ j <> f.
Proof. unfold faceVs. rewrite filter_In, in_seq, Bool.negb_true_iff, Nat.eqb_neq. split; intros []; split; auto; lia. Qed.
Lemma faceVs_nodup f : NoDup (faceVs f). Proof. apply NoDup_filter, seq_NoDup. Qed.
Lemma faceVs_length f : (f < 4)%nat -> length (faceVs f) = 3%nat.
Proof. intros H. destruct f as [|[|[|[|f]]]]; [reflexivity..|lia]. Qed.
Lemma sumFace_list f h : sumFace f h = lsum (faceVs f) h.
Proof. unfold sumFace, sum4, faceVs. cbn [seq filter]. destruct (Nat.eqb 0 f), (Nat.eqb 1 f), (Nat.eqb 2 f), (Nat.eqb 3 f); cbn; ring. Qed.
Lemma sum4_list h : sum4 h = lsum (seq 0 4) h. Proof. unfold sum4, lsum. cbn. ring. Qed.
(** A face form seen from the other side. *)
Lemma face_move f f' x y (P : nat -> nat -> Prop) : (f < 4)%nat -> (f' < 4)%nat -> (forall j, In j (faceVs f) -> exists k, In k (faceVs f') /\ P j k /\ x j = y k) ->
  (forall j j' k, In j (faceVs f) -> In j' (faceVs f) -> P j k -> P j' k -> j = j') -> faceForm f x x = faceForm f' y y.
Proof.
  intros Hf Hf' H INJ. destruct (match_list _ _ H) as (m & F2).
  assert (ND : NoDup m). { eapply forall2_nodup; [exact F2|apply faceVs_nodup|]. cbv beta. intros j j' k Hj Hj' (_ & P1 & _) (_ & P2 & _). eapply INJ; eauto. }
  assert (IN : incl m (faceVs f')). { intros k Hk. destruct (forall2_in _ _ _ _ F2 Hk) as (j & _ & I & _). exact I. }
  assert (PM : Permutation m (faceVs f')). { apply NoDup_Permutation_bis; auto. rewrite <- (forall2_length _ _ _ F2), !faceVs_length; auto. }
  unfold faceForm. rewrite !sumFace_list.
  assert (S : forall h : R -> R, lsum (faceVs f) (fun j => h (x j)) = lsum (faceVs f') (fun k => h (y k))).
  { intros h. rewrite <- (lsum_perm _ _ _ PM). eapply forall2_lsum; [exact F2|]. cbv beta. intros j k (_ & _ & ->). reflexivity. }
  pose proof (S (fun z => z * z)) as S1. pose proof (S (fun z => z)) as S2. cbv beta in S1, S2. change (lsum (faceVs f) x = lsum (faceVs f') y) in S2. rewrite S1, S2. reflexivity.
Qed.

Section Energy.
  Context {X : Type}.
  Variables (node : nat -> nat -> nat -> X) (R0 : run (value R) (block R)) (nG : nat) (geo : nat -> rgeo R) (sigmaT : nat -> nat -> R).
  Hypothesis OK : transport_ok node R0 geo sigmaT.
  Hypothesis FM : faces_match R0 geo.
  Notation teq := (transport_eq node R0 nG geo sigmaT).
  Notation nC := (fun r => rm_nCells (u_mesh R0 r)).
  Notation vol := (fun r c => rg_volume (geo r) c).
  Lemma cells_In r c : In (r, c) (cells R0) <-> (r < u_ranks R0)%nat /\ (c < nC r)%nat.
  Proof.
    unfold cells. rewrite in_flat_map. split.
    - intros (r' & Hr & Hc). apply in_map_iff in Hc as (c' & E & Hc). apply pair_equal_spec in E as (-> & ->). apply in_seq in Hr, Hc. lia.
    - intros (Hr & Hc). exists r. split; [apply in_seq; lia|]. apply in_map. apply in_seq. lia.
  Qed.
  Definition sites : list (nat * nat * nat) := list_prod (cells R0) (seq 0 4).
  Lemma sites_In r c f : In (r, c, f) sites <-> (r < u_ranks R0)%nat /\ (c < nC r)%nat /\ (f < 4)%nat.
  Proof. unfold sites. rewrite in_prod_iff, cells_In, in_seq. split; intros H; [destruct H as ((? & ?) & ?)|destruct H as (? & ? & ?)]; repeat split; auto; lia. Qed.
  Lemma lsum_prod {A B} (l : list A) (m : list B) f : lsum (list_prod l m) f = lsum l (fun x => lsum m (fun y => f (x, y))).
  Proof. induction l as [|x l IH]; [reflexivity|]. cbn [list_prod]. now rewrite lsum_app, lsum_map, lsum_cons, IH. Qed.
  Definition mates : list (nat * nat * nat) := flat_map (fun x => match u_mate R0 x with Some y => [y] | None => [] end) sites.
  Lemma sites_nodup : NoDup sites.
  Proof.
    apply TychoProofs.NoDup_list_prod; [|apply seq_NoDup]. unfold cells. assert (H : forall l, NoDup l -> NoDup (flat_map (fun r => map (fun c => (r, c)) (seq 0 (nC r))) l)).
    { induction l as [|r l IH]; intros ND; [constructor|]. inversion ND as [|? ? NI ND']; subst. cbn [flat_map]. apply TychoProofs.NoDup_app_intro'; auto.
      - apply FinFun.Injective_map_NoDup; [intros ? ? E; now inversion E|apply seq_NoDup].
      - intros (r1, c1) I1 I2. apply in_map_iff in I1 as (? & E & _). inversion E; subst. apply in_flat_map in I2 as (r2 & H2 & I2). apply in_map_iff in I2 as (? & E2 & _). inversion E2; subst. contradiction. }
    apply H, seq_NoDup.
  Qed.
  Lemma mates_incl : incl mates sites.
  Proof.
    pose proof (to_sys _ _ _ _ OK) as G1. intros [[q c'] f'] I. apply in_flat_map in I as (x & _ & I). destruct (u_mate R0 x) as [y|] eqn:E; [|destruct I]. destruct I as [->|[]].
    pose proof (so_sym _ _ _ _ G1 _ _ E) as E'. destruct x as [[r c] f]. apply sites_In. destruct (so_range _ _ _ _ G1 _ _ _ _ E') as (? & ? & ?). auto.
  Qed.
  Lemma mates_nodup : NoDup mates.
  Proof.
    pose proof (to_sys _ _ _ _ OK) as G1. unfold mates. generalize sites sites_nodup. induction l as [|x l IH]; intros ND; [constructor|]. inversion ND as [|? ? NI ND']; subst. cbn [flat_map].
    apply TychoProofs.NoDup_app_intro'; auto; [destruct (u_mate R0 x); repeat constructor; auto|]. intros y I1 I2. destruct (u_mate R0 x) as [y'|] eqn:E; [|destruct I1]. destruct I1 as [->|[]].
    apply in_flat_map in I2 as (x' & Hx' & I2). destruct (u_mate R0 x') as [y'|] eqn:E'; [|destruct I2]. destruct I2 as [->|[]].
    apply (so_sym _ _ _ _ G1) in E, E'. rewrite E in E'. apply Some_inj in E'. now subst.
  Qed.

  (** The energy estimate of one angle and group: no surface term is left. *)
  Lemma energy Q e a G : teq Q e -> (a < u_angles R0)%nat -> (G < nG)%nat ->
    lsum (cells R0) (fun rc => let '(r, c) := rc in sigmaT r c * massForm (vol r c) (fun v => e r c a v G) (fun v => e r c a v G)) <=
    lsum (cells R0) (fun rc => let '(r, c) := rc in massForm (vol r c) (fun v => Q r c a v G) (fun v => e r c a v G)).
  Proof.
    intros D Ha HG. pose proof (to_geo _ _ _ _ OK) as GF. pose proof (to_sys _ _ _ _ OK) as G1.
    set (out := fun x : nat * nat * nat => let '(r, c, f) := x in pp (sarea geo r a c f) * faceForm f (fun v => e r c a v G) (fun v => e r c a v G)).
    assert (out_pos : forall x, 0 <= out x). { intros [[r c] f]. apply Rmult_le_pos; [|apply face_nonneg]. unfold pp. destruct (Rgt_dec _ _); lra. }
    set (inn := fun x => match u_mate R0 x with Some y => out y | None => 0 end).
    assert (IO : lsum sites inn <= lsum sites out).
    { transitivity (lsum mates out); [right|apply lsum_incl; [apply mates_nodup|apply mates_incl|auto]]. unfold mates. rewrite lsum_flat. apply lsum_ext. intros x _. unfold inn. destruct (u_mate R0 x); unfold lsum; cbn; lra. }
    assert (CELL : forall r c, (r < u_ranks R0)%nat -> (c < nC r)%nat ->
      sigmaT r c * massForm (vol r c) (fun v => e r c a v G) (fun v => e r c a v G) + / 2 * lsum (seq 0 4) (fun f => out (r, c, f)) <= massForm (vol r c) (fun v => Q r c a v G) (fun v => e r c a v G) + / 2 * lsum (seq 0 4) (fun f => inn (r, c, f))).
    { intros r c Hr Hc. destruct (D r c a G) as (nb & N & E); [split; auto|auto|].
      assert (Z : sum4 (sarea geo r a c) = 0) by exact (gf_closed _ _ _ _ _ _ _ _ _ _ _ _ GF r a c Hr Ha Hc).
      eapply Rle_trans; [|eapply Rle_trans; [exact (energy_cell _ _ _ _ _ _ Z E)|]]; [rewrite <- sum4_list; right; reflexivity|].
      apply Rplus_le_compat_l, Rmult_le_compat_l; [lra|]. rewrite sum4_list. apply lsum_le. intros f Hf. apply in_seq in Hf. assert (Hf4 : (f < 4)%nat) by lia. clear Hf.
      unfold nn. destruct (Rgt_dec 0 (sarea geo r a c f)) as [NEG|]; [|unfold inn; destruct (u_mate R0 (r, c, f)) as [y|]; [pose proof (out_pos y); lra|lra]].
      assert (AC : forall j, In j (faceVs f) -> across node (u_mate R0) (fun r c a G v => e r c a v G) r c a G f j (nb f j)). { intros j Hj. apply faceVs_In in Hj as (Hj & NE). apply N; auto. lra. }
      unfold across in AC. unfold inn. destruct (u_mate R0 (r, c, f)) as [[[q c'] f']|] eqn:Hm.
      - pose proof (so_sym _ _ _ _ G1 _ _ Hm) as Hb. destruct (so_range _ _ _ _ G1 _ _ _ _ Hb) as (Hq & Hc' & Hf').
        rewrite (face_move f f' (nb f) (fun v => e q c' a v G) (fun j k => node q c' k = node r c j)); auto.
        + unfold out, pp. rewrite (FM r c f q c' f' a Hm Ha) in *. destruct (Rgt_dec (sarea geo q a c' f') 0); [right; ring|lra].
        + intros j Hj. destruct (AC j Hj) as (k & K1 & K2 & K3 & K4). exists k. split; [now apply faceVs_In|auto].
        + cbv beta. intros j j' k Hj Hj' K1 K2. apply faceVs_In in Hj, Hj'. apply (to_nodes _ _ _ _ OK r c); [auto|auto|apply Hj|apply Hj'|congruence].
      - assert (Z0 : faceForm f (nb f) (nb f) = 0). { unfold faceForm. rewrite !sumFace_list. rewrite (lsum_ext _ _ (fun _ => 0 * 0)) by (intros j Hj; rewrite (AC j Hj); ring). rewrite (lsum_ext _ (nb f) (fun _ => 0 * 0)) by (intros j Hj; rewrite (AC j Hj); ring). rewrite lsum_scal. ring. }
        rewrite Z0. lra. }
    unfold sites in IO. rewrite !lsum_prod in IO.
    pose proof (lsum_le (cells R0) (fun rc => (let '(r, c) := rc in sigmaT r c * massForm (vol r c) (fun v => e r c a v G) (fun v => e r c a v G)) + / 2 * lsum (seq 0 4) (fun f => out (rc, f)))
      (fun rc => (let '(r, c) := rc in massForm (vol r c) (fun v => Q r c a v G) (fun v => e r c a v G)) + / 2 * lsum (seq 0 4) (fun f => inn (rc, f)))) as L.
    rewrite !lsum_plus, !lsum_scal in L. enough (K : forall x, In x (cells R0) -> _) by (specialize (L K); lra). intros [r c] I. apply cells_In in I as (Hr & Hc). now apply CELL.
  Qed.

  Variables (pi : R) (wt : nat -> R).
  Hypothesis W : weights_ok R0 pi wt.
  Notation wsum := (overAngles (u_angles R0) wt (fun _ => 1)).
  Lemma wsum_list : lsum (seq 0 (u_angles R0)) wt = wsum.
  Proof. unfold overAngles. apply lsum_ext. intros; ring. Qed.
  Lemma wt_pos a : In a (seq 0 (u_angles R0)) -> 0 <= wt a.
  Proof. destruct W as (_ & WP & _). intros Ha; apply in_seq in Ha; apply WP; lia. Qed.
  Lemma flux_psi e G : fluxNorm R0 geo sigmaT (scalarFlux R0 wt e) G <= wsum * psiNorm R0 geo sigmaT wt e G.
  Proof.
    pose proof wsum_list as WS'. pose proof wt_pos as WP'. unfold psiNorm.
    set (mm := fun (r c a : nat) => massForm (vol r c) (fun v => e r c a v G) (fun v => e r c a v G)).
    change (fluxNorm R0 geo sigmaT (scalarFlux R0 wt e) G <= wsum * lsum (cells R0) (fun rc => let '(r, c) := rc in sigmaT r c * lsum (seq 0 (u_angles R0)) (fun a => wt a * mm r c a))).
    unfold fluxNorm. rewrite <- lsum_scal. apply lsum_le. intros [r c] I. apply cells_In in I as (Hr & Hc). pose proof (to_sigma _ _ _ _ OK r c Hr Hc) as SP. pose proof (gf_volume _ _ _ _ _ _ _ _ _ _ _ _ (to_geo _ _ _ _ OK) r c Hr Hc) as VP.
      replace (wsum * (sigmaT r c * lsum (seq 0 (u_angles R0)) (fun a => wt a * mm r c a))) with (sigmaT r c * (wsum * lsum (seq 0 (u_angles R0)) (fun a => wt a * mm r c a))) by ring. apply Rmult_le_compat_l; [lra|].
      rewrite <- WS'. set (L := seq 0 (u_angles R0)) in *. unfold mm, massForm. set (x := fun v a => e r c a v G).
      assert (E1 : lsum L (fun a => wt a * (vol r c / 20 * (sum4 (fun i => x i a * x i a) + sum4 (fun v => x v a) * sum4 (fun v => x v a)))) =
        vol r c / 20 * (sum4 (fun i => lsum L (fun a => wt a * (x i a * x i a))) + lsum L (fun a => wt a * (sum4 (fun v => x v a) * sum4 (fun v => x v a))))).
      { rewrite !sum4_list, lsum_swap, <- lsum_plus, <- lsum_scal. apply lsum_ext. intros a _. rewrite lsum_scal, <- !sum4_list. ring. }
      enough (H : vol r c / 20 * (sum4 (fun i => lsum L (fun a => wt a * x i a) * lsum L (fun a => wt a * x i a)) + sum4 (fun v => lsum L (fun a => wt a * x v a)) * sum4 (fun v => lsum L (fun a => wt a * x v a))) <=
        lsum L wt * lsum L (fun a => wt a * (vol r c / 20 * (sum4 (fun i => x i a * x i a) + sum4 (fun v => x v a) * sum4 (fun v => x v a))))) by exact H.
      rewrite E1. clear E1.
      assert (E2 : sum4 (fun v => lsum L (fun a => wt a * x v a)) = lsum L (fun a => wt a * sum4 (fun v => x v a))). { rewrite !sum4_list, lsum_swap. apply lsum_ext. intros a _. now rewrite lsum_scal, sum4_list. }
      rewrite E2. set (V := vol r c) in *. replace (lsum L wt * (V / 20 * (sum4 (fun i => lsum L (fun a => wt a * (x i a * x i a))) + lsum L (fun a => wt a * (sum4 (fun v => x v a) * sum4 (fun v => x v a)))))) with
        (V / 20 * (sum4 (fun i => lsum L wt * lsum L (fun a => wt a * (x i a * x i a))) + lsum L wt * lsum L (fun a => wt a * (sum4 (fun v => x v a) * sum4 (fun v => x v a))))) by (unfold sum4; ring).
      apply Rmult_le_compat_l; [lra|]. apply Rplus_le_compat; [|apply jensen; auto]. rewrite !sum4_list. apply lsum_le. intros i _. apply jensen; auto.
  Qed.
  Lemma psi_angles e G : psiNorm R0 geo sigmaT wt e G = lsum (seq 0 (u_angles R0)) (fun a => wt a * lsum (cells R0) (fun rc => let '(r, c) := rc in sigmaT r c * massForm (vol r c) (fun v => e r c a v G) (fun v => e r c a v G))).
  Proof.
    unfold psiNorm. transitivity (lsum (cells R0) (fun rc => lsum (seq 0 (u_angles R0)) (fun a => wt a * let '(r, c) := rc in sigmaT r c * massForm (vol r c) (fun v => e r c a v G) (fun v => e r c a v G)))).
    - apply lsum_ext. intros [r c] _. rewrite <- lsum_scal. apply lsum_ext. intros; ring.
    - rewrite lsum_swap. apply lsum_ext. intros a _. now rewrite lsum_scal.
  Qed.
  Lemma source_angles (s : nat -> nat -> nat -> nat -> R) e G : lsum (seq 0 (u_angles R0)) (fun a => wt a * lsum (cells R0) (fun rc => let '(r, c) := rc in massForm (vol r c) (fun v => s r c v G) (fun v => e r c a v G))) =
    lsum (cells R0) (fun rc => let '(r, c) := rc in massForm (vol r c) (fun v => s r c v G) (fun v => scalarFlux R0 wt e r c v G)).
  Proof.
    transitivity (lsum (cells R0) (fun rc => lsum (seq 0 (u_angles R0)) (fun a => wt a * let '(r, c) := rc in massForm (vol r c) (fun v => s r c v G) (fun v => e r c a v G)))).
    - rewrite lsum_swap. apply lsum_ext. intros a _. now rewrite lsum_scal.
    - apply lsum_ext. intros [r c] _. unfold massForm, scalarFlux, overAngles, sum4. rewrite (lsum_ext _ _ (fun a => (rg_volume (geo r) c / 20 * (s r c 0%nat G + (s r c 0%nat G + s r c 1%nat G + s r c 2%nat G + s r c 3%nat G))) * (wt a * e r c a 0%nat G)
        + (rg_volume (geo r) c / 20 * (s r c 1%nat G + (s r c 0%nat G + s r c 1%nat G + s r c 2%nat G + s r c 3%nat G))) * (wt a * e r c a 1%nat G) + (rg_volume (geo r) c / 20 * (s r c 2%nat G + (s r c 0%nat G + s r c 1%nat G + s r c 2%nat G + s r c 3%nat G))) * (wt a * e r c a 2%nat G)
        + (rg_volume (geo r) c / 20 * (s r c 3%nat G + (s r c 0%nat G + s r c 1%nat G + s r c 2%nat G + s r c 3%nat G))) * (wt a * e r c a 3%nat G))) by (intros; ring).
      rewrite !lsum_plus, !lsum_scal. ring.
  Qed.
  (** The flux of an isotropic source: sigma_t |psi|^2 is at most (s, phi). *)
  Lemma energy_flux s e G : teq (fun r c _ v G => s r c v G) e -> (G < nG)%nat ->
    psiNorm R0 geo sigmaT wt e G <= lsum (cells R0) (fun rc => let '(r, c) := rc in massForm (vol r c) (fun v => s r c v G) (fun v => scalarFlux R0 wt e r c v G)).
  Proof.
    intros D HG. rewrite psi_angles, <- source_angles. apply lsum_le. intros a Ia. apply Rmult_le_compat_l; [now apply wt_pos|]. apply in_seq in Ia. apply (energy _ _ a G D); [lia|auto].
  Qed.
  Variables (k : R) (sigmaS : nat -> nat -> R).
  Hypothesis SC : scatters R0 sigmaT pi wt k sigmaS.
  (** Scattering of [d] against the flux [y]. *)
  Lemma scatter_young (d y : nat -> nat -> nat -> nat -> R) G : wsum * lsum (cells R0) (fun rc => let '(r, c) := rc in massForm (vol r c) (fun v => sigmaS r c / (4 * pi) * d r c v G) (fun v => y r c v G)) <=
    / 2 * (k * k * fluxNorm R0 geo sigmaT d G) + / 2 * fluxNorm R0 geo sigmaT y G.
  Proof.
    destruct W as (PI0 & _ & W0). destruct SC as (K0 & SB).
    unfold fluxNorm. rewrite <- (lsum_scal (cells R0) _ (k * k)), <- !(lsum_scal (cells R0) _ (/ 2)), <- lsum_plus, <- lsum_scal. apply lsum_le. intros [r c] I. apply cells_In in I as (Hr & Hc).
    pose proof (to_sigma _ _ _ _ OK r c Hr Hc) as SP. pose proof (gf_volume _ _ _ _ _ _ _ _ _ _ _ _ (to_geo _ _ _ _ OK) r c Hr Hc) as VP. destruct (SB r c Hr Hc) as (S0 & S1). cbv beta.
    set (V := rg_volume (geo r) c) in *. set (x := fun v => d r c v G). set (z := fun v => y r c v G). set (w := wsum) in *. set (ss := w / (4 * pi) * sigmaS r c) in *.
    change (fun v => sigmaS r c / (4 * pi) * d r c v G) with (fun v => sigmaS r c / (4 * pi) * x v).
    replace (w * massForm V (fun v => sigmaS r c / (4 * pi) * x v) z) with (ss * massForm V x z) by (unfold ss, massForm, sum4; field; lra).
    assert (SS0 : 0 <= ss). { unfold ss. apply Rmult_le_pos; [|lra]. apply Rmult_le_pos; [lra|]. left. apply Rinv_0_lt_compat. lra. }
    pose proof (mass_nonneg V (fun i => (ss / sigmaT r c) * x i - z i) VP) as N. rewrite mass_polar in N. set (t := ss / sigmaT r c) in *.
    assert (T : ss = t * sigmaT r c) by (unfold t; field; lra). pose proof (mass_nonneg V x VP) as MX.
    assert (t0 : 0 <= t) by (unfold t; apply Rmult_le_pos; [lra|left; apply Rinv_0_lt_compat; lra]). assert (t1 : t <= k). { apply Rmult_le_reg_r with (sigmaT r c); [lra|]. rewrite <- T. lra. }
    assert (TT : t * t <= k * k) by (apply Rmult_le_compat; lra).
    assert (N2 : 0 <= sigmaT r c * (t * t * massForm V x x - 2 * t * massForm V x z + massForm V z z)) by (apply Rmult_le_pos; lra).
    assert (N3 : t * t * (sigmaT r c * massForm V x x) <= k * k * (sigmaT r c * massForm V x x)) by (apply Rmult_le_compat_r; [apply Rmult_le_pos; lra|lra]).
    rewrite T. lra.
  Qed.
  Lemma contract d e G : teq (fun r c _ v G => sigmaS r c / (4 * pi) * d r c v G) e -> (G < nG)%nat ->
    fluxNorm R0 geo sigmaT (scalarFlux R0 wt e) G <= k * k * fluxNorm R0 geo sigmaT d G.
  Proof.
    intros D HG. pose proof (energy_flux (fun r c v G => sigmaS r c / (4 * pi) * d r c v G) e G D HG) as E. destruct W as (_ & _ & W0).
    pose proof (scatter_young d (scalarFlux R0 wt e) G) as Y. pose proof (flux_psi e G) as F. apply (Rmult_le_compat_l wsum) in E; [|lra]. lra.
  Qed.
End Energy.
