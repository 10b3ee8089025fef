(** Geometry of the meshes the ranks read, in exact arithmetic. *)
From Coq Require Import Permutation Sorted Reals Lra.
From Verif Require Import Prelude Bytes MeshModel MeshSpec CreateModel CreateSpec CreateProofs PropertiesCreate TychoModel TychoSpec
  TychoProofs TychoVrtxProofs TychoMeshProofs TychoCreatedProofs PropertiesTycho RefineSpec GeometryModel GeometrySpec GeometryProofs PropertiesGeometry
  TransportModel TransportSpec ViewModel ViewSpec ViewProofs.

Lemma map_some3 {A B} (h : A -> option B) (q : q3 A) x y z : h (t0 q) = Some x -> h (t1 q) = Some y -> h (t2 q) = Some z -> map h (q3l q) = map Some (q3l (Q3 x y z)).
Proof. intros E1 E2 E3. cbn. now rewrite E1, E2, E3. Qed.
Lemma map_some4 {A B} (h : A -> option B) (q : q4 A) x y z w : h (r0 q) = Some x -> h (r1 q) = Some y -> h (r2 q) = Some z -> h (r3 q) = Some w -> map h (q4l q) = map Some (q4l (Q4 x y z w)).
Proof. intros E1 E2 E3 E4. cbn. now rewrite E1, E2, E3, E4. Qed.
Lemma map_Some_inj {B} (l l' : list B) : map Some l = map Some l' -> l = l'.
Proof. revert l'. induction l as [|x l IH]; intros [|y l']; cbn; try discriminate; auto. intros H. injection H as -> H. f_equal. auto. Qed.
Lemma q4l_inj {B} (p q : q4 B) : q4l p = q4l q -> p = q.
Proof. destruct p, q. cbn. intros H. injection H as -> -> -> ->. reflexivity. Qed.
Lemma q3l_inj {B} (p q : q3 B) : q3l p = q3l q -> p = q.
Proof. destruct p, q. cbn. intros H. injection H as -> -> ->. reflexivity. Qed.
Lemma s_cell_fun sm dec g p p' : s_cell sm dec g p -> s_cell sm dec g p' -> p = p'.
Proof. intros (sc & A & B) (sc' & A' & B'). assert (sc' = sc) by congruence. subst. rewrite B in B'. now apply map_Some_inj, q4l_inj in B'. Qed.
Lemma s_face_fun sm dec f p p' : s_face sm dec f p -> s_face sm dec f p' -> p = p'.
Proof. intros (sc & A & B) (sc' & A' & B'). assert (sc' = sc) by congruence. subst. rewrite B in B'. now apply map_Some_inj, q3l_inj in B'. Qed.

(** The nodes of the face opposite a vertex are the other three nodes. *)
Lemma opp_perm (cn : q4 N) (fn : q3 N) lf : NoDup (q4l cn) -> NoDup (q3l fn) -> incl (q3l fn) (q4l cn) -> lf < 4 ->
  (forall v n, nth_error (q4l cn) v = Some n -> (In n (q3l fn) <-> v <> lf)) ->
  exists s, nth_error (tet_faces cn) lf = Some s /\ Permutation (q3l s) (q3l fn).
Proof.
  intros NC NF I L S. destruct cn as [a b c d]. assert (N4 : NoDup [a; b; c; d]) by exact NC. clear NC.
  assert (I' : forall n, In n (q3l fn) -> exists v, nth_error [a; b; c; d] v = Some n) by (intros n Hn; apply In_nth_error, (I n Hn)). clear I.
  assert (D : forall u v n, nth_error [a; b; c; d] u = Some n -> nth_error [a; b; c; d] v = Some n -> u = v).
  { intros u v n Hu Hv. apply (proj1 (NoDup_nth_error _) N4); [apply nth_error_Some|]; congruence. }
  assert (K : forall s, NoDup (q3l s) -> (forall n, In n (q3l s) <-> exists v, nth_error [a; b; c; d] v = Some n /\ v <> lf) -> Permutation (q3l s) (q3l fn)).
  { intros s NS Hs. apply NoDup_Permutation; auto. intros x. rewrite Hs. split.
    - intros (v & Hv & Ne). now apply (S v x Hv).
    - intros Hx. destruct (I' x Hx) as (v & Hv). exists v. split; auto. now apply (S v x Hv). }
  clear S I' NF. pose proof (D 0 1 a eq_refl) as D1. pose proof (D 0 2 a eq_refl) as D2. pose proof (D 0 3 a eq_refl) as D3. pose proof (D 1 2 b eq_refl) as D4. pose proof (D 1 3 b eq_refl) as D5. pose proof (D 2 3 c eq_refl) as D6.
  cbn in D1, D2, D3, D4, D5, D6. clear D N4.
  assert (a <> b) by (intros ->; now discriminate (D1 eq_refl)). assert (a <> c) by (intros ->; now discriminate (D2 eq_refl)). assert (a <> d) by (intros ->; now discriminate (D3 eq_refl)).
  assert (b <> c) by (intros ->; now discriminate (D4 eq_refl)). assert (b <> d) by (intros ->; now discriminate (D5 eq_refl)). assert (c <> d) by (intros ->; now discriminate (D6 eq_refl)). clear D1 D2 D3 D4 D5 D6.
  destruct lf as [|[|[|[|lf]]]]; [| | | |lia]; eexists; (split; [reflexivity|]); cbn [r0 r1 r2 r3]; (apply K; clear K; [repeat (constructor; [cbn; intros Hi; repeat destruct Hi as [Hi|Hi]; congruence|]); constructor|]);
    intros n; (split; [cbn; intros Hi; repeat destruct Hi as [Hi|Hi]; [subst n..|destruct Hi]|intros (v & Hv & Ne); destruct v as [|[|[|[|v]]]]; cbn in Hv; try congruence; try (apply Some_inj in Hv; subst n; cbn; auto); destruct v; discriminate]).
  - exists 1; split; auto. - exists 2; split; auto. - exists 3; split; auto.
  - exists 0; split; auto. - exists 2; split; auto. - exists 3; split; auto.
  - exists 0; split; auto. - exists 1; split; auto. - exists 3; split; auto.
  - exists 0; split; auto. - exists 1; split; auto. - exists 2; split; auto.
Qed.

Section Geo.
  Variables (sm : smesh) (dec : N -> R).
  Hypothesis OK : serial_mesh_ok sm.
  Hypothesis TT : tets_ok sm.
  Lemma s_cell_ex g sc : SM_cell sm g = Some sc -> exists p, s_cell sm dec g p.
  Proof.
    intros H. assert (K : forall n, In n (q4l (sc_nodes sc)) -> exists x, s_point sm dec n = Some x) by (intros n Hn; destruct (smo_cn sm OK g sc n H Hn) as (sn & E); unfold s_point; rewrite E; cbn; eauto).
    destruct (K (r0 (sc_nodes sc))) as (x & E1); [cbn; auto|]. destruct (K (r1 (sc_nodes sc))) as (y & E2); [cbn; auto|]. destruct (K (r2 (sc_nodes sc))) as (z & E3); [cbn; auto|].
    destruct (K (r3 (sc_nodes sc))) as (w & E4); [cbn; auto 6|]. exists (Q4 x y z w), sc. split; auto. now apply map_some4.
  Qed.
  Lemma s_face_ex g lf f sf : s_opposite sm g lf f sf -> exists F, s_face sm dec f F.
  Proof.
    intros (sc & A & I & B & _). destruct (smo_cf sm OK g sc f A I) as (sf' & B' & _ & NN). assert (sf' = sf) by congruence. subst sf'.
    assert (K : forall n, In n (q3l (sf_nodes sf)) -> exists x, s_point sm dec n = Some x) by (intros n Hn; destruct (smo_cn sm OK g sc n A (NN n Hn)) as (sn & E); unfold s_point; rewrite E; cbn; eauto).
    destruct (K (t0 (sf_nodes sf))) as (x & E1); [cbn; auto|]. destruct (K (t1 (sf_nodes sf))) as (y & E2); [cbn; auto|]. destruct (K (t2 (sf_nodes sf))) as (z & E3); [cbn; auto|].
    exists (Q3 x y z), sf. split; auto. now apply map_some3.
  Qed.
  Lemma s_face_of g lf f sf p F : s_opposite sm g lf f sf -> s_cell sm dec g p -> s_face sm dec f F -> face_of p lf F.
  Proof.
    intros (sc & A & I & B & L & S) (sc' & A' & Ep) (sf' & B' & EF). assert (sc' = sc) by congruence. subst sc'. assert (sf' = sf) by congruence. subst sf'.
    destruct (smo_cf sm OK g sc f A I) as (sf' & B'' & _ & NN). assert (sf' = sf) by congruence. subst sf'.
    destruct (opp_perm (sc_nodes sc) (sf_nodes sf) lf (to_cell sm TT g sc A) (proj1 (to_face sm TT f sf B)) NN L S) as (s & Hs & PE).
    apply (Permutation_map (s_point sm dec)) in PE. rewrite EF in PE.
    assert (K : exists s', nth_error (tet_faces p) lf = Some s' /\ map (s_point sm dec) (q3l s) = map Some (q3l s')).
    { destruct (sc_nodes sc) as [a b c d], p as [x y z w]. cbn in Ep. injection Ep as E1 E2 E3 E4.
      destruct lf as [|[|[|[|lf]]]]; [| | | |lia]; cbn in Hs; apply Some_inj in Hs; subst s; eexists; (split; [reflexivity|]); apply map_some3; assumption. }
    destruct K as (s' & Hs' & E). exists s'. split; auto. rewrite E in PE. apply Permutation_map_inv in PE. destruct PE as (l & E' & PE).
    apply map_Some_inj in E'. subst l. unfold same_tri. now apply Permutation_sym.
  Qed.
  Lemma area_sqrt F : getTriangleArea Rops F = (sqrt (heron16 F) / 4)%R.
  Proof using.
    clear. destruct (area_heron F) as (P & E). rewrite <- E. replace (16 * (getTriangleArea Rops F * getTriangleArea Rops F))%R with ((4 * getTriangleArea Rops F) * (4 * getTriangleArea Rops F))%R by ring.
    rewrite sqrt_square by lra. field.
  Qed.
  Lemma area_pos p lf F : vol6 p <> 0%R -> face_of p lf F -> (0 < getTriangleArea Rops F)%R.
  Proof using.
    clear. intros Hp Hf. destruct (normal_face p lf F Hp Hf) as (n & v & _ & Ev & Hh & _). destruct (normal_eq F p v Ev Hh) as (Hs & _).
    unfold getTriangleArea. change (getCrossProduct Rops (vsub Rops (t1 F) (t0 F)) (vsub Rops (t2 F) (t0 F))) with (faceCross F).
    change (vdot Rops (faceCross F) (faceCross F)) with (dotR (faceCross F) (faceCross F)). cbn [Rops ahalf amul asqrt]. lra.
  Qed.
End Geo.
