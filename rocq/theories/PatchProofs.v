(** Integration by parts in a tetrahedron, and what follows for the equations of a cell. *)
From Coq Require Import Reals Lra.
From Verif Require Import Prelude Bytes MeshModel MeshSpec CreateSpec TychoModel TychoSpec RefineSpec GeometryModel GeometrySpec GeometryProofs TransportSpec FluxSpec ViewSpec ViewGeoProofs MeshRoundProofs PatchSpec.
Local Open Scope R_scope.

(** * Geometry *)
(** Signed areas by cross products. *)
Lemma signed_canon sm dec om g lf x p t : serial_mesh_ok sm -> tets_ok sm -> solid sm dec -> s_signed sm dec om g lf x -> s_cell sm dec g p -> nth_error (tet_faces p) lf = Some t ->
  x = - (Rabs (vol6 p) / vol6 p) * fsign lf / 2 * dotR om (faceCross t).
Proof.
  intros OK TT SOL (q & f & sf & F & n & C & OP & FA & ON & ->) CP Ht. rewrite (s_cell_fun _ _ _ _ _ C CP) in *. clear C q. pose proof (sol_volume _ _ SOL g p CP) as V.
  pose proof (s_face_of sm dec OK TT g lf f sf p F OP CP FA) as FO. destruct (normal_face p lf F V FO) as (n' & v & Hv & _ & _ & GN & ON' & _). rewrite (normal_unique p lf F n n' V FO ON ON').
  pose proof (area_vector p lf F n' t v V FO GN Ht Hv) as AV. destruct (area_heron F) as (A0 & A1).
  assert (AR : sqrt (heron16 F) / 4 = getTriangleArea Rops F).
  { rewrite <- A1. set (ar := getTriangleArea Rops F) in *. replace (16 * (ar * ar)) with ((4 * ar) * (4 * ar)) by ring. rewrite sqrt_square by lra. field. }
  rewrite AR. set (ar := getTriangleArea Rops F) in *. set (k := - (Rabs (vol6 p) / vol6 p) * fsign lf / 2) in *. set (c := faceCross t) in *.
  assert (E : forall z w, scaleR ar z = scaleR k w -> ar * dotR om z = k * dotR om w).
  { intros [z0 z1 z2] [w0 w1 w2] E. unfold scaleR in E. cbn [t0 t1 t2] in E. injection E as E0 E1 E2. unfold dotR. cbn [t0 t1 t2]. replace (ar * (t0 om * z0 + t1 om * z1 + t2 om * z2)) with (t0 om * (ar * z0) + t1 om * (ar * z1) + t2 om * (ar * z2)) by ring. rewrite E0, E1, E2. ring. }
  now apply E.
Qed.
(** The divergence theorem for a linear function: the sum over the faces of signed area times the value at the opposite vertex. *)
Lemma by_parts sm dec om g p area u grad : serial_mesh_ok sm -> tets_ok sm -> solid sm dec -> s_cell sm dec g p -> (forall lf, (lf < 4)%nat -> s_signed sm dec om g lf (area lf)) -> gradient p u grad ->
  sum4 area = 0 /\ sum4 (fun f => area f * u f) = - (3 * (Rabs (vol6 p) / 6)) * dotR om grad.
Proof.
  intros OK TT SOL CP SG GR. pose proof (sol_volume _ _ SOL g p CP) as V.
  assert (K : forall lf t, (lf < 4)%nat -> nth_error (tet_faces p) lf = Some t -> area lf = - (Rabs (vol6 p) / vol6 p) * fsign lf / 2 * dotR om (faceCross t)) by (intros lf t L Ht; eapply signed_canon; eauto).
  destruct p as [a b c d]. pose proof (GR 0%nat 1%nat a b eq_refl eq_refl) as U1. pose proof (GR 0%nat 2%nat a c eq_refl eq_refl) as U2. pose proof (GR 0%nat 3%nat a d eq_refl eq_refl) as U3.
  pose proof (K 0%nat _ ltac:(lia) eq_refl) as A0. pose proof (K 1%nat _ ltac:(lia) eq_refl) as A1. pose proof (K 2%nat _ ltac:(lia) eq_refl) as A2. pose proof (K 3%nat _ ltac:(lia) eq_refl) as A3. clear K SG GR CP.
  assert (AB : Rabs (vol6 (Q4 a b c d)) = (Rabs (vol6 (Q4 a b c d)) / vol6 (Q4 a b c d)) * vol6 (Q4 a b c d)) by (field; exact V).
  set (k := Rabs (vol6 (Q4 a b c d)) / vol6 (Q4 a b c d)) in *. rewrite AB. clear AB. unfold sum4.
  replace (u 1%nat) with (u 0%nat + dotR grad (subR b a)) by lra. replace (u 2%nat) with (u 0%nat + dotR grad (subR c a)) by lra. replace (u 3%nat) with (u 0%nat + dotR grad (subR d a)) by lra.
  rewrite A0, A1, A2, A3. clear A0 A1 A2 A3 U1 U2 U3 V. clearbody k. generalize (u 0%nat). intros w. cbn [r0 r1 r2 r3 fsign]. destruct a as [ax ay az], b as [bx by_ bz], c as [cx cy cz], d as [dx dy dz], grad as [gx gy gz], om as [ox oy oz].
  unfold faceCross, crossR, getCrossProduct, dotR, subR, vol6. cbn [t0 t1 t2 Rops asub amul]. split; field.
Qed.
(** Every linear function on a tetrahedron has one gradient. *)
Lemma gradient_unique p u grad grad' : vol6 p <> 0 -> gradient p u grad -> gradient p u grad' -> grad = grad'.
Proof.
  intros V H H'. destruct p as [a b c d]. assert (D : forall j y, corner (Q4 a b c d) j = Some y -> dotR (subR grad grad') (subR y a) = 0).
  { intros j y Hy. pose proof (H 0%nat j a y eq_refl Hy) as E. pose proof (H' 0%nat j a y eq_refl Hy) as E'. unfold dotR, subR in *. cbn [t0 t1 t2] in *. lra. }
  assert (Z : subR grad grad' = zeroR).
  { apply (lin3 (subR b a) (subR c a) (subR d a)); [apply (D 1%nat); reflexivity|apply (D 2%nat); reflexivity|apply (D 3%nat); reflexivity|].
    intros E. apply V. rewrite <- E. destruct a as [ax ay az], b as [bx by_ bz], c as [cx cy cz], d as [dx dy dz]. unfold crossR, getCrossProduct, dotR, subR, vol6. cbn [t0 t1 t2 Rops asub amul]. ring. }
  destruct grad as [gx gy gz], grad' as [hx hy hz]. unfold subR, zeroR in Z. cbn in Z. injection Z as Z0 Z1 Z2. f_equal; lra.
Qed.
Lemma gradient_ex p u : vol6 p <> 0 -> exists grad, gradient p u grad.
Proof.
  intros V. destruct p as [a b c d]. set (ub := u 1%nat - u 0%nat). set (uc := u 2%nat - u 0%nat). set (ud := u 3%nat - u 0%nat).
  set (gr := scaleR (/ vol6 (Q4 a b c d)) (addR (scaleR ub (crossR (subR c a) (subR d a))) (addR (scaleR uc (crossR (subR d a) (subR b a))) (scaleR ud (crossR (subR b a) (subR c a)))))).
  assert (G : dotR gr (subR b a) = ub /\ dotR gr (subR c a) = uc /\ dotR gr (subR d a) = ud).
  { unfold gr. clear gr. clearbody ub uc ud. revert V. destruct a as [ax ay az], b as [bx by_ bz], c as [cx cy cz], d as [dx dy dz]. unfold scaleR, addR, crossR, getCrossProduct, dotR, subR, vol6. cbn [t0 t1 t2 Rops asub amul]. intros V. repeat split; field; exact V. }
  destruct G as (Gb & Gc & Gd). clearbody gr. exists gr. assert (D : forall j y, corner (Q4 a b c d) j = Some y -> dotR gr (subR y a) = u j - u 0%nat).
  { intros [|[|[|[|j]]]] y Hy; cbn in Hy; try (destruct j; discriminate Hy); apply Some_inj in Hy; subst y; [unfold dotR, subR; cbn [t0 t1 t2]; ring|auto..]. }
  intros i j x y Hx Hy. pose proof (D i x Hx) as E. pose proof (D j y Hy) as E'. unfold dotR, subR in *. cbn [t0 t1 t2] in *. lra.
Qed.

(** * The equations of a cell *)
Lemma dg_linear V area sigma Q nb u d : sum4 area = 0 -> sum4 (fun f => area f * u f) = - (3 * V) * d -> (forall v, (v < 4)%nat -> Q v = d + sigma * u v) ->
  (forall f j, (f < 4)%nat -> (j < 4)%nat -> j <> f -> ~ area f > 0 -> area f * nb f j = area f * u j) -> dg V area sigma Q nb u.
Proof.
  intros Z BP HQ NB i Hi. assert (UP : forall f j, (f < 4)%nat -> (j < 4)%nat -> j <> f -> area f * upwind area u nb f j = area f * u j) by (intros f j Hf Hj N; unfold upwind; destruct (Rgt_dec (area f) 0); [reflexivity|auto]).
  unfold dg_row.
  assert (T : forall f, (f < 4)%nat -> f <> i -> / 12 * area f * (upwind area u nb f i + sumFace f (upwind area u nb f)) = / 12 * area f * (u i + sum4 u - u f)).
  { intros f Hf N. replace (/ 12 * area f * (upwind area u nb f i + sumFace f (upwind area u nb f))) with (/ 12 * (area f * upwind area u nb f i + sumFace f (fun j => area f * upwind area u nb f j))) by (unfold sumFace, sum4; destruct f as [|[|[|[|f]]]]; cbn [Nat.eqb]; try lia; ring).
    rewrite (UP f i) by auto. unfold sumFace, sum4. destruct f as [|[|[|[|f]]]]; try lia; cbn [Nat.eqb]; rewrite !UP by lia; ring. }
  assert (S1 : sum4 (fun f => if Nat.eqb f i then 0 else / 12 * area f * (upwind area u nb f i + sumFace f (upwind area u nb f))) = sum4 (fun f => if Nat.eqb f i then 0 else / 12 * area f * (u i + sum4 u - u f))).
  { assert (EX : forall F F', (forall f, (f < 4)%nat -> F f = F' f) -> sum4 F = sum4 F') by (intros F F' E; unfold sum4; rewrite !E by lia; reflexivity). apply EX. intros f Hf. destruct (Nat.eqb_spec f i); [reflexivity|now apply T]. }
  rewrite S1. clear S1 T UP NB. unfold sum4 in *. rewrite !HQ by lia. destruct i as [|[|[|[|i]]]]; try lia; cbn [Nat.eqb]; rewrite ?HQ by lia; nra.
Qed.
