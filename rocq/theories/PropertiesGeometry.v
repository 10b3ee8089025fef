(** C18, C19, C20: tetrahedron geometry in exact arithmetic. *)
From Coq Require Import Reals Lra Permutation.
From Verif Require Import Prelude Bytes MeshModel RefineSpec GeometryModel GeometrySpec GeometryProofs.
Local Open Scope R_scope.

(** C18: the cell volume is a sixth of the edge determinant, in every vertex order. *)
Theorem C18_volume : forall p, getTetVolume Rops p = Rabs (vol6 p) / 6 /\
  forall q, Permutation (q4l p) (q4l q) -> getTetVolume Rops q = getTetVolume Rops p.
Proof.
  intros p. split; [exact (volume_ok p)|]. intros q K. rewrite !volume_ok. destruct (vol6_perm p q K) as [-> | ->]; auto. now rewrite Rabs_Ropp.
Qed.
(** C18: the face area is that of Heron's formula, in every vertex order. *)
Theorem C18_area : forall f, 0 <= getTriangleArea Rops f /\ 16 * (getTriangleArea Rops f * getTriangleArea Rops f) = heron16 f /\
  forall g, same_tri f g -> getTriangleArea Rops f = getTriangleArea Rops g.
Proof. intros f. destruct (area_heron f). split; auto. split; auto. intros g. exact (area_perm f g). Qed.
(** C18: in a non-degenerate cell every face has a normal; it is the outward unit normal, which is
    unique, and it does not depend on the order in which the corners of the face are listed. *)
Theorem C18_normal : forall p lf f, vol6 p <> 0 -> face_of p lf f ->
  exists n, getNormal Rops f p = Some n /\ outward_unit_normal p lf f n /\
    (forall m, outward_unit_normal p lf f m -> m = n) /\
    (forall g, same_tri f g -> getNormal Rops g p = Some n).
Proof.
  intros p lf f Hp Hf. destruct (normal_face p lf f Hp Hf) as (n & _ & _ & _ & _ & E & O & _). exists n.
  split; auto. split; auto. split. - intros m Hm. exact (normal_unique p lf f m n Hp Hf Hm O).
  - intros g S. now rewrite <- (normal_perm p lf f g Hp Hf S).
Qed.
(** C18: the area-weighted normals of a cell add up to zero. *)
Theorem C18_closed : forall p fs ns, vol6 p <> 0 ->
  (forall lf, (lf < 4)%nat -> face_of p lf (fs lf) /\ getNormal Rops (fs lf) p = Some (ns lf)) ->
  let a lf := scaleR (getTriangleArea Rops (fs lf)) (ns lf) in
  addR (addR (a 0%nat) (a 1%nat)) (addR (a 2%nat) (a 3%nat)) = zeroR.
Proof. exact closed_surface. Qed.

(** C19: two non-degenerate cells that share a face and do not overlap have opposite normals on it; a
    direction with a component across the face leaves exactly one of them and enters the other. *)
Theorem C19_opposite : forall p q lf lg f g, vol6 p <> 0 -> vol6 q <> 0 -> face_of p lf f -> face_of q lg g -> same_tri f g ->
  (forall x, strictly_inside p x -> strictly_inside q x -> False) ->
  exists n, getNormal Rops f p = Some n /\ getNormal Rops g q = Some (oppR n) /\ outward_unit_normal p lf f n.
Proof. exact shared_faces. Qed.
Theorem C19_flow : forall p q lf lg f g om, vol6 p <> 0 -> vol6 q <> 0 -> face_of p lf f -> face_of q lg g -> same_tri f g ->
  (forall x, strictly_inside p x -> strictly_inside q x -> False) ->
  exists d b, omegaDotN Rops om f p = Some d /\ omegaDotN Rops om g q = Some (- d) /\
    (d <> 0 -> isOutgoing Rops om f p = Some b /\ isIncoming Rops om f p = Some (negb b) /\
               isOutgoing Rops om g q = Some (negb b) /\ isIncoming Rops om g q = Some b).
Proof. exact flow. Qed.

(** C20: a face grazed by the direction is classified as incoming by both of its cells. *)
Theorem C20_both_incoming : forall p q lf lg f g om d, vol6 p <> 0 -> vol6 q <> 0 -> face_of p lf f -> face_of q lg g -> same_tri f g ->
  (forall x, strictly_inside p x -> strictly_inside q x -> False) ->
  omegaDotN Rops om f p = Some d -> d = 0 -> isIncoming Rops om f p = Some true /\ isIncoming Rops om g q = Some true.
Proof. exact grazing. Qed.
(** The two cells of the witness: the unit corner tetrahedron and its mirror image below z = 0. *)
Definition cellA : q4 (q3 R) := Q4 (Q3 0 0 0) (Q3 1 0 0) (Q3 0 1 0) (Q3 0 0 1).
Definition cellB : q4 (q3 R) := Q4 (Q3 0 0 0) (Q3 1 0 0) (Q3 0 0 (-1)) (Q3 0 1 0).
Definition faceA : q3 (q3 R) := Q3 (Q3 0 0 0) (Q3 1 0 0) (Q3 0 1 0).
Definition faceB : q3 (q3 R) := Q3 (Q3 0 1 0) (Q3 0 0 0) (Q3 1 0 0).
Lemma cells_ex : vol6 cellA <> 0 /\ vol6 cellB <> 0 /\ face_of cellA 3 faceA /\ face_of cellB 2 faceB /\ same_tri faceA faceB /\
  (forall x, strictly_inside cellA x -> strictly_inside cellB x -> False).
Proof.
  split; [unfold cellA, vol6; lra|]. split; [unfold cellB, vol6; lra|].
  split; [exists faceA; split; [reflexivity|apply Permutation_refl]|].
  split; [exists faceA; split; [reflexivity|]|split].
  - apply (Permutation_trans (l' := [Q3 0 0 0; Q3 0 1 0; Q3 1 0 0])); [apply perm_skip, perm_swap|apply perm_swap].
  - apply (Permutation_trans (l' := [Q3 0 0 0; Q3 0 1 0; Q3 1 0 0])); [apply perm_skip, perm_swap|apply perm_swap].
  - intros x (a & b & c & d & P & ->) (a' & b' & c' & d' & P' & E). unfold bary, cellA, cellB in E. cbn [r0 r1 r2 r3 t0 t1 t2] in E.
    injection E as E1 E2 E3. lra.
Qed.
(** C20 (expectation not met): a shared face need not be incoming for at most one of its two cells. *)
Theorem C20_grazing_refuted : ~ (forall p q lf lg f g om, vol6 p <> 0 -> vol6 q <> 0 -> face_of p lf f -> face_of q lg g -> same_tri f g ->
  (forall x, strictly_inside p x -> strictly_inside q x -> False) -> om <> zeroR ->
  isIncoming Rops om f p = Some true -> isIncoming Rops om g q = Some true -> False).
Proof.
  intros H. destruct cells_ex as (H1 & H2 & H3 & H4 & H5 & H6).
  destruct (normal_face cellA 3 faceA H1 H3) as (n & _ & _ & _ & _ & E & (U & A & B & _) & _).
  assert (D : omegaDotN Rops (Q3 1 0 0) faceA cellA = Some (dotR (Q3 1 0 0) n)) by (unfold omegaDotN; now rewrite E).
  assert (Z : dotR (Q3 1 0 0) n = 0) by (unfold dotR, faceA, subR in *; cbn [t0 t1 t2] in *; lra).
  destruct (grazing cellA cellB 3 2 faceA faceB (Q3 1 0 0) _ H1 H2 H3 H4 H5 H6 D Z) as (I1 & I2).
  refine (H cellA cellB 3%nat 2%nat faceA faceB (Q3 1 0 0) H1 H2 H3 H4 H5 H6 _ I1 I2). unfold zeroR. intros K. injection K. lra.
Qed.

(** The hypotheses of C18 and C19 hold of the pair of cells above, and the direction (0,0,1) leaves the
    lower cell and enters the upper one. *)
Example C19_ex : isOutgoing Rops (Q3 0 0 1) faceA cellA = Some false /\ isOutgoing Rops (Q3 0 0 1) faceB cellB = Some true /\
  getTetVolume Rops cellA = / 6.
Proof.
  destruct cells_ex as (H1 & H2 & H3 & H4 & H5 & H6).
  destruct (normal_face cellA 3 faceA H1 H3) as (n & _ & _ & _ & _ & E & (U & A & B & C) & _).
  assert (D : omegaDotN Rops (Q3 0 0 1) faceA cellA = Some (dotR (Q3 0 0 1) n)) by (unfold omegaDotN; now rewrite E).
  specialize (C (Q3 0 0 1) eq_refl).
  assert (L : dotR (Q3 0 0 1) n < 0) by (unfold dotR, subR, faceA in *; cbn [t0 t1 t2] in *; lra).
  destruct (flow cellA cellB 3 2 faceA faceB (Q3 0 0 1) H1 H2 H3 H4 H5 H6) as (d & b & E1 & E2 & F).
  assert (d = dotR (Q3 0 0 1) n) by congruence. subst d. destruct (F ltac:(lra)) as (F1 & _ & F3 & _).
  assert (b = false). { unfold isOutgoing in F1. rewrite E1 in F1. cbn [agt Rops azero obind] in F1. destruct (Rgt_dec _ 0); [lra|congruence]. }
  subst b. split; [exact F1|]. split; [exact F3|]. rewrite volume_ok. unfold cellA, vol6.
  match goal with |- Rabs ?x / 6 = _ => replace x with 1 by ring end. rewrite Rabs_R1. lra.
Qed.

Print Assumptions C18_volume. Print Assumptions C18_area. Print Assumptions C18_normal. Print Assumptions C18_closed.
Print Assumptions C19_opposite. Print Assumptions C19_flow. Print Assumptions C20_both_incoming. Print Assumptions C20_grazing_refuted.
