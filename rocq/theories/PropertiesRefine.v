(** C14, C15: mesh refinement. *)
From Coq Require Import Reals Lra Permutation.
From Verif Require Import Prelude Bytes MeshModel MeshSpec CreateSpec RefineModel RefineSpec RefineProofs RefineMeshProofs.

(** A concrete tetrahedron for the examples below. *)
Definition ex_tet : q4 (q3 R) := Q4 (Q3 0 0 0)%R (Q3 1 0 0)%R (Q3 0 1 0)%R (Q3 0 0 1)%R.

(** The eight children have one eighth of the volume, whichever way the comparisons of diagonal
    lengths come out ([ltb], [dist], [dmax] arbitrary). *)
Theorem C14_volumes : forall ltb dist dmax (t : q4 (q3 R)), exists ts,
  refineTet rmid ltb dist dmax t = Some ts /\ length ts = 8 /\
  forall u, In u ts -> Rabs (vol6 u) = (Rabs (vol6 t) / 8)%R.
Proof.
  intros. destruct (refine_lab rmid ltb dist dmax t) as (k & Hk & E). eexists. split; [exact E|]. split.
  - destruct k as [|[|[|k]]]; [reflexivity..|lia].
  - intros u. now apply (refine_volumes ltb dist dmax).
Qed.
Print Assumptions C14_volumes.
Example C14_volumes_ex : vol6 ex_tet = 1%R.
Proof. unfold ex_tet; cbn. ring. Qed.

(** The children cover the tetrahedron and nothing else. *)
Theorem C14_covers : forall ltb dist dmax t ts x, refineTet rmid ltb dist dmax t = Some ts ->
  (inside t x <-> exists u, In u ts /\ inside u x).
Proof.
  intros ltb dist dmax t ts x E. split.
  - now apply (refine_covers ltb dist dmax).
  - intros (u & Hu & H). eapply refine_within; eauto.
Qed.
Print Assumptions C14_covers.
Example C14_covers_ex : inside ex_tet (Q3 (1/5) (1/5) (1/5))%R.
Proof. exists (2/5)%R, (1/5)%R, (1/5)%R, (1/5)%R. split; [lra|]. unfold bary, ex_tet; cbn. f_equal; lra. Qed.

(** Different children have no interior point in common. *)
Theorem C14_no_overlap : forall ltb dist dmax t ts i j u v x, vol6 t <> 0%R ->
  refineTet rmid ltb dist dmax t = Some ts -> nth_error ts i = Some u -> nth_error ts j = Some v ->
  strictly_inside u x -> strictly_inside v x -> i = j.
Proof. exact refine_disjoint. Qed.
Print Assumptions C14_no_overlap.
Example C14_no_overlap_ex : vol6 ex_tet <> 0%R.
Proof. rewrite C14_volumes_ex. lra. Qed.

(** For any coordinate arithmetic: of the 32 faces of the children, 16 are the quarters of the four
    original faces and the others cancel in pairs.  So what is put on an original face depends on
    that face only. *)
Theorem C14_face_conforming : forall (T : Type) (mid : T -> T -> T) ltb dist dmax t ts,
  refineTet mid ltb dist dmax t = Some ts ->
  exists interior, same_tris (flat_map tet_faces ts)
    (flat_map (quarter_tri (midPt mid)) (tet_faces t) ++ interior ++ interior).
Proof. exact @refine_conforms. Qed.
Print Assumptions C14_face_conforming.

(** The quarters of a face do not depend on the order in which a cell lists its corners. *)
Theorem C14_face_symmetric : forall (T : Type) (mid : T -> T -> T), (forall a b, mid a b = mid b a) ->
  forall f g, same_tri f g -> same_tris (quarter_tri (midPt mid) f) (quarter_tri (midPt mid) g).
Proof. exact @quarter_sym. Qed.
Print Assumptions C14_face_symmetric.
Example C14_face_symmetric_ex :
  same_tri (Q3 1 2 3) (Q3 3 1 2) /\ (forall a b, rmid a b = rmid b a).
Proof. split; [apply tri_eqb_ok; reflexivity|]. intros; unfold rmid; ring. Qed.

(** Over exact reals the diagonal used is a shortest one. *)
Theorem C14_shortest_diagonal : forall dmax t ts,
  (forall p q, In (p, q) (opps rmid t) -> rdist p q < dmax)%R ->
  refineTet rmid rltb rdist dmax t = Some ts ->
  exists p q, In (p, q) (opps rmid t) /\
    (forall p' q', In (p', q') (opps rmid t) -> rdist p q <= rdist p' q')%R /\
    (forall i u, nth_error ts i = Some u -> 4 <= i -> In p (q4l u) /\ In q (q4l u)).
Proof. exact refine_shortest. Qed.
Print Assumptions C14_shortest_diagonal.
Example C14_shortest_diagonal_ex : forall p q, In (p, q) (opps rmid ex_tet) -> (rdist p q < 2)%R.
Proof.
  intros p q H. unfold rdist. replace 2%R with (sqrt 4) by (replace 4%R with (2*2)%R by lra; apply sqrt_square; lra).
  apply sqrt_lt_1; cbn in H; (destruct H as [H|[H|[H|[]]]]; injection H as <- <-; unfold dist2, rmid; cbn; lra).
Qed.

Local Open Scope N_scope.

(** The refined mesh: eight cells per cell with its material, nodes merged exactly when the node
    order cannot tell them apart, one face per triangle, and the two cells of a face. *)
Theorem C14_refined_mesh : forall mid ltb dist dmax dmin ltMinus gtPlus sub name0 version0 sm d Ks,
  graphDiameter ltb dmax dmin sub sm = Some d ->
  1000 <= lenN (sm_cells sm) -> 32 * lenN (sm_cells sm) < INVALID ->
  mapM (childrenOf mid ltb dist dmax sm) (sm_cells sm) = Some Ks ->
  strict_weak (nodeLess (ltMinus d) (gtPlus d)) (fun p => exists mt, In mt (concat Ks) /\ In p (q4l (snd mt))) ->
  (forall mt i j p q, In mt (concat Ks) -> nth_error (q4l (snd mt)) i = Some p -> nth_error (q4l (snd mt)) j = Some q ->
     incomparable (nodeLess (ltMinus d) (gtPlus d)) p q -> i = j) ->
  length (concat Ks) = (8 * length (sm_cells sm))%nat /\
  exists rm, refineMesh mid ltb dist dmax dmin ltMinus gtPlus sub name0 version0 sm = Some rm /\
    refined_mesh (nodeLess (ltMinus d) (gtPlus d)) (concat Ks) rm.
Proof.
  intros. split; [|now apply refine_main].
  rewrite (concat_length_fixed 8).
  - apply mapM_length in H2. lia.
  - intros x Hx. apply In_nth_error in Hx. destruct Hx as [i Hi].
    destruct (mapM_nth _ _ _ _ _ H2 Hi) as (c & _ & Ec). unfold childrenOf in Ec.
    destruct (coarseTet sm c) as [t|]; [|discriminate]. cbn [obind] in Ec.
    rewrite refineTet_eq in Ec. cbn [obind] in Ec. apply Some_inj in Ec. subst x. rewrite map_length.
    destruct t as [[] [] [] []]. destruct (pick _ _ _ _) as [|[|]]; reflexivity.
Qed.
Print Assumptions C14_refined_mesh.

(** A chain of 1000 tetrahedra on the moment curve, coordinates as even integers. *)
Definition ex_node (i : nat) : snode :=
  let t := N.of_nat i in mkSnode (Q3 (2 * t) (2 * t * t) (2 * t * t * t)).
Definition ex_cell (i : nat) : scell :=
  let t := N.of_nat i in mkScell (Q4 0 0 0 0) (Q4 t (t + 1) (t + 2) (t + 3)) (t mod 3).
Definition ex_mesh : smesh :=
  mkSmesh serialName 2 1000 0 1003 (map ex_cell (seq 0 1000)) [] (map ex_node (seq 0 1003)).
Definition ex_mid (a b : N) : N := (a + b) / 2.
Definition ex_dist (p q : q3 N) : N := (t0 p - t0 q) + (t0 q - t0 p).
Definition ex_children := mapM (childrenOf ex_mid N.ltb ex_dist (2^62) ex_mesh) (sm_cells ex_mesh).
Definition q3_eqb (p q : q3 N) : bool := (t0 p =? t0 q) && (t1 p =? t1 q) && (t2 p =? t2 q).
Definition tet_distinct (t : q4 (q3 N)) : bool :=
  negb (q3_eqb (r0 t) (r1 t)) && negb (q3_eqb (r0 t) (r2 t)) && negb (q3_eqb (r0 t) (r3 t)) &&
  negb (q3_eqb (r1 t) (r2 t)) && negb (q3_eqb (r1 t) (r3 t)) && negb (q3_eqb (r2 t) (r3 t)).
Definition ex_ltMinus (_ a b : N) : bool := a <? b.
Definition ex_gtPlus (_ a b : N) : bool := b <? a.
Lemma ex_order d : strict_weak (nodeLess (ex_ltMinus d) (ex_gtPlus d)) (fun _ => True) /\
  forall p q, incomparable (nodeLess (ex_ltMinus d) (ex_gtPlus d)) p q -> p = q.
Proof.
  assert (E : forall p q, nodeLess (ex_ltMinus d) (ex_gtPlus d) p q = true <->
    (t0 p < t0 q \/ (t0 p = t0 q /\ (t1 p < t1 q \/ (t1 p = t1 q /\ t2 p < t2 q))))).
  { intros p q. unfold nodeLess, ex_ltMinus, ex_gtPlus.
    repeat match goal with |- context [?x <? ?y] => destruct (N.ltb_spec x y) end; split; intros; try lia; try discriminate; auto. }
  assert (NE : forall p q, nodeLess (ex_ltMinus d) (ex_gtPlus d) p q = false <->
    ~ (t0 p < t0 q \/ (t0 p = t0 q /\ (t1 p < t1 q \/ (t1 p = t1 q /\ t2 p < t2 q))))).
  { intros p q. rewrite <- E. destruct (nodeLess _ _ p q); split; congruence. }
  split; [split; [|split]|].
  - intros a _. apply NE. lia.
  - intros a b c _ _ _ H1 H2. apply E in H1, H2. apply E. lia.
  - intros a b c _ _ _ H1 H2 H3 H4. apply NE in H1, H2, H3, H4. split; apply NE; lia.
  - intros p q [H1 H2]. apply NE in H1, H2. apply q3_inj; lia.
Qed.
Lemma tet_distinct_ok t i j p q : tet_distinct t = true ->
  nth_error (q4l t) i = Some p -> nth_error (q4l t) j = Some q -> p = q -> i = j.
Proof.
  intros H Hi Hj ->. unfold tet_distinct in H. repeat (apply andb_true_iff in H; destruct H as [H ?]).
  assert (R : forall x, q3_eqb x x = true) by (intros [x y z]; unfold q3_eqb; cbn; now rewrite !N.eqb_refl).
  destruct t as [a b c e]. cbn in *.
  destruct i as [|[|[|[|i]]]], j as [|[|[|[|j]]]]; cbn in *; auto; try (destruct i; discriminate); try (destruct j; discriminate);
  exfalso; apply Some_inj in Hi, Hj; subst;
  match goal with H : negb (q3_eqb ?x ?x) = true |- _ => rewrite R in H; discriminate end.
Qed.
Example C14_refined_mesh_ex : exists d Ks,
  graphDiameter N.ltb (2^62) 0 N.sub ex_mesh = Some d /\ 1000 <= lenN (sm_cells ex_mesh) /\
  ex_children = Some Ks /\
  strict_weak (nodeLess (ex_ltMinus d) (ex_gtPlus d)) (fun p => exists mt, In mt (concat Ks) /\ In p (q4l (snd mt))) /\
  (forall mt i j p q, In mt (concat Ks) -> nth_error (q4l (snd mt)) i = Some p -> nth_error (q4l (snd mt)) j = Some q ->
     incomparable (nodeLess (ex_ltMinus d) (ex_gtPlus d)) p q -> i = j).
Proof.
  assert (B : match graphDiameter N.ltb (2^62) 0 N.sub ex_mesh, ex_children with
    | Some d, Some Ks => forallb (fun mt => tet_distinct (snd mt)) (concat Ks) | _, _ => false end = true)
    by (vm_compute; reflexivity).
  destruct (graphDiameter N.ltb (2^62) 0 N.sub ex_mesh) as [d|]; [|discriminate].
  destruct ex_children as [Ks|]; [|discriminate]. exists d, Ks.
  split; auto. split; [vm_compute; discriminate|]. split; auto.
  destruct (ex_order d) as [(S1 & S2 & S3) EQ]. split.
  - split; [|split]; intros; [apply S1|eapply S2|eapply S3]; eauto.
  - intros mt i j p q Hm Hi Hj C. rewrite forallb_forall in B. apply EQ in C.
    eapply tet_distinct_ok; [apply B; exact Hm|exact Hi|exact Hj|exact C].
Qed.

(** If no triangle has more than two owners, the refined mesh is a valid input to the partitioner. *)
Theorem C14_refined_mesh_valid : forall less ts rm, refined_mesh less ts rm ->
  lenN (sm_cells rm) < 2^31 -> lenN (sm_faces rm) < 2^31 -> lenN (sm_nodes rm) < 2^31 ->
  (forall tri, (length (owners (sm_cells rm) tri) <= 2)%nat) ->
  Forall (fun mt => fst mt < two64) ts ->
  Forall (fun sn => Forall u64 (snode_fmt sn)) (sm_nodes rm) ->
  serial_mesh_ok rm.
Proof. exact refined_serial_ok. Qed.
Print Assumptions C14_refined_mesh_valid.
(** Two tetrahedra sharing a face. *)
Definition ex_rm : smesh :=
  mkSmesh serialName 2 2 7 5
    [mkScell (Q4 0 1 2 3) (Q4 0 1 2 3) 5; mkScell (Q4 0 4 5 6) (Q4 4 1 2 3) 6]
    [mkSface (Q2 0 1) (Q3 1 2 3); mkSface (Q2 0 INVALID) (Q3 0 2 3); mkSface (Q2 0 INVALID) (Q3 0 1 3);
     mkSface (Q2 0 INVALID) (Q3 0 1 2); mkSface (Q2 1 INVALID) (Q3 4 2 3); mkSface (Q2 1 INVALID) (Q3 4 1 3);
     mkSface (Q2 1 INVALID) (Q3 4 1 2)]
    [mkSnode (Q3 0 0 0); mkSnode (Q3 2 0 0); mkSnode (Q3 0 2 0); mkSnode (Q3 0 0 2); mkSnode (Q3 2 2 2)].
Definition ex_ts : list (N * q4 (q3 N)) :=
  [(5, Q4 (Q3 0 0 0) (Q3 2 0 0) (Q3 0 2 0) (Q3 0 0 2)); (6, Q4 (Q3 2 2 2) (Q3 2 0 0) (Q3 0 2 0) (Q3 0 0 2))].
Example C14_refined_mesh_valid_ex :
  option_map (fun st => (rs_cells st, rs_faces st, rs_nodes st))
    (fold_left (fun st mt => let* st := st in addTet (nodeLess (ex_ltMinus 0) (ex_gtPlus 0)) (fst mt) st (snd mt))
       ex_ts (Some rinit)) = Some (sm_cells ex_rm, sm_faces ex_rm, sm_nodes ex_rm) /\
  map (fun sf => length (owners (sm_cells ex_rm) (sf_nodes sf))) (sm_faces ex_rm) = [2; 1; 1; 1; 1; 1; 1]%nat.
Proof. split; vm_compute; reflexivity. Qed.

(** The order on nodes is a legal std::map order when distinct coordinates differ by more than the
    tolerance, and then only equal points are merged... *)
Theorem C14_node_order : forall tol (P : q3 R -> Prop), (0 <= tol)%R ->
  (forall p q k, P p -> P q -> In k [t0; t1; t2] -> (k p = k q \/ tol < Rabs (k p - k q))%R) ->
  strict_weak (nodeLess (ltTol tol) (gtTol tol)) P /\
  forall p q, P p -> P q -> (incomparable (nodeLess (ltTol tol) (gtTol tol)) p q <-> p = q).
Proof. exact tol_order_separated. Qed.
Print Assumptions C14_node_order.
Example C14_node_order_ex : forall p q k, In p [Q3 0 0 0; Q3 1 0 2]%R -> In q [Q3 0 0 0; Q3 1 0 2]%R ->
  In k [t0; t1; t2] -> (k p = k q \/ 1/2 < Rabs (k p - k q))%R.
Proof.
  intros p q k [<-|[<-|[]]] [<-|[<-|[]]] [<-|[<-|[<-|[]]]]; cbn; try (left; reflexivity); right;
  unfold Rabs; destruct (Rcase_abs _); lra.
Qed.

(** ... but with a positive tolerance it is not an order on all points. *)
Theorem C14_node_order_refuted : forall tol, (0 < tol)%R ->
  ~ strict_weak (nodeLess (ltTol tol) (gtTol tol)) (fun _ => True).
Proof. exact tol_order_fails. Qed.
Print Assumptions C14_node_order_refuted.

(** C15: every non-empty mesh with fewer than 1000 cells makes the progress print divide by zero. *)
Theorem C15_small_mesh_refuted : forall mid ltb dist dmax dmin ltMinus gtPlus sub name0 version0 sm,
  0 < lenN (sm_cells sm) < 1000 ->
  refineMesh mid ltb dist dmax dmin ltMinus gtPlus sub name0 version0 sm = None.
Proof.
  intros mid ltb dist dmax dmin ltMinus gtPlus sub name0 version0 sm [L1 L2]. unfold refineMesh.
  destruct (graphDiameter _ _ _ _ sm); [|reflexivity]. cbn [obind].
  replace (len (sm_cells sm) / 1000 =? 0) with true.
  2:{ symmetry. apply N.eqb_eq. apply N.div_small. exact L2. }
  destruct (sm_cells sm) as [|c l]; [cbn in L1; lia|]. cbn [fold_left obind].
  replace (fold_left _ l None) with (@None rstate); [reflexivity|]. clear. induction l; auto.
Qed.
Print Assumptions C15_small_mesh_refuted.
Example C15_small_mesh_refuted_ex : 0 < lenN (sm_cells ex_rm) < 1000 /\ graphDiameter N.ltb (2^62) 0 N.sub ex_rm = Some 2.
Proof. split; [vm_compute; auto|reflexivity]. Qed.
