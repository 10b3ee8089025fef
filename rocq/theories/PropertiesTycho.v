(** C16, C17, C51, C52: the local mesh of one rank. *)
From Coq Require Import Permutation Sorted.
From Verif Require Import Prelude Bytes MeshModel MeshSpec CreateModel CreateSpec CreateProofs PropertiesCreate TychoModel TychoSpec
  TychoProofs TychoVrtxProofs TychoMeshProofs TychoCreatedProofs MeshCheck.
Local Open Scope N_scope.

(** Coordinates on which < is an order (no NaN). *)
Definition ordered_nodes (ltb : N -> N -> bool) (P : partition) : Prop :=
  exists Good, weak_order ltb Good /\ forall nd x, In nd (pt_nodes P) -> In x (q3l (pn_coords nd)) -> Good x.

(** Reading a well-formed partition never fails, and the local mesh says of every face of
    every cell what the partition says. *)
Theorem C16_local_mesh : forall ltb P rank, part_wf P rank -> ordered_nodes ltb P ->
  exists m, readTychoMesh ltb P rank = Some m /\
    tm_nCells m = length (pt_cells P) /\ tm_nNodes m = length (pt_nodes P) /\ tm_coords m = map pn_coords (pt_nodes P) /\
    (forall c, getLGCell m c = option_map pc_gid (nth_error (pt_cells P) c)) /\
    (forall c, getCellMaterial m c = option_map pc_mat (nth_error (pt_cells P) c)) /\
    (forall c v, getCellNode m c v = (let* C := nth_error (pt_cells P) c in nth_error (q4l (pc_nodes C)) v)) /\
    (forall c lf, (c < length (pt_cells P))%nat -> (lf < 4)%nat -> exists f F, opposite P c lf f F /\
       forall g G, opposite P c lf g G -> g = f /\ G = F) /\
    (forall c lf f F, opposite P c lf f F -> pf_bdry F = NotBoundary ->
       exists c' lf', opposite P c' lf' f F /\ c' <> c /\
         getAdjCell m c lf = Some (N.of_nat c') /\ getAdjCell m c' lf' = Some (N.of_nat c) /\
         getAdjRank m c lf = Some rank /\ getSide m c lf = Some NOT_BOUNDARY_FACE) /\
    (forall c lf f F, opposite P c lf f F -> pf_bdry F <> NotBoundary ->
       getAdjCell m c lf = Some BOUNDARY_FACE /\ getAdjRank m c lf = Some (otherPart rank F) /\
       exists s, N.of_nat s < tm_nSides m /\ getSide m c lf = Some (N.of_nat s) /\ getSideCell m s = Some (N.of_nat c) /\
         getLGSide m s = Some (pf_gid F) /\ getGLSide m (pf_gid F) = Some (N.of_nat s)) /\
    (forall s, N.of_nat s < tm_nSides m -> exists c lf f F, opposite P c lf f F /\ pf_bdry F <> NotBoundary /\
       getSide m c lf = Some (N.of_nat s)).
Proof.
  intros ltb P rank W (Good & WO & GN). destruct (read_faithful ltb P rank W Good WO GN) as (m & E & FF). exists m. split; auto.
  destruct FF as [(S1 & S2) Hin Hout Hs Hn Hl Hm Hc Hv]. split; auto. split; auto. split; auto. split; auto. split; auto. split; auto.
  split; [|split; [|split; auto]].
  - intros c lf A B. destruct (opposite_ex P rank W c lf A B) as (f & F & O). exists f, F. split; auto. intros g G O'.
    destruct (opposite_fun P rank W _ _ _ _ _ _ O O') as (-> & ->). auto.
  - intros c lf f F O EB. destruct (Hin c lf f F O EB) as (c' & lf' & K1 & K2 & K3 & _ & K4 & _ & K5 & K6). exists c', lf'. auto 10.
Qed.
Print Assumptions C16_local_mesh.

(** Every partition the partitioner makes from a mesh of non-degenerate tetrahedra is well-formed. *)
Theorem C16_created_well_formed : forall sm pv np m p P, serial_mesh_ok sm -> tets_ok sm -> partition_vector_ok sm pv np ->
  createFromSerialMesh sm pv np = Some m -> PM_part m p = Some P -> part_wf P p.
Proof. intros sm pv np m p P OK TT PV CR HP. exact (created_wf sm pv np m OK PV CR TT p P HP). Qed.
Print Assumptions C16_created_well_formed.

(** In terms of the serial mesh: across face [lf] of local cell [c] (global cell [g]) lies the
    global cell [h]; the local mesh names it if it is on this rank, names its rank if it is on
    another rank, and says BAD_RANK outside the domain. *)
Theorem C16_serial_adjacency : forall ltb sm pv np m p P t, serial_mesh_ok sm -> tets_ok sm -> partition_vector_ok sm pv np ->
  createFromSerialMesh sm pv np = Some m -> PM_part m p = Some P -> ordered_nodes ltb P -> readTychoMesh ltb P p = Some t ->
  forall c g lf f sf, getLGCell t c = Some g -> s_opposite sm g lf f sf ->
  let h := s_across sf g in
  match owner pv h with
  | Some q =>
      if q =? p then exists c' lf', getAdjCell t c lf = Some (N.of_nat c') /\ getLGCell t c' = Some h /\ s_opposite sm h lf' f sf /\
                       getAdjCell t c' lf' = Some (N.of_nat c) /\ getAdjRank t c lf = Some p /\ getSide t c lf = Some NOT_BOUNDARY_FACE
      else getAdjCell t c lf = Some BOUNDARY_FACE /\ getAdjRank t c lf = Some q /\
           exists s, getSide t c lf = Some (N.of_nat s) /\ getLGSide t s = Some f /\ getGLSide t f = Some (N.of_nat s) /\ getSideCell t s = Some (N.of_nat c)
  | None => h = INVALID /\ getAdjCell t c lf = Some BOUNDARY_FACE /\ getAdjRank t c lf = Some BAD_RANK /\
           exists s, getSide t c lf = Some (N.of_nat s) /\ getLGSide t s = Some f /\ getGLSide t f = Some (N.of_nat s) /\ getSideCell t s = Some (N.of_nat c)
  end.
Proof.
  intros ltb sm pv np m p P t OK TT PV CR HP (Good & WO & GN) RD c g lf f sf LG SO h.
  pose proof (created_wf sm pv np m OK PV CR TT p P HP) as W.
  destruct (read_faithful ltb P p W Good WO GN) as (t' & E & FF). rewrite RD in E. apply Some_inj in E. subst t'.
  rewrite (ff_lg _ _ _ FF) in LG. destruct (nth_error (pt_cells P) c) as [C|] eqn:HC; [|discriminate]. cbn in LG. apply Some_inj in LG. subst g.
  destruct (serial_opposite sm pv np m OK PV CR p P HP c C lf f sf HC SO) as (fl & F & O & EG). subst f.
  pose proof O as (C1 & HC1 & Hf & HF & L & S). assert (C1 = C) by congruence. subst C1.
  assert (HS : SM_face sm (pf_gid F) = Some sf) by (destruct SO as (? & _ & _ & ? & _); auto).
  destruct (classify sm pv np m OK PV CR TT p P HP c C fl F sf HC Hf HF HS) as (Hne & Hcells & K). fold h in Hne, Hcells, K.
  destruct (cell_info sm pv np m OK PV CR p P HP c C HC) as (sc & _ & Oc & _).
  destruct (owner pv h) as [q|] eqn:Oh.
  - destruct K as (NI & K). destruct (N.eqb_spec q p) as [->|Nq].
    + destruct K as (EB & _ & c1 & C1' & HC1' & EG & _ & Hcc). destruct (ff_inner _ _ _ FF _ _ _ _ O EB) as (c' & lf' & O' & Nc & A1 & _ & A2 & _ & A3 & A4).
      exists c', lf'. split; auto.
      pose proof O' as (C' & HC' & Hf' & _).
      destruct (classify sm pv np m OK PV CR TT p P HP c' C' fl F sf HC' Hf' HF HS) as (Hne' & Hcells' & _).
      assert (EH : pc_gid C' = h).
      { assert (pc_gid C' <> pc_gid C) by (intros X; apply Nc; eapply (gid_unique pc_gid); [apply (nd_cells sm pv np m OK PV CR p P HP)|eauto..]).
        destruct Hcells as [X|X]; destruct Hcells' as [X'|X']; congruence. }
      split; [rewrite (ff_lg _ _ _ FF), HC'; cbn; now rewrite EH|].
      destruct (opposite_serial sm pv np m OK PV CR p P HP c' C' lf' fl F HC' O') as (sf' & SO'). rewrite EH in SO'.
      assert (sf' = sf) by (destruct SO' as (? & _ & _ & ? & _); congruence). subst sf'. auto.
    + destruct K as (EB & Hp). assert (NB : pf_bdry F <> NotBoundary) by (rewrite EB; discriminate).
      destruct (ff_outer _ _ _ FF _ _ _ _ O NB) as (A1 & A2 & s & _ & A3 & A4 & A5 & A6). split; auto.
      split; [rewrite A2; f_equal; unfold otherPart; destruct Hp as [-> | ->]|exists s; auto].
      * now rewrite N.eqb_refl.
      * destruct (N.eqb_spec q p); congruence.
  - destruct K as (NI & EB & Hp). assert (NB : pf_bdry F <> NotBoundary) by (rewrite EB; discriminate).
    destruct (ff_outer _ _ _ FF _ _ _ _ O NB) as (A1 & A2 & s & _ & A3 & A4 & A5 & A6). split; auto. split; auto.
    split; [rewrite A2; f_equal; unfold otherPart, BAD_RANK; destruct Hp as [-> | ->]|exists s; auto].
    + now rewrite N.eqb_refl.
    + assert (p <> INVALID).
      { destruct PV as (_ & Lt & Sm). rewrite Forall_forall in Lt. apply nth_error_In in Oc. specialize (Lt p Oc).
        change (2^31) with 2147483648 in Sm. unfold INVALID. lia. }
      destruct (N.eqb_spec INVALID p); congruence.
Qed.
Print Assumptions C16_serial_adjacency.

(** A face between two ranks is one side on each, with the same global number, and each rank's
    side belongs to the cell the other rank sees across it. *)
Theorem C16_cross_rank : forall ltb sm pv np m p P tp q Q tq, serial_mesh_ok sm -> tets_ok sm -> partition_vector_ok sm pv np ->
  createFromSerialMesh sm pv np = Some m -> PM_part m p = Some P -> PM_part m q = Some Q ->
  ordered_nodes ltb P -> ordered_nodes ltb Q -> readTychoMesh ltb P p = Some tp -> readTychoMesh ltb Q q = Some tq ->
  forall c g lf f sf, getLGCell tp c = Some g -> s_opposite sm g lf f sf -> owner pv (s_across sf g) = Some q -> q <> p ->
  exists s s' c' lf', getSide tp c lf = Some (N.of_nat s) /\ getLGSide tp s = Some f /\
    getGLSide tq f = Some (N.of_nat s') /\ getSideCell tq s' = Some (N.of_nat c') /\ getSide tq c' lf' = Some (N.of_nat s') /\
    getLGCell tq c' = Some (s_across sf g) /\ s_opposite sm (s_across sf g) lf' f sf /\ getAdjRank tq c' lf' = Some p.
Proof.
  intros ltb sm pv np m p P tp q Q tq OK TT PV CR HP HQ NP NQ RP RQ c g lf f sf LG SO Oh Nq.
  pose proof (C16_serial_adjacency ltb sm pv np m p P tp OK TT PV CR HP NP RP c g lf f sf LG SO) as A. cbn zeta in A. rewrite Oh in A.
  rewrite (proj2 (N.eqb_neq _ _) Nq) in A. destruct A as (_ & _ & s & A1 & A2 & _ & _).
  pose proof (created_wf sm pv np m OK PV CR TT p P HP) as W. destruct NP as (Good & WO & GN).
  destruct (read_faithful ltb P p W Good WO GN) as (t' & E & FF). rewrite RP in E. apply Some_inj in E. subst t'.
  rewrite (ff_lg _ _ _ FF) in LG. destruct (nth_error (pt_cells P) c) as [C|] eqn:HC; [|discriminate]. cbn in LG. apply Some_inj in LG. subst g.
  destruct (serial_opposite sm pv np m OK PV CR p P HP c C lf f sf HC SO) as (fl & F & O & EG). subst f.
  pose proof O as (C1 & HC1 & Hf & HF & L & S). assert (C1 = C) by congruence. subst C1.
  assert (HS : SM_face sm (pf_gid F) = Some sf) by (destruct SO as (? & _ & _ & ? & _); auto).
  destruct (classify sm pv np m OK PV CR TT p P HP c C fl F sf HC Hf HF HS) as (Hne & Hcells & K). set (h := s_across sf (pc_gid C)) in *.
  rewrite Oh in K. destruct K as (NI & _).
  (* h is a cell of q *)
  pose proof (created_wf sm pv np m OK PV CR TT q Q HQ) as WQ. destruct NQ as (GoodQ & WOQ & GNQ).
  destruct (read_faithful ltb Q q WQ GoodQ WOQ GNQ) as (t' & E & FFQ). rewrite RQ in E. apply Some_inj in E. subst t'.
  assert (Ih : In h (q2l (sf_cells sf))) by (destruct Hcells as [-> | ->]; cbn; auto).
  destruct (smo_fc sm OK _ _ _ HS Ih NI) as (sh & Hsh & Hinh).
  destruct (cells_of sm pv np m OK PV CR q Q HQ) as (_ & IFF).
  assert (Hq : In h (cellGids Q)) by (apply IFF; eauto). unfold cellGids in Hq. apply in_map_iff in Hq. destruct Hq as (C' & EC' & HinC').
  destruct (In_nth_error _ _ HinC') as (c' & HC').
  destruct (cell_info sm pv np m OK PV CR q Q HQ c' C' HC') as (sh' & Hsh' & _ & Bf & _). rewrite EC' in Hsh'. assert (sh' = sh) by congruence. subst sh'.
  destruct (map_in_eq _ _ _ _ _ (eq_sym Bf) Hinh) as (fq & Hfq & Efq). unfold faceGid in Efq. destruct (P_face Q fq) as [FQ|] eqn:HFQ; [|discriminate].
  cbn in Efq. apply Some_inj in Efq.
  destruct (face_lf Q q WQ c' C' fq HC' Hfq) as (FQ' & lf' & HFQ' & _ & OQ). assert (FQ' = FQ) by congruence. subst FQ'.
  destruct (opposite_serial sm pv np m OK PV CR q Q HQ c' C' lf' fq FQ HC' OQ) as (sf' & SOQ). rewrite <- Efq, EC' in SOQ.
  assert (sf' = sf) by (destruct SOQ as (? & _ & _ & ? & _); congruence). subst sf'.
  assert (LGQ : getLGCell tq c' = Some h) by (rewrite (ff_lg _ _ _ FFQ), HC'; cbn; now rewrite EC').
  pose proof (C16_serial_adjacency ltb sm pv np m q Q tq OK TT PV CR HQ (ex_intro _ GoodQ (conj WOQ GNQ)) RQ c' h lf' (pf_gid F) sf LGQ SOQ) as B.
  cbn zeta in B. assert (EA : s_across sf h = pc_gid C).
  { unfold s_across. destruct Hcells as [-> | ->]; [|now rewrite N.eqb_refl]. destruct (N.eqb_spec (pc_gid C) h); congruence. }
  rewrite EA in B. destruct (cell_info sm pv np m OK PV CR p P HP c C HC) as (sc & _ & Oc & _). rewrite Oc in B.
  assert (Np : p <> q) by congruence. rewrite (proj2 (N.eqb_neq _ _) Np) in B. destruct B as (_ & B1 & s' & B2 & B3 & B4 & B5).
  exists s, s', c', lf'. auto 10.
Qed.
Print Assumptions C16_cross_rank.

(** The two vertex numberings of a face are inverse, the k-th face vertex is the k-th node of
    the face record, the constructor's own check passes, and the neighbour's vertex is the
    same node. *)
Theorem C17_vertex_maps : forall ltb P rank m, part_wf P rank -> ordered_nodes ltb P -> readTychoMesh ltb P rank = Some m ->
  checkVrtxMaps m = true /\
  (forall c lf f F k n, opposite P c lf f F -> nth_error (q3l (pf_nodes F)) k = Some n ->
     (exists v, getFaceToCellVrtx m c lf k = Some (N.of_nat v) /\ v <> lf /\ getCellNode m c v = Some n /\
        getCellToFaceVrtx m c lf v = Some (N.of_nat k)) /\
     (pf_bdry F = NotBoundary -> exists c' v', getAdjCell m c lf = Some (N.of_nat c') /\
        neighborVrtx m c lf k = Some (N.of_nat v') /\ getCellNode m c' v' = Some n) /\
     (pf_bdry F <> NotBoundary -> neighborVrtx m c lf k = Some INVALID)) /\
  (forall c lf v, (c < length (pt_cells P))%nat -> (lf < 4)%nat -> (v < 4)%nat -> v <> lf ->
     exists k, (k < 3)%nat /\ getCellToFaceVrtx m c lf v = Some (N.of_nat k) /\ getFaceToCellVrtx m c lf k = Some (N.of_nat v)).
Proof.
  intros ltb P rank m W (Good & WO & GN) RD. destruct (read_faithful ltb P rank W Good WO GN) as (m' & E & FF). rewrite RD in E. apply Some_inj in E. subst m'.
  split; [exact (check_ok P rank W m FF)|]. split.
  - intros c lf f F k n O Hn. split; [exact (vrtx_maps P rank W m FF c lf f F k n O Hn)|].
    pose proof (neighbor_ok P rank W m FF c lf f F k n O Hn) as K. destruct (N.eqb_spec (pf_bdry F) NotBoundary); split; intros; auto; contradiction.
  - intros c lf v Hc Hl Hv Ne. destruct (opposite_ex P rank W c lf Hc Hl) as (f & F & O). pose proof O as (C & HC & _).
    destruct (cell_node P rank W c lf f F C v O HC Hv Ne) as (n & k & H1 & H2). exists k. split; [eapply nth_q3_lt; eauto|].
    destruct (ff_vrtx _ _ _ FF _ _ _ _ _ _ _ _ O HC H1 H2). auto.
Qed.
Print Assumptions C17_vertex_maps.

(** In terms of the serial mesh: the k-th vertex of a face is the k-th node of the face in the
    serial mesh file, whichever cell, and whichever rank, it is seen from. *)
Theorem C17_serial_vertex : forall ltb sm pv np m p P t, serial_mesh_ok sm -> tets_ok sm -> partition_vector_ok sm pv np ->
  createFromSerialMesh sm pv np = Some m -> PM_part m p = Some P -> ordered_nodes ltb P -> readTychoMesh ltb P p = Some t ->
  forall c g lf f sf k n, getLGCell t c = Some g -> s_opposite sm g lf f sf -> nth_error (q3l (sf_nodes sf)) k = Some n ->
  exists v nl sn, getFaceToCellVrtx t c lf k = Some (N.of_nat v) /\ getCellNode t c v = Some nl /\
    nodeGid P nl = Some n /\ SM_node sm n = Some sn /\ nth_error (tm_coords t) (N.to_nat nl) = Some (sn_coords sn).
Proof.
  intros ltb sm pv np m p P t OK TT PV CR HP (Good & WO & GN) RD c g lf f sf k n LG SO Hn.
  pose proof (created_wf sm pv np m OK PV CR TT p P HP) as W.
  destruct (read_faithful ltb P p W Good WO GN) as (t' & E & FF). rewrite RD in E. apply Some_inj in E. subst t'.
  rewrite (ff_lg _ _ _ FF) in LG. destruct (nth_error (pt_cells P) c) as [C|] eqn:HC; [|discriminate]. cbn in LG. apply Some_inj in LG. subst g.
  destruct (serial_opposite sm pv np m OK PV CR p P HP c C lf f sf HC SO) as (fl & F & O & EG). subst f.
  pose proof O as (C1 & HC1 & Hf & HF & L & S).
  destruct (face_info sm pv np m OK PV CR p P HP fl F HF) as (sf' & HS' & Bn).
  assert (sf' = sf) by (destruct SO as (? & _ & _ & ? & _); congruence). subst sf'.
  destruct (map_nth_eq _ _ _ _ _ _ (eq_sym Bn) Hn) as (nl & Hnl & En).
  destruct (vrtx_maps P p W t FF c lf fl F k nl O Hnl) as (v & A & _ & B & _).
  destruct (created sm pv np m OK PV CR) as (sets & _ & _ & _ & _ & K & _).
  destruct (node_coords_ok sm pv sets p P nl n (K p P HP) (eq_sym En)) as (pn & sn & N1 & N2 & N3 & N4).
  exists v, nl, sn. split; auto. split; auto. split; auto. split; auto. rewrite (ff_coords _ _ _ FF).
  unfold P_node in N1. rewrite (map_nth_error pn_coords _ _ N1). now rewrite N4.
Qed.
Print Assumptions C17_serial_vertex.

(** getAdjFace returns the adjacent cell: always equal to getAdjCell, and in a mesh of two
    tetrahedra different from the face index in the adjacent cell. *)
Theorem C51_getAdjFace_refuted :
  (forall m c f, getAdjFace m c f = getAdjCell m c f) /\
  exists P rank m c lf f F c' lf', part_wf P rank /\ readTychoMesh N.ltb P rank = Some m /\
    opposite P c lf f F /\ opposite P c' lf' f F /\ getAdjCell m c lf = Some (N.of_nat c') /\ c' <> c /\
    getAdjFace m c lf <> Some (N.of_nat lf').
Proof.
  split; [reflexivity|].
  destruct C12_mesh_ok as (OK & _).
  assert (PV : partition_vector_ok C12_mesh [0; 0] 1) by (split; [reflexivity|]; split; [repeat constructor|reflexivity]).
  assert (TT : tets_ok C12_mesh) by (apply tetsb_ok; vm_compute; reflexivity).
  destruct (createFromSerialMesh C12_mesh [0; 0] 1) as [pm|] eqn:CR; [|vm_compute in CR; discriminate].
  destruct (PM_part pm 0) as [P|] eqn:HP; [|vm_compute in CR; apply Some_inj in CR; subst pm; vm_compute in HP; discriminate].
  pose proof (created_wf _ _ _ _ OK PV CR TT _ _ HP) as W.
  vm_compute in CR. apply Some_inj in CR. subst pm. vm_compute in HP. apply Some_inj in HP. subst P.
  eexists. exists 0. eexists. exists 0%nat, 0%nat, 0. eexists. exists 1%nat, 0%nat. split; [exact W|]. split; [vm_compute; reflexivity|].
  split; [|split; [|split; [vm_compute; reflexivity|split; [discriminate|vm_compute; discriminate]]]].
  - eexists. split; [reflexivity|]. split; [cbn; auto|]. split; [reflexivity|]. split; [lia|].
    intros v n Hv. destruct v as [|[|[|[|v]]]]; cbn in Hv; [| | | |destruct v; discriminate]; apply Some_inj in Hv; subst n; cbn; intuition (discriminate || congruence).
  - eexists. split; [reflexivity|]. split; [cbn; auto|]. split; [reflexivity|]. split; [lia|].
    intros v n Hv. destruct v as [|[|[|[|v]]]]; cbn in Hv; [| | | |destruct v; discriminate]; apply Some_inj in Hv; subst n; cbn; intuition (discriminate || congruence).
Qed.
Print Assumptions C51_getAdjFace_refuted.

(** Three tetrahedra, cell 0 on rank 0, cells 1 and 2 on rank 1. *)
Definition C52_mesh : smesh := mkSmesh [] 0 3 10 6
  [mkScell (Q4 0 1 2 3) (Q4 0 1 2 3) 0; mkScell (Q4 1 4 5 6) (Q4 0 2 3 4) 0; mkScell (Q4 0 7 8 9) (Q4 1 2 3 5) 0]
  [mkSface (Q2 0 2) (Q3 1 2 3); mkSface (Q2 0 1) (Q3 0 2 3); mkSface (Q2 0 INVALID) (Q3 0 1 3); mkSface (Q2 0 INVALID) (Q3 0 1 2);
   mkSface (Q2 1 INVALID) (Q3 2 3 4); mkSface (Q2 1 INVALID) (Q3 0 3 4); mkSface (Q2 1 INVALID) (Q3 0 2 4);
   mkSface (Q2 2 INVALID) (Q3 2 3 5); mkSface (Q2 2 INVALID) (Q3 1 3 5); mkSface (Q2 2 INVALID) (Q3 1 2 5)]
  [mkSnode (Q3 10 20 30); mkSnode (Q3 11 21 31); mkSnode (Q3 12 22 32); mkSnode (Q3 13 23 33); mkSnode (Q3 14 24 34); mkSnode (Q3 15 25 35)].
Lemma C52_mesh_ok : serial_mesh_ok C52_mesh /\ tets_ok C52_mesh /\ partition_vector_ok C52_mesh [0; 1; 1] 2.
Proof.
  split; [apply crossb_ok; [apply serial_wfb_ok|]; vm_compute; reflexivity|]. split; [apply tetsb_ok; vm_compute; reflexivity|].
  split; [reflexivity|]. split; [repeat constructor|reflexivity].
Qed.

(** The cell recorded for a side of rank 0 is not the cell across it: the sides meeting have
    different global numbers. *)
Theorem C52_side_pairing_refuted : exists sm pv m P0 P1 t0 t1 s g c f s' g',
  serial_mesh_ok sm /\ tets_ok sm /\ partition_vector_ok sm pv 2 /\ createFromSerialMesh sm pv 2 = Some m /\
  PM_part m 0 = Some P0 /\ PM_part m 1 = Some P1 /\ readTychoMesh N.ltb P0 0 = Some t0 /\ readTychoMesh N.ltb P1 1 = Some t1 /\
  getLGSide t0 s = Some g /\ adjFromSide t0 t1 0 1 (N.of_nat s) = Some (c, f) /\
  getSide t1 c f = Some (N.of_nat s') /\ getLGSide t1 s' = Some g' /\ g' <> g.
Proof.
  destruct C52_mesh_ok as (OK & TT & PV). exists C52_mesh, [0; 1; 1].
  eexists. eexists. eexists. eexists. eexists. exists 0%nat, 0, 0%nat, 3%nat. eexists. eexists.
  split; [exact OK|]. split; [exact TT|]. split; [exact PV|]. split; [vm_compute; reflexivity|].
  split; [vm_compute; reflexivity|]. split; [vm_compute; reflexivity|]. split; [vm_compute; reflexivity|]. split; [vm_compute; reflexivity|].
  split; [vm_compute; reflexivity|]. split; [vm_compute; reflexivity|].
  split; [instantiate (1 := 3%nat); vm_compute; reflexivity|]. split; [vm_compute; reflexivity|]. discriminate.
Qed.
Print Assumptions C52_side_pairing_refuted.

(** When the two ranks do enumerate their shared faces in the same order the recorded cell is
    the one across the side. *)
Theorem C52_same_order : forall tr tq r q s cf cf', 
  map (fun e => tm_lGSides tr (N.to_nat (tm_side tr (fst e) (snd e)))) (xchgItems tr q) =
  map (fun e => tm_lGSides tq (N.to_nat (tm_side tq (fst e) (snd e)))) (xchgItems tq r) ->
  In cf (xchgItems tr q) -> tm_side tr (fst cf) (snd cf) = s -> adjFromSide tr tq r q s = Some cf' ->
  tm_lGSides tq (N.to_nat (tm_side tq (fst cf') (snd cf'))) = tm_lGSides tr (N.to_nat s).
Proof.
  intros tr tq r q s cf cf' E Hin Hs A. unfold adjFromSide in A.
  destruct (find _ _) as [k|] eqn:Ek; [|discriminate]. cbn [obind] in A. apply find_some in Ek. destruct Ek as (_ & Ek).
  destruct (nth_error (xchgItems tr q) k) as [x|] eqn:Ex; [|discriminate]. apply N.eqb_eq in Ek.
  destruct (map_nth_eq _ _ _ _ _ _ E Ex) as (y & Hy & Ey). rewrite A in Hy. apply Some_inj in Hy. subst y.
  rewrite <- Ey, Ek. reflexivity.
Qed.
Print Assumptions C52_same_order.

(** The hypotheses are met: C52_mesh on two ranks, with < on bit patterns as the order. *)
Lemma N_weak : weak_order N.ltb (fun _ => True).
Proof.
  split; [intros; apply N.ltb_irrefl|]. split; intros a b c _ _ _; rewrite ?N.ltb_lt, ?N.ltb_ge; lia.
Qed.
Example C16_ex : exists m P1 t1, createFromSerialMesh C52_mesh [0; 1; 1] 2 = Some m /\ PM_part m 1 = Some P1 /\
  part_wf P1 1 /\ ordered_nodes N.ltb P1 /\ readTychoMesh N.ltb P1 1 = Some t1 /\
  tm_nSides t1 = 8 /\ map (getLGSide t1) (seq 0 8) = map Some [4; 5; 6; 1; 7; 8; 9; 0] /\
  getAdjRank t1 0 3 = Some 0 /\ getAdjRank t1 0 1 = Some BAD_RANK /\ checkVrtxMaps t1 = true.
Proof.
  destruct C52_mesh_ok as (OK & TT & PV).
  destruct (createFromSerialMesh C52_mesh [0; 1; 1] 2) as [m|] eqn:CR; [|vm_compute in CR; discriminate].
  destruct (PM_part m 1) as [P|] eqn:HP; [|vm_compute in CR; apply Some_inj in CR; subst m; vm_compute in HP; discriminate].
  pose proof (created_wf _ _ _ _ OK PV CR TT _ _ HP) as W. exists m, P. vm_compute in CR. apply Some_inj in CR. subst m. vm_compute in HP. apply Some_inj in HP. subst P.
  eexists. split; [reflexivity|]. split; [vm_compute; reflexivity|]. split; [exact W|].
  split; [exists (fun _ => True); split; [exact N_weak|auto]|]. split; [vm_compute; reflexivity|]. vm_compute. auto 10.
Qed.
