(** C11, C12 (and C10 for created meshes): partitioning a serial mesh. *)
From Coq Require Import Permutation Sorted.
From Verif Require Import Prelude Bytes PsiFileModel MeshModel MeshSpec MeshProofs CreateModel CreateSpec CreateProofs.
Local Open Scope N_scope.

(** Every cell in exactly one partition, the requested one, with id, material, node ids and
    coordinates preserved, for every well-formed serial mesh and every partition vector. *)
Theorem C11_partition_total : forall sm pv np, serial_mesh_ok sm -> partition_vector_ok sm pv np ->
  exists m, createFromSerialMesh sm pv np = Some m /\
    pm_numPartitions m = N.of_nat np /\ length (pm_parts m) = np /\
    Permutation (flat_map cellGids (pm_parts m)) (map N.of_nat (seq 0 (length (sm_cells sm)))) /\
    (forall p P, PM_part m p = Some P -> StronglySorted N.lt (cellGids P) /\
       (pt_numCells P, pt_numFaces P, pt_numNodes P) = (lenN (pt_cells P), lenN (pt_faces P), lenN (pt_nodes P))) /\
    (forall p P c, PM_part m p = Some P -> In c (pt_cells P) ->
       owner pv (pc_gid c) = Some p /\
       exists sc, SM_cell sm (pc_gid c) = Some sc /\ pc_mat c = sc_mat sc /\
         map (nodeGid P) (q4l (pc_nodes c)) = map Some (q4l (sc_nodes sc)) /\
         map (fun n => option_map pn_coords (P_node P n)) (q4l (pc_nodes c)) =
         map (fun n => option_map sn_coords (SM_node sm n)) (q4l (sc_nodes sc))).
Proof.
  intros sm pv np OK PV. destruct (create_ok sm pv np OK PV) as (m & sets & E & SI & E1 & E2 & _ & K & _).
  exists m. split; auto. split; auto. split; auto. split; [exact (all_cells_once sm pv np m OK PV E)|].
  split.
  - intros p P HP. split; [exact (proj1 (cells_of sm pv np m OK PV E p P HP))|].
    destruct (K p P HP) as [A B C _ _ _ _ _ _]. congruence.
  - intros p P c HP Hc. split.
    + apply (cells_of sm pv np m OK PV E p P HP). now apply in_map.
    + destruct (po_cell _ _ _ _ _ (K p P HP) c Hc) as (sc & A & B & _ & D). exists sc. split; auto. split; auto. split; auto.
      cbn [q4l map] in D |- *. injection D as D0 D1 D2 D3.
      destruct (node_coords_ok sm pv sets p P _ _ (K p P HP) D0) as (? & ? & A0 & B0 & _ & C0).
      destruct (node_coords_ok sm pv sets p P _ _ (K p P HP) D1) as (? & ? & A1 & B1 & _ & C1).
      destruct (node_coords_ok sm pv sets p P _ _ (K p P HP) D2) as (? & ? & A2 & B2 & _ & C2).
      destruct (node_coords_ok sm pv sets p P _ _ (K p P HP) D3) as (? & ? & A3 & B3 & _ & C3).
      rewrite A0, A1, A2, A3, B0, B1, B2, B3. cbn [option_map]. now rewrite C0, C1, C2, C3.
Qed.
Print Assumptions C11_partition_total.

(** The bound on ids is needed: face and node ids pass through [int]; a mesh in which a cell
    uses an id in [2^31, 2^64 - 2^31) makes find() return end(), which is dereferenced. *)
Theorem C11_large_ids_refuted : forall sm pv np c sc f, sm_numCells sm = lenN (sm_cells sm) ->
  SM_cell sm c = Some sc -> In f (q4l (sc_faces sc) ++ q4l (sc_nodes sc)) ->
  2^31 <= f < 2^64 - 2^31 -> createFromSerialMesh sm pv np = None.
Proof. exact create_large_id. Qed.
Print Assumptions C11_large_ids_refuted.

(** Local references denote the same global entities as in the serial mesh. *)
Theorem C12_references : forall sm pv np m p P, serial_mesh_ok sm -> partition_vector_ok sm pv np ->
  createFromSerialMesh sm pv np = Some m -> PM_part m p = Some P ->
  (forall c, In c (pt_cells P) -> exists sc, SM_cell sm (pc_gid c) = Some sc /\
     map (faceGid P) (q4l (pc_faces c)) = map Some (q4l (sc_faces sc)) /\
     map (nodeGid P) (q4l (pc_nodes c)) = map Some (q4l (sc_nodes sc))) /\
  (forall F, In F (pt_faces P) -> exists sf, SM_face sm (pf_gid F) = Some sf /\
     side_ok m pv (p0 (sf_cells sf)) (p0 (pf_cells F)) (p0 (pf_part F)) /\
     side_ok m pv (p1 (sf_cells sf)) (p1 (pf_cells F)) (p1 (pf_part F)) /\
     map (nodeGid P) (q3l (pf_nodes F)) = map Some (q3l (sf_nodes sf))) /\
  (forall n, In n (pt_nodes P) -> exists sn, SM_node sm (pn_gid n) = Some sn /\ pn_coords n = sn_coords sn).
Proof.
  intros sm pv np m p P OK PV CR HP. destruct (created sm pv np m OK PV CR) as (sets & _ & _ & _ & _ & K & _).
  pose proof (K p P HP) as PO. split; [|split].
  - intros c Hc. destruct (po_cell _ _ _ _ _ PO c Hc) as (sc & A & _ & B & C). eauto.
  - intros F HF. destruct (face_rec sm pv np m OK PV CR p P F HP HF) as (sf & A & B & C & _ & D & _). exists sf. auto.
  - exact (po_node _ _ _ _ _ PO).
Qed.
Print Assumptions C12_references.

(** A face between two partitions appears in exactly those two, once in each, as a partition
    boundary naming both, with the same nodes in the same order. *)
Theorem C12_partition_boundary : forall sm pv np m f sf a b pa pb, serial_mesh_ok sm -> partition_vector_ok sm pv np ->
  createFromSerialMesh sm pv np = Some m ->
  SM_face sm f = Some sf -> sf_cells sf = Q2 a b -> a <> INVALID -> b <> INVALID ->
  owner pv a = Some pa -> owner pv b = Some pb -> pa <> pb ->
  forall p P, PM_part m p = Some P -> NoDup (faceGids P) /\ (In f (faceGids P) <-> p = pa \/ p = pb) /\
    forall F, In F (pt_faces P) -> pf_gid F = f ->
      pf_bdry F = PartitionBoundary /\ pf_part F = Q2 pa pb /\
      map (nodeGid P) (q3l (pf_nodes F)) = map Some (q3l (sf_nodes sf)).
Proof.
  intros sm pv np m f sf a b pa pb OK PV CR Hf Hc Na Nb Oa Ob NE p P HP.
  destruct (faces_of sm pv np m OK PV CR p P f sf HP Hf) as (ND & IFF). split; auto. rewrite Hc in IFF. cbn [q2l In p0 p1] in IFF.
  split. { rewrite IFF. split.
    - intros (c & [<-|[<-|[]]] & _ & O); [left|right]; congruence.
    - intros [-> | ->]; [exists a|exists b]; auto. }
  intros F HF EF. destruct (face_rec sm pv np m OK PV CR p P F HP HF) as (sf' & A & B & C & D & G & c & Hin & NI & O).
  rewrite EF, Hf in A. apply Some_inj in A. subst sf'. rewrite Hc in *. cbn [MeshModel.p0 MeshModel.p1] in *.
  destruct B as [(B & _)|(_ & B & _)]; [congruence|]. destruct C as [(C & _)|(_ & C & _)]; [congruence|].
  rewrite Oa in B. rewrite Ob in C. apply Some_inj in B, C.
  split; [|split; auto; destruct (pf_part F); cbn [MeshModel.p0 MeshModel.p1] in *; congruence].
  rewrite D. unfold side_bdry. rewrite <- B, <- C.
  destruct (N.eqb_spec a INVALID); [congruence|]. destruct (N.eqb_spec b INVALID); [congruence|].
  destruct (N.eqb_spec pb p); [|reflexivity]. destruct (N.eqb_spec pa p); [congruence|reflexivity].
Qed.
Print Assumptions C12_partition_boundary.

(** A face with one cell: an exterior boundary, in the partition of that cell only. *)
Theorem C12_exterior_face : forall sm pv np m f sf a pa, serial_mesh_ok sm -> partition_vector_ok sm pv np ->
  createFromSerialMesh sm pv np = Some m ->
  SM_face sm f = Some sf -> (sf_cells sf = Q2 a INVALID \/ sf_cells sf = Q2 INVALID a) -> a <> INVALID ->
  owner pv a = Some pa ->
  forall p P, PM_part m p = Some P -> NoDup (faceGids P) /\ (In f (faceGids P) <-> p = pa) /\
    forall F, In F (pt_faces P) -> pf_gid F = f ->
      pf_bdry F = MeshBoundary /\ (sf_cells sf = Q2 a INVALID -> pf_part F = Q2 pa INVALID) /\
      (sf_cells sf = Q2 INVALID a -> pf_part F = Q2 INVALID pa).
Proof.
  intros sm pv np m f sf a pa OK PV CR Hf Hc Na Oa p P HP.
  destruct (faces_of sm pv np m OK PV CR p P f sf HP Hf) as (ND & IFF). split; auto.
  assert (IFF' : In f (faceGids P) <-> p = pa).
  { rewrite IFF. split.
    - intros (c & Hin & NI & O). assert (c = a) by (destruct Hc as [Hc|Hc]; rewrite Hc in Hin; cbn in Hin; intuition congruence). congruence.
    - intros ->. exists a. split; [destruct Hc as [Hc|Hc]; rewrite Hc; cbn; auto|auto]. }
  split; auto. intros F HF EF. assert (p = pa) by (apply IFF'; rewrite <- EF; now apply in_map). subst p.
  destruct (face_rec sm pv np m OK PV CR pa P F HP HF) as (sf' & A & B & C & D & G & _).
  rewrite EF, Hf in A. apply Some_inj in A. subst sf'.
  destruct Hc as [Hc|Hc]; rewrite Hc in *; cbn [MeshModel.p0 MeshModel.p1] in *.
  - destruct B as [(B & _)|(_ & B & _)]; [congruence|]. destruct C as [(_ & _ & C)|(C & _)]; [|congruence].
    rewrite Oa in B. apply Some_inj in B. split; [|split; [|intros E; congruence]].
    + rewrite D. unfold side_bdry. now rewrite N.eqb_refl.
    + intros _. destruct (pf_part F); cbn [MeshModel.p0 MeshModel.p1] in *; congruence.
  - destruct C as [(C & _)|(_ & C & _)]; [congruence|]. destruct B as [(_ & _ & B)|(B & _)]; [|congruence].
    rewrite Oa in C. apply Some_inj in C. split; [|split; [intros E; congruence|]].
    + rewrite D. unfold side_bdry. rewrite N.eqb_refl. destruct (N.eqb_spec a INVALID); [congruence|]. rewrite <- C. now rewrite N.eqb_refl.
    + intros _. destruct (pf_part F); cbn [MeshModel.p0 MeshModel.p1] in *; congruence.
Qed.
Print Assumptions C12_exterior_face.

(** A face between two cells of one partition: interior, in that partition only. *)
Theorem C12_interior_face : forall sm pv np m f sf a b pa, serial_mesh_ok sm -> partition_vector_ok sm pv np ->
  createFromSerialMesh sm pv np = Some m ->
  SM_face sm f = Some sf -> sf_cells sf = Q2 a b -> a <> INVALID -> b <> INVALID ->
  owner pv a = Some pa -> owner pv b = Some pa ->
  forall p P, PM_part m p = Some P -> NoDup (faceGids P) /\ (In f (faceGids P) <-> p = pa) /\
    forall F, In F (pt_faces P) -> pf_gid F = f ->
      pf_bdry F = NotBoundary /\ pf_part F = Q2 pa pa /\
      cellGid P (p0 (pf_cells F)) = Some a /\ cellGid P (p1 (pf_cells F)) = Some b.
Proof.
  intros sm pv np m f sf a b pa OK PV CR Hf Hc Na Nb Oa Ob p P HP.
  destruct (faces_of sm pv np m OK PV CR p P f sf HP Hf) as (ND & IFF). split; auto. rewrite Hc in IFF. cbn [q2l In p0 p1] in IFF.
  assert (IFF' : In f (faceGids P) <-> p = pa).
  { rewrite IFF. split.
    - intros (c & [<-|[<-|[]]] & _ & O); congruence.
    - intros ->. exists a. auto. }
  split; auto. intros F HF EF. assert (p = pa) by (apply IFF'; rewrite <- EF; now apply in_map). subst p.
  destruct (face_rec sm pv np m OK PV CR pa P F HP HF) as (sf' & A & B & C & D & G & _).
  rewrite EF, Hf in A. apply Some_inj in A. subst sf'. rewrite Hc in *; cbn [MeshModel.p0 MeshModel.p1] in *.
  destruct B as [(B & _)|(_ & B & Q & HQ & B')]; [congruence|]. destruct C as [(C & _)|(_ & C & Q2 & HQ2 & C')]; [congruence|].
  rewrite Oa in B. rewrite Ob in C. apply Some_inj in B, C. rewrite <- B in *. rewrite <- C in *.
  rewrite HP in HQ, HQ2. apply Some_inj in HQ, HQ2. subst Q Q2. split; [|split; [|split; auto]].
  - rewrite D. unfold side_bdry. rewrite !N.eqb_refl.
    destruct (N.eqb_spec a INVALID); [congruence|]. destruct (N.eqb_spec b INVALID); [congruence|]. reflexivity.
  - destruct (pf_part F); cbn [MeshModel.p0 MeshModel.p1] in *; congruence.
Qed.
Print Assumptions C12_interior_face.

(** End to end: partition, write, read in parallel; rank r obtains partition r. *)
Theorem C10_created_mesh : forall sm pv np m, serial_mesh_ok sm -> partition_vector_ok sm pv np ->
  createFromSerialMesh sm pv np = Some m -> lenN (parallel_file (pm_bytesOffset m) (pm_parts m)) < 2^63 ->
  exists file m', parallelWrite m = Some (file, m') /\
    forall t rank p, nth_error (pm_parts m) rank = Some p -> fits_int_reads p ->
      readInParallel (file ++ t) (N.of_nat np) (N.of_nat rank) = Some p.
Proof.
  intros sm pv np m OK PV CR B. destruct (created_parallel_ok sm pv np m OK PV CR B) as (W & O & BT).
  pose proof (parallelWrite_ok m W) as E. eexists. eexists. split; [exact E|]. intros t rank p Hp FI.
  destruct (created sm pv np m OK PV CR) as (_ & _ & _ & L & _).
  replace (N.of_nat np) with (lenN (pm_parts m)) by (unfold lenN; now rewrite L).
  eapply readInParallel_ok; eauto.
  apply (BT (N.of_nat rank)). unfold PM_part. now rewrite Nat2N.id.
Qed.
Print Assumptions C10_created_mesh.

(** Two tetrahedra sharing face 0, put on two partitions (cell 0 on 1, cell 1 on 0). *)
Definition C12_mesh : smesh := mkSmesh serialName 2 2 7 5
  [mkScell (Q4 0 1 2 3) (Q4 0 1 2 3) 1; mkScell (Q4 6 4 5 0) (Q4 4 1 2 3) 2]
  [mkSface (Q2 0 1) (Q3 2 1 3); mkSface (Q2 0 INVALID) (Q3 0 1 2); mkSface (Q2 0 INVALID) (Q3 0 1 3);
   mkSface (Q2 INVALID 0) (Q3 0 2 3); mkSface (Q2 1 INVALID) (Q3 1 2 4); mkSface (Q2 1 INVALID) (Q3 1 3 4);
   mkSface (Q2 1 INVALID) (Q3 2 3 4)]
  [mkSnode (Q3 10 20 30); mkSnode (Q3 11 21 31); mkSnode (Q3 12 22 32); mkSnode (Q3 13 23 33); mkSnode (Q3 14 24 34)].
Lemma at_index {A} (l : list A) c x : nth_error l (N.to_nat c) = Some x -> exists i, c = N.of_nat i /\ nth_error l i = Some x /\ (i < length l)%nat.
Proof. intros H. exists (N.to_nat c). rewrite N2Nat.id. split; auto. split; auto. apply nth_error_Some. congruence. Qed.
Example C12_mesh_ok : serial_mesh_ok C12_mesh /\ partition_vector_ok C12_mesh [1; 0] 2.
Proof.
  split.
  - constructor.
    + unfold serial_wf.
      repeat match goal with
      | |- _ /\ _ => split
      | |- Forall _ _ => first [apply Forall_nil | apply Forall_cons]
      | |- _ = _ => vm_compute; reflexivity
      | |- u64 _ => vm_compute; reflexivity
      end.
    + reflexivity.
    + reflexivity.
    + reflexivity.
    + intros c sc f H Hf. apply at_index in H as (i & -> & H & Hi). destruct i as [|[|i]]; [| |cbn in Hi; lia];
      apply Some_inj in H; subst sc; cbn in Hf;
      repeat (destruct Hf as [<-|Hf]; [eexists; split; [reflexivity|]; split; [cbn; auto|cbn; intros n Hn; intuition (subst; auto)]|]); destruct Hf.
    + intros f sf c H Hc NI. apply at_index in H as (i & -> & H & Hi).
      do 7 (destruct i as [|i]; [apply Some_inj in H; subst sf; cbn in Hc;
        repeat (destruct Hc as [HH|Hc]; [first [congruence|subst c; eexists; split; [reflexivity|cbn; auto 10]]|]); destruct Hc|]).
      cbn in Hi. lia.
    + intros c sc n H Hn. apply at_index in H as (i & -> & H & Hi). destruct i as [|[|i]]; [| |cbn in Hi; lia];
      apply Some_inj in H; subst sc; cbn in Hn; repeat (destruct Hn as [<-|Hn]; [eexists; reflexivity|]); destruct Hn.
  - split; [reflexivity|]. split; [repeat constructor|reflexivity].
Qed.
Example C12_ex : exists m, createFromSerialMesh C12_mesh [1; 0] 2 = Some m /\
  map cellGids (pm_parts m) = [[1]; [0]] /\ map faceGids (pm_parts m) = [[0; 4; 5; 6]; [0; 1; 2; 3]] /\
  map (fun P => map pf_bdry (pt_faces P)) (pm_parts m) = [[1; 0; 0; 0]; [1; 0; 0; 0]] /\
  pm_bytesOffset m = [72; 592; 1112].
Proof. eexists. split; [vm_compute; reflexivity|]. vm_compute. auto. Qed.
