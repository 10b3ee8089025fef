(** C08, C09, C10: serial and parallel mesh files. *)
From Coq Require Import String.
From Verif Require Import Prelude Bytes PsiFileModel MeshModel MeshSpec MeshProofs.
Local Open Scope N_scope.

(** Write, then read: same mesh (with the header fields write fills in), file = documented
    bytes, of the length announced by the counts; bytes after the end are ignored. *)
Theorem C08_serial_roundtrip : forall m t, serial_wf m ->
  exists file m', serialWrite m = Some (file, m') /\ serialRead (file ++ t) = Some m' /\
    file = serial_file (sm_cells m) (sm_faces m) (sm_nodes m) /\
    lenN file = 32 + 8 * (4 + 9 * sm_numCells m + 5 * sm_numFaces m + 3 * sm_numNodes m) /\
    (sm_numCells m', sm_numFaces m', sm_numNodes m', sm_cells m', sm_faces m', sm_nodes m') =
    (sm_numCells m, sm_numFaces m, sm_numNodes m, sm_cells m, sm_faces m, sm_nodes m).
Proof.
  intros m t W. rewrite serialWrite_ok by auto. do 2 eexists. split; [reflexivity|].
  destruct W as (E1 & E2 & E3 & A1 & A2 & A3 & A4 & A5 & A6).
  rewrite serialRead_ok by auto. unfold with_serial_header. rewrite E1, E2, E3. repeat split.
  unfold lenN. rewrite serial_file_length. lia.
Qed.
Print Assumptions C08_serial_roundtrip.

(** Whatever file the reader accepts is the image of the mesh it returns, followed by unread
    bytes; in particular it starts with the magic string and version 2. *)
Theorem C08_read_inverse : forall file m, Forall is_byte file -> serialRead file = Some m ->
  exists t, file = serial_file (sm_cells m) (sm_faces m) (sm_nodes m) ++ t /\ serial_wf m /\
    sm_name m = magic32 "Tycho 2 Serial Mesh" /\ sm_version m = 2.
Proof. exact serialRead_inv. Qed.
Print Assumptions C08_read_inverse.

(** A file cut anywhere is rejected. *)
Theorem C08_truncated_rejected : forall m file m' p q, serial_wf m -> serialWrite m = Some (file, m') ->
  file = p ++ q -> q <> [] -> serialRead p = None.
Proof. exact serial_truncated. Qed.
Print Assumptions C08_truncated_rejected.

Ltac wf_tac :=
  repeat match goal with
  | |- _ /\ _ => split
  | |- Forall _ _ => first [apply Forall_nil | apply Forall_cons]
  | |- _ = _ => vm_compute; reflexivity
  | |- u64 _ => vm_compute; reflexivity
  end.
Definition C08_mesh : smesh :=
  mkSmesh [] 0 1 2 1 [mkScell (Q4 0 1 2 18446744073709551615) (Q4 7 8 9 10) 5]
    [mkSface (Q2 0 INVALID) (Q3 1 2 3); mkSface (Q2 3 4) (Q3 4 5 6)] [mkSnode (Q3 4607182418800017408 0 1)].
Example C08_ex : serial_wf C08_mesh /\
  match serialWrite C08_mesh with
  | Some (f, m') => length f = 240%nat /\ serialRead (f ++ [1;2;3]) = Some m' /\ sm_cells m' = sm_cells C08_mesh
                    /\ serialRead (firstn 239 f) = None
  | None => False end.
Proof.
  split; [|vm_compute; repeat split; reflexivity].
  unfold serial_wf. wf_tac.
Qed.

Theorem C09_parallel_roundtrip : forall m t, parallel_wf m ->
  exists file m', parallelWrite m = Some (file, m') /\ parallelRead (file ++ t) = Some m' /\
    file = parallel_file (pm_bytesOffset m) (pm_parts m) /\
    (pm_numPartitions m', pm_bytesOffset m', pm_parts m') = (pm_numPartitions m, pm_bytesOffset m, pm_parts m).
Proof.
  intros m t W. rewrite parallelWrite_ok by auto. do 2 eexists. split; [reflexivity|].
  destruct W as (E1 & E2 & B & F1 & F2).
  rewrite parallelRead_ok by auto. unfold with_parallel_header. rewrite E1. repeat split.
Qed.
Print Assumptions C09_parallel_roundtrip.

Theorem C09_read_inverse : forall file m, Forall is_byte file -> lenN file < 2^64 -> parallelRead file = Some m ->
  exists t, file = parallel_file (pm_bytesOffset m) (pm_parts m) ++ t /\ parallel_wf m /\
    pm_name m = magic32 "Tycho 2 Parallel Mesh" /\ pm_version m = 2.
Proof. exact parallelRead_inv. Qed.
Print Assumptions C09_read_inverse.

(** Wrong magic string or wrong version: rejected by the reader and, on every rank, by
    readInParallel, which also rejects a wrong number of ranks. *)
Theorem C09_bad_header_rejected : forall name v np rest, Forall is_byte name -> length name = 32%nat ->
  v < 2^64 -> np < 2^64 -> (name <> magic32 "Tycho 2 Parallel Mesh" \/ v <> 2) ->
  parallelRead (name ++ words_bytes [v; np] ++ rest) = None /\
  forall numRanks rank, readInParallel (name ++ words_bytes [v; np] ++ rest) numRanks rank = None.
Proof.
  intros name v np rest Hb L Hv Hnp H.
  assert (K : bytes_eqb name parallelName && (v =? 2) = false).
  { destruct (bytes_eqb name parallelName) eqn:E; [|reflexivity]. apply bytes_eqb_eq in E.
    destruct (N.eqb_spec v 2); [|reflexivity]. subst v. exfalso.
    destruct H as [H|H]; [apply H; rewrite E; reflexivity|congruence]. }
  assert (F : Forall (fun x => x < two64) [v; np]) by (unfold two64; repeat constructor; lia).
  split.
  - unfold parallelRead. rewrite fread_bytes_ok by auto. cbn [obind].
    rewrite fread_words_ok by (auto; reflexivity). cbn [obind].
    destruct (bytes_eqb name parallelName); cbn [negb]; [|reflexivity]. cbn [andb] in K. now rewrite K.
  - intros nr rk. unfold readInParallel, headerCheck. rewrite fread_bytes_ok by auto.
    rewrite fread_words_ok by (auto; reflexivity). now rewrite K.
Qed.
Print Assumptions C09_bad_header_rejected.

Theorem C09_truncated_rejected : forall m file m' p q, parallel_wf m -> parallelWrite m = Some (file, m') ->
  lenN file < 2^64 -> file = p ++ q -> q <> [] -> parallelRead p = None.
Proof. exact parallel_truncated. Qed.
Print Assumptions C09_truncated_rejected.

(** Rank r gets partition r, whatever follows in the file. *)
Theorem C10_read_in_parallel : forall m file m' t rank p, parallel_wf m -> offsets_ok m ->
  parallelWrite m = Some (file, m') -> lenN file < 2^63 ->
  nth_error (pm_parts m) rank = Some p -> fits_int_reads p -> boundary_types_ok p ->
  readInParallel (file ++ t) (lenN (pm_parts m)) (N.of_nat rank) = Some p.
Proof. exact readInParallel_ok. Qed.
Print Assumptions C10_read_in_parallel.

(** The size bound is needed: Comm::readUint64 passes a byte count through [int]; every mesh
    with 2^31 <= 80 * cells < 2^32 in a partition cannot be read by its rank. *)
Theorem C10_large_partition_refuted : forall m file m' t rank p, parallel_wf m -> offsets_ok m ->
  parallelWrite m = Some (file, m') -> lenN file < 2^63 ->
  nth_error (pm_parts m) rank = Some p -> 2^31 <= 80 * lenN (pt_cells p) < 2^32 ->
  readInParallel (file ++ t) (lenN (pm_parts m)) (N.of_nat rank) = None.
Proof. exact readInParallel_large. Qed.
Print Assumptions C10_large_partition_refuted.

(** Two partitions of different sizes. *)
Definition C10_part0 : partition := mkPartition 1 1 0
  [mkPcell (Q4 0 0 0 0) (Q4 1 2 3 4) 11 12] [mkPface (Q2 0 0) (Q3 5 6 7) 8 (Q2 0 1) 1] [].
Definition C10_part1 : partition := mkPartition 2 0 1
  [mkPcell (Q4 9 9 9 9) (Q4 1 2 3 4) 21 22; mkPcell (Q4 0 0 0 0) (Q4 1 2 3 4) 31 32] [] [mkPnode (Q3 1 2 3) 77].
Definition C10_mesh : pmesh := mkPmesh [] 0 2 [72; 248; 464] [C10_part0; C10_part1].
Example C10_ex : parallel_wf C10_mesh /\ offsets_ok C10_mesh /\ fits_int_reads C10_part1 /\ boundary_types_ok C10_part0 /\
  match parallelWrite C10_mesh with
  | Some (f, _) => readInParallel f 2 0 = Some C10_part0 /\ readInParallel f 2 1 = Some C10_part1
                   /\ readInParallel f 3 1 = None
  | None => False end.
Proof.
  split; [|split; [|split; [|split]]].
  - unfold parallel_wf, partition_wf. cbn [pm_parts C10_mesh pm_bytesOffset]. wf_tac.
  - intros [|[|i]] H; [reflexivity|reflexivity|cbn in H; lia].
  - repeat split.
  - unfold boundary_types_ok. repeat (apply Forall_cons; [vm_compute; reflexivity|]). apply Forall_nil.
  - vm_compute. repeat split; reflexivity.
Qed.

(** readInParallel does not notice a truncated file (short reads are not checked): it returns a
    partition that is not the one written. *)
Theorem C10_truncated_detected_refuted : ~ (forall m file m' p q rank part, parallel_wf m -> offsets_ok m ->
  parallelWrite m = Some (file, m') -> file = p ++ q ->
  readInParallel p (lenN (pm_parts m)) (N.of_nat rank) = Some part -> nth_error (pm_parts m) rank = Some part).
Proof.
  intros C. destruct C10_ex as (W & O & _).
  specialize (C C10_mesh (fst (match parallelWrite C10_mesh with Some x => x | None => ([], C10_mesh) end))
    (snd (match parallelWrite C10_mesh with Some x => x | None => ([], C10_mesh) end))
    (firstn 248 (fst (match parallelWrite C10_mesh with Some x => x | None => ([], C10_mesh) end)))
    (skipn 248 (fst (match parallelWrite C10_mesh with Some x => x | None => ([], C10_mesh) end)))
    1%nat (mkPartition 0 0 0 [] [] []) W O).
  assert (E : nth_error (pm_parts C10_mesh) 1 = Some (mkPartition 0 0 0 [] [] [])).
  { apply C; [vm_compute; reflexivity|symmetry; apply firstn_skipn|vm_compute; reflexivity]. }
  vm_compute in E. discriminate E.
Qed.
Print Assumptions C10_truncated_detected_refuted.
