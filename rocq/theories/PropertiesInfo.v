(** C83: the programs that list meshes. *)
From Coq Require Import String.
From Verif Require Import Prelude Bytes DeckModel MeshModel MeshSpec MeshProofs CreateModel CreateSpec CreateProofs CommandModel PropertiesMesh PropertiesCreate InfoModel InfoSpec InfoProofs.
Local Open Scope N_scope.

(** Numbers are listed in decimal. *)
Theorem C83_numbers : forall n, numeral (num n) n.
Proof. exact num_numeral. Qed.
Print Assumptions C83_numbers.

(** SerialMeshInfo lists every file that can be read, and no other. *)
Theorem C83_serial_listed : forall showf prog f v fs file, fs f = Some file -> Forall is_byte file -> In v [[]; [str "verbose"]] ->
  (serialInfo showf (prog :: f :: v) fs <> None <-> serialRead file <> None).
Proof.
  intros showf prog f v fs file F B V. assert (K : exists w, infoArgs (prog :: f :: v) = Some (f, w)) by (destruct V as [<-|[<-|[]]]; eexists; reflexivity). destruct K as (w & K). unfold serialInfo. rewrite K, F. cbn [obind].
  destruct (serialRead file) as [m|] eqn:R; cbn [obind]; [|tauto]. split; [discriminate|]. intros _. destruct (C08_read_inverse file m B R) as (t & _ & W). destruct w.
  - destruct (serial_printed showf m W) as (s & ->). discriminate.
  - rewrite (serial_brief showf m W). discriminate.
Qed.
Print Assumptions C83_serial_listed.

(** Two files give the same verbose listing exactly if they hold the same mesh, but for digits of coordinates that are not shown. *)
Theorem C83_serial : forall showf prog f f' fs file file' m m', plain showf -> fs f = Some file -> fs f' = Some file' -> Forall is_byte file -> Forall is_byte file' -> serialRead file = Some m -> serialRead file' = Some m' ->
  (serialInfo showf [prog; f; str "verbose"] fs = serialInfo showf [prog; f'; str "verbose"] fs <-> same_serial showf m m').
Proof.
  intros showf prog f f' fs file file' m m' PL F F' B B' R R'. destruct (C08_read_inverse file m B R) as (t & _ & W). destruct (C08_read_inverse file' m' B' R') as (t' & _ & W').
  rewrite <- (serial_iff showf PL m m' W W'). unfold serialInfo. change (infoArgs [prog; f; str "verbose"]) with (Some (f, true)). change (infoArgs [prog; f'; str "verbose"]) with (Some (f', true)). cbv beta iota. rewrite F, F'. cbn [obind]. rewrite R, R'. cbn [obind].
  destruct (serial_printed showf m W) as (s & ->). destruct (serial_printed showf m' W') as (s' & ->). cbn [obind]. split; intros E.
  - apply Some_inj in E. apply app_inv_head in E. apply app_inv_tail in E. congruence.
  - apply Some_inj in E. congruence.
Qed.
Print Assumptions C83_serial.

(** Without "verbose": exactly the three counts. *)
Theorem C83_brief : forall showf prog f f' fs file file' m m', fs f = Some file -> fs f' = Some file' -> Forall is_byte file -> Forall is_byte file' -> serialRead file = Some m -> serialRead file' = Some m' ->
  (serialInfo showf [prog; f] fs = serialInfo showf [prog; f'] fs <-> List.length (sm_cells m) = List.length (sm_cells m') /\ List.length (sm_faces m) = List.length (sm_faces m') /\ List.length (sm_nodes m) = List.length (sm_nodes m')).
Proof.
  intros showf prog f f' fs file file' m m' F F' B B' R R'. destruct (C08_read_inverse file m B R) as (t & _ & W). destruct (C08_read_inverse file' m' B' R') as (t' & _ & W').
  unfold serialInfo. change (infoArgs [prog; f]) with (Some (f, false)). change (infoArgs [prog; f']) with (Some (f', false)). cbv beta iota. rewrite F, F'. cbn [obind]. rewrite R, R'. cbn [obind]. rewrite (serial_brief showf m W), (serial_brief showf m' W'). cbn [obind]. split.
  - intros E. apply Some_inj in E. apply app_inv_head in E. apply head_inj in E as ((E1 & E2 & E3) & _). unfold lenN in *. lia.
  - intros (E1 & E2 & E3). unfold lenN. now rewrite E1, E2, E3.
Qed.
Print Assumptions C83_brief.

(** The mesh file is fit for being read in parallel: as written by ParallelMesh::write, each offset at its partition, each partition within the limits of the reader. *)
Definition parallel_fit (m : pmesh) (file : bytes) : Prop :=
  parallel_wf m /\ offsets_ok m /\ Forall boundary_types_ok (pm_parts m) /\ Forall fits_int_reads (pm_parts m) /\ (exists m', parallelWrite m = Some (file, m')) /\ lenN file < 2^63.

Lemma info_text showf prog f v fs m file : fs f = Some file -> parallel_fit m file -> In v [[]; [str "verbose"]] ->
  exists m' t u, parallelRead file = Some m' /\ readableP m' /\ pm_parts m' = pm_parts m /\ pm_bytesOffset m' = pm_bytesOffset m /\ parallelPrint showf (negb (Nat.eqb (List.length v) 0)) m' = Some t /\
    joined (mapi (partText showf (negb (Nat.eqb (List.length v) 0))) 0 (pm_parts m)) = Some u /\
    parallelInfo showf (List.length (pm_parts m)) (prog :: f :: v) fs = Some (str "--- ParallelMeshInfo Utility ---" ++ nl ++ str "Parallel mesh data read serially." ++ nl ++ t ++ nl ++ nl ++ nl ++ str "Parallel mesh data read in parallel." ++ nl ++ u ++ nl ++ nl ++ nl).
Proof.
  intros F (W & O & BT & FI & (m' & WR) & SZ) V. destruct (C09_parallel_roundtrip m [] W) as (file2 & m2 & WR2 & RD & _ & E). rewrite WR in WR2. assert (E2 : file2 = file /\ m2 = m') by (split; congruence). destruct E2 as (-> & ->). rewrite app_nil_r in RD.
  assert (E3 : pm_numPartitions m' = pm_numPartitions m /\ pm_bytesOffset m' = pm_bytesOffset m /\ pm_parts m' = pm_parts m) by (repeat split; congruence). destruct E3 as (E3 & E4 & E5).
  assert (RP : readableP m').
  { split; [|]. { unfold parallel_wf. rewrite E3, E4, E5. exact W. } rewrite (parallelWrite_ok m W) in WR. apply Some_inj in WR. assert (M : m' = with_parallel_header m) by congruence. rewrite M. split; reflexivity. }
  set (w := negb (Nat.eqb (List.length v) 0)). destruct (parallel_printed showf w m' RP ltac:(now rewrite E5)) as (t & T).
  assert (U : exists u, joined (mapi (partText showf w) 0 (pm_parts m)) = Some u).
  { pose proof T as T'. rewrite (parallel_text showf w m' RP), E5 in T'. destruct (joined (mapi offText 0 (pm_bytesOffset m'))); [|discriminate T']. destruct (joined (mapi (partText showf w) 0 (pm_parts m))) as [u|]; [eauto|discriminate T']. }
  destruct U as (u & U). exists m', t, u. split; [exact RD|]. split; [exact RP|]. split; [exact E5|]. split; [exact E4|]. split; [exact T|]. split; [exact U|].
  assert (K : infoArgs (prog :: f :: v) = Some (f, w)) by (destruct V as [<-|[<-|[]]]; reflexivity). unfold parallelInfo. rewrite K, F. cbn [obind]. rewrite RD. cbn [obind]. rewrite T. cbn [obind].
  rewrite (ranks_text showf w (fun r => readInParallel file (N.of_nat (List.length (pm_parts m))) (N.of_nat r)) (pm_parts m)).
  - rewrite (loop_all (pm_parts m) _ (partText showf w)) by (intros i; reflexivity). rewrite U. cbn [obind]. rewrite <- !app_assoc. reflexivity.
  - intros i p Hp. rewrite <- (app_nil_r file). apply (C10_read_in_parallel m file m' [] i p W O WR SZ Hp); [apply (proj1 (Forall_forall _ _) FI)|apply (proj1 (Forall_forall _ _) BT)]; eapply nth_error_In; eauto.
Qed.

(** ParallelMeshInfo on as many ranks as there are parts: what the ranks read one by one is listed exactly as what rank 0 read as a whole. *)
Theorem C83_ranks : forall showf prog f v fs m file, fs f = Some file -> parallel_fit m file -> In v [[]; [str "verbose"]] ->
  exists top texts, List.length texts = List.length (pm_parts m) /\
    (forall i p, nth_error (pm_parts m) i = Some p -> exists t, printPartitionData showf (negb (Nat.eqb (List.length v) 0)) p = Some t /\ nth_error texts i = Some (str "Partition " ++ num (N.of_nat i) ++ nl ++ t)) /\
    parallelInfo showf (List.length (pm_parts m)) (prog :: f :: v) fs =
      Some (str "--- ParallelMeshInfo Utility ---" ++ nl ++ str "Parallel mesh data read serially." ++ nl ++ top ++ List.concat texts ++ nl ++ nl ++ nl ++ str "Parallel mesh data read in parallel." ++ nl ++ List.concat texts ++ nl ++ nl ++ nl).
Proof.
  intros showf prog f v fs m file F FIT V. destruct (info_text showf prog f v fs m file F FIT V) as (m' & t & u & RD & RP & E5 & E4 & T & U & I). set (w := negb (Nat.eqb (List.length v) 0)) in *.
  rewrite (parallel_text showf w m' RP), E5 in T. destruct (joined (mapi offText 0 (pm_bytesOffset m'))) as [o|]; [|discriminate T]. rewrite U in T. cbn [obind] in T. apply Some_inj in T. exists (topText (lenN (pm_parts m)) ++ o).
  assert (K : forall ps i u, joined (mapi (partText showf w) i ps) = Some u -> exists texts, List.length texts = List.length ps /\ (forall k p, nth_error ps k = Some p -> exists t, printPartitionData showf w p = Some t /\ nth_error texts k = Some (str "Partition " ++ num (N.of_nat (i + k)) ++ nl ++ t)) /\ u = List.concat texts).
  { clear. induction ps as [|p ps IH]; intros i u U.
    - apply Some_inj in U. subst u. exists []. split; [reflexivity|]. split; [intros [|k] p E; discriminate E|reflexivity].
    - cbn [mapi joined fold_right] in U. fold (joined (mapi (partText showf w) (S i) ps)) in U. destruct (partText showf w i p) as [a|] eqn:A; [|discriminate U]. destruct (joined (mapi (partText showf w) (S i) ps)) as [b|] eqn:B; [|discriminate U]. cbn [obind] in U. apply Some_inj in U. subst u.
      destruct (IH (S i) b B) as (texts & L & N & ->). exists (a :: texts). split; [cbn; now rewrite L|]. split; [|reflexivity]. intros [|k] q E.
      + apply Some_inj in E. subst q. unfold partText in A. destruct (printPartitionData showf w p) as [t|] eqn:T; [|discriminate A]. exists t. split; [reflexivity|]. rewrite Nat.add_0_r. cbn [obind] in A. cbn [nth_error]. now rewrite <- A.
      + destruct (N k q E) as (t & T1 & T2). exists t. split; [exact T1|]. replace (i + S k)%nat with (S i + k)%nat by lia. exact T2. }
  destruct (K _ _ _ U) as (texts & L & N & ->). exists texts. split; [exact L|]. split; [exact N|]. rewrite I, <- T, <- !app_assoc. reflexivity.
Qed.
Print Assumptions C83_ranks.

(** Two such files with equally many parts give the same verbose listing exactly if they hold the same parts. *)
Theorem C83_parallel : forall showf prog f f' fs m m' file file', plain showf -> fs f = Some file -> fs f' = Some file' -> parallel_fit m file -> parallel_fit m' file' -> List.length (pm_parts m) = List.length (pm_parts m') ->
  (parallelInfo showf (List.length (pm_parts m)) [prog; f; str "verbose"] fs = parallelInfo showf (List.length (pm_parts m)) [prog; f'; str "verbose"] fs <-> same_parallel showf m m').
Proof.
  intros showf prog f f' fs m m' file file' PL F F' FIT FIT' L. destruct (info_text showf prog f [str "verbose"] fs m file F FIT ltac:(cbn; auto)) as (n & t & u & RD & RP & E5 & E4 & T & U & I).
  destruct (info_text showf prog f' [str "verbose"] fs m' file' F' FIT' ltac:(cbn; auto)) as (n' & t' & u' & RD' & RP' & E5' & E4' & T' & U' & I'). rewrite I, L, I'. cbn [List.length Nat.eqb negb] in T, T', U, U'.
  assert (S1 : same_parallel showf m m' <-> same_parallel showf n n') by (unfold same_parallel; rewrite E4, E5, E4', E5'; reflexivity). rewrite S1. split.
  - intros E. apply Some_inj in E. do 4 apply app_inv_head in E. exact (parallel_inj showf PL n n' t t' _ _ RP RP' T T' E).
  - intros E. destruct (parallel_same showf n n' RP RP' E) as (P1 & P2). rewrite E5, E5', U, U' in P2. rewrite T, T' in P1. apply Some_inj in P1, P2. now rewrite P1, P2.
Qed.
Print Assumptions C83_parallel.

(** On another number of ranks the program stops. *)
Theorem C83_other_ranks : forall showf prog f v fs m file np, fs f = Some file -> parallel_fit m file -> In v [[]; [str "verbose"]] -> np <> 0%nat -> np <> List.length (pm_parts m) ->
  parallelInfo showf np (prog :: f :: v) fs = None.
Proof.
  intros showf prog f v fs m file np F FIT V P NE. destruct (info_text showf prog f v fs m file F FIT V) as (m' & t & u & RD & _ & _ & _ & T & _). assert (K : infoArgs (prog :: f :: v) = Some (f, negb (Nat.eqb (List.length v) 0))) by (destruct V as [<-|[<-|[]]]; reflexivity). unfold parallelInfo. rewrite K, F. cbn [obind]. rewrite RD. cbn [obind]. rewrite T. cbn [obind].
  destruct np as [|np]; [congruence|]. cbn [printLoop]. unfold printPart at 1. assert (H : headerCheck file (N.of_nat (S np)) = false).
  { destruct FIT as (W & _ & _ & _ & (m2 & WR) & _). destruct (C09_parallel_roundtrip m [] W) as (file2 & m3 & WR2 & _ & EF & _). rewrite WR in WR2. assert (E : file2 = file) by congruence. rewrite E in EF. rewrite EF. destruct W as (_ & _ & B & _).
    unfold headerCheck, parallel_file. rewrite fread_bytes_ok by (now rewrite magic_len). rewrite words_bytes_app, fread_words_ok.
    2:{ unfold u64, two64 in *. repeat constructor; lia. }
    2:{ reflexivity. }
    replace (lenN (pm_parts m) =? N.of_nat (S np)) with false by (symmetry; apply N.eqb_neq; unfold lenN; lia). now rewrite Bool.andb_false_r. }
  unfold readInParallel at 1. rewrite H. reflexivity.
Qed.
Print Assumptions C83_other_ranks.

(** Meshes made by PartitionMesh are of this kind. *)
Theorem C83_created : forall sm pv np m, serial_mesh_ok sm -> partition_vector_ok sm pv np -> createFromSerialMesh sm pv np = Some m -> lenN (parallel_file (pm_bytesOffset m) (pm_parts m)) < 2^63 -> Forall fits_int_reads (pm_parts m) ->
  exists file, parallel_fit m file /\ List.length (pm_parts m) = np.
Proof.
  intros sm pv np m OK PV CR B FI. destruct (created_parallel_ok sm pv np m OK PV CR B) as (W & O & BT). destruct (created sm pv np m OK PV CR) as (_ & _ & _ & L & _). destruct (C09_parallel_roundtrip m [] W) as (file & m' & WR & _ & EF & _). exists file. split; [|exact L].
  split; [exact W|]. split; [exact O|]. split; [|split; [exact FI|split; [exists m'; exact WR|rewrite EF; exact B]]]. apply Forall_forall. intros p Hp. apply In_nth_error in Hp as (k & Hk). apply (BT (N.of_nat k)). unfold PM_part. now rewrite Nat2N.id.
Qed.
Print Assumptions C83_created.

(** A file that can be read need not be listable: the check of the kinds of faces comes only in the verbose listing. *)
Definition C83_odd : pmesh := mkPmesh [] 0 1 [56; 152] [mkPartition 0 1 0 [] [mkPface (Q2 0 0) (Q3 0 1 2) 0 (Q2 0 0) 7] []].
Theorem C83_readable_listed_refuted : ~ (forall showf prog f fs file m, plain showf -> fs f = Some file -> Forall is_byte file -> lenN file < 2^63 -> parallelRead file = Some m -> parallelInfo showf (List.length (pm_parts m)) [prog; f; str "verbose"] fs <> None).
Proof.
  intros C. assert (W : parallel_wf C83_odd) by (unfold parallel_wf, partition_wf; cbn [pm_parts C83_odd pm_bytesOffset]; wf_tac).
  pose (file := match parallelWrite C83_odd with Some (x, _) => x | None => [] end). pose (m := match parallelRead file with Some x => x | None => C83_odd end).
  refine (C (fun _ => []) [] [] (fun _ => Some file) file m _ eq_refl _ _ _ _).
  - intros x c [].
  - assert (K : forallb (fun b => b <? 256) file = true) by (vm_compute; reflexivity). apply Forall_forall. intros b Hb. pose proof (proj1 (forallb_forall _ _) K b Hb) as K2. apply N.ltb_lt in K2. exact K2.
  - vm_compute. reflexivity.
  - vm_compute. reflexivity.
  - vm_compute. reflexivity.
Qed.
Print Assumptions C83_readable_listed_refuted.

(** * A concrete case *)
Example C83_ex : num 1024 = str "1024" /\ plain (fun _ => str "0.000000") /\
  (exists file m', serialWrite C08_mesh = Some (file, m') /\ Forall is_byte file /\
     serialInfo (fun _ => str "0.5") [[]; str "m"] (fun _ => Some file) = Some (str "--- SerialMeshInfo Utility ---" ++ nl ++ str "Mesh Format Name: Tycho 2 Serial Mesh" ++ nl ++ str "Mesh Version: 2" ++ nl ++ str "Num Cells: 1" ++ nl ++ str "Num Faces: 2" ++ nl ++ str "Num Nodes: 1" ++ nl ++ nl ++ nl ++ nl)) /\
  exists file, parallel_fit C10_mesh file.
Proof.
  split; [reflexivity|]. split; [intros x c H; cbn in H; repeat (destruct H as [<-|H]; [repeat split; discriminate|]); destruct H|]. split.
  - eexists. eexists. split; [vm_compute; reflexivity|]. split; [repeat (apply Forall_cons; [reflexivity|]); apply Forall_nil|vm_compute; reflexivity].
  - destruct C10_ex as (W & O & FI & BT & _). destruct (C09_parallel_roundtrip C10_mesh [] W) as (file & m' & WR & _ & EF & _). exists file. split; [exact W|]. split; [exact O|]. split; [constructor; [exact BT|constructor; [unfold boundary_types_ok; constructor|constructor]]|].
    split; [constructor; [repeat split|constructor; [exact FI|constructor]]|]. split; [exists m'; exact WR|]. rewrite EF. vm_compute. reflexivity.
Qed.
