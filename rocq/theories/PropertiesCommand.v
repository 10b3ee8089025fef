(** C74: from a serial mesh file to the output file by commands. *)
From Coq Require Import Reals Lia Permutation ZArith.
From Flocq Require Import Core.
From Verif Require Import Prelude Bytes LayoutModel PsiFileModel PsiFileSpec DeckModel MeshModel MeshSpec MeshProofs PropertiesMesh CreateModel CreateSpec CreateProofs PropertiesCreate TychoModel TychoSpec GeometryModel GaussModel TransportModel SweepModel ViewModel ViewSpec PropertiesView BitsModel BitsSpec PropertiesBits
  ColumnsModel ColumnsSpec PropertiesColumns MetisModel MetisSpec MetisProofs PropertiesMetis RefineModel RefineSpec GeometrySpec RefinedSpec PropertiesRefined GridModel GridSpec GridProofs PropertiesGrid MainModel MainSpec PropertiesMain MainExact MainTransport PropertiesMainExact MainAllModel MainAllSpec PropertiesMainAll CommandModel.

(** A way to partition: a command line without the file names. *)
Inductive tool := ByColumns (x y : chars) | ByMetis (n : chars).
(** The number of parts that it asks for. *)
Definition asks (t : tool) (np : nat) : Prop :=
  match t with
  | ByColumns x y => exists nx ny, atoi x = Some (Z.of_nat nx) /\ atoi y = Some (Z.of_nat ny) /\ 0 < nx /\ 0 < ny /\ np = nx * ny
  | ByMetis n => atoi n = Some (Z.of_nat np) /\ 0 < np
  end.
Section Commands.
  Context {T : Type} (A : arith T) (dec : N -> T) (sortX sortY : list (centroid T) -> list (centroid T)) (w : N) (metis : Z -> list Z -> list Z -> Z -> bool * list Z).
  Definition partitions (t : tool) (prog inF outF : chars) (fs fs' : files) : Prop :=
    match t with
    | ByColumns x y => columnsMain A dec sortX sortY [prog; x; y; inF; outF] fs = Some fs'
    | ByMetis n => metisMain w metis [prog; n; inF; outF] fs = Some fs'
    end.
  Definition tools_ok (sm : smesh) : Prop :=
    is_sort (compareX (less A)) sortX /\ is_sort (compareY (less A)) sortY /\ metis_ok metis /\ (1 <= w <= 64)%N /\ (4 * lenN (sm_cells sm) < 2 ^ (w - 1))%N.
  Context (sm : smesh) (OK : serial_mesh_ok sm) (TT : tets_ok sm) (ENV : tools_ok sm).
  Lemma columns_vector nx ny : 0 < nx -> 0 < ny -> (N.of_nat (nx * ny) < 2 ^ 31)%N -> exists pv,
    partitionColumns (azero A) (aadd A) (fun s => adiv A s (alit A 4)) sortX sortY (nodeX dec sm) (nodeY dec sm) (map sc_nodes (sm_cells sm)) nx ny = Some pv /\ partition_vector_ok sm (map N.of_nat pv) (nx * ny).
  Proof using OK ENV.
    intros HX HY SZ. destruct ENV as (SX & SY & _).
    destruct (C13_columns T (azero A) (aadd A) (fun s => adiv A s (alit A 4)) (less A) sortX sortY (nodeX dec sm) (nodeY dec sm) (map sc_nodes (sm_cells sm)) nx ny SX SY HX HY) as (pv & E & L & R & _).
    - intros c q v Hc Hv. rewrite nth_error_map in Hc. destruct (nth_error (sm_cells sm) c) as [sc|] eqn:Ec; [|discriminate]. cbn [option_map] in Hc. apply Some_inj in Hc. subst q.
      destruct (smo_cn sm OK (N.of_nat c) sc v) as (sn & Hn); [unfold SM_cell; now rewrite Nat2N.id|exact Hv|].
      unfold nodeX, nodeY. rewrite nthN_nth. unfold SM_node in Hn. rewrite Hn. split; discriminate.
    - exists pv. split; [exact E|]. rewrite map_length in L, R. apply C13_valid_partition_vector; auto.
  Qed.
  Context (ltb : N -> N -> bool) (CMP : exists decR, compares sm decR ltb).
  Lemma written pv np : partition_vector_ok sm pv np -> mesh_small sm np -> exists m r, createFromSerialMesh sm pv np = Some m /\ parallelWrite m = Some r /\ forall threads, 0 < threads -> launch ltb sm pv np threads (fst r).
  Proof using OK TT CMP.
    intros PV SM. destruct CMP as (decR & CM). destruct (C65_reads sm pv np ltb decR OK TT PV SM CM) as (t & m & f & m' & CR & WR & _). exists m, (f, m'). split; [exact CR|]. split; [exact WR|].
    intros threads TH. constructor; [exact PV|exact SM|exists decR; exact CM|exists m, m'; auto|exact TH].
  Qed.
  Lemma tool_launch t prog inF outF fs file np fs' : fs inF = Some file -> serialRead file = Some sm -> asks t np -> mesh_small sm np -> partitions t prog inF outF fs fs' ->
    exists pv mesh, fs' = put fs outF mesh /\ forall threads, 0 < threads -> launch ltb sm pv np threads mesh.
  Proof using OK TT CMP ENV.
    intros F RD AS SM P. pose proof SM as (_ & _ & _ & SN). destruct t as [x y|n]; cbn [partitions asks] in *.
    - destruct AS as (nx & ny & EX & EY & HX & HY & ->). unfold columnsMain in P. rewrite EX, EY in P. cbn [obind] in P.
      destruct (Z.leb_spec (Z.of_nat nx) 0); [lia|]. destruct (Z.leb_spec (Z.of_nat ny) 0); [lia|]. cbn [orb] in P. rewrite <- Nat2Z.inj_mul in P. destruct (Z.leb_spec (2 ^ 31) (Z.of_nat (nx * ny))); [discriminate|].
      rewrite F in P. cbn [obind] in P. rewrite RD in P. cbn [obind] in P. rewrite !Nat2Z.id in P.
      destruct (columns_vector nx ny HX HY) as (pv & E & PV); [change (2 ^ 31)%N with (2 * 2 ^ 30)%N; lia|]. rewrite E in P. cbn [obind] in P.
      destruct (written _ _ PV SM) as (m & r & CR & WR & L). rewrite CR in P. cbn [obind] in P. rewrite WR in P. cbn [obind] in P. apply Some_inj in P. subst fs'. eauto.
    - destruct AS as (EN & HN). unfold metisMain in P. rewrite EN in P. cbn [obind] in P. destruct (Z.leb_spec (Z.of_nat np) 0); [lia|].
      rewrite F in P. cbn [obind] in P. rewrite RD in P. cbn [obind] in P. destruct (partitionMetis _ _ _ _ _) as [pv|] eqn:E; [|discriminate]. cbn [obind] in P.
      destruct ENV as (_ & _ & MO & W & SZ). assert (NN : Z.to_N (Z.of_nat np) = N.of_nat np) by lia. rewrite NN in E.
      assert (NC : sm_numCells sm = lenN (sm_cells sm)) by (destruct (smo_wf _ OK) as (X & _); exact X). rewrite NC in E.
      destruct (C53_vector w metis (N.of_nat np) sm pv OK TT W SZ MO ltac:(change (2 ^ 31)%N with (2 * 2 ^ 30)%N; lia) E) as (PV & _). rewrite Nat2N.id in PV. rewrite Nat2Z.id in P.
      destruct (written _ _ PV SM) as (m & r & CR & WR & L). rewrite CR in P. cbn [obind] in P. rewrite WR in P. cbn [obind] in P. apply Some_inj in P. subst fs'. eauto.
  Qed.
  (** The tools succeed, if METIS does. *)
  Lemma tool_runs t prog inF outF fs file np : fs inF = Some file -> serialRead file = Some sm -> asks t np -> mesh_small sm np -> (forall n x a p, fst (metis n x a p) = true) -> exists fs', partitions t prog inF outF fs fs'.
  Proof using OK TT CMP ENV.
    intros F RD AS SM MS. pose proof SM as (_ & _ & _ & SN). destruct t as [x y|n]; cbn [partitions asks] in *.
    - destruct AS as (nx & ny & EX & EY & HX & HY & ->). unfold columnsMain. rewrite EX, EY. cbn [obind].
      destruct (Z.leb_spec (Z.of_nat nx) 0); [lia|]. destruct (Z.leb_spec (Z.of_nat ny) 0); [lia|]. cbn [orb]. rewrite <- Nat2Z.inj_mul.
      destruct (Z.leb_spec (2 ^ 31) (Z.of_nat (nx * ny))). { exfalso. change (2 ^ 31)%Z with (2 * Z.of_N (2 ^ 30))%Z in *. lia. }
      rewrite F. cbn [obind]. rewrite RD. cbn [obind]. rewrite !Nat2Z.id.
      destruct (columns_vector nx ny HX HY) as (pv & E & PV); [change (2 ^ 31)%N with (2 * 2 ^ 30)%N; lia|]. rewrite E. cbn [obind].
      destruct (written _ _ PV SM) as (m & r & CR & WR & L). rewrite CR. cbn [obind]. rewrite WR. cbn [obind]. eauto.
    - destruct AS as (EN & HN). unfold metisMain. rewrite EN. cbn [obind]. destruct (Z.leb_spec (Z.of_nat np) 0); [lia|].
      rewrite F. cbn [obind]. rewrite RD. cbn [obind]. destruct ENV as (_ & _ & MO & W & SZ). assert (NN : Z.to_N (Z.of_nat np) = N.of_nat np) by lia. rewrite NN.
      assert (NC : sm_numCells sm = lenN (sm_cells sm)) by (destruct (smo_wf _ OK) as (X & _); exact X). rewrite NC.
      assert (NB : (0 < N.of_nat np < 2 ^ 31)%N) by (change (2 ^ 31)%N with (2 * 2 ^ 30)%N; lia).
      destruct (C53_succeeds w metis (N.of_nat np) sm OK TT W SZ MO NB MS) as (pv & E). rewrite E. cbn [obind].
      destruct (C53_vector w metis (N.of_nat np) sm pv OK TT W SZ MO NB E) as (PV & _). rewrite Nat2N.id in PV. rewrite Nat2Z.id.
      destruct (written _ _ PV SM) as (m & r & CR & WR & L). rewrite CR. cbn [obind]. rewrite WR. cbn [obind]. eauto.
  Qed.
End Commands.
Lemma put_same fs name b : put fs name b name = Some b.
Proof. unfold put. destruct (list_eq_dec N.eq_dec name name); congruence. Qed.
Lemma put_other fs name b n : n <> name -> put fs name b n = fs n.
Proof. unfold put. destruct (list_eq_dec N.eq_dec n name); congruence. Qed.
(** A parallel mesh file is accepted on one number of ranks only. *)
Lemma ranks_once file a b : headerCheck file a = true -> headerCheck file b = true -> a = b.
Proof.
  unfold headerCheck. destruct (fread_bytes 32 file) as [(nm, rest)|]; [|discriminate]. destruct (fread_words 2 rest) as [([|v [|n [|? ?]]], ?)|]; try discriminate.
  intros H1 H2. apply andb_prop in H1 as (_ & H1). apply andb_prop in H2 as (_ & H2). apply N.eqb_eq in H1, H2. congruence.
Qed.
Lemma other_ranks {T} (A : arith T) dec enc stod ltb quadrature pi tol fname deck sm pv np threads mesh np' threads' pr gsum iters out :
  serial_mesh_ok sm -> tets_ok sm -> launch ltb sm pv np threads mesh -> 0 < np -> 0 < np' -> mainRun A dec enc stod ltb quadrature pi tol fname deck mesh np' threads' pr gsum iters out -> np' = np.
Proof.
  intros OK TT LA N0 N1 (cfg & q & t & xs & psi & _ & _ & CM & _). specialize (CM 0 N1). unfold createMesh in CM.
  destruct (readInParallel mesh (N.of_nat np') (N.of_nat 0)) as [P|] eqn:R1; [|discriminate]. clear CM.
  destruct LA as [PV SM (decR & CMP) (m & m' & CR & WR) _]. destruct (C65_reads sm pv np ltb decR OK TT PV SM CMP) as (tt & m2 & f & m3 & CR2 & WR2 & RD).
  rewrite CR in CR2. apply Some_inj in CR2. subst m2. rewrite WR in WR2. apply Some_inj in WR2. injection WR2 as <- <-. destruct (RD 0 N0) as (P' & R2 & _).
  unfold readInParallel in R1, R2. destruct (headerCheck mesh (N.of_nat np')) eqn:H1 in R1; [|discriminate]. destruct (headerCheck mesh (N.of_nat np)) eqn:H2 in R2; [|discriminate].
  pose proof (ranks_once _ _ _ H1 H2). lia.
Qed.

(** The two commands: partition the mesh file [inF] into [pm], then run the sweep program on [pm] and the deck.  [rest]: further arguments. *)
Definition pipeline {T} (A : arith T) dec sortX sortY w metis (t : tool) (program : chars -> chars -> bytes -> N -> option (chars * file) -> Prop)
    (prog1 prog2 inF pm deckName : chars) (rest : list chars) (fs : files) (iters : N) (fs' : files) : Prop :=
  exists fs1, partitions A dec sortX sortY w metis t prog1 inF pm fs fs1 /\ sweepMain program (prog2 :: pm :: deckName :: rest) fs1 iters fs'.
(** What is there before: a serial mesh file and a deck, and tools that keep their promises. *)
Record prepared {T} (A : arith T) dec sortX sortY w metis stod (ltb : N -> N -> bool) quadrature tol (inF deckName : chars) (fs : files) (sm : smesh) (cfg : config T) (q : angles T) : Prop := {
  pr_mesh : exists file, fs inF = Some file /\ serialRead file = Some sm;
  pr_deck : exists deck, fs deckName = Some deck /\ setting A dec stod quadrature tol deckName deck sm cfg q;
  pr_tools : tools_ok A sortX sortY w metis sm;
  pr_compares : exists decR, compares sm decR ltb }.
Lemma list_nth_ext {X} (a b : list X) : (forall i, nth_error a i = nth_error b i) -> a = b.
Proof. revert b. induction a as [|x a IH]; intros [|y b] H; [reflexivity|specialize (H 0); discriminate|specialize (H 0); discriminate|]. pose proof (H 0) as E. cbn in E. apply Some_inj in E. subst y. f_equal. apply IH. intros i. exact (H (S i)). Qed.
Lemma same_list {X} (f : N -> option X) (a b : list X) : (forall p, f p = nth_error a (N.to_nat p)) -> (forall p, f p = nth_error b (N.to_nat p)) -> a = b.
Proof. intros H1 H2. apply list_nth_ext. intros i. specialize (H1 (N.of_nat i)). specialize (H2 (N.of_nat i)). rewrite Nat2N.id in H1, H2. congruence. Qed.

(** Any arithmetic.  If both commands end, the number of ranks was the number of parts, the output file is the image of the flux of the mesh and the deck, and
    apart from it and the parallel mesh all files are as before. *)
Theorem C74_output : forall T (A : arith T) dec enc sortX sortY w metis stod ltb quadrature pi tol inF deckName fs sm cfg q t parts np threads pr gsum prog1 prog2 pm rest iters fs',
  prepared A dec sortX sortY w metis stod ltb quadrature tol inF deckName fs sm cfg q -> asks t parts -> mesh_small sm parts -> 0 < np -> 0 < threads -> pm <> deckName ->
  pipeline A dec sortX sortY w metis t (fun d deck mesh it out => mainRun A dec enc stod ltb quadrature pi tol d deck mesh np threads pr gsum it out) prog1 prog2 inF pm deckName rest fs iters fs' ->
  np = parts /\ exists Val, serial_flux A dec pi sm cfg q (N.to_nat iters) Val /\
    (cOutputFile cfg = true -> fs' (cOutputFilename cfg) = Some (flux_file A enc sm cfg q Val)) /\
    forall n, n <> pm -> (cOutputFile cfg = true -> n <> cOutputFilename cfg) -> fs' n = fs n.
Proof.
  intros T A dec enc sortX sortY w metis stod ltb quadrature pi tol inF deckName fs sm cfg q t parts np threads pr gsum prog1 prog2 pm rest iters fs' [(file & F & RD) (deck & FD & SE) TO CMP] AS SM N0 TH NE (fs1 & P & S).
  pose proof (se_mesh _ _ _ _ _ _ _ _ _ _ SE) as BO. pose proof (bo_mesh _ _ _ _ _ BO) as OK. pose proof (bo_tets _ _ _ _ _ BO) as TT.
  destruct (tool_launch A dec sortX sortY w metis sm OK TT TO ltb CMP t prog1 inF pm fs file parts fs1 F RD AS SM P) as (pv & mesh & E1 & LA). specialize (LA threads TH).
  destruct S as (deck' & mesh' & out & D1 & M1 & R & O). subst fs1. rewrite put_same in M1. apply Some_inj in M1. subst mesh'. rewrite put_other in D1 by congruence. rewrite FD in D1. apply Some_inj in D1. subst deck'.
  assert (PP : 0 < parts). { destruct t as [x y|n]; cbn [asks] in AS; [destruct AS as (nx & ny & _ & _ & HX & HY & ->); now apply Nat.mul_pos_pos|now destruct AS]. }
  pose proof (other_ranks A dec enc stod ltb quadrature pi tol deckName deck sm pv parts threads mesh np threads pr gsum iters out OK TT LA PP N0 R). subst np. split; [reflexivity|].
  destruct (C70_output _ _ _ _ _ _ _ _ _ _ _ _ _ _ _ _ _ _ _ _ _ _ SE LA R) as (_ & _ & V & FL & OO). exists V. split; [exact FL|].
  destruct out as [(name, f)|].
  - destruct OO as (OT & -> & I). destruct O as (b & B & ->). rewrite (same_list _ _ _ B I). split; [intros _; apply put_same|]. intros n H1 H2. rewrite put_other by auto. now apply put_other.
  - subst fs'. split; [congruence|]. intros n H1 _. now apply put_other.
Qed.
(** So the way to partition, the number of parts, the names and the launch do not matter. *)
Theorem C74_same : forall T (A : arith T) dec enc sortX sortY w metis stod ltb quadrature pi tol inF deckName fs sm cfg q t1 parts1 np1 threads1 pr1 gsum1 a1 b1 pm1 rest1 fs1 t2 parts2 np2 threads2 pr2 gsum2 a2 b2 pm2 rest2 fs2 iters,
  prepared A dec sortX sortY w metis stod ltb quadrature tol inF deckName fs sm cfg q ->
  asks t1 parts1 -> mesh_small sm parts1 -> 0 < np1 -> 0 < threads1 -> pm1 <> deckName -> asks t2 parts2 -> mesh_small sm parts2 -> 0 < np2 -> 0 < threads2 -> pm2 <> deckName ->
  pipeline A dec sortX sortY w metis t1 (fun d deck mesh it out => mainRun A dec enc stod ltb quadrature pi tol d deck mesh np1 threads1 pr1 gsum1 it out) a1 b1 inF pm1 deckName rest1 fs iters fs1 ->
  pipeline A dec sortX sortY w metis t2 (fun d deck mesh it out => mainRun A dec enc stod ltb quadrature pi tol d deck mesh np2 threads2 pr2 gsum2 it out) a2 b2 inF pm2 deckName rest2 fs iters fs2 ->
  cOutputFile cfg = true -> exists b, fs1 (cOutputFilename cfg) = Some b /\ fs2 (cOutputFilename cfg) = Some b.
Proof.
  intros T A dec enc sortX sortY w metis stod ltb quadrature pi tol inF deckName fs sm cfg q t1 parts1 np1 threads1 pr1 gsum1 a1 b1 pm1 rest1 fs1 t2 parts2 np2 threads2 pr2 gsum2 a2 b2 pm2 rest2 fs2 iters PR A1 S1 N1 T1 D1 A2 S2 N2 T2 D2 P1 P2 OF.
  destruct (C74_output _ _ _ _ _ _ _ _ _ _ _ _ _ _ _ _ _ _ _ _ _ _ _ _ _ _ _ _ _ _ _ PR A1 S1 N1 T1 D1 P1) as (-> & V1 & F1 & O1 & _). destruct (C74_output _ _ _ _ _ _ _ _ _ _ _ _ _ _ _ _ _ _ _ _ _ _ _ _ _ _ _ _ _ _ _ PR A2 S2 N2 T2 D2 P2) as (-> & V2 & F2 & O2 & _).
  exists (flux_file A enc sm cfg q V1). split; [exact (O1 OF)|]. rewrite (O2 OF). f_equal.
  destruct PR as [(file & F & RD) (deck & FD & SE) TO CMP]. pose proof (se_mesh _ _ _ _ _ _ _ _ _ _ SE) as BO. pose proof (bo_mesh _ _ _ _ _ BO) as OK. pose proof (bo_tets _ _ _ _ _ BO) as TT.
  destruct P1 as (fs' & P1 & S). destruct (tool_launch A dec sortX sortY w metis sm OK TT TO ltb CMP t1 a1 inF pm1 fs file parts1 fs' F RD A1 S1 P1) as (pv & mesh & E1 & LA). specialize (LA threads1 T1).
  destruct S as (deck' & mesh' & out & DD & MM & R & _). subst fs'. rewrite put_same in MM. apply Some_inj in MM. subst mesh'. rewrite put_other in DD by congruence. rewrite FD in DD. apply Some_inj in DD. subst deck'.
  destruct (C70_output _ _ _ _ _ _ _ _ _ _ _ _ _ _ _ _ _ _ _ _ _ _ SE LA R) as (TM & _).
  exact (C70_determined _ _ _ enc _ _ _ _ _ _ _ _ _ _ _ _ _ _ _ _ _ SE LA TM F2 F1).
Qed.

(** The launch behind a pipeline. *)
Lemma pipeline_run {T} (A : arith T) dec sortX sortY w metis stod ltb quadrature tol inF deckName fs sm cfg q t parts program prog1 prog2 pm rest iters fs' :
  prepared A dec sortX sortY w metis stod ltb quadrature tol inF deckName fs sm cfg q -> asks t parts -> mesh_small sm parts -> pm <> deckName ->
  pipeline A dec sortX sortY w metis t program prog1 prog2 inF pm deckName rest fs iters fs' ->
  exists deck pv mesh out, fs deckName = Some deck /\ setting A dec stod quadrature tol deckName deck sm cfg q /\ (forall threads, 0 < threads -> launch ltb sm pv parts threads mesh) /\ 0 < parts /\
    (forall fs1, partitions A dec sortX sortY w metis t prog1 inF pm fs fs1 -> fs1 pm = Some mesh) /\ program deckName deck mesh iters out /\
    match out with Some (name, f) => exists b, (forall p, f p = nth_error b (N.to_nat p)) /\ fs' = put (put fs pm mesh) name b | None => fs' = put fs pm mesh end.
Proof.
  intros [(file & F & RD) (deck & FD & SE) TO CMP] AS SM NE (fs1 & P & S).
  pose proof (se_mesh _ _ _ _ _ _ _ _ _ _ SE) as BO. pose proof (bo_mesh _ _ _ _ _ BO) as OK. pose proof (bo_tets _ _ _ _ _ BO) as TT.
  destruct (tool_launch A dec sortX sortY w metis sm OK TT TO ltb CMP t prog1 inF pm fs file parts fs1 F RD AS SM P) as (pv & mesh & E1 & LA).
  destruct S as (deck' & mesh' & out & D1 & M1 & R & O). subst fs1. rewrite put_same in M1. apply Some_inj in M1. subst mesh'. rewrite put_other in D1 by congruence. rewrite FD in D1. apply Some_inj in D1. subst deck'.
  exists deck, pv, mesh, out. split; [exact FD|]. split; [exact SE|]. split; [exact LA|]. split; [destruct t as [x y|n]; cbn [asks] in AS; [destruct AS as (nx & ny & _ & _ & HX & HY & ->); now apply Nat.mul_pos_pos|now destruct AS]|].
  split; [|split; [exact R|exact O]]. intros fs1 P1. assert (E : fs1 = put fs pm mesh); [|subst fs1; apply put_same].
  destruct t; cbn [partitions] in P, P1; rewrite P in P1; now apply Some_inj in P1.
Qed.
(** Exact arithmetic: the number of iterations is the same, too. *)
Theorem C74_exact_same : forall dec enc sortX sortY w metis stod ltb quadrature pi tol inF deckName fs sm cfg q t1 parts1 np1 threads1 pr1 gsum1 a1 b1 pm1 rest1 iters1 fs1 t2 parts2 np2 threads2 pr2 gsum2 a2 b2 pm2 rest2 iters2 fs2,
  prepared Rops dec sortX sortY w metis stod ltb quadrature tol inF deckName fs sm cfg q ->
  asks t1 parts1 -> mesh_small sm parts1 -> 0 < np1 -> 0 < threads1 -> pm1 <> deckName -> sums np1 gsum1 -> asks t2 parts2 -> mesh_small sm parts2 -> 0 < np2 -> 0 < threads2 -> pm2 <> deckName -> sums np2 gsum2 ->
  pipeline Rops dec sortX sortY w metis t1 (fun d deck mesh it out => mainRun Rops dec enc stod ltb quadrature pi tol d deck mesh np1 threads1 pr1 gsum1 it out) a1 b1 inF pm1 deckName rest1 fs iters1 fs1 ->
  pipeline Rops dec sortX sortY w metis t2 (fun d deck mesh it out => mainRun Rops dec enc stod ltb quadrature pi tol d deck mesh np2 threads2 pr2 gsum2 it out) a2 b2 inF pm2 deckName rest2 fs iters2 fs2 ->
  iters1 = iters2 /\ (cOutputFile cfg = true -> exists b, fs1 (cOutputFilename cfg) = Some b /\ fs2 (cOutputFilename cfg) = Some b).
Proof.
  intros dec enc sortX sortY w metis stod ltb quadrature pi tol inF deckName fs sm cfg q t1 parts1 np1 threads1 pr1 gsum1 a1 b1 pm1 rest1 iters1 fs1 t2 parts2 np2 threads2 pr2 gsum2 a2 b2 pm2 rest2 iters2 fs2 PR A1 S1 N1 T1 D1 G1 A2 S2 N2 T2 D2 G2 P1 P2.
  assert (E : iters1 = iters2).
  { destruct (C74_output _ _ _ _ _ _ _ _ _ _ _ _ _ _ _ _ _ _ _ _ _ _ _ _ _ _ _ _ _ _ _ PR A1 S1 N1 T1 D1 P1) as (-> & _). destruct (C74_output _ _ _ _ _ _ _ _ _ _ _ _ _ _ _ _ _ _ _ _ _ _ _ _ _ _ _ _ _ _ _ PR A2 S2 N2 T2 D2 P2) as (-> & _).
    destruct (pipeline_run Rops dec sortX sortY w metis stod ltb quadrature tol inF deckName fs sm cfg q t1 parts1 _ a1 b1 pm1 rest1 iters1 fs1 PR A1 S1 D1 P1) as (deck & pv & mesh & out & FD & SE & LA & _ & _ & R & _).
    destruct (pipeline_run Rops dec sortX sortY w metis stod ltb quadrature tol inF deckName fs sm cfg q t2 parts2 _ a2 b2 pm2 rest2 iters2 fs2 PR A2 S2 D2 P2) as (deck' & pv2 & mesh2 & out2 & FD' & SE' & LA2 & _ & _ & R2 & _).
    cbn beta in R, R2. rewrite FD in FD'. apply Some_inj in FD'. subst deck'.
    exact (proj1 (C70_exact_partition_independent _ _ _ _ _ _ _ _ _ _ _ _ _ _ _ _ _ _ _ _ _ _ _ _ _ _ _ _ SE (LA _ T1) (LA2 _ T2) G1 G2 R R2)). }
  subst iters2. split; [reflexivity|]. intros OF. exact (C74_same _ _ _ _ _ _ _ _ _ _ _ _ _ _ _ _ _ _ _ _ _ _ _ _ _ _ _ _ _ _ _ _ _ _ _ _ _ _ _ _ _ _ PR A1 S1 N1 T1 D1 A2 S2 N2 T2 D2 P1 P2 OF).
Qed.

(** The commands can be run to the end, under the conditions of C70, on as many ranks as there are parts. *)
Theorem C74_runs : forall T (A : arith T) dec enc sortX sortY w metis stod ltb quadrature pi tol inF deckName fs sm cfg q t parts threads pr gsum prog1 prog2 pm rest,
  prepared A dec sortX sortY w metis stod ltb quadrature tol inF deckName fs sm cfg q -> asks t parts -> mesh_small sm parts -> 0 < threads -> pm <> deckName -> (forall n x a p, fst (metis n x a p) = true) ->
  two_materials sm -> normals_ok A sm dec (q_omega q) (q_num q) -> cUseSI cfg = true -> ready_solver cfg ->
  cGauss cfg <> GE_Original \/ (forall n V, serial_flux A dec pi sm cfg q n V -> (N.of_nat n < cIterMax cfg)%N -> exists V', serial_flux A dec pi sm cfg q (S n) V') ->
  exists iters fs', pipeline A dec sortX sortY w metis t (fun d deck mesh it out => mainRun A dec enc stod ltb quadrature pi tol d deck mesh parts threads pr gsum it out) prog1 prog2 inF pm deckName rest fs iters fs'.
Proof.
  intros T A dec enc sortX sortY w metis stod ltb quadrature pi tol inF deckName fs sm cfg q t parts threads pr gsum prog1 prog2 pm rest [(file & F & RD) (deck & FD & SE) TO CMP] AS SM TH NE MS TM NO UI RY SV.
  pose proof (se_mesh _ _ _ _ _ _ _ _ _ _ SE) as BO. pose proof (bo_mesh _ _ _ _ _ BO) as OK. pose proof (bo_tets _ _ _ _ _ BO) as TT.
  destruct (tool_runs A dec sortX sortY w metis sm OK TT TO ltb CMP t prog1 inF pm fs file parts F RD AS SM MS) as (fs1 & P).
  destruct (tool_launch A dec sortX sortY w metis sm OK TT TO ltb CMP t prog1 inF pm fs file parts fs1 F RD AS SM P) as (pv & mesh & -> & LA). specialize (LA threads TH).
  destruct (C70_runs _ A dec enc stod ltb quadrature pi tol deckName deck sm cfg q pv parts threads mesh pr gsum SE LA TM NO UI RY SV) as (iters & out & R).
  destruct (C70_output _ _ _ _ _ _ _ _ _ _ _ _ _ _ _ _ _ _ _ _ _ _ SE LA R) as (_ & _ & V & _ & O). exists iters.
  assert (K : exists fs', match out with Some (name, f) => exists b, (forall p, f p = nth_error b (N.to_nat p)) /\ fs' = put (put fs pm mesh) name b | None => fs' = put fs pm mesh end).
  { destruct out as [(name, f)|]; [destruct O as (_ & _ & O); eauto|eauto]. }
  destruct K as (fs' & K). exists fs', (put fs pm mesh). split; [exact P|]. exists deck, mesh, out. split; [rewrite put_other by congruence; exact FD|]. split; [apply put_same|]. split; [exact R|exact K].
Qed.

(** All solvers, exact arithmetic: two decks for the same equations, each with a solver that does not iterate, each mesh partitioned its own way, leave the same bytes. *)
Theorem C74_solvers : forall dec enc sortX sortY w metis stod ltb quadrature pi tol inF fs sm k
    deckName1 cfg1 q1 t1 parts1 threads1 kspPhi1 kspVec1 kspBoth1 pr1 gsum1 a1 b1 pm1 rest1 its1 fs1 deckName2 cfg2 q2 t2 parts2 threads2 kspPhi2 kspVec2 kspBoth2 pr2 gsum2 a2 b2 pm2 rest2 its2 fs2,
  prepared Rops dec sortX sortY w metis stod ltb quadrature tol inF deckName1 fs sm cfg1 q1 -> prepared Rops dec sortX sortY w metis stod ltb quadrature tol inF deckName2 fs sm cfg2 q2 ->
  asks t1 parts1 -> mesh_small sm parts1 -> 0 < threads1 -> pm1 <> deckName1 -> asks t2 parts2 -> mesh_small sm parts2 -> 0 < threads2 -> pm2 <> deckName2 ->
  compares sm dec ltb -> (0 < cMaxCellsPerStep cfg1)%N -> (0 < cMaxCellsPerStep cfg2)%N ->
  problem_ok sm dec (q_num q1) (q_omega q1) (by_material Rops sm (cSigmaT1 cfg1) (cSigmaT2 cfg1)) ->
  s_scatters sm (q_num q1) (by_material Rops sm (cSigmaT1 cfg1) (cSigmaT2 cfg1)) pi (q_weight q1) k (by_material Rops sm (cSigmaS1 cfg1) (cSigmaS2 cfg1)) -> (k < 1)%R ->
  same_equations cfg1 cfg2 -> direct (List.length (sm_cells sm)) cfg1 -> direct (List.length (sm_cells sm)) cfg2 ->
  (forall g mesh, partitions Rops dec sortX sortY w metis t1 a1 inF pm1 fs g -> g pm1 = Some mesh -> solves_exactly dec ltb cfg1 q1 mesh parts1 kspPhi1 kspVec1 kspBoth1) ->
  (forall g mesh, partitions Rops dec sortX sortY w metis t2 a2 inF pm2 fs g -> g pm2 = Some mesh -> solves_exactly dec ltb cfg2 q2 mesh parts2 kspPhi2 kspVec2 kspBoth2) ->
  pipeline Rops dec sortX sortY w metis t1 (fun d deck mesh it out => mainAll dec enc stod ltb quadrature pi tol kspPhi1 kspVec1 kspBoth1 d deck mesh parts1 threads1 pr1 gsum1 it out) a1 b1 inF pm1 deckName1 rest1 fs its1 fs1 ->
  pipeline Rops dec sortX sortY w metis t2 (fun d deck mesh it out => mainAll dec enc stod ltb quadrature pi tol kspPhi2 kspVec2 kspBoth2 d deck mesh parts2 threads2 pr2 gsum2 it out) a2 b2 inF pm2 deckName2 rest2 fs its2 fs2 ->
  cOutputFile cfg1 = true -> cOutputFile cfg2 = true ->
  exists sol, deck_solution dec pi sm cfg1 q1 sol /\ fs1 (cOutputFilename cfg1) = Some (field_file enc sm cfg1 q1 sol) /\ fs2 (cOutputFilename cfg2) = Some (field_file enc sm cfg1 q1 sol).
Proof.
  intros dec enc sortX sortY w metis stod ltb quadrature pi tol inF fs sm k deckName1 cfg1 q1 t1 parts1 threads1 kspPhi1 kspVec1 kspBoth1 pr1 gsum1 a1 b1 pm1 rest1 its1 fs1 deckName2 cfg2 q2 t2 parts2 threads2 kspPhi2 kspVec2 kspBoth2 pr2 gsum2 a2 b2 pm2 rest2 its2 fs2
    PR1 PR2 A1 S1 T1 D1 A2 S2 T2 D2 CM X1 X2 PB SC K1 SQ R1 R2 KS1 KS2 P1 P2 O1 O2.
  destruct (pipeline_run Rops dec sortX sortY w metis stod ltb quadrature tol inF deckName1 fs sm cfg1 q1 t1 parts1 _ a1 b1 pm1 rest1 its1 fs1 PR1 A1 S1 D1 P1) as (dk1 & pv1 & mesh1 & out1 & _ & SE1 & L1 & _ & M1 & RR1 & OO1).
  destruct (pipeline_run Rops dec sortX sortY w metis stod ltb quadrature tol inF deckName2 fs sm cfg2 q2 t2 parts2 _ a2 b2 pm2 rest2 its2 fs2 PR2 A2 S2 D2 P2) as (dk2 & pv2 & mesh2 & out2 & _ & SE2 & L2 & _ & M2 & RR2 & OO2). cbn beta in RR1, RR2.
  assert (q1 = q2). { pose proof (se_angles _ _ _ _ _ _ _ _ _ _ SE1) as E1. pose proof (se_angles _ _ _ _ _ _ _ _ _ _ SE2) as E2. rewrite (sq_angles _ _ SQ), E2 in E1. now apply Some_inj in E1. } subst q2.
  destruct P1 as (g1 & P1 & _). destruct P2 as (g2 & P2 & _). specialize (KS1 g1 mesh1 P1 (M1 g1 P1)). specialize (KS2 g2 mesh2 P2 (M2 g2 P2)).
  assert (RU1 : runnable dec stod ltb quadrature pi tol deckName1 dk1 sm cfg1 q1 k pv1 parts1 threads1 mesh1) by (constructor; auto).
  assert (RU2 : runnable dec stod ltb quadrature pi tol deckName2 dk2 sm cfg2 q1 k pv2 parts2 threads2 mesh2).
  { constructor; auto; destruct SQ as [_ _ Q1 Q2 Q3 Q4]; rewrite <- ?Q1, <- ?Q2, <- ?Q3, <- ?Q4; assumption. }
  destruct (C72_direct _ enc _ _ _ _ _ _ _ _ _ _ _ _ _ _ _ _ _ _ RU1 K1 KS1 R1) as (sol & S & _ & FF). exists sol. split; [exact S|].
  assert (Z1 : out1 <> None). { intros ->. destruct RR1 as (cfg' & q' & psi & RI & _ & _ & _ & _ & Z). rewrite (se_deck _ _ _ _ _ _ _ _ _ _ SE1) in RI. apply Some_inj in RI. subst cfg'. congruence. }
  assert (Z2 : out2 <> None). { intros ->. destruct RR2 as (cfg' & q' & psi & RI & _ & _ & _ & _ & Z). rewrite (se_deck _ _ _ _ _ _ _ _ _ _ SE2) in RI. apply Some_inj in RI. subst cfg'. congruence. }
  destruct out1 as [(n1, f1)|]; [|congruence]. destruct out2 as [(n2, f2)|]; [|congruence]. destruct OO1 as (c1 & C1 & ->), OO2 as (c2 & C2 & ->).
  destruct (FF _ _ _ _ _ RR1) as (_ & -> & I1). destruct (C72_direct _ enc _ _ _ _ _ _ _ _ _ _ _ _ _ _ _ _ _ _ RU2 K1 KS2 R2) as (sol2 & _ & _ & FF2). destruct (FF2 _ _ _ _ _ RR2) as (_ & -> & _).
  pose proof (C72_same _ _ _ _ _ _ _ _ _ _ _ _ _ _ _ _ _ _ _ _ _ _ _ _ _ _ _ _ _ _ _ _ _ _ _ _ _ _ _ _ _ RU1 RU2 K1 SQ KS1 KS2 R1 R2 RR1 RR2) as SAME.
  rewrite !put_same. rewrite (same_list _ _ _ C1 I1). split; [reflexivity|]. f_equal. apply (same_list f2); [exact C2|]. intros p. rewrite <- SAME. exact (I1 p).
Qed.

(** ** Refinement *)
Definition same_tables (a b : smesh) : Prop :=
  (sm_numCells a, sm_numFaces a, sm_numNodes a, sm_cells a, sm_faces a, sm_nodes a) = (sm_numCells b, sm_numFaces b, sm_numNodes b, sm_cells b, sm_faces b, sm_nodes b).
Lemma tables_refine n v a b : same_tables a b -> refineMeshD n v a = refineMeshD n v b.
Proof. destruct a as [n1 v1 c1 f1 d1 C1 F1 D1], b as [n2 v2 c2 f2 d2 C2 F2 D2]. unfold same_tables. cbn [sm_numCells sm_numFaces sm_numNodes sm_cells sm_faces sm_nodes]. intros E. inversion E. subst. reflexivity. Qed.
Lemma tables_ok a b : same_tables b a -> serial_mesh_ok a -> tets_ok a -> serial_mesh_ok b /\ tets_ok b.
Proof.
  destruct a as [n1 v1 c1 f1 d1 C1 F1 D1], b as [n2 v2 c2 f2 d2 C2 F2 D2]. unfold same_tables. cbn [sm_numCells sm_numFaces sm_numNodes sm_cells sm_faces sm_nodes]. intros E. inversion E. subst. intros [A1 A2 A3 A4 A5 A6 A7] [B1 B2 B3]. split.
  - constructor; [exact A1|exact A2|exact A3|exact A4|exact A5|exact A6|exact A7].
  - constructor; [exact B1|exact B2|exact B3].
Qed.
Lemma times_snoc n v k sm : refineTimesD n v (S k) sm = match refineTimesD n v k sm with None => None | Some rm => refineMeshD n v rm end.
Proof. revert sm. induction k as [|k IH]; intros sm; [cbn; now destruct (refineMeshD n v sm)|]. change (refineTimesD n v (S (S k)) sm) with (match refineMeshD n v sm with None => None | Some rm => refineTimesD n v (S k) rm end). cbn [refineTimesD]. destruct (refineMeshD n v sm) as [rm|]; [apply IH|reflexivity]. Qed.
(** The refinement command run on [from], the result on the next name, and so on. *)
Fixpoint refineAll (n : list N) (v : N) (prog from : chars) (names : list chars) (fs : files) : option files :=
  match names with
  | [] => Some fs
  | to :: rest => match refineMain n v [prog; from; to] fs with Some fs' => refineAll n v prog to rest fs' | None => None end
  end.
Lemma last_cons {X} (l : list X) x d : last (x :: l) d = last l x.
Proof. revert x d. induction l as [|y l IH]; intros x d; [reflexivity|]. change (last (x :: y :: l) d) with (last (y :: l) d). now rewrite !IH. Qed.
Lemma all_snoc n v prog from names to fs : refineAll n v prog from (names ++ [to]) fs = match refineAll n v prog from names fs with Some fs' => refineMain n v [prog; last names from; to] fs' | None => None end.
Proof.
  revert from fs. induction names as [|x names IH]; intros from fs; [cbn [app refineAll last]; now destruct (refineMain n v [prog; from; to] fs)|].
  cbn [app refineAll]. destruct (refineMain n v [prog; from; x] fs) as [fs'|]; [|reflexivity]. rewrite IH. destruct (refineAll n v prog x names fs') as [fs2|]; [|reflexivity]. now rewrite last_cons.
Qed.

(** Refinement of a mesh file by commands, in double precision: each command writes a valid mesh, the last one a mesh of the same solid with 8^k times the cells,
    on which the theorems above then apply. *)
Theorem C74_refined : forall n v prog from names fs file sm b e,
  fs from = Some file -> serialRead file = Some sm -> serial_mesh_ok sm -> tets_ok sm -> solid sm number -> grid_mesh sm b e ->
  let k := List.length names in (b * 2 ^ Z.of_nat k <= 2 ^ 45)%Z -> (-1073 + Z.of_nat k <= e <= 960)%Z ->
  (1000 <= lenN (sm_cells sm))%N -> (4 * 8 ^ N.of_nat k * lenN (sm_cells sm) < 2 ^ 31)%N ->
  exists fs' file' rm, refineAll n v prog from names fs = Some fs' /\ fs' (last names from) = Some file' /\ serialRead file' = Some rm /\
    lenN (sm_cells rm) = (8 ^ N.of_nat k * lenN (sm_cells sm))%N /\ serial_mesh_ok rm /\ tets_ok rm /\ solid rm number /\
    (forall g q x, s_cell sm number g q -> (inside q x <-> exists h p, (h / 8 ^ N.of_nat k)%N = g /\ s_cell rm number h p /\ inside p x)) /\
    (forall h sc, SM_cell rm h = Some sc -> exists sc', SM_cell sm (h / 8 ^ N.of_nat k) = Some sc' /\ sc_mat sc = sc_mat sc') /\
    (face_to_face sm number -> (forall x, on_surface rm number x <-> on_surface sm number x) /\ face_to_face rm number) /\
    forall x, ~ In x names -> fs' x = fs x.
Proof.
  intros n v prog from names fs file sm b e F RD OK TT SO GR k BK EK L1 L2.
  assert (M : forall j, j <= k -> (b * 2 ^ Z.of_nat j <= 2 ^ 45)%Z /\ (-1073 + Z.of_nat j <= e <= 960)%Z /\ (4 * 8 ^ N.of_nat j * lenN (sm_cells sm) < 2 ^ 31)%N).
  { intros j Hj. split; [|split; [lia|]].
    - destruct (Z.le_gt_cases b 0). { assert (0 < 2 ^ Z.of_nat j)%Z by (apply Z.pow_pos_nonneg; lia). assert (b * 2 ^ Z.of_nat j <= 0)%Z by (apply Z.mul_nonpos_nonneg; lia). assert (0 < 2 ^ 45)%Z by reflexivity. lia. }
      etransitivity; [|exact BK]. apply Z.mul_le_mono_nonneg_l; [lia|]. apply Z.pow_le_mono_r; lia.
    - eapply N.le_lt_trans; [|exact L2]. apply N.mul_le_mono_r, N.mul_le_mono_l, N.pow_le_mono_r; lia. }
  assert (I : forall l1 l2, names = l1 ++ l2 -> exists fs' file' rm rm0, refineAll n v prog from l1 fs = Some fs' /\ fs' (last l1 from) = Some file' /\ serialRead file' = Some rm /\
    refineTimesD n v (List.length l1) sm = Some rm0 /\ same_tables rm rm0 /\ forall x, ~ In x l1 -> fs' x = fs x).
  { intros l1. induction l1 as [|to l1 IH] using rev_ind; intros l2 EN.
    - exists fs, file, sm, sm. cbn [refineAll last List.length refineTimesD]. split; [reflexivity|]. split; [exact F|]. split; [exact RD|]. split; [reflexivity|]. split; [reflexivity|auto].
    - rewrite <- app_assoc in EN. destruct (IH _ EN) as (g & file1 & r1 & r0 & RA & G1 & RD1 & RT & ST & UN). clear IH.
      assert (LK : S (List.length l1) <= k) by (unfold k; rewrite EN, app_length; cbn [app List.length]; lia).
      destruct (M _ LK) as (B1 & B2 & B3). destruct (C67_doubles n v (S (List.length l1)) sm b e OK TT SO GR B1 B2 L1 B3) as (r2 & RT2 & _ & OK2 & _).
      rewrite times_snoc, RT in RT2. destruct (C08_serial_roundtrip r2 [] (smo_wf _ OK2)) as (file2 & r3 & WR & RD3 & _ & _ & ST3). rewrite app_nil_r in RD3.
      exists (put g to file2), file2, r3, r2. rewrite all_snoc, RA. unfold refineMain. rewrite G1. cbn [obind]. rewrite RD1. cbn [obind]. rewrite (tables_refine _ _ _ _ ST), RT2. cbn [obind]. rewrite WR. cbn [obind fst].
      split; [reflexivity|]. split; [rewrite last_last; apply put_same|]. split; [exact RD3|]. split; [|split; [exact ST3|]].
      + rewrite app_length, Nat.add_1_r, times_snoc, RT. exact RT2.
      + intros x HX. rewrite in_app_iff in HX. rewrite put_other; [apply UN; tauto|]. intros ->. apply HX. right. now left. }
  destruct (I names [] ltac:(now rewrite app_nil_r)) as (fs' & file' & rm & r0 & RA & G & RD' & RT & ST & UN).
  destruct (C67_doubles n v k sm b e OK TT SO GR BK EK L1 L2) as (r1 & RT1 & NC & OK1 & TT1 & SO1 & SOL & _ & MA & FF). unfold k in RT1. rewrite RT in RT1. apply Some_inj in RT1. subst r0.
  exists fs', file', rm. split; [exact RA|]. split; [exact G|]. split; [exact RD'|].
  destruct (tables_ok _ _ ST OK1 TT1) as (OK' & TT'). split; [|split; [exact OK'|]]; [|split; [exact TT'|]].
  - destruct rm as [n1 v1 c1 f1 d1 C1 F1 D1], r1 as [n2 v2 c2 f2 d2 C2 F2 D2]. unfold same_tables in ST. cbn [sm_numCells sm_numFaces sm_numNodes sm_cells sm_faces sm_nodes] in ST. inversion ST. subst. exact NC.
  - destruct rm as [n1 v1 c1 f1 d1 C1 F1 D1], r1 as [n2 v2 c2 f2 d2 C2 F2 D2]. unfold same_tables in ST. cbn [sm_numCells sm_numFaces sm_numNodes sm_cells sm_faces sm_nodes] in ST. inversion ST. subst.
    split; [destruct SO1 as [Z1 Z2]; constructor; [exact Z1|exact Z2]|]. split; [exact SOL|]. split; [exact MA|]. split; [exact FF|exact UN].
Qed.
Print Assumptions C74_output. Print Assumptions C74_same. Print Assumptions C74_exact_same. Print Assumptions C74_runs. Print Assumptions C74_solvers. Print Assumptions C74_refined.
