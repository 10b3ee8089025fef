(** C70: the whole program, from the mesh and the input deck to the output file. *)
From Coq Require Import Reals Permutation String.
From Verif Require Import Prelude Bytes LayoutModel PsiFileModel PsiFileSpec DeckModel MeshModel MeshSpec CreateModel CreateSpec CreateProofs TychoModel TychoSpec GeometryModel GaussModel TransportModel TraverseModel TraverseRun SweepModel FluxModel ProblemModel ViewModel ViewSpec ViewProofs PropertiesView BitsModel BitsSpec BitsProofs PropertiesBits MainModel MainSpec MainProofs MainExact.

(** What does not depend on the ranks: the deck (as readInput reads it), the angles, the serial mesh. Its computed flow signs agree and
    make no cycles; the messages of a sweep stay below 2 GB. With a precomputed schedule, Omega.n is beyond the schedule's tolerance on
    every face between cells. *)
Record setting {T : Type} (A : arith T) (dec : N -> T) (stod : chars -> option T) (quadrature : N -> option (angles T)) (tol : T) (fname deck : chars)
    (sm : smesh) (cfg : config T) (q : angles T) : Prop := {
  se_deck : readInput stod fname (Some deck) = Some cfg;
  se_angles : quadrature (cSnOrder cfg) = Some q;
  se_mesh : bits_ok A sm dec (q_omega q) (q_num q);
  se_tol : cSweep cfg = OriginalTycho1 \/ cSweep cfg = OriginalTycho2 -> beyond_tol A sm dec (q_omega q) (q_num q) tol;
  se_cells : 0 < List.length (sm_cells sm); se_some : 0 < q_num q; se_groups : (0 < cNGroups cfg)%N;
  se_size : (N.of_nat (q_num q * List.length (sm_cells sm) * 4) * (24 * cNGroups cfg) < INT_MAX)%N }.
(** One way to run it: partition vector, number of ranks, threads per rank, and the parallel mesh file the partitioner wrote. *)
Record launch (ltb : N -> N -> bool) (sm : smesh) (pv : list N) (np threads : nat) (mesh : bytes) : Prop := {
  la_partition : partition_vector_ok sm pv np;
  la_small : mesh_small sm np;
  la_compares : exists decR, compares sm decR ltb;
  la_file : exists m m', createFromSerialMesh sm pv np = Some m /\ parallelWrite m = Some (mesh, m');
  la_threads : 0 < threads }.

(** The cell solver that a value of GaussElim names. *)
Definition named_solver (g : gaussElimT) : gaussElim :=
  match g with GE_Original => GaussModel.Original | GE_NoPivot => GaussModel.NoPivot | GE_CramerGlu => GaussModel.CramerGlu | GE_CramerIntel => GaussModel.CramerIntel end.
Lemma gauss_named g : gaussOf g = named_solver g.
Proof. now destruct g. Qed.
(** The flux after [n] sweeps of the serial mesh, for this deck. *)
Definition serial_flux {T} (A : arith T) dec pi (sm : smesh) (cfg : config T) (q : angles T) (n : nat) (Val : nat -> N -> value T) : Prop :=
  b_iterate A sm dec (q_omega q) (q_num q) (q_weight q) pi (named_solver (cGauss cfg)) (N.to_nat (cNGroups cfg))
    (by_material A sm (cSigmaT1 cfg) (cSigmaT2 cfg)) (by_material A sm (cSigmaS1 cfg) (cSigmaS2 cfg)) n Val.
(** The documented output file with this flux. *)
Definition flux_file {T} (A : arith T) (enc : T -> N) (sm : smesh) (cfg : config T) (q : angles T) (Val : nat -> N -> value T) : bytes :=
  psiImage (N.to_nat (cNGroups cfg)) 4 (q_num q) (List.length (sm_cells sm)) (fun G v a c => enc (getBlock A (Val a (N.of_nat c)) v G)).

Section Parts.
  Context {T : Type} (A : arith T) (dec : N -> T) (stod : chars -> option T) (ltb : N -> N -> bool) (quadrature : N -> option (angles T)) (tol : T).
  Context (fname deck : chars) (sm : smesh) (cfg : config T) (q : angles T) (SE : setting A dec stod quadrature tol fname deck sm cfg q).
  Context (pv : list N) (np threads : nat) (mesh : bytes) (LA : launch ltb sm pv np threads mesh).
  Lemma rank_of_cells : 0 < List.length (sm_cells sm) -> 0 < np.
  Proof using LA.
    intros HC. destruct LA. destruct la_partition0 as (L & F & _). destruct pv as [|p l]; [cbn in L; lia|]. inversion F; subst. lia.
  Qed.
  Lemma some_rank : 0 < np.
  Proof using SE LA. exact (rank_of_cells (se_cells _ _ _ _ _ _ _ _ _ _ SE)). Qed.
  Lemma reads_mesh t : (forall r, r < np -> createMesh A dec ltb q mesh np r = Some (t r)) -> program_reads sm pv np ltb t.
  Proof using LA.
    intros H. destruct LA. destruct la_file0 as (m & m' & CR & WR). exists m, mesh, m'. split; auto. split; auto. intros r Hr. specialize (H r Hr). unfold createMesh in H.
    destruct (readInParallel mesh (N.of_nat np) (N.of_nat r)) as [P|]; [|discriminate]. cbn [obind] in H. destruct (readTychoMesh ltb P (N.of_nat r)) as [x|] eqn:E; [|discriminate]. cbn [obind] in H.
    destruct (constructs A dec (q_omega q) x (q_num q)); [|discriminate]. apply Some_inj in H. subst. eauto.
  Qed.
End Parts.

(** Whatever the partition, the numbers of ranks and threads, the priorities, the order in which messages and writes happen and sums are formed,
    whichever MPI exchange the deck asks for, and whether it sweeps by graph traversal or over a schedule: the output file is, byte for byte, the documented image of the flux of as many sweeps of
    the serial mesh as iterations were made. *)
Theorem C70_output : forall T (A : arith T) dec enc stod ltb quadrature pi tol fname deck sm cfg q pv np threads mesh pr gsum iters out,
  setting A dec stod quadrature tol fname deck sm cfg q -> launch ltb sm pv np threads mesh ->
  mainRun A dec enc stod ltb quadrature pi tol fname deck mesh np threads pr gsum iters out ->
  two_materials sm /\ (iters <= cIterMax cfg)%N /\
  exists Val, serial_flux A dec pi sm cfg q (N.to_nat iters) Val /\
    match out with
    | Some (name, f) => cOutputFile cfg = true /\ name = cOutputFilename cfg /\ forall p, f p = nth_error (flux_file A enc sm cfg q Val) (N.to_nat p)
    | None => cOutputFile cfg = false
    end.
Proof.
  intros T A dec enc stod ltb quadrature pi tol fname deck sm cfg q pv np threads mesh pr gsum iters out SE LA (cfg' & q' & t & xs & psi & E1 & E2 & CM & XS & SI & SO & OUT).
  pose proof (some_rank A dec stod ltb quadrature tol fname deck sm cfg q SE pv np threads mesh LA) as NP. pose proof SE as SE0. pose proof LA as LA0. destruct SE, LA. rewrite se_deck0 in E1. apply Some_inj in E1. subst cfg'. rewrite se_angles0 in E2. apply Some_inj in E2. subst q'.
  pose proof (reads_mesh A dec ltb sm q pv np threads mesh LA0 t CM) as RD.
  assert (HG0 : 0 < N.to_nat (cNGroups cfg)) by lia.
  split.
  { intros g sc HS. destruct (reads_parts sm pv np ltb t (bo_mesh _ _ _ _ _ se_mesh0) la_partition0 la_small0 RD) as (m & CR & R1). destruct la_compares0 as (d & CP).
    destruct (gid_onto sm pv np m ltb d t (bo_mesh _ _ _ _ _ se_mesh0) (bo_tets _ _ _ _ _ se_mesh0) la_partition0 CR CP R1 g sc HS) as (r & c & Hr & HG).
    pose proof (material A dec ltb sm pv np q se_mesh0 la_partition0 la_small0 (ex_intro _ d CP) t RD r c g sc Hr HG HS) as M.
    destruct (cross_nth (azero A) _ _ _ _ _ _ (XS r Hr) c _ M) as [(-> & _)|(-> & _)]; auto. }
  destruct (solve_ok A dec enc ltb pi sm pv np cfg q threads se_mesh0 la_partition0 la_small0 la_compares0 la_threads0 NP HG0 se_some0 se_cells0 se_size0 t RD xs XS tol se_tol0 pr gsum iters psi SO) as (Val & H & IT & LE).
  split; [exact LE|]. exists Val. split; [exact IT|]. destruct out as [(name, f)|]; [|exact OUT]. destruct OUT as (O1 & O2 & O3). split; auto. split; auto.
  exact (proj2 (write_ok A dec enc ltb pi sm pv np cfg q threads se_mesh0 la_partition0 la_small0 la_compares0 la_threads0 NP HG0 se_some0 se_cells0 se_size0 t RD psi Val H) f O3).
Qed.

(** The meshes and cross sections of all ranks exist. *)
Lemma program_meshes_fit {T} (A : arith T) dec ltb sm (cfg : config T) (q : angles T) pv np threads mesh : fit_ok A sm dec (q_omega q) (q_num q) -> launch ltb sm pv np threads mesh ->
  two_materials sm -> exists t xs, program_reads sm pv np ltb t /\
    (forall r, r < np -> exists P, readInParallel mesh (N.of_nat np) (N.of_nat r) = Some P /\ readTychoMesh ltb P (N.of_nat r) = Some (t r)) /\
    forall r, r < np -> createCrossSections (tm_material (t r)) (cSigmaT1 cfg) (cSigmaS1 cfg) (cSigmaT2 cfg) (cSigmaS2 cfg) = Some (xs r).
Proof.
  intros FI LA TM. destruct LA. destruct la_compares0 as (d & CP). destruct la_file0 as (m & m' & CR & WR).
  destruct (C65_reads sm pv np ltb d (bo_mesh _ _ _ _ _ FI) (bo_tets _ _ _ _ _ FI) la_partition0 la_small0 CP) as (t & RD). exists t.
  assert (X : forall r, exists x, r < np -> createCrossSections (tm_material (t r)) (cSigmaT1 cfg) (cSigmaS1 cfg) (cSigmaT2 cfg) (cSigmaS2 cfg) = Some x).
  { intros r. destruct (lt_dec r np) as [Hr|NR]; [|exists ([], []); intros; contradiction].
    destruct (cross_ex (tm_material (t r)) (cSigmaT1 cfg) (cSigmaS1 cfg) (cSigmaT2 cfg) (cSigmaS2 cfg)) as (x & E); [|eauto].
    intros c mt Hc. destruct (reads_parts sm pv np ltb t (bo_mesh _ _ _ _ _ FI) la_partition0 la_small0 RD) as (m1 & CR1 & R1).
    destruct (rank_view sm pv np m1 ltb d t (bo_mesh _ _ _ _ _ FI) (bo_tets _ _ _ _ _ FI) la_partition0 CR1 CP R1 r Hr) as (P & HP & _ & _ & W & FF).
    pose proof (TychoMeshProofs.ff_mat _ _ _ FF c) as FM. unfold getCellMaterial in FM. rewrite FM in Hc. destruct (nth_error (pt_cells P) c) as [C|] eqn:HC; [|discriminate]. cbn in Hc. apply Some_inj in Hc. subst mt.
    destruct (TychoCreatedProofs.cell_info sm pv np m1 (bo_mesh _ _ _ _ _ FI) la_partition0 CR1 _ P HP c C HC) as (sc & HS & _ & _ & _ & _ & M). rewrite M. exact (TM _ sc HS). }
  exists (fun r => match createCrossSections (tm_material (t r)) (cSigmaT1 cfg) (cSigmaS1 cfg) (cSigmaT2 cfg) (cSigmaS2 cfg) with Some x => x | None => ([], []) end).
  split; [exact RD|]. split.
  - destruct RD as (m1 & f & m1' & CR1 & WR1 & R1). rewrite CR in CR1. apply Some_inj in CR1. subst m1. rewrite WR in WR1. apply Some_inj in WR1. inversion WR1; subst. exact R1.
  - intros r Hr. destruct (X r) as (x & E). now rewrite (E Hr).
Qed.
Lemma program_meshes {T} (A : arith T) dec stod ltb quadrature tol fname deck sm cfg q pv np threads mesh : setting A dec stod quadrature tol fname deck sm cfg q -> launch ltb sm pv np threads mesh ->
  two_materials sm -> exists t xs, program_reads sm pv np ltb t /\
    (forall r, r < np -> exists P, readInParallel mesh (N.of_nat np) (N.of_nat r) = Some P /\ readTychoMesh ltb P (N.of_nat r) = Some (t r)) /\
    forall r, r < np -> createCrossSections (tm_material (t r)) (cSigmaT1 cfg) (cSigmaS1 cfg) (cSigmaT2 cfg) (cSigmaS2 cfg) = Some (xs r).
Proof. intros SE. exact (program_meshes_fit A dec ltb sm cfg q pv np threads mesh (se_mesh _ _ _ _ _ _ _ _ _ _ SE)). Qed.

(** The flux after a number of sweeps is determined (up to values that do not exist), so the file is. *)
Theorem C70_determined : forall T (A : arith T) dec enc stod ltb quadrature pi tol fname deck sm cfg q pv np threads mesh n V V',
  setting A dec stod quadrature tol fname deck sm cfg q -> launch ltb sm pv np threads mesh -> two_materials sm ->
  serial_flux A dec pi sm cfg q n V -> serial_flux A dec pi sm cfg q n V' -> flux_file A enc sm cfg q V = flux_file A enc sm cfg q V'.
Proof.
  intros T A dec enc stod ltb quadrature pi tol fname deck sm cfg q pv np threads mesh n V V' SE LA TM H H'.
  pose proof (some_rank A dec stod ltb quadrature tol fname deck sm cfg q SE pv np threads mesh LA) as NP. destruct (program_meshes A dec stod ltb quadrature tol fname deck sm cfg q pv np threads mesh SE LA TM) as (t & xs & RD & _ & XS).
  destruct SE, LA. assert (HG0 : 0 < N.to_nat (cNGroups cfg)) by lia.
  exact (image_unique A dec enc ltb pi sm pv np cfg q threads se_mesh0 la_partition0 la_small0 la_compares0 la_threads0 NP HG0 se_some0 se_cells0 se_size0 t RD xs XS n V V' H H').
Qed.

(** So two runs with the same deck on the same mesh, partitioned and launched in any two ways, that make the same number of iterations
    write the same file. *)
Theorem C70_partition_independent : forall T (A : arith T) dec enc stod ltb quadrature pi tol fname deck sm cfg q pv1 np1 threads1 mesh1 pr1 gsum1 out1 pv2 np2 threads2 mesh2 pr2 gsum2 out2 iters,
  setting A dec stod quadrature tol fname deck sm cfg q -> launch ltb sm pv1 np1 threads1 mesh1 -> launch ltb sm pv2 np2 threads2 mesh2 ->
  mainRun A dec enc stod ltb quadrature pi tol fname deck mesh1 np1 threads1 pr1 gsum1 iters out1 -> mainRun A dec enc stod ltb quadrature pi tol fname deck mesh2 np2 threads2 pr2 gsum2 iters out2 ->
  option_map fst out1 = option_map fst out2 /\ forall n1 f1 n2 f2, out1 = Some (n1, f1) -> out2 = Some (n2, f2) -> forall p, f1 p = f2 p.
Proof.
  intros T A dec enc stod ltb quadrature pi tol fname deck sm cfg q pv1 np1 threads1 mesh1 pr1 gsum1 out1 pv2 np2 threads2 mesh2 pr2 gsum2 out2 iters SE L1 L2 M1 M2.
  destruct (C70_output _ _ _ _ _ _ _ _ _ _ _ _ _ _ _ _ _ _ _ _ _ _ SE L1 M1) as (TM & _ & V1 & F1 & O1). destruct (C70_output _ _ _ _ _ _ _ _ _ _ _ _ _ _ _ _ _ _ _ _ _ _ SE L2 M2) as (_ & _ & V2 & F2 & O2).
  pose proof (C70_determined _ _ _ enc _ _ _ _ _ _ _ _ _ _ _ _ _ _ _ _ _ SE L1 TM F1 F2) as E.
  destruct out1 as [(n1, f1)|], out2 as [(n2, f2)|].
  - destruct O1 as (_ & -> & K1), O2 as (_ & -> & K2). split; [reflexivity|]. intros ? ? ? ? X Y p. apply Some_inj in X, Y. inversion X; inversion Y; subst. now rewrite K1, K2, E.
  - destruct O1 as (O1 & _). congruence.
  - destruct O2 as (O2 & _). congruence.
  - split; [reflexivity|discriminate].
Qed.

(** The deck names a solver of this model, with settings for which it ends: the graph traversal with the size-then-data exchange, or a
    schedule with a number of cells per step that is not zero as a 32-bit number. *)
Definition ready_solver {T} (cfg : config T) : Prop := match cSweep cfg with
  | TraverseGraph => cMpi cfg = DeckModel.TychoTwoSided /\ (0 < cMaxCellsPerStep cfg)%N
  | OriginalTycho1 | OriginalTycho2 => (cMaxCellsPerStep cfg mod 4294967296 <> 0)%N
  | _ => False
  end.
(** And a run exists: with these settings the program reaches its end, whatever the priorities and the way sums are formed, if no check
    of the cell solver fails; with GaussElim NoPivot, CramerGlu or CramerIntel there is no such check. *)
Theorem C70_runs : forall T (A : arith T) dec enc stod ltb quadrature pi tol fname deck sm cfg q pv np threads mesh pr gsum,
  setting A dec stod quadrature tol fname deck sm cfg q -> launch ltb sm pv np threads mesh -> two_materials sm -> normals_ok A sm dec (q_omega q) (q_num q) ->
  cUseSI cfg = true -> ready_solver cfg ->
  cGauss cfg <> GE_Original \/ (forall n V, serial_flux A dec pi sm cfg q n V -> (N.of_nat n < cIterMax cfg)%N -> exists V', serial_flux A dec pi sm cfg q (S n) V') ->
  exists iters out, mainRun A dec enc stod ltb quadrature pi tol fname deck mesh np threads pr gsum iters out.
Proof.
  intros T A dec enc stod ltb quadrature pi tol fname deck sm cfg q pv np threads mesh pr gsum SE LA TM NO HI RY SV.
  pose proof (some_rank A dec stod ltb quadrature tol fname deck sm cfg q SE pv np threads mesh LA) as NP. destruct (program_meshes A dec stod ltb quadrature tol fname deck sm cfg q pv np threads mesh SE LA TM) as (t & xs & RD & RR & XS).
  destruct SE, LA. assert (HG0 : 0 < N.to_nat (cNGroups cfg)) by lia.
  destruct (solve_ex A dec enc ltb pi sm pv np cfg q threads se_mesh0 la_partition0 la_small0 la_compares0 la_threads0 NP HG0 se_some0 se_cells0 se_size0 t RD xs XS tol se_tol0 pr gsum) as (iters & psi & SO); auto.
  destruct (solve_ok A dec enc ltb pi sm pv np cfg q threads se_mesh0 la_partition0 la_small0 la_compares0 la_threads0 NP HG0 se_some0 se_cells0 se_size0 t RD xs XS tol se_tol0 pr gsum iters psi SO) as (Val & H & _).
  destruct (proj1 (write_ok A dec enc ltb pi sm pv np cfg q threads se_mesh0 la_partition0 la_small0 la_compares0 la_threads0 NP HG0 se_some0 se_cells0 se_size0 t RD psi Val H)) as (f & WF).
  exists iters, (if cOutputFile cfg then Some (cOutputFilename cfg, f) else None), cfg, q, t, xs, psi. split; [exact se_deck0|]. split; [exact se_angles0|]. split.
  { intros r Hr. destruct (RR r Hr) as (P & E1 & E2). unfold createMesh. rewrite E1. cbn [obind]. rewrite E2. cbn [obind].
    now rewrite (constructs_ok A dec enc ltb pi sm pv np cfg q threads se_mesh0 la_partition0 la_small0 la_compares0 la_threads0 NP HG0 se_some0 se_cells0 se_size0 t RD r NO Hr). }
  split; [exact XS|]. split; [exact HI|]. split; [exact SO|]. destruct (cOutputFile cfg) eqn:E; auto.
Qed.

(** In exact arithmetic, where sums do not depend on their order, the run also stops where the serial one does: at the first iteration whose
    change is not above errMax, or at iterMax. *)
Definition serial_end dec pi (sm : smesh) (cfg : config R) (q : angles R) (n : nat) (Val : nat -> N -> value R) : Prop :=
  s_ends sm dec (q_omega q) (q_num q) (q_weight q) pi (named_solver (cGauss cfg)) (N.to_nat (cNGroups cfg))
    (by_material Rops sm (cSigmaT1 cfg) (cSigmaT2 cfg)) (by_material Rops sm (cSigmaS1 cfg) (cSigmaS2 cfg)) (N.to_nat (cIterMax cfg)) (cErrMax cfg) n Val.
Definition sums (np : nat) (gsum : (nat -> R) -> R) : Prop := forall x, gsum x = fold_right Rplus 0%R (map x (seq 0 np)).
Theorem C70_exact : forall dec enc stod ltb quadrature pi tol fname deck sm cfg q pv np threads mesh pr gsum iters out,
  setting Rops dec stod quadrature tol fname deck sm cfg q -> launch ltb sm pv np threads mesh -> sums np gsum ->
  mainRun Rops dec enc stod ltb quadrature pi tol fname deck mesh np threads pr gsum iters out ->
  exists Val, serial_end dec pi sm cfg q (N.to_nat iters) Val /\
    match out with
    | Some (name, f) => cOutputFile cfg = true /\ name = cOutputFilename cfg /\ forall p, f p = nth_error (flux_file Rops enc sm cfg q Val) (N.to_nat p)
    | None => cOutputFile cfg = false
    end.
Proof.
  intros dec enc stod ltb quadrature pi tol fname deck sm cfg q pv np threads mesh pr gsum iters out SE LA GS (cfg' & q' & t & xs & psi & E1 & E2 & CM & XS & SI & SO & OUT).
  pose proof (some_rank Rops dec stod ltb quadrature tol fname deck sm cfg q SE pv np threads mesh LA) as NP. pose proof LA as LA0. destruct SE, LA. rewrite se_deck0 in E1. apply Some_inj in E1. subst cfg'. rewrite se_angles0 in E2. apply Some_inj in E2. subst q'.
  pose proof (reads_mesh Rops dec ltb sm q pv np threads mesh LA0 t CM) as RD.
  assert (HG0 : 0 < N.to_nat (cNGroups cfg)) by lia.
  destruct (solve_exact dec enc ltb pi sm pv np cfg q threads se_mesh0 la_partition0 la_small0 la_compares0 la_threads0 NP HG0 se_some0 se_cells0 se_size0 t RD xs XS gsum GS tol pr iters psi se_tol0 SO) as (Val & H & IT).
  exists Val. split; [exact IT|]. destruct out as [(name, f)|]; [|exact OUT]. destruct OUT as (O1 & O2 & O3). split; auto. split; auto.
  exact (proj2 (write_ok Rops dec enc ltb pi sm pv np cfg q threads se_mesh0 la_partition0 la_small0 la_compares0 la_threads0 NP HG0 se_some0 se_cells0 se_size0 t RD psi Val H) f O3).
Qed.
(** So in exact arithmetic two runs make the same number of iterations and write the same file. *)
Theorem C70_exact_partition_independent : forall dec enc stod ltb quadrature pi tol fname deck sm cfg q pv1 np1 threads1 mesh1 pr1 gsum1 iters1 out1 pv2 np2 threads2 mesh2 pr2 gsum2 iters2 out2,
  setting Rops dec stod quadrature tol fname deck sm cfg q -> launch ltb sm pv1 np1 threads1 mesh1 -> launch ltb sm pv2 np2 threads2 mesh2 -> sums np1 gsum1 -> sums np2 gsum2 ->
  mainRun Rops dec enc stod ltb quadrature pi tol fname deck mesh1 np1 threads1 pr1 gsum1 iters1 out1 -> mainRun Rops dec enc stod ltb quadrature pi tol fname deck mesh2 np2 threads2 pr2 gsum2 iters2 out2 ->
  iters1 = iters2 /\ option_map fst out1 = option_map fst out2 /\ forall n1 f1 n2 f2, out1 = Some (n1, f1) -> out2 = Some (n2, f2) -> forall p, f1 p = f2 p.
Proof.
  intros dec enc stod ltb quadrature pi tol fname deck sm cfg q pv1 np1 threads1 mesh1 pr1 gsum1 iters1 out1 pv2 np2 threads2 mesh2 pr2 gsum2 iters2 out2 SE L1 L2 G1 G2 M1 M2.
  assert (E : iters1 = iters2).
  { destruct (C70_exact _ _ _ _ _ _ _ _ _ _ _ _ _ _ _ _ _ _ _ _ SE L1 G1 M1) as (V1 & F1 & _). destruct (C70_exact _ _ _ _ _ _ _ _ _ _ _ _ _ _ _ _ _ _ _ _ SE L2 G2 M2) as (V2 & F2 & _).
    destruct (C70_output _ _ _ _ _ _ _ _ _ _ _ _ _ _ _ _ _ _ _ _ _ _ SE L1 M1) as (TM & _).
    pose proof (some_rank Rops dec stod ltb quadrature tol fname deck sm cfg q SE pv1 np1 threads1 mesh1 L1) as NP. destruct (program_meshes Rops dec stod ltb quadrature tol fname deck sm cfg q pv1 np1 threads1 mesh1 SE L1 TM) as (t & xs & RD & _ & XS).
    destruct SE, L1. assert (HG0 : 0 < N.to_nat (cNGroups cfg)) by lia.
    pose proof (ends_unique dec enc ltb pi sm pv1 np1 cfg q threads1 se_mesh0 la_partition0 la_small0 la_compares0 la_threads0 NP HG0 se_some0 se_cells0 se_size0 t RD xs XS) as U.
    apply N2Nat.inj. first [exact (U _ _ _ _ F1 F2)|exact (U _ G1 _ _ _ _ F1 F2)]. }
  subst iters2. split; [reflexivity|]. exact (C70_partition_independent _ _ _ _ _ _ _ _ _ _ _ _ _ _ _ _ _ _ _ _ _ _ _ _ _ _ _ _ _ SE L1 L2 M1 M2).
Qed.
(** In exact arithmetic the source is the one of C48 wherever that is defined. *)
Theorem C70_source : forall pos omega sT sS c a v x, hatValue pos omega sT sS c a v = Some x -> b_hat Rops (sT c) (sS c) (pos c v) (omega a) = x.
Proof. intros. rewrite <- hat_same. now apply hat_exact. Qed.
Print Assumptions C70_output. Print Assumptions C70_determined. Print Assumptions C70_partition_independent. Print Assumptions C70_runs.
 Print Assumptions C70_exact. Print Assumptions C70_exact_partition_independent. Print Assumptions C70_source.
