(** C71: the sweeper, the MPI exchange and the scheduling options of the deck do not change the output file. *)
From Coq Require Import Reals Permutation String ZArith.
From Verif Require Import Prelude Bytes LayoutModel PsiFileModel PsiFileSpec DeckModel MeshModel MeshSpec CreateModel CreateSpec CreateProofs TychoModel TychoSpec GeometryModel GaussModel TransportModel TraverseModel TraverseRun SweepModel FluxModel ProblemModel ViewModel ViewSpec ViewProofs PropertiesView BitsModel BitsSpec BitsProofs PropertiesBits
  DoubleModel DoubleSpec PropertiesDouble MainModel MainSpec MainProofs MainExact PropertiesMain PropertiesMainEx.

(** Two decks that pose the same problem: same angles, groups, cross sections and cell solver. They may differ in SweepType, MPIType,
    maxCellsPerStep, the priorities, iterMax, errMax, and in the name of the output file. *)
Record same_problem {T} (cfg cfg' : config T) : Prop := {
  sp_angles : cSnOrder cfg = cSnOrder cfg'; sp_groups : cNGroups cfg = cNGroups cfg'; sp_gauss : cGauss cfg = cGauss cfg';
  sp_t1 : cSigmaT1 cfg = cSigmaT1 cfg'; sp_s1 : cSigmaS1 cfg = cSigmaS1 cfg'; sp_t2 : cSigmaT2 cfg = cSigmaT2 cfg'; sp_s2 : cSigmaS2 cfg = cSigmaS2 cfg' }.

(** Two runs of such decks with the same number of iterations write the same bytes, whichever of the sweepers each one names, and however
    each one is partitioned and launched. *)
Theorem C71_solver_independent : forall T (A : arith T) dec enc stod ltb quadrature pi tol sm fname1 deck1 cfg1 q1 pv1 np1 threads1 mesh1 pr1 gsum1 n1 f1 fname2 deck2 cfg2 q2 pv2 np2 threads2 mesh2 pr2 gsum2 n2 f2 iters,
  setting A dec stod quadrature tol fname1 deck1 sm cfg1 q1 -> setting A dec stod quadrature tol fname2 deck2 sm cfg2 q2 -> same_problem cfg1 cfg2 ->
  launch ltb sm pv1 np1 threads1 mesh1 -> launch ltb sm pv2 np2 threads2 mesh2 ->
  mainRun A dec enc stod ltb quadrature pi tol fname1 deck1 mesh1 np1 threads1 pr1 gsum1 iters (Some (n1, f1)) ->
  mainRun A dec enc stod ltb quadrature pi tol fname2 deck2 mesh2 np2 threads2 pr2 gsum2 iters (Some (n2, f2)) -> forall p, f1 p = f2 p.
Proof.
  intros T A dec enc stod ltb quadrature pi tol sm fname1 deck1 cfg1 q1 pv1 np1 threads1 mesh1 pr1 gsum1 n1 f1 fname2 deck2 cfg2 q2 pv2 np2 threads2 mesh2 pr2 gsum2 n2 f2 iters S1 S2 SP L1 L2 M1 M2.
  destruct (C70_output _ _ _ _ _ _ _ _ _ _ _ _ _ _ _ _ _ _ _ _ _ _ S1 L1 M1) as (TM & _ & V1 & F1 & _ & _ & O1). destruct (C70_output _ _ _ _ _ _ _ _ _ _ _ _ _ _ _ _ _ _ _ _ _ _ S2 L2 M2) as (_ & _ & V2 & F2 & _ & _ & O2).
  assert (q1 = q2). { pose proof (se_angles _ _ _ _ _ _ _ _ _ _ S1) as E1. pose proof (se_angles _ _ _ _ _ _ _ _ _ _ S2) as E2. rewrite (sp_angles _ _ SP), E2 in E1. now apply Some_inj in E1. } subst q2.
  assert (F2' : serial_flux A dec pi sm cfg1 q1 (N.to_nat iters) V2). { unfold serial_flux in *. now rewrite (sp_gauss _ _ SP), (sp_groups _ _ SP), (sp_t1 _ _ SP), (sp_t2 _ _ SP), (sp_s1 _ _ SP), (sp_s2 _ _ SP). }
  pose proof (C70_determined _ _ _ enc _ _ _ _ _ _ _ _ _ _ _ _ _ _ _ _ _ S1 L1 TM F1 F2') as E.
  intros p. rewrite O1, O2, E. unfold flux_file. now rewrite (sp_groups _ _ SP).
Qed.
(** In exact arithmetic, with the same iterMax and errMax, they also make the same number of iterations. *)
Theorem C71_exact_solver_independent : forall dec enc stod ltb quadrature pi tol sm fname1 deck1 cfg1 q1 pv1 np1 threads1 mesh1 pr1 gsum1 iters1 n1 f1 fname2 deck2 cfg2 q2 pv2 np2 threads2 mesh2 pr2 gsum2 iters2 n2 f2,
  setting Rops dec stod quadrature tol fname1 deck1 sm cfg1 q1 -> setting Rops dec stod quadrature tol fname2 deck2 sm cfg2 q2 -> same_problem cfg1 cfg2 -> cIterMax cfg1 = cIterMax cfg2 -> cErrMax cfg1 = cErrMax cfg2 ->
  launch ltb sm pv1 np1 threads1 mesh1 -> launch ltb sm pv2 np2 threads2 mesh2 -> sums np1 gsum1 -> sums np2 gsum2 ->
  mainRun Rops dec enc stod ltb quadrature pi tol fname1 deck1 mesh1 np1 threads1 pr1 gsum1 iters1 (Some (n1, f1)) ->
  mainRun Rops dec enc stod ltb quadrature pi tol fname2 deck2 mesh2 np2 threads2 pr2 gsum2 iters2 (Some (n2, f2)) -> iters1 = iters2 /\ forall p, f1 p = f2 p.
Proof.
  intros dec enc stod ltb quadrature pi tol sm fname1 deck1 cfg1 q1 pv1 np1 threads1 mesh1 pr1 gsum1 iters1 n1 f1 fname2 deck2 cfg2 q2 pv2 np2 threads2 mesh2 pr2 gsum2 iters2 n2 f2 S1 S2 SP IM EM L1 L2 G1 G2 M1 M2.
  assert (E : iters1 = iters2).
  { destruct (C70_exact _ _ _ _ _ _ _ _ _ _ _ _ _ _ _ _ _ _ _ _ S1 L1 G1 M1) as (V1 & F1 & _). destruct (C70_exact _ _ _ _ _ _ _ _ _ _ _ _ _ _ _ _ _ _ _ _ S2 L2 G2 M2) as (V2 & F2 & _).
    destruct (C70_output _ _ _ _ _ _ _ _ _ _ _ _ _ _ _ _ _ _ _ _ _ _ S1 L1 M1) as (TM & _).
    assert (q1 = q2). { pose proof (se_angles _ _ _ _ _ _ _ _ _ _ S1) as E1. pose proof (se_angles _ _ _ _ _ _ _ _ _ _ S2) as E2. rewrite (sp_angles _ _ SP), E2 in E1. now apply Some_inj in E1. } subst q2.
    assert (F2' : serial_end dec pi sm cfg1 q1 (N.to_nat iters2) V2). { unfold serial_end in *. now rewrite (sp_gauss _ _ SP), (sp_groups _ _ SP), (sp_t1 _ _ SP), (sp_t2 _ _ SP), (sp_s1 _ _ SP), (sp_s2 _ _ SP), IM, EM. }
    pose proof (some_rank Rops dec stod ltb quadrature tol fname1 deck1 sm cfg1 q1 S1 pv1 np1 threads1 mesh1 L1) as NP. destruct (program_meshes Rops dec stod ltb quadrature tol fname1 deck1 sm cfg1 q1 pv1 np1 threads1 mesh1 S1 L1 TM) as (t & xs & RD & _ & XS).
    destruct S1, L1. assert (HG0 : 0 < N.to_nat (cNGroups cfg1)) by lia.
    pose proof (ends_unique dec enc ltb pi sm pv1 np1 cfg1 q1 threads1 se_mesh la_partition la_small la_compares la_threads NP HG0 se_some se_cells se_size t RD xs XS) as U.
    apply N2Nat.inj. first [exact (U _ _ _ _ F1 F2')|exact (U _ G1 _ _ _ _ F1 F2')]. }
  subst iters2. split; [reflexivity|]. exact (C71_solver_independent _ _ _ _ _ _ _ _ _ _ _ _ _ _ _ _ _ _ _ _ _ _ _ _ _ _ _ _ _ _ _ _ _ _ _ S1 S2 SP L1 L2 M1 M2).
Qed.
(** The three decks of [C70_ex] in double precision: same problem, and each runs on any of three partitions. *)
Example C71_ex : forall ty1 ty2, In ty1 C70_types -> In ty2 C70_types -> same_problem (C70_cfg ty1) (C70_cfg ty2) /\
  (ty1 <> ty2 -> C70_cfg ty1 <> C70_cfg ty2).
Proof.
  intros ty1 ty2 H1 H2. split; [constructor; reflexivity|]. intros N E. apply N. exact (f_equal cSweep E).
Qed.
Print Assumptions C71_solver_independent. Print Assumptions C71_exact_solver_independent.
