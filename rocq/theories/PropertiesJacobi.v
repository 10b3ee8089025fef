(** C79, C80: the program with SweepType PBJ, PBJOuter or PBJSI and source iteration, from its files to its output file, in any arithmetic. *)
From Coq Require Import Reals Permutation String.
From Verif Require Import Prelude Bytes LayoutModel PsiFileModel PsiFileSpec DeckModel MeshModel MeshSpec CreateModel CreateSpec CreateProofs TychoModel TychoSpec GeometryModel GaussModel TransportModel TraverseModel TraverseRun SweepModel FluxModel ProblemModel ViewModel ViewSpec ViewProofs PropertiesView BitsModel BitsSpec BitsProofs PropertiesBits MainModel MainSpec MainProofs PropertiesMain PropertiesMainSame.
From Verif Require Import JacobiModel JacobiSpec JacobiProofs JacobiRun JacobiTwo JacobiLog JacobiEnds.

(** The steps [ops] lead from [s] to [s'] on the serial mesh with this partition, for this deck; and from zero. *)
Definition serial_steps {T} (A : arith T) dec pi (sm : smesh) (cfg : config T) (q : angles T) (pv : list N) (ops : list op) (s s' : jstate) : Prop :=
  follows A sm dec (q_omega q) (q_num q) (q_weight q) pi (named_solver (cGauss cfg)) (N.to_nat (cNGroups cfg))
    (by_material A sm (cSigmaT1 cfg) (cSigmaT2 cfg)) (by_material A sm (cSigmaS1 cfg) (cSigmaS2 cfg)) (same_part pv) ops s s'.
Definition serial_block {T} (A : arith T) dec pi (sm : smesh) (cfg : config T) (q : angles T) (pv : list N) (ops : list op) : jstate -> Prop :=
  serial_steps A dec pi sm cfg q pv ops (j_zero A).

(** What does not depend on the ranks. Unlike for a sweep over all ranks (C70), the computed flow signs of the serial mesh may make cycles. *)
Record block_setting {T : Type} (A : arith T) (dec : N -> T) (stod : chars -> option T) (quadrature : N -> option (angles T)) (fname deck : chars)
    (sm : smesh) (cfg : config T) (q : angles T) : Prop := {
  bs_deck : readInput stod fname (Some deck) = Some cfg;
  bs_angles : quadrature (cSnOrder cfg) = Some q;
  bs_mesh : fit_ok A sm dec (q_omega q) (q_num q);
  bs_cells : 0 < List.length (sm_cells sm); bs_some : 0 < q_num q; bs_groups : (0 < cNGroups cfg)%N;
  bs_size : (N.of_nat (q_num q * List.length (sm_cells sm) * 4) * (24 * cNGroups cfg) < INT_MAX)%N }.
Lemma setting_block {T} (A : arith T) dec stod quadrature tol fname deck sm cfg q : setting A dec stod quadrature tol fname deck sm cfg q -> block_setting A dec stod quadrature fname deck sm cfg q.
Proof. intros [D Q M _ C S G Z]. constructor; try assumption. exact (bo_fit _ _ _ _ _ M). Qed.
(** In no direction does a cell wait for itself through cells of its own part. *)
Definition no_cycle_in_a_part {T} (A : arith T) dec (sm : smesh) (q : angles T) (pv : list N) : Prop := parts_acyclic A sm dec (q_omega q) (q_num q) (same_part pv).

Lemma some_material {T} (A : arith T) dec stod ltb quadrature fname deck sm cfg q pv np threads mesh t xs :
  block_setting A dec stod quadrature fname deck sm cfg q -> launch ltb sm pv np threads mesh -> (forall r, r < np -> createMesh A dec ltb q mesh np r = Some (t r)) ->
  (forall r, r < np -> createCrossSections (tm_material (t r)) (cSigmaT1 cfg) (cSigmaS1 cfg) (cSigmaT2 cfg) (cSigmaS2 cfg) = Some (xs r)) -> two_materials sm.
Proof.
  intros SE LA CM XS g sc HS. pose proof (reads_mesh A dec ltb sm q pv np threads mesh LA t CM) as RD. destruct SE, LA.
  destruct (reads_parts sm pv np ltb t (bo_mesh _ _ _ _ _ bs_mesh0) la_partition la_small RD) as (m & CR & R1). destruct la_compares as (d & CP).
  destruct (gid_onto sm pv np m ltb d t (bo_mesh _ _ _ _ _ bs_mesh0) (bo_tets _ _ _ _ _ bs_mesh0) la_partition CR CP R1 g sc HS) as (r & c & Hr & HG).
  pose proof (material A dec ltb sm pv np q bs_mesh0 la_partition la_small (ex_intro _ d CP) t RD r c g sc Hr HG HS) as M.
  destruct (cross_nth (azero A) _ _ _ _ _ _ (XS r Hr) c _ M) as [(-> & _)|(-> & _)]; auto.
Qed.

(** Whatever the threads, the priorities, the order in which messages and writes happen and sums are formed, and however cells are dealt out to the
    traversal: the output file is, byte for byte, the documented image of what the logged steps make of the serial mesh cut into these parts. *)
Theorem C79_output : forall T (A : arith T) dec enc stod ltb quadrature pi fname deck sm cfg q pv np threads mesh pr gsum ops out,
  block_setting A dec stod quadrature fname deck sm cfg q -> launch ltb sm pv np threads mesh ->
  mainBlock A dec enc stod ltb quadrature pi fname deck mesh np threads pr gsum ops out ->
  two_materials sm /\
  exists s, serial_block A dec pi sm cfg q pv ops s /\
    match out with
    | Some (name, f) => cOutputFile cfg = true /\ name = cOutputFilename cfg /\ forall p, f p = nth_error (flux_file A enc sm cfg q (j_val s)) (N.to_nat p)
    | None => cOutputFile cfg = false
    end.
Proof.
  intros T A dec enc stod ltb quadrature pi fname deck sm cfg q pv np threads mesh pr gsum ops out SE LA (cfg' & q' & t & xs & psi & E1 & E2 & CM & XS & SO & OUT).
  pose proof (rank_of_cells ltb sm pv np threads mesh LA (bs_cells _ _ _ _ _ _ _ _ _ SE)) as NP. pose proof SE as SE0. pose proof LA as LA0. destruct SE, LA. rewrite bs_deck0 in E1. apply Some_inj in E1. subst cfg'. rewrite bs_angles0 in E2. apply Some_inj in E2. subst q'.
  pose proof (reads_mesh A dec ltb sm q pv np threads mesh LA0 t CM) as RD.
  assert (HG0 : 0 < N.to_nat (cNGroups cfg)) by lia.
  split; [exact (some_material A dec stod ltb quadrature fname deck sm cfg q pv np threads mesh t xs SE0 LA0 CM XS)|].
  destruct (solve_block_ok A dec enc ltb pi sm pv np cfg q threads bs_mesh0 la_partition la_small la_compares la_threads NP HG0 bs_some0 bs_cells0 bs_size0 t RD xs XS pr gsum ops psi SO) as (s & FO & H).
  exists s. split; [unfold serial_block, serial_steps; rewrite <- gauss_named; exact FO|]. destruct out as [(name, f)|]; [|exact OUT]. destruct OUT as (O1 & O2 & O3). split; auto. split; auto.
  exact (proj2 (write_ok A dec enc ltb pi sm pv np cfg q threads bs_mesh0 la_partition la_small la_compares la_threads NP HG0 bs_some0 bs_cells0 bs_size0 t RD psi (j_val s) H) f O3).
Qed.

(** A sweep of a run has ended; so if a run sweeps at all, then no cell waits for itself through cells of its own part. *)
Theorem C80_swept : forall T (A : arith T) dec enc stod ltb quadrature pi fname deck sm cfg q pv np threads mesh pr gsum ops out,
  block_setting A dec stod quadrature fname deck sm cfg q -> launch ltb sm pv np threads mesh ->
  mainBlock A dec enc stod ltb quadrature pi fname deck mesh np threads pr gsum ops out -> In OSweep ops -> no_cycle_in_a_part A dec sm q pv.
Proof.
  intros T A dec enc stod ltb quadrature pi fname deck sm cfg q pv np threads mesh pr gsum ops out SE LA (cfg' & q' & t & xs & psi & E1 & E2 & CM & XS & SO & _) I.
  pose proof SE as SE0. pose proof LA as LA0. destruct SE, LA. rewrite bs_deck0 in E1. apply Some_inj in E1. subst cfg'. rewrite bs_angles0 in E2. apply Some_inj in E2. subst q'.
  pose proof (reads_mesh A dec ltb sm q pv np threads mesh LA0 t CM) as RD. assert (HG0 : 0 < N.to_nat (cNGroups cfg)) by lia.
  refine (solve_swept A dec pi cfg q t np threads xs pr gsum ops psi _ _ SO I). intros src p b p' b' LS.
  exact (local_parts A dec ltb sm pv np cfg q threads bs_mesh0 la_partition la_small la_compares la_threads HG0 bs_some0 bs_cells0 bs_size0 t RD xs XS pr src p b p' b' LS).
Qed.

(** The steps and the parts determine the file; it does not matter how the parts are numbered. *)
Theorem C79_determined : forall T (A : arith T) dec enc stod ltb quadrature pi fname deck sm cfg q pv pv' np threads mesh ops s s',
  block_setting A dec stod quadrature fname deck sm cfg q -> launch ltb sm pv np threads mesh -> two_materials sm -> same_parts sm pv pv' -> no_cycle_in_a_part A dec sm q pv \/ ~ In OSweep ops ->
  serial_block A dec pi sm cfg q pv ops s -> serial_block A dec pi sm cfg q pv' ops s' -> flux_file A enc sm cfg q (j_val s) = flux_file A enc sm cfg q (j_val s').
Proof.
  intros T A dec enc stod ltb quadrature pi fname deck sm cfg q pv pv' np threads mesh ops s s' SE LA TM SP NC H H'.
  destruct (program_meshes_fit A dec ltb sm cfg q pv np threads mesh (bs_mesh _ _ _ _ _ _ _ _ _ SE) LA TM) as (t & xs & RD & _ & XS). destruct SE, LA. pose proof bs_mesh0 as [OK TT SG].
  assert (HG0 : 0 < N.to_nat (cNGroups cfg)) by lia.
  destruct (world A dec ltb sm pv np q bs_mesh0 la_partition la_small la_compares t RD) as (m & d & CR & CP & R1).
  assert (PA : In OSweep ops -> parts_acyclic A sm dec (q_omega q) (q_num q) (same_part pv)) by (intros I; destruct NC as [NC|NC]; [exact NC|destruct (NC I)]).
  assert (U : same_values sm (q_num q) (N.to_nat (cNGroups cfg)) (j_val s) (j_val s')).
  { assert (SS : same_state sm (q_num q) (N.to_nat (cNGroups cfg)) (j_zero A) (j_zero A)) by (repeat split; intros a g sc _ _; cbn; auto).
    exact (proj1 (follows_unique sm pv np m ltb d t OK TT la_partition CR CP R1 A dec (q_omega q) (q_num q) (cells_ok sm cfg q HG0 bs_size0) (named_solver (cGauss cfg)) (N.to_nat (cNGroups cfg))
      (fun r c => nth c (fst (xs r)) (azero A)) (by_material A sm (cSigmaT1 cfg) (cSigmaT2 cfg)) (fun _ _ _ _ _ => azero A) (fun _ _ _ => 0%N)
      (fun r c g Hr HG => proj1 (sig_ok A dec ltb sm pv np cfg q bs_mesh0 la_partition la_small la_compares t RD xs XS r c g Hr HG)) (same_part pv) (same_part pv') SP (q_weight q) pi _ ops PA _ _ s s' SS H H')). }
  unfold flux_file, psiImage. do 5 f_equal.
  assert (FM : forall X (f g : nat -> list X) l, (forall x, In x l -> f x = g x) -> flat_map f l = flat_map g l).
  { intros X f g l E. induction l as [|x l IHl]; [reflexivity|]. cbn. rewrite E by now left. rewrite IHl; [reflexivity|]. intros y Hy. apply E. now right. }
  apply FM. intros c Hc. apply FM. intros a Ha. apply FM. intros v Hv. apply FM. intros G HGr. apply in_seq in Hc, Ha, Hv, HGr.
  destruct (SM_cell sm (N.of_nat c)) as [sc|] eqn:HS; [|unfold SM_cell in HS; rewrite Nat2N.id in HS; apply nth_error_None in HS; lia].
  now rewrite (vsame_get A _ _ _ v G (U a (N.of_nat c) sc ltac:(lia) HS)) by lia.
Qed.

Lemma op_eq (x y : op) : {x = y} + {x <> y}.
Proof. decide equality. Qed.
(** So two runs that take the same steps write the same file, if the decks pose the same problem and the same cells are put together. *)
Theorem C79_same_steps : forall T (A : arith T) dec enc stod ltb quadrature pi sm fname1 deck1 cfg1 q1 pv1 np1 threads1 mesh1 pr1 gsum1 n1 f1 fname2 deck2 cfg2 q2 pv2 np2 threads2 mesh2 pr2 gsum2 n2 f2 ops,
  block_setting A dec stod quadrature fname1 deck1 sm cfg1 q1 -> block_setting A dec stod quadrature fname2 deck2 sm cfg2 q2 -> same_problem cfg1 cfg2 ->
  launch ltb sm pv1 np1 threads1 mesh1 -> launch ltb sm pv2 np2 threads2 mesh2 -> same_parts sm pv1 pv2 ->
  mainBlock A dec enc stod ltb quadrature pi fname1 deck1 mesh1 np1 threads1 pr1 gsum1 ops (Some (n1, f1)) ->
  mainBlock A dec enc stod ltb quadrature pi fname2 deck2 mesh2 np2 threads2 pr2 gsum2 ops (Some (n2, f2)) -> forall p, f1 p = f2 p.
Proof.
  intros T A dec enc stod ltb quadrature pi sm fname1 deck1 cfg1 q1 pv1 np1 threads1 mesh1 pr1 gsum1 n1 f1 fname2 deck2 cfg2 q2 pv2 np2 threads2 mesh2 pr2 gsum2 n2 f2 ops S1 S2 SP L1 L2 PP M1 M2.
  destruct (C79_output _ _ _ _ _ _ _ _ _ _ _ _ _ _ _ _ _ _ _ _ _ S1 L1 M1) as (TM & s1 & F1 & _ & _ & O1). destruct (C79_output _ _ _ _ _ _ _ _ _ _ _ _ _ _ _ _ _ _ _ _ _ S2 L2 M2) as (_ & s2 & F2 & _ & _ & O2).
  assert (q1 = q2). { pose proof (bs_angles _ _ _ _ _ _ _ _ _ S1) as E1. pose proof (bs_angles _ _ _ _ _ _ _ _ _ S2) as E2. rewrite (sp_angles _ _ SP), E2 in E1. now apply Some_inj in E1. } subst q2.
  assert (F2' : serial_block A dec pi sm cfg1 q1 pv2 ops s2). { unfold serial_block, serial_steps in *. now rewrite (sp_gauss _ _ SP), (sp_groups _ _ SP), (sp_t1 _ _ SP), (sp_t2 _ _ SP), (sp_s1 _ _ SP), (sp_s2 _ _ SP). }
  assert (NC : no_cycle_in_a_part A dec sm q1 pv1 \/ ~ In OSweep ops).
  { destruct (in_dec op_eq OSweep ops) as [I|I]; [left|right; exact I]. exact (C80_swept _ _ _ _ _ _ _ _ _ _ _ _ _ _ _ _ _ _ _ _ _ S1 L1 M1 I). }
  pose proof (C79_determined _ _ _ enc _ _ _ _ _ _ _ _ _ _ _ _ _ _ _ _ _ S1 L1 TM PP NC F1 F2') as E.
  intros p. rewrite O1, O2, E. unfold flux_file. now rewrite (sp_groups _ _ SP).
Qed.

(** Run twice on the same parallel mesh file, with sums over the ranks that are formed in the same way, the program takes the same steps and writes
    the same bytes: the threads, the priorities, the traversal's step size, MPIType and the timing of messages do not matter. *)
Theorem C79_reproducible : forall T (A : arith T) dec enc stod ltb quadrature pi sm fname1 deck1 cfg1 q1 threads1 pr1 gsum1 ops1 n1 f1 fname2 deck2 cfg2 q2 threads2 pr2 gsum2 ops2 n2 f2 pv np mesh,
  block_setting A dec stod quadrature fname1 deck1 sm cfg1 q1 -> block_setting A dec stod quadrature fname2 deck2 sm cfg2 q2 -> same_run cfg1 cfg2 ->
  launch ltb sm pv np threads1 mesh -> launch ltb sm pv np threads2 mesh -> (forall x y, (forall r, r < np -> x r = y r) -> gsum1 x = gsum2 y) ->
  mainBlock A dec enc stod ltb quadrature pi fname1 deck1 mesh np threads1 pr1 gsum1 ops1 (Some (n1, f1)) ->
  mainBlock A dec enc stod ltb quadrature pi fname2 deck2 mesh np threads2 pr2 gsum2 ops2 (Some (n2, f2)) -> ops1 = ops2 /\ forall p, f1 p = f2 p.
Proof.
  intros T A dec enc stod ltb quadrature pi sm fname1 deck1 cfg1 q1 threads1 pr1 gsum1 ops1 n1 f1 fname2 deck2 cfg2 q2 threads2 pr2 gsum2 ops2 n2 f2 pv np mesh S1 S2 SR L1 L2 GS M1 M2.
  assert (E : ops1 = ops2).
  { destruct M1 as (c1 & a1 & t1 & x1 & psi1 & D1 & A1 & C1 & X1 & B1 & _). destruct M2 as (c2 & a2 & t2 & x2 & psi2 & D2 & A2 & C2 & X2 & B2 & _).
    pose proof (rank_of_cells ltb sm pv np threads1 mesh L1 (bs_cells _ _ _ _ _ _ _ _ _ S1)) as NP. 
    rewrite (bs_deck _ _ _ _ _ _ _ _ _ S1) in D1. rewrite (bs_deck _ _ _ _ _ _ _ _ _ S2) in D2. apply Some_inj in D1, D2. subst c1 c2.
    rewrite (bs_angles _ _ _ _ _ _ _ _ _ S1) in A1. rewrite (bs_angles _ _ _ _ _ _ _ _ _ S2) in A2. apply Some_inj in A1, A2. subst a1 a2.
    assert (q1 = q2). { pose proof (bs_angles _ _ _ _ _ _ _ _ _ S1) as E1. pose proof (bs_angles _ _ _ _ _ _ _ _ _ S2) as E2. rewrite (sr_angles _ _ SR), E2 in E1. now apply Some_inj in E1. } subst q2.
    pose proof (reads_mesh A dec ltb sm q1 pv np threads1 mesh L1 t1 C1) as RD1. pose proof (reads_mesh A dec ltb sm q1 pv np threads2 mesh L2 t2 C2) as RD2.
    assert (ET : forall r, r < np -> t1 r = t2 r) by (intros r Hr; specialize (C1 r Hr); specialize (C2 r Hr); rewrite C1 in C2; now apply Some_inj in C2).
    destruct S1, S2, L1, L2. assert (HG1 : 0 < N.to_nat (cNGroups cfg1)) by lia. assert (HG2 : 0 < N.to_nat (cNGroups cfg2)) by lia.
    exact (proj1 (solve_two A dec enc ltb pi sm pv np cfg1 cfg2 q1 threads1 threads2 bs_mesh0 la_partition la_small la_compares la_threads la_threads0 NP HG1 HG2 bs_some0 bs_cells0 bs_size0 bs_size1 t1 t2 RD1 RD2 ET x1 x2 X1 X2 SR pr1 pr2 gsum1 gsum2 GS ops1 psi1 ops2 psi2 B1 B2)). }
  subst ops2. split; [reflexivity|]. assert (SP : same_problem cfg1 cfg2) by (destruct SR; constructor; assumption).
  exact (C79_same_steps _ _ _ _ _ _ _ _ _ _ _ _ _ _ _ _ _ _ _ _ _ _ _ _ _ _ _ _ _ _ _ _ _ _ S1 S2 SP L1 L2 (fun _ _ _ _ _ _ => eq_refl) M1 M2).
Qed.

(** The steps of each solver, and their number. *)
Theorem C79_log : forall T (A : arith T) dec enc stod ltb quadrature pi fname deck sm cfg q mesh np threads pr gsum ops out,
  block_setting A dec stod quadrature fname deck sm cfg q -> mainBlock A dec enc stod ltb quadrature pi fname deck mesh np threads pr gsum ops out ->
  match cSweep cfg with
  | PBJ => exists its, ops = pbj_log its /\ List.length its <= N.to_nat (cIterMax cfg) /\
      Forall (jacobi_steps (N.to_nat (cDdIterMax cfg) - 1)) its
  | PBJOuter => exists its, (ops = outer_log its /\ List.length its = N.to_nat (cDdIterMax cfg) - 1 \/ ops ++ [OExchange] = outer_log its /\ 0 < List.length its <= N.to_nat (cDdIterMax cfg) - 1) /\
      Forall (fun n => n <= N.to_nat (cIterMax cfg)) its
  | PBJSI => exists n, ops = again n [OSweep; OFlux; OExchange] /\ n <= N.to_nat (cDdIterMax cfg) - 1
  | _ => False
  end.
Proof.
  intros T A dec enc stod ltb quadrature pi fname deck sm cfg q mesh np threads pr gsum ops out SE (cfg' & q' & t & xs & psi & E1 & E2 & CM & XS & SO & _).
  rewrite (bs_deck _ _ _ _ _ _ _ _ _ SE) in E1. apply Some_inj in E1. subst cfg'. unfold solveBlock in SO. destruct (cSweep cfg); try contradiction.
  - destruct SO as (_ & bnd & ops' & -> & J).
    eapply (fixed_shape A) with (P := jacobi_steps (N.to_nat (cDdIterMax cfg) - 1)) in J; [|clear SE CM J XS; intros src p b o p' b' H; unfold jacobiSweep in H; eapply jacobi_shape in H; exact H].
    destruct J as (its & -> & FA & LE).
    exists its. split; [reflexivity|]. split; [cbn in LE; lia|exact FA].
  - destruct SO as (_ & J). eapply outer_shape in J. exact J.
  - eapply si_shape in SO. destruct SO as (n & E & LE). exists n. split; [exact E|exact LE].
Qed.

(** A run exists, if no check of the cell solver fails; with GaussElim NoPivot, CramerGlu or CramerIntel there is no such check. *)
Theorem C79_runs : forall T (A : arith T) dec enc stod ltb quadrature pi fname deck sm cfg q pv np threads mesh pr gsum,
  block_setting A dec stod quadrature fname deck sm cfg q -> launch ltb sm pv np threads mesh -> two_materials sm -> normals_ok A sm dec (q_omega q) (q_num q) -> no_cycle_in_a_part A dec sm q pv ->
  cSweep cfg = PBJ \/ cSweep cfg = PBJOuter \/ cSweep cfg = PBJSI -> cUseSI cfg = true -> (0 < cMaxCellsPerStep cfg)%N ->
  cGauss cfg <> GE_Original \/ (forall ops s, serial_block A dec pi sm cfg q pv ops s -> exists s', serial_steps A dec pi sm cfg q pv [OSweep] s s') ->
  exists ops out, mainBlock A dec enc stod ltb quadrature pi fname deck mesh np threads pr gsum ops out.
Proof.
  intros T A dec enc stod ltb quadrature pi fname deck sm cfg q pv np threads mesh pr gsum SE LA TM NO NC HS HI MC SV.
  pose proof (rank_of_cells ltb sm pv np threads mesh LA (bs_cells _ _ _ _ _ _ _ _ _ SE)) as NP. destruct (program_meshes_fit A dec ltb sm cfg q pv np threads mesh (bs_mesh _ _ _ _ _ _ _ _ _ SE) LA TM) as (t & xs & RD & RR & XS).
  destruct SE, LA. assert (HG0 : 0 < N.to_nat (cNGroups cfg)) by lia.
  assert (CS : can_sweep A dec pi sm pv cfg q).
  { destruct SV as [NG|SV]; [now left|]. right. unfold serial_block, serial_steps in SV. rewrite <- gauss_named in SV. intros ops s FO. destruct (SV ops s FO) as (s' & FO').
    inversion FO' as [| |V L F V' l s1 JS FV FO''|]; subst. exists V'. split; [exact JS|exact FV]. }
  destruct (solve_block_ex A dec enc ltb pi sm pv np cfg q threads bs_mesh0 la_partition la_small la_compares la_threads NP HG0 bs_some0 bs_cells0 bs_size0 t RD xs XS pr gsum MC NC CS HS HI) as (ops & psi & SO).
  destruct (solve_block_ok A dec enc ltb pi sm pv np cfg q threads bs_mesh0 la_partition la_small la_compares la_threads NP HG0 bs_some0 bs_cells0 bs_size0 t RD xs XS pr gsum ops psi SO) as (s & _ & H).
  destruct (proj1 (write_ok A dec enc ltb pi sm pv np cfg q threads bs_mesh0 la_partition la_small la_compares la_threads NP HG0 bs_some0 bs_cells0 bs_size0 t RD psi (j_val s) H)) as (f & WF).
  exists ops, (if cOutputFile cfg then Some (cOutputFilename cfg, f) else None), cfg, q, t, xs, psi. split; [exact bs_deck0|]. split; [exact bs_angles0|]. split.
  { intros r Hr. destruct (RR r Hr) as (P & E1 & E2). unfold createMesh. rewrite E1. cbn [obind]. rewrite E2. cbn [obind].
    now rewrite (constructs_ok A dec enc ltb pi sm pv np cfg q threads bs_mesh0 la_partition la_small la_compares la_threads NP HG0 bs_some0 bs_cells0 bs_size0 t RD r NO Hr). }
  split; [exact XS|]. split; [exact SO|]. destruct (cOutputFile cfg) eqn:E; auto.
Qed.

(** The deck asks for at least one sweep. *)
Definition asks_for_sweep {T} (A : arith T) (cfg : config T) : Prop :=
  (1 < cDdIterMax cfg)%N /\ (cSweep cfg = PBJSI \/ (0 < cIterMax cfg)%N /\ agt A (aone A) (cErrMax cfg) = true).
(** Then the program ends, and does what C79_output says, exactly if no cell waits for itself through cells of its own part: a cycle of the serial
    mesh does no harm if the partition cuts it, and hangs the program if it does not. *)
Theorem C80_ends : forall T (A : arith T) dec enc stod ltb quadrature pi fname deck sm cfg q pv np threads mesh pr gsum,
  block_setting A dec stod quadrature fname deck sm cfg q -> launch ltb sm pv np threads mesh -> two_materials sm -> normals_ok A sm dec (q_omega q) (q_num q) ->
  cSweep cfg = PBJ \/ cSweep cfg = PBJOuter \/ cSweep cfg = PBJSI -> cUseSI cfg = true -> (0 < cMaxCellsPerStep cfg)%N -> asks_for_sweep A cfg -> cGauss cfg <> GE_Original ->
  ((exists ops out, mainBlock A dec enc stod ltb quadrature pi fname deck mesh np threads pr gsum ops out) <-> no_cycle_in_a_part A dec sm q pv).
Proof.
  intros T A dec enc stod ltb quadrature pi fname deck sm cfg q pv np threads mesh pr gsum SE LA TM NO HS HI MC (DD & AS) NG. split.
  - intros (ops & out & MB). refine (C80_swept _ _ _ _ _ _ _ _ _ _ _ _ _ _ _ _ _ _ _ _ _ SE LA MB _). destruct MB as (cfg' & q' & t & xs & psi & E1 & E2 & CM & XS & SO & _).
    rewrite (bs_deck _ _ _ _ _ _ _ _ _ SE) in E1. apply Some_inj in E1. subst cfg'. exact (solve_first A dec pi cfg q' t np threads xs pr gsum ops psi DD AS SO).
  - intros NC. exact (C79_runs _ _ _ _ _ _ _ _ _ _ _ _ _ _ _ _ _ _ _ SE LA TM NO NC HS HI MC (or_introl NG)).
Qed.

(** On one rank the three solvers write what TraverseGraph writes (C70): PBJ after as many sweeps as it makes source iterations, the other two
    after all their sweeps. PBJSI starts from a scalar flux of zero, which in an odd arithmetic need not be the flux of zero. *)
Definition serial_sweeps (ty : DeckModel.sweepType) (ops : list op) : nat :=
  match ty with PBJ => List.length (filter (fun o => match o with OFlux => true | _ => false end) ops) - 1 | _ => sweeps ops end.
Definition zero_flux {T} (A : arith T) (q : angles T) : Prop := forall a, a < q_num q -> aadd A (azero A) (amul A (azero A) (q_weight q a)) = azero A.
Theorem C79_one_rank : forall T (A : arith T) dec enc stod ltb quadrature pi fname deck sm cfg q pv threads mesh pr gsum ops name f,
  block_setting A dec stod quadrature fname deck sm cfg q -> launch ltb sm pv 1 threads mesh -> (1 < cDdIterMax cfg)%N -> zero_flux A q ->
  mainBlock A dec enc stod ltb quadrature pi fname deck mesh 1 threads pr gsum ops (Some (name, f)) ->
  exists Val, serial_flux A dec pi sm cfg q (serial_sweeps (cSweep cfg) ops) Val /\ forall p, f p = nth_error (flux_file A enc sm cfg q Val) (N.to_nat p).
Proof.
  intros T A dec enc stod ltb quadrature pi fname deck sm cfg q pv threads mesh pr gsum ops name f SE LA DD ZF MB.
  pose proof (C79_log _ _ _ _ _ _ _ _ _ _ _ _ _ _ _ _ _ _ _ _ SE MB) as LG. destruct (C79_output _ _ _ _ _ _ _ _ _ _ _ _ _ _ _ _ _ _ _ _ _ SE LA MB) as (_ & s & FO & _ & _ & O).
  assert (ONE : forall g h sg sh, SM_cell sm g = Some sg -> SM_cell sm h = Some sh -> same_part pv g h = true).
  { destruct (la_partition _ _ _ _ _ _ LA) as (LP & FP & _). rewrite Forall_forall in FP. assert (OW : forall g sg, SM_cell sm g = Some sg -> owner pv g = Some 0%N).
    { intros g sg H. unfold owner. destruct (nth_error pv (N.to_nat g)) as [x|] eqn:E; [|apply nth_error_None in E; unfold SM_cell in H; assert (NN : nth_error (sm_cells sm) (N.to_nat g) = None) by (apply nth_error_None; lia); congruence]. f_equal. apply nth_error_In in E. specialize (FP x E). cbn in FP. lia. }
    intros g h sg sh Hg Hh. unfold same_part. now rewrite (OW g sg Hg), (OW h sh Hh). }
  unfold serial_block, serial_steps in FO. exists (j_val s). split; [|exact O]. unfold serial_flux, serial_sweeps. destruct (cSweep cfg); try contradiction.
  - destruct LG as (its & -> & _ & FA). rewrite Forall_forall in FA.
    replace (List.length _ - 1) with (0 + List.length its).
    + eapply (pbj_one A sm dec _ _ _ _ _ _ _ _ _ ONE its); [apply Forall_forall; intros l Hl; exact (steps_log _ _ (FA l Hl))|apply Forall_forall; intros l Hl; apply (steps_some _ _ (FA l Hl)); lia| |exact FO]. constructor.
    + unfold pbj_log. cbn [filter List.length]. rewrite Nat.sub_succ, Nat.sub_0_r. clear -FA. induction its as [|l its IH]; [reflexivity|]. cbn [map concat List.length].
      rewrite !filter_app, !app_length. rewrite <- IH by (intros x Hx; apply FA; now right).
      assert (J : jacobi_log l) by (eapply steps_log, FA; now left). clear -J. cbn. induction J; cbn; lia.
  - destruct LG as (its & E & _). assert (K : exists s', follows A sm dec (q_omega q) (q_num q) (q_weight q) pi (named_solver (cGauss cfg)) (N.to_nat (cNGroups cfg)) (by_material A sm (cSigmaT1 cfg) (cSigmaT2 cfg)) (by_material A sm (cSigmaS1 cfg) (cSigmaS2 cfg)) (same_part pv) (outer_log its) (j_zero A) s' /\ j_val s' = j_val s /\ sweeps (outer_log its) = sweeps ops).
    { destruct E as [(<- & _)|(<- & _)]; [eauto|]. destruct s as [V L F]. exists (mkJ V V F). split; [eapply follows_app; [exact FO|]; constructor; constructor|]. split; [reflexivity|]. rewrite sweeps_app. cbn. lia. }
    destruct K as (s' & FO' & <- & <-). eapply (outer_one A sm dec _ _ _ _ _ _ _ _ _ ONE its 0); [constructor|exact FO'].
  - destruct LG as (n & -> & _). replace (sweeps _) with (0 + n) by (clear; induction n as [|n IH]; [reflexivity|]; cbn [again]; rewrite sweeps_app, <- IH; reflexivity).
    eapply (si_one A sm dec _ _ _ _ _ _ _ _ _ ONE n); [constructor| |exact FO]. intros g v G. cbn. unfold b_flux. cbn.
    assert (Z : forall l, (forall a, In a l -> a < q_num q) -> fold_left (fun s a => aadd A s (amul A (azero A) (q_weight q a))) l (azero A) = azero A).
    { induction l as [|a l IH]; intros Hl; [reflexivity|]. cbn [fold_left]. rewrite ZF by (apply Hl; now left). apply IH. intros b Hb. apply Hl. now right. }
    symmetry. apply Z. intros a Ha. apply in_seq in Ha. lia.
Qed.
Print Assumptions C79_output. Print Assumptions C80_swept. Print Assumptions C80_ends. Print Assumptions C79_determined. Print Assumptions C79_same_steps. Print Assumptions C79_reproducible. Print Assumptions C79_log. Print Assumptions C79_runs. Print Assumptions C79_one_rank.
