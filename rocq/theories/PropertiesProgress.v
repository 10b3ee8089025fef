(** C87: what the solvers print about their iterations. *)
From Coq Require Import Reals Lra String.
From Verif Require Import Prelude Bytes LayoutModel PsiFileModel DeckModel MeshModel CreateSpec TychoModel GeometryModel GaussModel TransportModel TraverseModel TraverseSpec TraverseRun SweepModel CommModel BlockModel FluxModel ProblemModel ViewModel BitsModel MainModel MainSpec MainExact PropertiesMain JacobiModel MoabModel MoabSpec MoabExportProofs
  ProgressModel ProgressSpec ProgressProofs ProgressExact.
Local Open Scope list_scope.

(** The printing program is the program, with its lines: every run prints something and every run with lines is a run. *)
Theorem C87_runs : forall T (A : arith T) dec enc stod ltb quadrature pi tol fname deck mesh np threads pr gsum iters out,
  mainRun A dec enc stod ltb quadrature pi tol fname deck mesh np threads pr gsum iters out <->
  exists l, mainRunLog A dec enc stod ltb quadrature pi tol fname deck mesh np threads pr gsum l iters out.
Proof.
  intros. split.
  - intros (cfg & q & t & xs & psi & E1 & E2 & CM & XS & SI & (sweep & pn & po & e & SW & L) & OUT). destruct (plain_log _ _ _ _ _ _ _ _ _ _ _ _ _ _ _ _ _ _ L) as (l & H).
    exists l, cfg, q, t, xs, psi. split; [exact E1|]. split; [exact E2|]. split; [exact CM|]. split; [exact XS|]. split; [exact SI|]. split; [|exact OUT]. exists sweep. split; [exact SW|exact H].
  - intros (l & cfg & q & t & xs & psi & E1 & E2 & CM & XS & SI & (sweep & SW & L) & OUT). destruct (plain_erase _ _ _ _ _ _ _ _ _ _ _ _ _ _ _ _ _ _ L) as (pn & po & e & H).
    exists cfg, q, t, xs, psi. split; [exact E1|]. split; [exact E2|]. split; [exact CM|]. split; [exact XS|]. split; [exact SI|]. split; [|exact OUT]. exists sweep, pn, po, e. split; [exact SW|exact H].
Qed.
(** In any arithmetic it prints one line per iteration, numbered from zero, each after the timers of its sweep; the changes shown are above errMax
    except the last, unless iterMax was reached; at the end the time is divided by the number of iterations. *)
Theorem C87_iterations : forall T (A : arith T) dec enc stod ltb quadrature pi tol fname deck mesh np threads pr gsum l iters out,
  mainRunLog A dec enc stod ltb quadrature pi tol fname deck mesh np threads pr gsum l iters out ->
  exists cfg, readInput stod fname (Some deck) = Some cfg /\ l = lines_of (shown l) /\ reports (agt A) (aone A) (cErrMax cfg) (cIterMax cfg) l iters.
Proof.
  intros T A dec enc stod ltb quadrature pi tol fname deck mesh np threads pr gsum l iters out (cfg & q & t & xs & psi & E1 & E2 & CM & XS & SI & (sweep & SW & L) & OUT).
  exists cfg. split; [exact E1|]. exact (plain_lines _ _ _ _ _ _ _ _ _ _ _ _ _ _ _ _ L).
Qed.
(** In exact arithmetic the changes shown are those of the serial iteration. *)
Definition serial_run dec pi (sm : smesh) (cfg : config R) (q : angles R) (n : nat) (e : R) (Val : nat -> N -> value R) : Prop :=
  s_run sm dec (q_omega q) (q_num q) (q_weight q) pi (named_solver (cGauss cfg)) (N.to_nat (cNGroups cfg))
    (by_material Rops sm (cSigmaT1 cfg) (cSigmaT2 cfg)) (by_material Rops sm (cSigmaS1 cfg) (cSigmaS2 cfg)) (N.to_nat (cIterMax cfg)) (cErrMax cfg) n e Val.
Theorem C87_exact : forall dec enc stod ltb quadrature pi tol fname deck sm cfg q pv np threads mesh pr gsum l iters out,
  setting Rops dec stod quadrature tol fname deck sm cfg q -> launch ltb sm pv np threads mesh -> sums np gsum ->
  mainRunLog Rops dec enc stod ltb quadrature pi tol fname deck mesh np threads pr gsum l iters out ->
  forall k n e, nth_error (shown l) k = Some (n, e) -> exists V, serial_run dec pi sm cfg q (S k) e V.
Proof.
  intros dec enc stod ltb quadrature pi tol fname deck sm cfg q pv np threads mesh pr gsum l iters out SE LA GS (cfg' & q' & t & xs & psi & E1 & E2 & CM & XS & SI & SO & OUT).
  pose proof (some_rank Rops dec stod ltb quadrature tol fname deck sm cfg q SE pv np threads mesh LA) as NP. pose proof LA as LA0. destruct SE, LA. rewrite se_deck in E1. apply Some_inj in E1. subst cfg'. rewrite se_angles in E2. apply Some_inj in E2. subst q'.
  pose proof (reads_mesh Rops dec ltb sm q pv np threads mesh LA0 t CM) as RD.
  assert (HG0 : 0 < N.to_nat (cNGroups cfg)) by lia.
  exact (log_exact dec enc ltb pi sm pv np cfg q threads se_mesh la_partition la_small la_compares la_threads NP HG0 se_some se_cells se_size t RD xs XS gsum GS tol pr l iters psi se_tol SO).
Qed.
(** So then, times aside, the lines do not depend on how the mesh is partitioned and the program launched. *)
Theorem C87_exact_partition_independent : forall dec enc stod ltb quadrature pi tol fname deck sm cfg q pv1 np1 threads1 mesh1 pr1 gsum1 l1 iters1 out1 pv2 np2 threads2 mesh2 pr2 gsum2 l2 iters2 out2,
  setting Rops dec stod quadrature tol fname deck sm cfg q -> launch ltb sm pv1 np1 threads1 mesh1 -> launch ltb sm pv2 np2 threads2 mesh2 -> sums np1 gsum1 -> sums np2 gsum2 ->
  mainRunLog Rops dec enc stod ltb quadrature pi tol fname deck mesh1 np1 threads1 pr1 gsum1 l1 iters1 out1 -> mainRunLog Rops dec enc stod ltb quadrature pi tol fname deck mesh2 np2 threads2 pr2 gsum2 l2 iters2 out2 ->
  l1 = l2.
Proof.
  intros dec enc stod ltb quadrature pi tol fname deck sm cfg q pv1 np1 threads1 mesh1 pr1 gsum1 l1 iters1 out1 pv2 np2 threads2 mesh2 pr2 gsum2 l2 iters2 out2 SE L1 L2 G1 G2 M1 M2.
  assert (N1 : mainRun Rops dec enc stod ltb quadrature pi tol fname deck mesh1 np1 threads1 pr1 gsum1 iters1 out1) by (apply C87_runs; eauto).
  assert (N2 : mainRun Rops dec enc stod ltb quadrature pi tol fname deck mesh2 np2 threads2 pr2 gsum2 iters2 out2) by (apply C87_runs; eauto).
  destruct (C70_exact_partition_independent _ _ _ _ _ _ _ _ _ _ _ _ _ _ _ _ _ _ _ _ _ _ _ _ _ _ _ _ SE L1 L2 G1 G2 N1 N2) as (<- & _).
  destruct (C87_iterations _ _ _ _ _ _ _ _ _ _ _ _ _ _ _ _ _ _ _ M1) as (c1 & _ & EL1 & LE1 & _ & NU1 & _). destruct (C87_iterations _ _ _ _ _ _ _ _ _ _ _ _ _ _ _ _ _ _ _ M2) as (c2 & _ & EL2 & LE2 & _ & NU2 & _).
  pose proof (C87_exact _ _ _ _ _ _ _ _ _ _ _ _ _ _ _ _ _ _ _ _ _ SE L1 G1 M1) as X1. pose proof (C87_exact _ _ _ _ _ _ _ _ _ _ _ _ _ _ _ _ _ _ _ _ _ SE L2 G2 M2) as X2.
  enough (E : shown l1 = shown l2) by (rewrite EL1, EL2, E; reflexivity).
  destruct (C70_output _ _ _ _ _ _ _ _ _ _ _ _ _ _ _ _ _ _ _ _ _ _ SE L1 N1) as (TM & _).
  pose proof (some_rank Rops dec stod ltb quadrature tol fname deck sm cfg q SE pv1 np1 threads1 mesh1 L1) as NP. destruct (program_meshes Rops dec stod ltb quadrature tol fname deck sm cfg q pv1 np1 threads1 mesh1 SE L1 TM) as (t & xs & RD & _ & XS).
  destruct SE, L1. assert (HG0 : 0 < N.to_nat (cNGroups cfg)) by lia.
  pose proof (run_error dec enc ltb pi sm pv1 np1 cfg q threads1 se_mesh la_partition la_small la_compares la_threads NP HG0 se_some se_cells se_size t RD xs XS) as U.
  apply same_entries. intros k. destruct (nth_error (shown l1) k) as [(n1, e1)|] eqn:H1.
  - assert (K : k < List.length (shown l2)) by (assert (k < List.length (shown l1)) by (apply nth_error_Some; congruence); lia).
    destruct (nth_error (shown l2) k) as [(n2, e2)|] eqn:H2; [|apply nth_error_None in H2; lia].
    rewrite (NU1 _ _ _ H1), (NU2 _ _ _ H2). destruct (X1 _ _ _ H1) as (V1 & R1), (X2 _ _ _ H2) as (V2 & R2). do 2 f_equal. exact (U _ _ _ _ _ R1 R2).
  - symmetry. apply nth_error_None. apply nth_error_None in H1. lia.
Qed.
(** Is the average taken over at least one iteration? Not if errMax is 1 or more, or iterMax zero: then the time is divided by zero. *)
Theorem C87_average_refuted : exists A pi nA nG wt nC sigmaS gsum sweep iterMax errMax source psi l,
  (0 < iterMax)%N /\ fixedPointLog A pi nA nG wt nC sigmaS gsum (X := unit) (T := R) (plain sweep) iterMax errMax source psi tt l 0 psi tt /\ In (LAverage 0) l.
Proof.
  exists Rops, 3%R, 1, 1, (fun _ => 1%R), (fun _ => 1), (fun _ _ => 0%R), (fun x => x 0), (fun _ _ _ => True), 10%N, 1%R, (fun _ _ _ _ _ => 1%R), (fun _ _ _ _ _ => 0%R), [LSourceTime; LAverage 0].
  split; [lia|]. split; [|right; now left]. exists []. split; [reflexivity|]. apply fg_end. cbn. destruct (Rgt_dec 1 1); [lra|reflexivity].
Qed.

Section Jacobi.
  Context (T : Type) (A : arith T) (R0 : run (value T) (block T)) (g : gaussElim) (nG : nat) (geo : nat -> rgeo T) (sigmaT : nat -> nat -> T) (pr : nat -> nat -> nat -> N).
  Context (pi : T) (sigmaS : nat -> nat -> T) (wt : nat -> T) (gsum : (nat -> T) -> T) (limit : N) (bound : T).
  Notation GPsi := (nat -> nat -> nat -> nat -> nat -> T).
  Notation local := (localSweepA A R0 g nG geo sigmaT pr).
  Notation psiError := (psiRelError A R0 nG gsum).
  Notation flux psi := (gPsiToPhi A (u_angles R0) nG wt (fun r => rm_nCells (u_mesh R0 r)) psi).
  Notation change phi phi0 := (relError A nG (fun r => rm_nCells (u_mesh R0 r)) gsum phi phi0).
  Notation below := (agt A bound).

  (** A sweep of SweeperPBJ prints the timers of its local sweeps and a number, which is how many there were if the last of them changed psi by
      less than the bound, and one more if the limit was reached. It adds as many to the count that is printed at the end. *)
  Theorem C87_pbj_sweep : forall src psi x l psi' x', jacobiSweepLog A R0 g nG geo sigmaT pr gsum limit bound src psi x l psi' x' ->
    exists n k P, l = repeat LTimers k ++ [LPbjSweep n] /\ P 0 = psi /\ P k = psi' /\ (forall i, i < k -> exists b b', local src (P i) b (P (S i)) b') /\
      pbj_reports below limit n (map (fun i => psiError (P i) (P (S i))) (seq 0 k)) /\ (snd x' = w64 (snd x + N.of_nat k) \/ k = 0 /\ snd x' = snd x).
  Proof.
    intros src psi x l psi' x' H. destruct (jacobi_lines A R0 g nG geo sigmaT pr sigmaS wt gsum limit bound src 1 psi x l psi' x' H) as (n & k & P & E & P0 & Pk & LO & PB & C).
    exists n, k, P. split; [exact E|]. split; [exact P0|]. split; [exact Pk|]. split; [exact LO|]. split; [now apply pbj_one|]. destruct C; auto.
  Qed.
  Context (iterMax : N) (errMax : T) (source : GPsi).
  (** SweeperPBJ: the source iteration is reported as above, each iteration with one such number; the number after "Num source iters" is that of the
      local sweeps (as a 64-bit number). *)
  Theorem C87_pbj : forall l its n psi, solvePBJLog A R0 g nG geo sigmaT pr pi sigmaS wt gsum limit bound iterMax errMax source l its n psi ->
    n = w64 (N.of_nat (sweeps l)) /\ reports (agt A) (aone A) errMax iterMax l its /\ List.length (pbjSweeps l) = N.to_nat its /\ exists l', l = l' ++ [LLocal n].
  Proof. intros l its n psi. exact (pbj_local A R0 g nG geo sigmaT pr pi sigmaS wt gsum limit bound iterMax errMax source l its n psi). Qed.
  (** SweeperPBJOuter: the numbers listed at the end are those of the source iterations of each outer iteration, the errors shown the changes of psi
      over them, and the number of outer iterations is as above. *)
  Theorem C87_outer : forall l psi, solvePBJOuterLog A R0 g nG geo sigmaT pr pi sigmaS wt gsum limit bound iterMax errMax source l psi ->
    exists l' n P k, l = l' ++ [LPbj n; LSourceIts (solves l)] /\ P 0 = zeroP A /\ P k = psi /\ List.length (solves l) = k /\
      (forall i, i < k -> exists m b b' its, fixedPointLog A pi (u_angles R0) nG wt (fun r => rm_nCells (u_mesh R0 r)) sigmaS gsum (outerSweepLog A R0 g nG geo sigmaT pr) iterMax errMax source (P i) b m its (P (S i)) b' /\
         nth_error (solves l) i = Some its /\ reports (agt A) (aone A) errMax iterMax m its) /\
      relatives l = map (fun i => psiError (P i) (P (S i))) (seq 0 k) /\ pbj_reports below limit n (relatives l).
  Proof.
    intros l psi H. destruct (outer_lines A R0 g nG geo sigmaT pr pi sigmaS wt gsum limit bound iterMax errMax source 1 (zeroP A) (zeroP A) [] l psi H) as (l' & n & P & k & E & P0 & Pk & LS & F & RE & PB).
    exists l', n, P, k. split; [exact E|]. split; [exact P0|]. split; [exact Pk|]. split; [exact LS|]. split; [|split; [exact RE|now apply pbj_one]].
    intros i Hi. destruct (F i Hi) as (m & b & b' & its & FP & NE). exists m, b, b', its. split; [exact FP|]. split; [exact NE|].
    exact (proj1 (fixed_reports A pi _ nG wt _ sigmaS gsum _ iterMax errMax source (outer_quiet A R0 g nG geo sigmaT pr) _ _ _ _ _ _ FP)).
  Qed.
  (** SweeperPBJSI: the errors shown are the changes of the scalar flux over its sweeps, the number is as above, and the list is empty. *)
  Theorem C87_si : forall l psi, solvePBJSILog A R0 g nG geo sigmaT pr pi sigmaS wt gsum limit bound source l psi ->
    exists l' n P k, l = l' ++ [LPbj n; LSourceIts []] /\ sweeps l = k /\ P 0 = (fun _ _ _ _ => azero A) /\ (0 < k -> P k = flux psi) /\
      relatives l = map (fun i => change (P (S i)) (P i)) (seq 0 k) /\ pbj_reports below limit n (relatives l).
  Proof.
    intros l psi H. destruct (si_lines A R0 g nG geo sigmaT pr pi sigmaS wt gsum limit bound source 1 _ _ _ _ l psi H) as (l' & n & P & k & E & SW & _ & P0 & Pk & RE & PB).
    exists l', n, P, k. split; [exact E|]. split; [exact SW|]. split; [exact P0|]. split; [exact Pk|]. split; [exact RE|now apply pbj_one].
  Qed.
  (** Is the number after "PBJ Iters" that of the iterations, and the number after "Num source iters" that of the source iterations?
      With ddIterMax 1 nothing is done, and a 1 is printed for it; with one source iteration asked for, which is made, a 0. *)
  Theorem C87_counts_refuted : limit = 1%N -> iterMax = 1%N -> agt A (aone A) errMax = true ->
    (exists l, solvePBJSILog A R0 g nG geo sigmaT pr pi sigmaS wt gsum limit bound source l (zeroP A) /\ sweeps l = 0 /\ In (LPbj 1) l) /\
    (exists l, solvePBJOuterLog A R0 g nG geo sigmaT pr pi sigmaS wt gsum limit bound iterMax errMax source l (zeroP A) /\ relatives l = [] /\ In (LPbj 1) l) /\
    (exists l, solvePBJLog A R0 g nG geo sigmaT pr pi sigmaS wt gsum limit bound iterMax errMax source l 1 0 (zeroP A) /\ pbjSweeps l = [1%N] /\ List.length (shown l) = 1 /\ In (LLocal 0) l).
  Proof.
    intros -> -> G. split; [|split].
    - exists [LPbj 1; LSourceIts []]. split; [now apply sl_limit|]. split; [reflexivity|now left].
    - exists [LPbj 1; LSourceIts []]. split; [now apply ol_limit|]. split; [reflexivity|now left].
    - eexists. split; [|]. { eexists. exists (zeroP A). split; [reflexivity|]. eexists. split; [reflexivity|]. eapply fg_next; [rewrite G; reflexivity|now apply jl_limit|]. now apply fg_end. }
      cbn. split; [reflexivity|]. split; [reflexivity|]. right. right. right. right. now left.
  Qed.
End Jacobi.
(** The printing block solvers are those of C79 and C80: every run prints something, and there are as many timers as sweeps. *)
Section Runs.
  Context (T : Type) (A : arith T) (R0 : run (value T) (block T)) (g : gaussElim) (nG : nat) (geo : nat -> rgeo T) (sigmaT : nat -> nat -> T) (pr : nat -> nat -> nat -> N).
  Context (pi : T) (sigmaS : nat -> nat -> T) (wt : nat -> T) (gsum : (nat -> T) -> T) (limit : N) (bound : T) (iterMax : N) (errMax : T) (source : nat -> nat -> nat -> nat -> nat -> T).
  Notation jl := (jacobiSweepLog A R0 g nG geo sigmaT pr gsum limit bound).
  Notation jo := (jacobiSweep A R0 g nG geo sigmaT pr gsum limit bound).
  Lemma pbj_log ops psi : solvePBJ A R0 g nG geo sigmaT pr pi sigmaS wt gsum limit bound iterMax errMax source ops psi ->
    exists l its n, solvePBJLog A R0 g nG geo sigmaT pr pi sigmaS wt gsum limit bound iterMax errMax source l its n psi /\ swept ops = sweeps l.
  Proof.
    intros (bnd & F). assert (K : forall s p (x : (nat -> nat -> nat -> nat -> nat -> T) * N) ops p' b', jo s p (fst x) ops p' b' -> exists l x', fst x' = b' /\ jl s p x l p' x' /\ swept ops = sweeps l).
    { intros s p (b, n) o p' b' H. destruct (jacobi_log A R0 g nG geo sigmaT pr gsum limit bound _ _ _ _ _ _ _ _ H n) as (l & n' & L & E). exists l, (b', n'). split; [reflexivity|]. split; [exact L|exact E]. }
    destruct (fixed_log A R0 nG pi sigmaS wt gsum iterMax errMax source jl jo fst K (zeroP A) (zeroP A, 0%N) ops psi bnd F) as (l & its & (b & n) & _ & FL & E).
    exists (l ++ [LLocal n]), its, n. split; [exists l, b; split; [reflexivity|exact FL]|]. rewrite sweeps_app. cbn. now rewrite Nat.add_0_r.
  Qed.
  Lemma pbj_erase l its n psi : solvePBJLog A R0 g nG geo sigmaT pr pi sigmaS wt gsum limit bound iterMax errMax source l its n psi ->
    exists ops, solvePBJ A R0 g nG geo sigmaT pr pi sigmaS wt gsum limit bound iterMax errMax source ops psi /\ swept ops = sweeps l.
  Proof.
    intros (l' & bnd & -> & F). assert (K : forall s p (x : (nat -> nat -> nat -> nat -> nat -> T) * N) l p' x', jl s p x l p' x' -> exists ops, jo s p (fst x) ops p' (fst x') /\ swept ops = sweeps l).
    { intros s p x m p' x' H. exact (jacobi_erase A R0 g nG geo sigmaT pr gsum limit bound _ _ _ _ _ _ _ _ H). }
    destruct (fixed_erase A R0 nG pi sigmaS wt gsum iterMax errMax source jl jo fst K _ _ _ _ _ _ F) as (ops & FA & E). exists ops. split; [exists bnd; exact FA|]. rewrite sweeps_app. cbn. now rewrite Nat.add_0_r.
  Qed.
End Runs.
Theorem C87_block_runs : forall T (A : arith T) dec pi cfg q t np threads xs pr gsum psi k,
  (exists ops, solveBlock A dec pi cfg q t np threads xs pr gsum ops psi /\ swept ops = k) <-> (exists l, solveBlockLog A dec pi cfg q t np threads xs pr gsum l psi /\ sweeps l = k).
Proof.
  intros T A dec pi cfg q t np threads xs pr gsum psi k. unfold solveBlock, solveBlockLog. split.
  - intros (ops & H & <-). destruct (cSweep cfg); try contradiction.
    + destruct H as (SI & H). apply pbj_log in H. destruct H as (l & its & n & L & E). exists l. split; [split; [exact SI|eauto]|now rewrite E].
    + destruct H as (SI & H). apply outer_log with (its := []) in H. destruct H as (l & L & E). exists l. split; [split; [exact SI|exact L]|now rewrite E].
    + apply si_log in H. destruct H as (l & L & E). exists l. split; [exact L|now rewrite E].
  - intros (l & H & <-). destruct (cSweep cfg); try contradiction.
    + destruct H as (SI & its & n & H). apply pbj_erase in H. destruct H as (ops & L & E). exists ops. split; [split; [exact SI|exact L]|exact E].
    + destruct H as (SI & H). apply outer_erase in H. destruct H as (ops & L & E). exists ops. split; [split; [exact SI|exact L]|exact E].
    + apply si_erase in H. destruct H as (ops & L & E). exists ops. split; [exact L|exact E].
Qed.

(** The numbers can be read from the text: a decimal followed by something that is not a digit. *)
Lemma digits_end a b x y c d : Forall (fun k => 48 <= k <= 57)%N a -> Forall (fun k => 48 <= k <= 57)%N b -> (x < 48)%N -> (y < 48)%N -> a ++ x :: c = b ++ y :: d -> a = b /\ x :: c = y :: d.
Proof.
  revert b. induction a as [|k a IH]; intros [|k' b] FA FB HX HY E; cbn in E; [split; [reflexivity|exact E]| | |].
  - inversion E; subst. inversion FB; subst. lia.
  - inversion E; subst. inversion FA; subst. lia.
  - inversion E; subst. inversion FA; inversion FB; subst. destruct (IH b) as (-> & K); auto.
Qed.
Lemma number_read n m c d x y : (x < 48)%N -> (y < 48)%N -> toString n ++ x :: c = toString m ++ y :: d -> n = m /\ x :: c = y :: d.
Proof.
  intros HX HY E. destruct (toString_decimal n) as (A1 & A2 & A3 & A4), (toString_decimal m) as (B1 & B2 & B3 & B4). destruct (digits_end _ _ _ _ _ _ A2 B2 HX HY E) as (EQ & R).
  split; [|exact R]. rewrite <- A3, <- B3. now rewrite EQ.
Qed.
Lemma list_read (l m : list N) c d : flat_map (fun n => 32%N :: toString n) l ++ 10%N :: c = flat_map (fun n => 32%N :: toString n) m ++ 10%N :: d -> l = m.
Proof.
  revert m. induction l as [|n l IH]; intros [|n' m] E; [reflexivity|discriminate|discriminate|]. cbn [flat_map app] in E. inversion E as [E']. rewrite <- !app_assoc in E'.
  assert (K : forall l c, exists x r, (x < 48)%N /\ flat_map (fun n => 32%N :: toString n) l ++ 10%N :: c = x :: r) by (intros [|a l0] c0; [exists 10%N, c0; split; [lia|reflexivity]|cbn; eexists 32%N, _; split; [lia|reflexivity]]).
  destruct (K l c) as (x & r & HX & EX), (K m d) as (y & r' & HY & EY). rewrite EX, EY in E'. destruct (number_read n n' r r' x y HX HY E') as (-> & R). f_equal. apply IH. now rewrite EX, EY.
Qed.
Theorem C87_text : forall T (fmtE : T -> list N) time time',
  (forall i e i' e', text fmtE time (LIteration i e) = text fmtE time' (LIteration i' e') -> i = i') /\
  (forall n n', text fmtE time (LPbj n) = text fmtE time' (LPbj n') -> n = n') /\ (forall n n', text fmtE time (LPbjSweep n) = text fmtE time' (LPbjSweep n') -> n = n') /\
  (forall n n', text fmtE time (LLocal n) = text fmtE time' (LLocal n') -> n = n') /\ (forall l l', text fmtE time (LSourceIts l) = text fmtE time' (LSourceIts l') -> l = l').
Proof.
  intros T fmtE time time'. unfold text. split; [|split; [|split; [|split]]].
  - intros i e i' e' E. apply app_inv_head in E. refine (proj1 (number_read i i' _ _ 32%N 32%N _ _ E)); lia.
  - intros n n' E. apply app_inv_head in E. refine (proj1 (number_read n n' _ _ 10%N 10%N _ _ E)); lia.
  - intros n n' E. apply app_inv_head in E. refine (proj1 (number_read n n' _ _ 10%N 10%N _ _ E)); lia.
  - intros n n' E. apply app_inv_head in E. refine (proj1 (number_read n n' _ _ 10%N 10%N _ _ E)); lia.
  - intros l l' E. apply app_inv_head in E. exact (list_read l l' [] [] E).
Qed.
Print Assumptions C87_runs. Print Assumptions C87_iterations. Print Assumptions C87_exact. Print Assumptions C87_exact_partition_independent. Print Assumptions C87_average_refuted.
Print Assumptions C87_pbj_sweep. Print Assumptions C87_pbj. Print Assumptions C87_outer. Print Assumptions C87_si. Print Assumptions C87_counts_refuted. Print Assumptions C87_block_runs. Print Assumptions C87_text.

(** Lines of a source iteration of two iterations that stops because the change, first 3, is then 1/2. *)
Example C87_ex : let l := [LTimers; LIteration 0 3%R; LTimers; LIteration 1 (/ 2)%R; LSourceTime; LAverage 2] in
  l = lines_of (shown l) /\ reports (agt Rops) 1%R (3 / 4)%R 10 l 2 /\ ~ reports (agt Rops) 1%R (3 / 4)%R 10 (lines_of [(0%N, 3%R)]) 1.
Proof.
  cbn zeta. split; [reflexivity|]. unfold reports. cbn [shown lines_of flat_map app fst snd map List.length last]. split.
  - split; [reflexivity|]. split; [lia|]. split. { intros [|[|[|k]]] n e H; try discriminate; apply Some_inj in H; inversion H; reflexivity. }
    split. { intros [|[|k]] e H L; cbn in *; [apply Some_inj in H; subst; destruct (Rgt_dec 1 (3 / 4)); [reflexivity|lra]|apply Some_inj in H; subst; destruct (Rgt_dec 3 (3 / 4)); [reflexivity|lra]|lia]. }
    intros _. cbn. destruct (Rgt_dec (/ 2) (3 / 4)); [lra|reflexivity].
  - intros (_ & _ & _ & _ & H). specialize (H ltac:(lia)). cbn in H. destruct (Rgt_dec 3 (3 / 4)); [discriminate|lra].
Qed.
(** The numbers in C87_counts_refuted: three local sweeps, the third of which is below the bound; and two, the limit being three. *)
Example C87_pbj_ex : pbj_reports (fun x => Nat.ltb x 5) 10 3 [9; 7; 2] /\ pbj_reports (fun x => Nat.ltb x 5) 3 3 [9; 7] /\ ~ pbj_reports (fun x => Nat.ltb x 5) 3 2 [9; 7].
Proof.
  split; [left; split; [reflexivity|]; split; [reflexivity|]; exists [9; 7], 2; split; [reflexivity|]; split; [reflexivity|]; repeat constructor|].
  split; [right; split; [reflexivity|]; split; [reflexivity|]; repeat constructor|]. intros [(_ & _ & pre & e & E & B & _)|(_ & E & _)]; [|discriminate].
  change [9; 7] with ([9] ++ [7]) in E. apply app_inj_tail in E. destruct E as (_ & <-). discriminate.
Qed.
