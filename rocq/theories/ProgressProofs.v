(** Proofs about what the solvers print. *)
From Coq Require Import Reals Lra String.
From Verif Require Import Prelude Bytes LayoutModel PsiFileModel DeckModel MeshModel TychoModel GeometryModel GaussModel TransportModel TraverseModel TraverseSpec TraverseRun SweepModel CommModel BlockModel FluxModel ProblemModel ViewModel BitsModel MainModel JacobiModel MoabModel MoabExportProofs ProgressModel ProgressSpec.
Local Open Scope list_scope.

Section Read.
  Context {T : Type}.
  Lemma shown_app (l m : list (line T)) : shown (l ++ m) = shown l ++ shown m.
  Proof. induction l as [|x l IH]; [reflexivity|]. destruct x; cbn; now rewrite ?IH. Qed.
  Lemma relatives_app (l m : list (line T)) : relatives (l ++ m) = relatives l ++ relatives m.
  Proof. induction l as [|x l IH]; [reflexivity|]. destruct x; cbn; now rewrite ?IH. Qed.
  Lemma sweeps_app (l m : list (line T)) : sweeps (l ++ m) = sweeps l + sweeps m.
  Proof. induction l as [|x l IH]; [reflexivity|]. destruct x; cbn; now rewrite ?IH. Qed.
  Lemma solves_app (l m : list (line T)) : solves (l ++ m) = solves l ++ solves m.
  Proof. induction l as [|x l IH]; [reflexivity|]. destruct x; cbn; now rewrite ?IH. Qed.
  Lemma pbj_app (l m : list (line T)) : pbjSweeps (l ++ m) = pbjSweeps l ++ pbjSweeps m.
  Proof. induction l as [|x l IH]; [reflexivity|]. destruct x; cbn; now rewrite ?IH. Qed.
End Read.

Lemma last_cons {X} (x d : X) l : last (x :: l) d = last l x.
Proof. revert x d. induction l as [|y l IH]; intros x d; [reflexivity|]. change (last (y :: l) d = last (y :: l) x). now rewrite !IH. Qed.

Section Fixed.
  Context {T : Type} (A : arith T) (pi : T) (nA nG : nat) (wt : nat -> T) (nC : nat -> nat) (sigmaS : nat -> nat -> T) (gsum : (nat -> T) -> T).
  Notation GPsi := (nat -> nat -> nat -> nat -> nat -> T).
  Context {X : Type} (sweep : GPsi -> GPsi -> X -> list (line T) -> GPsi -> X -> Prop) (iterMax : N) (errMax : T) (source : GPsi).
  Notation fixedLog := (fixedLog A pi nA nG wt nC sigmaS gsum sweep iterMax errMax source).
  Notation fixedPointLog := (fixedPointLog A pi nA nG wt nC sigmaS gsum sweep iterMax errMax source).

  Section Reports.
    Hypothesis quiet : forall src psi x l psi' x', sweep src psi x l psi' x' -> shown l = [] /\ solves l = [].
    Lemma loop_reports i e psi x tot phi l i' psi' x' : fixedLog i e psi x tot phi l i' psi' x' ->
      (i' = i + N.of_nat (List.length (shown l)))%N /\ ((i <= iterMax)%N -> (i' <= iterMax)%N) /\
      (forall k n er, nth_error (shown l) k = Some (n, er) -> n = (i + N.of_nat k)%N) /\
      (forall k er, nth_error (e :: map snd (shown l)) k = Some er -> k < List.length (shown l) -> agt A er errMax = true) /\
      ((i' < iterMax)%N -> agt A (last (map snd (shown l)) e) errMax = false) /\ solves l = [].
    Proof using quiet.
      induction 1 as [i e psi x tot phi B|i e psi x tot phi l1 psi1 x1 l i' psi' x' B total1 SW phi1 error1 L IH].
      - cbn [shown List.length map]. split; [lia|]. split; [auto|]. split; [intros [|k]; discriminate|]. split; [intros; lia|]. split; [|reflexivity].
        intros H. apply N.ltb_lt in H. rewrite H in B. exact B.
      - destruct IH as (E & LE & NU & GT & LA & SV). destruct (quiet _ _ _ _ _ _ SW) as (Q & Q'). apply Bool.andb_true_iff in B. destruct B as (B & B'). apply N.ltb_lt in B.
        rewrite shown_app, solves_app, Q, Q'. cbn [app shown solves List.length map]. split; [lia|]. split; [intros; apply LE; lia|]. split.
        { intros [|k] n er; cbn [nth_error]; intros H; [apply Some_inj in H; inversion H; lia|]. rewrite (NU _ _ _ H). lia. }
        split. { intros [|k] er; cbn [nth_error]; intros H HL; [apply Some_inj in H; now subst|]. apply (GT k er H). lia. }
        split; [|exact SV]. intros H. rewrite last_cons. apply LA. exact H.
    Qed.
    Lemma fixed_reports psi x l its psi' x' : fixedPointLog psi x l its psi' x' -> reports (agt A) (aone A) errMax iterMax l its /\ solves l = [its].
    Proof using quiet.
      intros (l' & -> & L). destruct (loop_reports _ _ _ _ _ _ _ _ _ _ L) as (E & LE & NU & GT & LA & SV).
      unfold reports. rewrite shown_app, solves_app, SV. cbn [app shown solves]. rewrite app_nil_r. split; [|reflexivity]. split; [lia|]. split; [apply LE; lia|]. split; [|split; auto].
      intros k n e H. rewrite (NU k n e H). lia.
    Qed.
  End Reports.

  (** Anything that each sweep keeps true of the sweeper's state and the lines so far, and the lines of the loop do not disturb. *)
  Lemma fixed_track (Q : X -> list (line T) -> Prop) : (forall x l m, shown m <> [] \/ solves m <> [] \/ m = [LSourceTime] -> List.length m = 1 -> Q x l -> Q x (l ++ m)) ->
    (forall src psi x a l psi' x', Q x a -> sweep src psi x l psi' x' -> Q x' (a ++ l)) ->
    forall psi x l its psi' x', fixedPointLog psi x l its psi' x' -> forall a, Q x a -> Q x' (a ++ l).
  Proof.
    intros K1 K2 psi x l its psi' x' (l' & -> & L) a Qa. change [LSourceTime; LAverage its] with ([@LSourceTime T] ++ [LAverage its]). rewrite !app_assoc.
    apply K1; [right; left; discriminate|reflexivity|]. apply K1; [now right; right|reflexivity|]. revert a Qa.
    induction L as [|i e psi x tot phi l1 psi1 x1 l i' psi' x' B total1 SW phi1 error1 L IH]; intros a Qa; [now rewrite app_nil_r|].
    change (LIteration i error1 :: l) with ([LIteration i error1] ++ l). rewrite !app_assoc. apply IH. apply K1; [left; discriminate|reflexivity|]. eapply K2; eauto.
  Qed.
End Fixed.

(** The program with a sweeper that has no state. *)
Section Plain.
  Context {T : Type} (A : arith T) (pi : T) (nA nG : nat) (wt : nat -> T) (nC : nat -> nat) (sigmaS : nat -> nat -> T) (gsum : (nat -> T) -> T).
  Notation GPsi := (nat -> nat -> nat -> nat -> nat -> T).
  Context (sweep : GPsi -> GPsi -> GPsi -> Prop) (iterMax : N) (errMax : T) (source : GPsi).
  Notation fixedLog := (fixedLog A pi nA nG wt nC sigmaS gsum (plain sweep) iterMax errMax source).
  Notation fixedPointLog := (fixedPointLog A pi nA nG wt nC sigmaS gsum (plain sweep) iterMax errMax source).
  Notation fixedPoint := (fixedPoint A pi nA nG wt nC sigmaS gsum sweep iterMax errMax source).
  Lemma plain_quiet src psi x l psi' x' : @plain T sweep src psi x l psi' x' -> shown l = [] /\ solves l = [].
  Proof. intros (_ & ->). now split. Qed.
  Lemma plain_lines psi l its psi' : fixedPointLog psi tt l its psi' tt -> l = lines_of (shown l) /\ reports (agt A) (aone A) errMax iterMax l its.
  Proof.
    intros H. pose proof (fixed_reports A pi nA nG wt nC sigmaS gsum (plain sweep) iterMax errMax source plain_quiet _ _ _ _ _ _ H) as (R & _). split; [|exact R].
    destruct H as (l' & -> & L). destruct R as (E & _). unfold lines_of. rewrite E. f_equal. rewrite shown_app. cbn [shown]. rewrite app_nil_r. clear E.
    induction L as [|i e psi x tot phi l1 psi1 x1 l i' psi' x' B total1 SW phi1 error1 L IH]; [reflexivity|]. destruct SW as (_ & ->). cbn [app shown flat_map fst snd]. now rewrite <- IH.
  Qed.
  Lemma plain_erase psi x l its psi' x' : fixedPointLog psi x l its psi' x' -> exists pn po e, fixedPoint psi its psi' pn po e.
  Proof.
    intros (l' & _ & L). unfold FluxModel.fixedPoint. revert L. generalize (fun _ _ _ _ _ : nat => azero A). intros tot. generalize (fun _ _ _ _ : nat => azero A). generalize (gPsiToPhi A nA nG wt nC psi).
    generalize (aone A). generalize 0%N. intros i e n po L. revert po.
    induction L as [|i e psi x tot phi l1 psi1 x1 l' i' psi' x' B total1 SW phi1 error1 L IH]; intros po; [do 3 eexists; now apply fp_end|].
    destruct (IH phi) as (a & b & c & H). exists a, b, c. eapply fp_next; [exact B|exact (proj1 SW)|exact H].
  Qed.
  Lemma plain_log psi its psi' pn po e : fixedPoint psi its psi' pn po e -> exists l, fixedPointLog psi tt l its psi' tt.
  Proof.
    intros L. enough (exists l, fixedLog 0 (aone A) psi tt (fun _ _ _ _ _ => azero A) (gPsiToPhi A nA nG wt nC psi) l its psi' tt) as (l & H) by (exists (l ++ [LSourceTime; LAverage its]), l; now split).
    unfold FluxModel.fixedPoint in L. revert L. generalize (fun _ _ _ _ _ : nat => azero A). intros tot. generalize (fun _ _ _ _ : nat => azero A). generalize (gPsiToPhi A nA nG wt nC psi).
    generalize (aone A). generalize 0%N. intros i er n o L.
    induction L as [|i er psi tot n o psi1 i' psi' n' o' e' B total1 SW phi1 L (l & IH)]; [eexists; now apply fg_end|].
    eexists. eapply fg_next; [exact B|split; [exact SW|reflexivity]|exact IH].
  Qed.
End Plain.

(** The numbers of "PBJ Iters" when the loop starts at [iter]. *)
Section Pbj.
  Context {T : Type} (below : T -> bool) (limit : N).
  Definition pbj_from (iter n : N) (changes : list T) : Prop :=
    ((n < limit)%N /\ N.succ n = (iter + N.of_nat (List.length changes))%N /\ exists pre e, changes = pre ++ [e] /\ below e = true /\ Forall (fun x => below x = false) pre) \/
    (n = N.max iter limit /\ n = (iter + N.of_nat (List.length changes))%N /\ Forall (fun x => below x = false) changes).
  Lemma pbj_limit iter : N.ltb iter limit = false -> pbj_from iter iter [].
  Proof. intros H. apply N.ltb_ge in H. right. cbn. split; [lia|]. split; [lia|constructor]. Qed.
  Lemma pbj_break iter e : N.ltb iter limit = true -> below e = true -> pbj_from iter iter [e].
  Proof. intros H B. apply N.ltb_lt in H. left. cbn. split; [lia|]. split; [lia|]. exists [], e. repeat split; auto. Qed.
  Lemma pbj_next iter n e ch : N.ltb iter limit = true -> below e = false -> pbj_from (N.succ iter) n ch -> pbj_from iter n (e :: ch).
  Proof.
    intros H B [(L & E & pre & x & -> & Bx & F)|(M & E & F)]; apply N.ltb_lt in H; [left|right]; cbn [List.length].
    - split; [exact L|]. split; [lia|]. exists (e :: pre), x. split; [reflexivity|]. split; [exact Bx|]. now constructor.
    - split; [lia|]. split; [lia|]. now constructor.
  Qed.
  Lemma pbj_one n ch : pbj_from 1 n ch -> pbj_reports below limit n ch.
  Proof. intros [(L & E & R)|(M & E & F)]; [left|right]; (split; [assumption|]; split; [lia|assumption]). Qed.
End Pbj.

Definition shift {X} (x : X) (P : nat -> X) (i : nat) : X := match i with 0 => x | S i => P i end.
Lemma shift_map {X Y} (x : X) P (f : X -> X -> Y) k : map (fun i => f (shift x P i) (shift x P (S i))) (seq 0 (S k)) = f x (P 0) :: map (fun i => f (P i) (P (S i))) (seq 0 k).
Proof. cbn [seq map shift]. f_equal. rewrite <- seq_shift, map_map. reflexivity. Qed.

Lemma w64_step n k : w64 (w64 n + N.of_nat k) = w64 (n + N.of_nat k).
Proof. unfold w64. now rewrite N.add_mod_idemp_l. Qed.

Section Jacobi.
  Context {T : Type} (A : arith T) (R0 : run (value T) (block T)) (g : gaussElim) (nG : nat) (geo : nat -> rgeo T) (sigmaT : nat -> nat -> T) (pr : nat -> nat -> nat -> N).
  Context (pi : T) (sigmaS : nat -> nat -> T) (wt : nat -> T) (gsum : (nat -> T) -> T) (dd : N) (ddErr : T).
  Notation GPsi := (nat -> nat -> nat -> nat -> nat -> T).
  Notation nA := (u_angles R0).
  Notation nC := (fun r => rm_nCells (u_mesh R0 r)).
  Notation local := (localSweepA A R0 g nG geo sigmaT pr).
  Notation comm := (commAllA A R0 g nG geo sigmaT pr).
  Notation psiError := (psiRelError A R0 nG gsum).
  Notation jacobiLog := (jacobiLog A R0 g nG geo sigmaT pr gsum dd ddErr).
  Notation jacobiLoop := (jacobiLoop A R0 g nG geo sigmaT pr gsum dd ddErr).
  Notation fixedLog sw im em so := (fixedLog A pi nA nG wt nC sigmaS gsum sw im em so).
  Notation fixedPointLog sw im em so := (fixedPointLog A pi nA nG wt nC sigmaS gsum sw im em so).

  Lemma jacobi_lines src iter psi x l psi' x' : jacobiLog src iter psi psi x l psi' x' -> exists n k P, l = repeat LTimers k ++ [LPbjSweep n] /\ P 0 = psi /\ P k = psi' /\
    (forall i, i < k -> exists b b', local src (P i) b (P (S i)) b') /\ pbj_from (agt A ddErr) dd iter n (map (fun i => psiError (P i) (P (S i))) (seq 0 k)) /\
    (k = 0 /\ snd x' = snd x \/ snd x' = w64 (snd x + N.of_nat k)).
  Proof.
    intros H. remember psi as psi0 eqn:E0 in H at 1. revert E0.
    induction H as [iter psi0 psi x L|iter psi0 psi bnd n psi' bnd' L LO B|iter psi0 psi bnd n psi1 bnd1 bnd2 l psi' x' L LO B CO H IH]; intros ->.
    - exists iter, 0, (fun _ => psi). cbn [repeat app seq map]. split; [reflexivity|]. split; [reflexivity|]. split; [reflexivity|]. split; [intros; lia|]. split; [now apply pbj_limit|]. now left.
    - exists iter, 1, (shift psi (fun _ => psi')). split; [reflexivity|]. split; [reflexivity|]. split; [reflexivity|]. split. { intros i Hi. assert (i = 0) as -> by lia. exists bnd, bnd'. exact LO. }
      split; [|now right]. rewrite shift_map. now apply pbj_break.
    - destruct (IH eq_refl) as (m & k & P & -> & P0 & Pk & LL & PB & CN). exists m, (S k), (shift psi P). cbn [repeat app]. split; [reflexivity|]. split; [reflexivity|]. split; [exact Pk|].
      split. { intros [|i] Hi; cbn [shift]; [rewrite P0; eauto|apply LL; lia]. } split. { rewrite shift_map, P0. now apply pbj_next. }
      right. cbn [snd] in *. destruct CN as [(-> & ->)| ->]; [reflexivity|]. rewrite w64_step. f_equal. lia.
  Qed.
  Lemma jacobi_quiet src psi x l psi' x' : jacobiSweepLog A R0 g nG geo sigmaT pr gsum dd ddErr src psi x l psi' x' -> shown l = [] /\ solves l = [].
  Proof.
    intros H. destruct (jacobi_lines _ _ _ _ _ _ _ H) as (n & k & P & -> & _). clear. rewrite shown_app, solves_app. cbn. rewrite !app_nil_r. induction k; [split; reflexivity|exact IHk].
  Qed.
  Lemma outer_quiet src psi b l psi' b' : outerSweepLog A R0 g nG geo sigmaT pr src psi b l psi' b' -> shown l = [] /\ solves l = [].
  Proof. intros (-> & _). now split. Qed.
  Lemma repeat_sweeps k : sweeps (repeat (@LTimers T) k) = k.
  Proof. induction k; cbn; now rewrite ?IHk. Qed.

  Variables (iterMax : N) (errMax : T) (source : GPsi).
  Lemma pbj_local l its n psi : solvePBJLog A R0 g nG geo sigmaT pr pi sigmaS wt gsum dd ddErr iterMax errMax source l its n psi ->
    n = w64 (N.of_nat (sweeps l)) /\ reports (agt A) (aone A) errMax iterMax l its /\ List.length (pbjSweeps l) = N.to_nat its /\ exists l', l = l' ++ [LLocal n].
  Proof.
    intros (l' & bnd & -> & H). pose proof (fixed_reports A pi nA nG wt nC sigmaS gsum _ iterMax errMax source jacobi_quiet _ _ _ _ _ _ H) as ((R1 & R2 & R3) & _).
    rewrite sweeps_app, pbj_app. cbn [sweeps pbjSweeps]. rewrite app_nil_r, Nat.add_0_r. split.
    { pose proof (fixed_track A pi nA nG wt nC sigmaS gsum (jacobiSweepLog A R0 g nG geo sigmaT pr gsum dd ddErr) iterMax errMax source (fun (x : GPsi * N) l => snd x = w64 (N.of_nat (sweeps l)))) as K.
      refine (K _ _ _ _ _ _ _ _ H [] eq_refl).
      - intros x a [|y [|z m]] D L Q; try discriminate. rewrite sweeps_app. destruct y; cbn in *; rewrite ?Nat.add_0_r; auto. destruct D as [D|[D|D]]; [now destruct D|now destruct D|discriminate].
      - intros src psi0 x a m psi1 x1 Q SW. destruct (jacobi_lines _ _ _ _ _ _ _ SW) as (n1 & k & P & -> & _ & _ & _ & _ & C).
        rewrite !sweeps_app, repeat_sweeps. cbn [sweeps]. rewrite Nat.add_0_r, Nat2N.inj_add. destruct C as [(-> & ->)| ->]; [now rewrite N.add_0_r|]. rewrite Q. apply w64_step. }
    split. { unfold reports in *. rewrite shown_app. cbn [shown]. rewrite app_nil_r. tauto. } split; [|eauto].
    replace (N.to_nat its) with (List.length (shown l')) by lia. clear R1 R2 R3.
    destruct H as (m & -> & L). rewrite shown_app, pbj_app. cbn [shown pbjSweeps]. rewrite !app_nil_r.
    induction L as [|i e psi0 x tot phi l1 psi1 x1 l i' psi' x' B total1 SW phi1 error1 L IH]; [reflexivity|].
    rewrite shown_app, pbj_app. destruct (jacobi_quiet _ _ _ _ _ _ SW) as (-> & _). destruct (jacobi_lines _ _ _ _ _ _ _ SW) as (n1 & k & P & -> & _). rewrite pbj_app.
    cbn [app shown pbjSweeps]. assert (E : pbjSweeps (repeat (@LTimers T) k) = []) by (clear; induction k; auto). rewrite E. cbn [app List.length]. now rewrite IH.
  Qed.

  Lemma outer_lines iter psi bnd its l psi' : outerLog A R0 g nG geo sigmaT pr pi sigmaS wt gsum dd ddErr iterMax errMax source iter psi psi bnd its l psi' ->
    exists l' n P k, l = l' ++ [LPbj n; LSourceIts (its ++ solves l)] /\ P 0 = psi /\ P k = psi' /\ List.length (solves l) = k /\
      (forall i, i < k -> exists m b b' its', fixedPointLog (outerSweepLog A R0 g nG geo sigmaT pr) iterMax errMax source (P i) b m its' (P (S i)) b' /\ nth_error (solves l) i = Some its') /\
      relatives l = map (fun i => psiError (P i) (P (S i))) (seq 0 k) /\ pbj_from (agt A ddErr) dd iter n (relatives l).
  Proof.
    intros H. remember psi as psi0 eqn:E0 in H at 1. revert E0.
    assert (NR : forall psi b l its psi' b', fixedPointLog (outerSweepLog A R0 g nG geo sigmaT pr) iterMax errMax source psi b l its psi' b' -> relatives l = []).
    { intros p b l0 i0 p' b' F. refine (fixed_track A pi nA nG wt nC sigmaS gsum _ iterMax errMax source (fun _ l => relatives l = []) _ _ _ _ _ _ _ _ F [] eq_refl).
      - intros x a [|y [|z m]] D L Q; try discriminate. rewrite relatives_app, Q. destruct y; auto. destruct D as [D|[D|D]]; [now destruct D|now destruct D|discriminate].
      - intros s p0 x a m p1 x1 Q OS. destruct OS as (-> & _). rewrite relatives_app, Q. reflexivity. }
    induction H as [iter psi0 psi bnd its L|iter psi0 psi bnd its k l psi' bnd' L F B|iter psi0 psi bnd its k l1 psi1 bnd1 bnd2 l psi' L F B CO H IH]; intros ->.
    - exists [], iter, (fun _ => psi), 0. cbn [app solves relatives List.length seq map]. rewrite app_nil_r. split; [reflexivity|]. split; [reflexivity|]. split; [reflexivity|]. split; [reflexivity|]. split; [intros; lia|]. split; [reflexivity|]. now apply pbj_limit.
    - pose proof (fixed_reports A pi nA nG wt nC sigmaS gsum _ iterMax errMax source outer_quiet _ _ _ _ _ _ F) as (_ & SV).
      exists (l ++ [LRelative (psiError psi psi')]), iter, (shift psi (fun _ => psi')), 1. rewrite solves_app, relatives_app, SV, (NR _ _ _ _ _ _ F). cbn [app solves relatives List.length].
      split; [now rewrite <- app_assoc|]. split; [reflexivity|]. split; [reflexivity|]. split; [reflexivity|]. split. { intros i Hi. assert (i = 0) as -> by lia. cbn [shift]. exists l, bnd, bnd', k. split; [exact F|reflexivity]. }
      split; [reflexivity|]. now apply pbj_break.
    - pose proof (fixed_reports A pi nA nG wt nC sigmaS gsum _ iterMax errMax source outer_quiet _ _ _ _ _ _ F) as (_ & SV). destruct (IH eq_refl) as (l' & n & P & kk & E & P0 & Pk & LS & FP & RE & PB).
      exists (l1 ++ LRelative (psiError psi psi1) :: l'), n, (shift psi P), (S kk). rewrite solves_app, relatives_app, SV, (NR _ _ _ _ _ _ F). cbn [app solves relatives List.length].
      split. { rewrite E at 1. rewrite <- !app_assoc. cbn [app]. reflexivity. } split; [reflexivity|]. split; [exact Pk|]. split; [now rewrite LS|].
      split. { intros [|i] Hi; cbn [shift nth_error]; [rewrite P0; exists l1, bnd, bnd1, k; split; [exact F|reflexivity]|apply FP; lia]. }
      split. { rewrite shift_map, P0. now f_equal. } now apply pbj_next.
  Qed.

  Notation flux psi := (gPsiToPhi A nA nG wt nC psi).
  Notation change phi phi0 := (relError A nG nC gsum phi phi0).
  Lemma si_lines iter phi0 psi bnd tot l psi' : siLog A R0 g nG geo sigmaT pr pi sigmaS wt gsum dd ddErr source iter phi0 psi bnd tot l psi' ->
    exists l' n P k, l = l' ++ [LPbj n; LSourceIts []] /\ sweeps l = k /\ (k = 0 -> psi' = psi) /\ P 0 = phi0 /\ (0 < k -> P k = flux psi') /\
      relatives l = map (fun i => change (P (S i)) (P i)) (seq 0 k) /\ pbj_from (agt A ddErr) dd iter n (relatives l).
  Proof.
    induction 1 as [iter phi0 psi bnd tot L|iter phi0 psi bnd tot psi' bnd1 bnd2 L LO CO B|iter phi0 psi bnd tot psi1 bnd1 bnd2 l psi' L LO CO B H IH].
    - exists [], iter, (fun _ => phi0), 0. cbn [app sweeps relatives seq map]. split; [reflexivity|]. split; [reflexivity|]. split; [reflexivity|]. split; [reflexivity|]. split; [intros; lia|]. split; [reflexivity|]. now apply pbj_limit.
    - exists [LTimers; LRelative (change (flux psi') phi0)], iter, (shift phi0 (fun _ => flux psi')), 1. cbn [app sweeps relatives]. split; [reflexivity|]. split; [reflexivity|]. split; [discriminate|]. split; [reflexivity|]. split; [reflexivity|]. split; [reflexivity|]. now apply pbj_break.
    - destruct IH as (l' & n & P & k & E & SW & NO & P0 & Pk & RE & PB). exists (LTimers :: LRelative (change (flux psi1) phi0) :: l'), n, (shift phi0 P), (S k). cbn [app sweeps relatives].
      split; [now rewrite E at 1|]. split; [now rewrite SW|]. split; [discriminate|]. split; [reflexivity|]. split. { intros _. cbn [shift]. destruct k; [now rewrite P0, NO|apply Pk; lia]. }
      split. { rewrite (shift_map phi0 P (fun a b => change b a)), P0. now f_equal. } now apply pbj_next.
  Qed.

  (** With and without lines. *)
  Lemma swept_app a b : swept (a ++ b) = swept a + swept b.
  Proof. induction a as [|x a IH]; [reflexivity|]. destruct x; cbn; now rewrite ?IH. Qed.
  Lemma jacobi_erase src i p0 p x l p' x' : jacobiLog src i p0 p x l p' x' -> exists ops, jacobiLoop src i p0 p (fst x) ops p' (fst x') /\ swept ops = sweeps l.
  Proof.
    induction 1 as [iter psi0 psi x L|iter psi0 psi bnd n psi' bnd' L LO B|iter psi0 psi bnd n psi1 bnd1 bnd2 l psi' x' L LO B CO H (ops & IH & E)].
    - eexists. split; [now apply ja_limit|reflexivity].
    - eexists. split; [now apply ja_break|reflexivity].
    - eexists. split; [eapply ja_next; eauto|]. cbn. now rewrite E.
  Qed.
  Lemma jacobi_log src i p0 p b ops p' b' : jacobiLoop src i p0 p b ops p' b' -> forall n, exists l n', jacobiLog src i p0 p (b, n) l p' (b', n') /\ swept ops = sweeps l.
  Proof.
    induction 1 as [iter psi0 psi bnd L|iter psi0 psi bnd psi' bnd' L LO B|iter psi0 psi bnd psi1 bnd1 bnd2 ops psi' bnd' L LO B CO H IH]; intros n.
    - do 2 eexists. split; [now apply jl_limit|reflexivity].
    - do 2 eexists. split; [now apply jl_break|reflexivity].
    - destruct (IH (w64 (n + 1))) as (l & n' & K & E). do 2 eexists. split; [eapply jl_next; eauto|]. cbn. now rewrite E.
  Qed.
  Notation fixedA sw := (fixedA A R0 nG pi sigmaS wt gsum sw iterMax errMax source).
  Lemma fixed_erase {X} (sl : GPsi -> GPsi -> X -> list (line T) -> GPsi -> X -> Prop) so (f : X -> GPsi) :
    (forall s p x l p' x', sl s p x l p' x' -> exists ops, so s p (f x) ops p' (f x') /\ swept ops = sweeps l) ->
    forall p x l its p' x', fixedPointLog sl iterMax errMax source p x l its p' x' -> exists ops, fixedA so p (f x) ops p' (f x') /\ swept ops = sweeps l.
  Proof.
    intros K p x l its p' x' (l' & -> & L). rewrite sweeps_app. cbn [sweeps]. rewrite Nat.add_0_r.
    match type of L with fixedLog _ _ _ _ ?i ?e ?ps ?y ?t ?ph _ _ _ _ => enough (exists ops, fixedLoop A R0 nG pi sigmaS wt gsum so iterMax errMax source i e ps (f y) t ph ops p' (f x') /\ swept ops = sweeps l') as (ops & F & E) by (exists (OFlux :: ops); split; [exists ops; now split|exact E]) end.
    induction L as [|i e psi x tot phi l1 psi1 x1 l i' psi' x' B total1 SW phi1 error1 L (ops & IH & E)]; [eexists; split; [now apply fl_end|reflexivity]|].
    destruct (K _ _ _ _ _ _ SW) as (o1 & S1 & E1). eexists. split; [eapply fl_next; eauto|]. rewrite swept_app, sweeps_app. cbn. now rewrite E, E1.
  Qed.
  Lemma fixed_log {X} (sl : GPsi -> GPsi -> X -> list (line T) -> GPsi -> X -> Prop) (so : GPsi -> GPsi -> GPsi -> list op -> GPsi -> GPsi -> Prop) (f : X -> GPsi) :
    (forall s p x ops p' b', so s p (f x) ops p' b' -> exists l x', f x' = b' /\ sl s p x l p' x' /\ swept ops = sweeps l) ->
    forall p x ops p' b', fixedA so p (f x) ops p' b' -> exists l its x', f x' = b' /\ fixedPointLog sl iterMax errMax source p x l its p' x' /\ swept ops = sweeps l.
  Proof.
    intros K p x ops p' b' (ops' & -> & L).
    match type of L with fixedLoop _ _ _ _ _ _ _ _ _ _ _ ?i ?e ?ps _ ?t ?ph _ _ _ => enough (exists l its x', f x' = b' /\ fixedLog sl iterMax errMax source i e ps x t ph l its p' x' /\ swept ops' = sweeps l) as (l & its & x' & F & H & E) end.
    { exists (l ++ [LSourceTime; LAverage its]), its, x'. split; [exact F|]. split; [exists l; now split|]. rewrite sweeps_app. cbn. now rewrite Nat.add_0_r. }
    remember (f x) as b eqn:Eb. revert x Eb. induction L as [|i e psi b tot phi o1 psi1 b1 ops psi' b' B total1 SW phi1 L IH]; intros x ->; [exists [], iter, x; split; [reflexivity|]; split; [now apply fg_end|reflexivity]|].
    destruct (K _ _ _ _ _ _ SW) as (l1 & x1 & <- & S1 & E1). destruct (IH x1 eq_refl) as (l & its & x' & F & H & E). do 3 eexists. split; [exact F|]. split; [eapply fg_next; eauto|]. rewrite swept_app, sweeps_app. cbn. now rewrite E, E1.
  Qed.
  Notation outerLog := (outerLog A R0 g nG geo sigmaT pr pi sigmaS wt gsum dd ddErr iterMax errMax source).
  Notation outerLoopA := (outerLoopA A R0 g nG geo sigmaT pr pi sigmaS wt gsum dd ddErr iterMax errMax source).
  Lemma outer_sweep_erase s p x l p' x' : outerSweepLog A R0 g nG geo sigmaT pr s p x l p' x' -> exists ops, outerSweep A R0 g nG geo sigmaT pr s p x ops p' x' /\ swept ops = sweeps l.
  Proof. intros (-> & L). exists [OSweep]. split; [now split|reflexivity]. Qed.
  Lemma outer_sweep_log s p x ops p' b' : outerSweep A R0 g nG geo sigmaT pr s p x ops p' b' -> exists l x', x' = b' /\ outerSweepLog A R0 g nG geo sigmaT pr s p x l p' x' /\ swept ops = sweeps l.
  Proof. intros (-> & L). exists [LTimers], b'. split; [reflexivity|]. split; [now split|reflexivity]. Qed.
  Lemma outer_erase i p0 p b its l p' : outerLog i p0 p b its l p' -> exists ops, outerLoopA i p0 p b ops p' /\ swept ops = sweeps l.
  Proof.
    induction 1 as [iter psi0 psi bnd its L|iter psi0 psi bnd its k l psi' bnd' L F B|iter psi0 psi bnd its k l1 psi1 bnd1 bnd2 l psi' L F B CO H (ops & IH & E)].
    - eexists. split; [now apply oa_limit|reflexivity].
    - destruct (fixed_erase _ _ (fun b => b) outer_sweep_erase _ _ _ _ _ _ F) as (o & FA & E). eexists. split; [eapply oa_break; eauto|]. rewrite sweeps_app. cbn. now rewrite Nat.add_0_r.
    - destruct (fixed_erase _ _ (fun b => b) outer_sweep_erase _ _ _ _ _ _ F) as (o & FA & E1). eexists. split; [eapply oa_next; eauto|]. rewrite swept_app, sweeps_app. cbn. now rewrite E, E1.
  Qed.
  Lemma outer_log i p0 p b ops p' : outerLoopA i p0 p b ops p' -> forall its, exists l, outerLog i p0 p b its l p' /\ swept ops = sweeps l.
  Proof.
    induction 1 as [iter psi0 psi bnd L|iter psi0 psi bnd ops psi' bnd' L F B|iter psi0 psi bnd o1 psi1 bnd1 bnd2 ops psi' L F B CO H IH]; intros its.
    - eexists. split; [now apply ol_limit|reflexivity].
    - destruct (fixed_log _ _ (fun b => b) outer_sweep_log _ _ _ _ _ F) as (l & k & x & <- & FL & E). eexists. split; [eapply ol_break; eauto|]. rewrite sweeps_app. cbn. now rewrite Nat.add_0_r.
    - destruct (fixed_log _ _ (fun b => b) outer_sweep_log _ _ _ _ _ F) as (l1 & k & x & <- & FL & E1). destruct (IH (its ++ [k])) as (l & H1 & E). eexists. split; [eapply ol_next; eauto|]. rewrite swept_app, sweeps_app. cbn. now rewrite E, E1.
  Qed.
  Notation siLog := (siLog A R0 g nG geo sigmaT pr pi sigmaS wt gsum dd ddErr source).
  Notation siLoopA := (siLoopA A R0 g nG geo sigmaT pr pi sigmaS wt gsum dd ddErr source).
  Lemma si_erase i phi p b t l p' : siLog i phi p b t l p' -> exists ops, siLoopA i phi p b t ops p' /\ swept ops = sweeps l.
  Proof.
    induction 1 as [iter phi0 psi bnd tot L|iter phi0 psi bnd tot psi' bnd1 bnd2 L LO CO B|iter phi0 psi bnd tot psi1 bnd1 bnd2 l psi' L LO CO B H (ops & IH & E)].
    - eexists. split; [now apply sa_limit|reflexivity].
    - eexists. split; [eapply sa_break; eauto|reflexivity].
    - eexists. split; [eapply sa_next; eauto|]. cbn. now rewrite E.
  Qed.
  Lemma si_log i phi p b t ops p' : siLoopA i phi p b t ops p' -> exists l, siLog i phi p b t l p' /\ swept ops = sweeps l.
  Proof.
    induction 1 as [iter phi0 psi bnd tot L|iter phi0 psi bnd tot psi' bnd1 bnd2 L LO CO B|iter phi0 psi bnd tot psi1 bnd1 bnd2 ops psi' L LO CO B H (l & IH & E)].
    - eexists. split; [now apply sl_limit|reflexivity].
    - eexists. split; [eapply sl_break; eauto|reflexivity].
    - eexists. split; [eapply sl_next; eauto|]. cbn. now rewrite E.
  Qed.
End Jacobi.
Lemma same_entries {X} (l l' : list X) : (forall k, nth_error l k = nth_error l' k) -> l = l'.
Proof.
  revert l'. induction l as [|x l IH]; intros [|y l'] H; [reflexivity|specialize (H 0); discriminate|specialize (H 0); discriminate|].
  pose proof (H 0) as H0. cbn in H0. apply Some_inj in H0. subst. f_equal. apply IH. intros k. exact (H (S k)).
Qed.
