(** Properties of the parallel traversal: C28-C32, C56. *)
From Coq Require Import Permutation.
From Verif Require TychoProofs.
From Verif Require Import Prelude Bytes MeshModel AngleModel AngleProofs TraverseModel TraverseSpec TraverseInv TraverseProofs TraverseSafe TraverseLock TraverseLive TraverseTerm TraverseRun TraverseThreads TraverseCases.

Lemma log_step {V D} dir doComm mpi nAngles nThreads maxCompute psize M (T : tdata V D) r S l S' : step dir doComm mpi nAngles nThreads maxCompute psize M T r S l S' ->
  g_log (g_r S' r) = g_log (g_r S r) \/
  exists t steps c a p rest1 rest2, S' = setR S r (compute dir doComm M T r t (g_r S r) steps c a (rest1 ++ rest2)) /\
    r_ph (g_r S r) = Work steps /\ t < nThreads /\ steps t < maxCompute /\ r_queue (g_r S r) t = rest1 ++ (c, a, p) :: rest2.
Proof.
  assert (SR : forall st', g_r (setR S r st') r = st') by (intros st'; now rewrite g_setR, Nat.eqb_refl).
  assert (FR : forall st', fupd (g_r S) r st' r = st') by (intros st'; apply fupd_same).
  assert (EE : forall pk, g_log (endExchange doComm mpi nAngles nThreads M T r (g_r S r) pk) = g_log (g_r S r)).
  { intros pk. unfold endExchange. destruct (fold_left _ _ _) as [[[nd q] bnd]|]; reflexivity. }
  intros H. destruct H; [right; exists t, steps, c, a, p, rest1, rest2; auto|left..]; try (rewrite SR; reflexivity).
  - rewrite SR. unfold endWork. destruct doComm; [|reflexivity]. destruct mpi; reflexivity.
  - clearbody data. destruct (data && _); [now rewrite SR|]. cbn [g_r]. now rewrite FR.
  - cbn [g_r]. now rewrite FR.
  - destruct (N.eqb _ _); [|now rewrite SR]. cbn [g_r]. now rewrite FR.
  - rewrite SR. destruct kill; [reflexivity|apply EE].
  - cbn [g_r]. now rewrite FR.
  - cbn [g_r]. now rewrite FR.
  - rewrite SR. apply EE.
Qed.

Lemma other_step {V D} dir doComm mpi nAngles nThreads maxCompute psize M (T : tdata V D) r S l S' : step dir doComm mpi nAngles nThreads maxCompute psize M T r S l S' ->
  forall x, x <> r -> g_r S' x = g_r S x.
Proof.
  intros H x N.
  assert (SO : forall st', g_r (setR S r st') x = g_r S x). { intros st'. rewrite g_setR. destruct (Nat.eqb_spec x r); [congruence|auto]. }
  assert (FO : forall st', fupd (g_r S) r st' x = g_r S x). { intros st'. now apply fupd_other. }
  destruct H; try apply SO; try (cbn [g_r]; apply FO).
  - clearbody data. destruct (data && _); [apply SO|cbn [g_r]; apply FO].
  - destruct (N.eqb _ _); [cbn [g_r]; apply FO|apply SO].
Qed.

Section Facts.
  Context {V D : Type}.
  Variables (R : run V D) (val0 : nat -> nat -> nat -> V) (bnd0 : nat -> nat -> nat -> D).
  Hypothesis G : good_run R.
  Notation RInv := (CInv (u_dir R) (u_comm R) (u_mpi R) (u_ranks R) (u_angles R) (u_threads R) (u_psize R) (u_mesh R) (u_data R) (u_mate R) val0 bnd0).
  Lemma run_inv S0 S : starts R val0 bnd0 S0 -> reaches R S0 S -> RInv S.
  Proof. destruct G as (G1 & G2 & G3 & G4). intros I H. exact (reach_ok _ _ _ _ _ _ _ _ _ _ _ _ _ G1 G2 G3 G4 S0 S I H). Qed.
  Lemma end_left S r : RInv S -> ends R S -> r < u_ranks R -> r_left (g_r S r) = 0%N.
  Proof.
    intros C F Hr. pose proof (l_ph _ _ _ _ _ _ _ _ _ (c_loc _ _ _ _ _ _ _ _ _ _ _ _ S C r Hr)) as P6. unfold phOK in P6. now rewrite (F r Hr) in P6.
  Qed.
  Lemma end_solution S : RInv S -> ends R S ->
    solution (u_dir R) (u_comm R) (u_ranks R) (u_angles R) (u_mesh R) (u_data R) (u_mate R) bnd0 (fun r => r_val (g_r S r)).
  Proof.
    intros C F. pose proof G as (G1 & G2 & G3 & G4). destruct (c_inv _ _ _ _ _ _ _ _ _ _ _ _ S C) as (sat & em & IV & _).
    assert (SO : solution (u_dir R) (u_comm R) (u_ranks R) (u_angles R) (u_mesh R) (u_data R) (u_mate R) bnd0 (fun r => if r <? u_ranks R then r_val (g_r S r) else val0 r)).
    { apply (final_solution _ _ _ _ _ _ _ _ _ _ IV). intros r c a (Hr & Hc & Ha). cbn [viewS w_dn]. unfold dnS. pose proof Hr as HrB. apply Nat.ltb_lt in HrB. rewrite HrB. cbn [andb]. apply inlog_In.
      exact (left0_all _ _ _ _ _ _ _ _ val0 bnd0 G2 G3 G4 r _ (c_loc _ _ _ _ _ _ _ _ _ _ _ _ S C r Hr) (end_left S r C F Hr) c a Hc Ha). }
    intros r c a Hv. pose proof Hv as (Hr & Hc & Ha). specialize (SO r c a Hv). cbv beta in SO. pose proof Hr as HrB. apply Nat.ltb_lt in HrB. rewrite HrB in SO. rewrite SO. f_equal. apply map_ext_in. intros f Hf. apply in_seq in Hf.
    unfold seen. destruct (isIncoming _ _ _ _ _); auto. destruct (u_mate R (r, c, f)) as [[[q c'] f']|] eqn:Em; auto.
    destruct (mate_back _ _ _ _ _ G1 _ _ _ _ _ _ Em) as (Hq & _). apply Nat.ltb_lt in Hq. now rewrite HrB, Hq.
  Qed.
End Facts.

(** C28: at no time has a pair been updated twice or has anything else been updated, and at the end
    every (cell, angle) has been updated exactly once. *)
Theorem C28_once : forall V D (R : run V D) val0 bnd0 S0 S, good_run R -> starts R val0 bnd0 S0 -> reaches R S0 S ->
  forall r, r < u_ranks R ->
    NoDup (g_log (g_r S r)) /\ incl (g_log (g_r S r)) (pairs R r) /\
    (ends R S -> Permutation (g_log (g_r S r)) (pairs R r)).
Proof.
  intros V D R val0 bnd0 S0 S G I H r Hr. pose proof (run_inv R val0 bnd0 G S0 S I H) as C. pose proof G as (G1 & G2 & G3 & G4).
  pose proof (c_loc _ _ _ _ _ _ _ _ _ _ _ _ S C r Hr) as LO. pose proof LO as [L1 L2 _ _ _ _].
  assert (IN : incl (g_log (g_r S r)) (pairs R r)) by (intros [c a] K; apply L2 in K; apply in_prod_iff; split; apply in_seq; lia).
  split; auto. split; auto. intros F. apply NoDup_Permutation; auto; [apply TychoProofs.NoDup_list_prod; apply seq_NoDup|].
  intros [c a]. split; [apply IN|]. intros K. apply in_prod_iff in K. destruct K as (K1 & K2). apply in_seq in K1, K2.
  apply (left0_all _ _ _ _ _ _ _ _ val0 bnd0 G2 G3 G4 r _ LO (end_left R val0 bnd0 S r C F Hr) c a); lia.
Qed.
(** C28: nothing is ever written outside the pairs that have been updated; no assertion fails. *)
Theorem C28_frame : forall V D (R : run V D) val0 bnd0 S0 S, good_run R -> starts R val0 bnd0 S0 -> reaches R S0 S ->
  forall r, r < u_ranks R -> r_ph (g_r S r) <> Failed /\ forall c a, ~ In (c, a) (g_log (g_r S r)) -> r_val (g_r S r) c a = val0 r c a.
Proof.
  intros V D R val0 bnd0 S0 S G I H r Hr. pose proof (run_inv R val0 bnd0 G S0 S I H) as C. split.
  - pose proof (l_ph _ _ _ _ _ _ _ _ _ (c_loc _ _ _ _ _ _ _ _ _ _ _ _ S C r Hr)) as P6. unfold phOK in P6. intros E. now rewrite E in P6.
  - intros c a NI. destruct (c_inv _ _ _ _ _ _ _ _ _ _ _ _ S C) as (sat & em & IV & _). pose proof (i_val0 _ _ _ _ _ _ _ _ _ _ IV r c a) as K. cbn [viewS w_val w_dn] in K. unfold dnS in K.
    pose proof Hr as HrB. apply Nat.ltb_lt in HrB. rewrite HrB in K. cbn [andb] in K. apply K. destruct (inlog c a (g_log (g_r S r))) eqn:E; auto. apply inlog_In in E. easy.
Qed.

(** C29: whenever a pair is updated, all pairs it depends on have been updated before, the data of remote
    ones is stored on this rank, and the new value is the update of exactly their values. *)
Theorem C29_after_upwind : forall V D (R : run V D) val0 bnd0 S0 S r l S', good_run R -> starts R val0 bnd0 S0 -> reaches R S0 S ->
  rstep R r S l S' -> g_log (g_r S' r) <> g_log (g_r S r) ->
  exists c a, g_log (g_r S' r) = (c, a) :: g_log (g_r S r) /\
    (forall f q c' f', f < 4 -> isIncoming (u_dir R) (u_mesh R r) a c f = true -> u_mate R (r, c, f) = Some (q, c', f') -> u_comm R = true \/ q = r ->
       In (c', a) (g_log (g_r S q)) /\
       (q <> r -> r_bnd (g_r S r) (rm_side (u_mesh R r) c f) a = td_getData (u_data R) q c' f' a (r_val (g_r S q) c' a))) /\
    r_val (g_r S' r) c a = td_update (u_data R) r c a (map (seen (u_dir R) (u_comm R) (u_mesh R) (u_data R) (u_mate R) (fun q => r_val (g_r S q)) bnd0 r c a) (seq 0 4)).
Proof.
  intros V D R val0 bnd0 S0 S r l S' G I H (Hr & ST) NL. pose proof (run_inv R val0 bnd0 G S0 S I H) as C. pose proof G as (G1 & G2 & G3 & G4).
  pose proof Hr as HrB. apply Nat.ltb_lt in HrB.
  destruct (log_step _ _ _ _ _ _ _ _ _ r S l S' ST) as [E|(t & steps & c & a & p & rest1 & rest2 & -> & H0 & H1 & _ & H3)]; [easy|].
  destruct (step_work_ok _ _ _ _ _ _ _ _ _ _ val0 bnd0 G1 G2 G3 G4 S r t steps c a p rest1 rest2 C Hr H0 H1 H3) as (_ & NI & Hc & Ha & NF).
  assert (EC : g_r (setR S r (compute (u_dir R) (u_comm R) (u_mesh R) (u_data R) r t (g_r S r) steps c a (rest1 ++ rest2))) r = compute (u_dir R) (u_comm R) (u_mesh R) (u_data R) r t (g_r S r) steps c a (rest1 ++ rest2)) by (now rewrite g_setR, Nat.eqb_refl).
  rewrite EC in *. clear EC NL.
  destruct (c_inv _ _ _ _ _ _ _ _ _ _ _ _ S C) as (sat & em & IV & _). set (w := viewS (u_ranks R) (u_threads R) val0 bnd0 S sat em) in *.
  assert (RD : In (c, a) (w_ready w r)). { cbn [w viewS w_ready]. unfold qflat. apply in_flat_map. exists t. split; [apply in_seq; lia|]. rewrite H3, map_app. apply in_or_app. right. now left. }
  exists c, a. split; [|split].
  - unfold compute in *. destruct (fold_left _ _ _) as [[[nd q] buf]|]; [reflexivity|now destruct NF].
  - intros f q c' f' Hf Hi Hm K. pose proof (mate_dep _ _ _ _ _ _ G1 r c f q c' f' a Hm Hi K) as DP.
    assert (ND : w_nd w r a c = 0%N) by (apply (i_ready _ _ _ _ _ _ _ _ _ _ IV r c a Hr); auto). rewrite (i_nd _ _ _ _ _ _ _ _ _ _ IV) in ND by (split; auto).
    assert (SA : w_sat w r c f a = true).
    { destruct (w_sat w r c f a) eqn:E; auto. exfalso. unfold cnt in ND.
      assert (HF : In f (filter (fun f => isDep (u_dir R) (u_comm R) (u_mesh R) r a c f && negb (w_sat w r c f a)) (seq 0 4))) by (apply filter_In; split; [apply in_seq; lia|now rewrite DP, E]).
      destruct (filter _ _); [destruct HF|]. cbn [length] in ND. lia. }
    destruct (sat_done _ _ _ _ _ _ _ _ _ G1 w r c f a q c' f' IV Hr Hc Ha Hf DP SA Hm) as (DN & _). cbn [w viewS w_dn] in DN. unfold dnS in DN. apply andb_prop in DN. destruct DN as (QB & DN). apply inlog_In in DN. split; auto.
    intros NQ. assert (CT : u_comm R = true) by (destruct K; congruence). pose proof (sf_sym _ _ _ _ _ G1 _ _ Hm) as Hb.
    pose proof (i_bnd _ _ _ _ _ _ _ _ _ _ IV q c' f' r c f a Ha CT Hb ltac:(congruence) DP SA) as BE. cbn [w viewS w_bnd w_val] in BE. now rewrite HrB, QB in BE.
  - assert (EV : r_val (compute (u_dir R) (u_comm R) (u_mesh R) (u_data R) r t (g_r S r) steps c a (rest1 ++ rest2)) c a =
        td_update (u_data R) r c a (map (readFace (u_dir R) (u_mesh R) (u_data R) r (r_val (g_r S r)) (r_bnd (g_r S r)) c a) (seq 0 4))).
    { unfold compute in *. destruct (fold_left _ _ _) as [[[nd q] buf]|]; [|now destruct NF]. cbn [r_val]. unfold fupd2. now rewrite !Nat.eqb_refl. }
    rewrite EV. f_equal. apply map_ext_in. intros f Hf. apply in_seq in Hf.
    pose proof (read_seen _ _ _ _ _ _ _ _ _ G1 w r c a f IV RD Hr ltac:(lia)) as RS. cbn [w viewS w_val w_bnd] in RS. rewrite HrB in RS. rewrite RS.
    unfold seen. destruct (isIncoming _ _ _ _ _); auto. destruct (u_mate R (r, c, f)) as [[[q c'] f']|] eqn:Em; auto.
    destruct (mate_back _ _ _ _ _ G1 _ _ _ _ _ _ Em) as (Hq & _). apply Nat.ltb_lt in Hq. now rewrite HrB, Hq.
Qed.

(** ** C30: the traversal ends *)
Section Ends.
  Context {V D : Type}.
  Variables (R : run V D) (val0 : nat -> nat -> nat -> V) (bnd0 : nat -> nat -> nat -> D).
  Hypothesis G : good_run R.
  (** The two ways the program uses the traversal: sweeps with the size-then-data exchange, and priorities without communication. *)
  Definition exchanges : Prop := u_comm R = false \/ (u_comm R = true /\ u_mpi R = TychoTwoSided).
  Definition rnext (S' S : gst V D) : Prop := exists r l, rstep R r S l S'.
  Lemma run_acc S0 S : exchanges -> u_max R > 0 -> racyclic R -> starts R val0 bnd0 S0 -> reaches R S0 S -> Acc rnext S.
  Proof.
    destruct G as (G1 & G2 & G3 & G4). unfold starts, reaches, racyclic. intros [EC|(EC & EM)] MC AC I H; rewrite ?EC, ?EM in *.
    - pose proof (serial_terminates _ _ _ _ _ _ _ _ _ _ _ _ G1 G2 G3 G4 MC AC S0 S I H) as A. clear - A EC. induction A as [S _ IH]. constructor. intros S' (r & l & Hr & ST). apply IH. exists r, l. split; auto. now rewrite EC in ST.
    - pose proof (terminates _ _ _ _ _ _ _ _ _ _ _ G1 G2 G3 G4 MC S0 S AC I H) as A. clear - A EC EM. induction A as [S _ IH]. constructor. intros S' (r & l & Hr & ST). apply IH. exists r, l. split; auto. now rewrite EC, EM in ST.
  Qed.
  Lemma run_live S0 S : exchanges -> starts R val0 bnd0 S0 -> reaches R S0 S -> ends R S \/ exists r l S', rstep R r S l S' /\ l <> LEager.
  Proof.
    intros E I H. pose proof (run_inv R val0 bnd0 G S0 S I H) as C. pose proof G as (G1 & G2 & G3 & G4). destruct (finished_dec (u_ranks R) S) as [F|F]; [left; exact F|right].
    unfold starts, reaches in *. unfold rstep. destruct E as [EC|(EC & EM)]; rewrite ?EC, ?EM in *.
    - destruct (Forall_Exists_dec (fun r => r_ph (g_r S r) = Done)) with (l := seq 0 (u_ranks R)) as [K|K].
      + intros r. destruct (r_ph (g_r S r)); ((left; reflexivity) || (right; discriminate)).
      + exfalso. apply F. intros r Hr. rewrite Forall_forall in K. apply K. apply in_seq. lia.
      + apply Exists_exists in K. destruct K as (r & Hr & K). apply in_seq in Hr. destruct (u_max R) as [|m] eqn:EX.
        * (* no step allowed: the loop goes round *)
          assert (Hr' : r < u_ranks R) by lia. assert (PH : (exists steps, r_ph (g_r S r) = Work steps) \/ r_ph (g_r S r) = Done) by (eapply serial_phase; eauto). destruct PH as [(steps & Ph)|]; [|easy].
          exists r, LComm. eexists. split; [split; [lia|]|discriminate]. eapply step_end; eauto. intros; lia.
        * destruct (serial_enabled (u_dir R) (u_mpi R) (u_ranks R) (u_angles R) (u_threads R) (Datatypes.S m) (u_psize R) (u_mesh R) (u_data R) (u_mate R) val0 bnd0 G2 G3 G4 ltac:(lia) S r C ltac:(lia) K) as (l & S' & ST & NE).
          exists r, l, S'. split; auto. split; [lia|auto].
    - destruct (lock_reach (u_dir R) (u_ranks R) (u_angles R) (u_threads R) (u_max R) (u_psize R) (u_mesh R) (u_data R) (u_mate R) val0 bnd0 G1 G2 G3 G4 S0 S I H) as (_ & L).
      assert (CH : ChInv (u_mesh R) S).
      { clear - I H G1 G2 G3 G4. induction H as [|S r l S' H CH Hr ST]; [eapply ch_initial; eauto|].
        pose proof (reach_ok _ _ _ _ _ _ _ _ _ _ _ _ _ G1 G2 G3 G4 S0 S I H) as C. exact (ch_step _ _ _ _ _ _ _ _ _ _ _ S r l S' C CH Hr ST). }
      destruct (no_deadlock _ _ _ _ (u_max R) _ _ _ _ _ _ G1 G2 G3 G4 S C L CH F) as (r & Hr & l & S' & ST & NE). exists r, l, S'. auto.
  Qed.
End Ends.

(** C30: no run goes on for ever. *)
Theorem C30_no_infinite_run : forall V D (R : run V D) val0 bnd0, good_run R -> exchanges R -> u_max R > 0 -> racyclic R ->
  ~ exists h : nat -> gst V D, starts R val0 bnd0 (h 0) /\ forall i, exists r l, rstep R r (h i) l (h (S i)).
Proof.
  intros V D R val0 bnd0 G E MC AC (h & I & ST).
  assert (H : forall i, reaches R (h 0) (h i)).
  { induction i; [constructor|]. destruct (ST i) as (r & l & Hr & K). eapply reach_step; eauto. }
  pose proof (run_acc R val0 bnd0 G (h 0) (h 0) E MC AC I (H 0)) as A.
  assert (K : forall x, Acc (rnext R) x -> forall i, x <> h i).
  { intros x AX. induction AX as [x _ IH]. intros i ->. apply (IH (h (S i))) with (i := S i); auto. destruct (ST i) as (r & l & K). exists r, l. exact K. }
  exact (K _ A 0 eq_refl).
Qed.
(** C30: a run that cannot be continued has ended, whatever the graph, and even if the MPI library
    completes no send before its message is received. *)
Theorem C30_not_stuck : forall V D (R : run V D) val0 bnd0 S0 S, good_run R -> exchanges R -> starts R val0 bnd0 S0 -> reaches R S0 S ->
  ends R S \/ exists r l S', rstep R r S l S' /\ l <> LEager.
Proof. intros V D R val0 bnd0 S0 S G E I H. exact (run_live R val0 bnd0 G S0 S E I H). Qed.
(** C30: every run can start and can be brought to its end. *)
Theorem C30_finishes : forall V D (R : run V D) val0 bnd0, good_run R -> exchanges R -> u_max R > 0 -> racyclic R ->
  (exists S0, starts R val0 bnd0 S0) /\
  forall S0 S, starts R val0 bnd0 S0 -> reaches R S0 S -> exists S', reaches R S S' /\ reaches R S0 S' /\ ends R S'.
Proof.
  intros V D R val0 bnd0 G E MC AC. split.
  - destruct G as (G1 & G2 & G3 & G4). unfold starts. eapply initial_total; eauto.
  - intros S0 S I H. pose proof (run_acc R val0 bnd0 G S0 S E MC AC I H) as A. induction A as [S _ IH].
    destruct (run_live R val0 bnd0 G S0 S E I H) as [F|(r & l & S' & ST & NE)].
    + exists S. split; [constructor|]. auto.
    + destruct (IH S') as (S'' & K1 & K2 & K3); [exists r, l; auto|destruct ST; eapply reach_step; eauto|]. exists S''. split; auto.
      clear - ST K1. destruct ST as (Hr & ST). assert (reaches R S S') by (eapply reach_step; [constructor|eauto|eauto]).
      clear ST. induction K1; auto. eapply reach_step; eauto.
Qed.
(** C30: the limit of steps between exchanges must not be 0: with 0 nothing is ever updated. *)
Theorem C30_zero_steps_refuted : forall V D (R : run V D) val0 bnd0 S0 S, good_run R -> u_max R = 0 -> starts R val0 bnd0 S0 -> reaches R S0 S ->
  (exists r, r < u_ranks R /\ pairs R r <> []) -> ~ ends R S.
Proof.
  intros V D R val0 bnd0 S0 S G E I H (r & Hr & NP) F. destruct (C28_once V D R val0 bnd0 S0 S G I H r Hr) as (_ & _ & P). specialize (P F).
  assert (EL : g_log (g_r S r) = []).
  { clear P F. induction H as [|S x l S' H IH Hx ST].
    - destruct I as (I & _). specialize (I r Hr). unfold initRank in I. destruct (initQueue _ _ _ _ _ _ r); [|discriminate]. cbn [obind] in I. apply Some_inj in I. now rewrite <- I.
    - destruct (Nat.eq_dec r x) as [<-|N].
      + destruct (log_step _ _ _ _ _ _ _ _ _ r S l S' ST) as [K|(t & s & c & a & p & r1 & r2 & _ & _ & _ & K & _)]; [congruence|lia].
      + rewrite (other_step _ _ _ _ _ _ _ _ _ x S l S' ST r N). auto. }
  rewrite EL in P. apply Permutation_nil in P. easy.
Qed.

(** ** C31: the result does not depend on parallelism *)
(** At the end the values are the only solution of the upwind recursion. *)
Theorem C31_unique : forall V D (R : run V D) val0 bnd0 S0 S val, good_run R -> racyclic R -> starts R val0 bnd0 S0 -> reaches R S0 S -> ends R S ->
  let sol := solution (u_dir R) (u_comm R) (u_ranks R) (u_angles R) (u_mesh R) (u_data R) (u_mate R) bnd0 in
  sol (fun r => r_val (g_r S r)) /\
  (sol val -> forall r c a, valid (u_ranks R) (u_angles R) (u_mesh R) r c a -> r_val (g_r S r) c a = val r c a).
Proof.
  intros V D R val0 bnd0 S0 S val G AC I H F sol. pose proof (run_inv R val0 bnd0 G S0 S I H) as C. pose proof (end_solution R val0 bnd0 G S C F) as E. split; [exact E|].
  intros SV r c a Hv. destruct G as (G1 & _). exact (solution_unique _ _ _ _ _ _ _ G1 bnd0 _ val AC E SV r c a Hv).
Qed.
(** Two runs of the same problem, on any partitions, numbers of threads, priorities, steps between
    exchanges, kinds of exchange and timings, give every cell the same value. *)
Theorem C31_partition_independent : forall V D (P : problem V D) (R1 R2 : run V D) gid1 gid2 val1 bnd1 val2 bnd2 S01 S02 S1 S2,
  good_run R1 -> good_run R2 -> u_comm R1 = true -> u_comm R2 = true -> u_dir R1 = u_dir R2 -> u_angles R1 = u_angles R2 ->
  partition_of P R1 gid1 -> partition_of P R2 gid2 -> racyclic R1 ->
  starts R1 val1 bnd1 S01 -> reaches R1 S01 S1 -> ends R1 S1 -> starts R2 val2 bnd2 S02 -> reaches R2 S02 S2 -> ends R2 S2 ->
  forall r1 c1 r2 c2 a, valid (u_ranks R1) (u_angles R1) (u_mesh R1) r1 c1 a -> valid (u_ranks R2) (u_angles R2) (u_mesh R2) r2 c2 a ->
    gid1 r1 c1 = gid2 r2 c2 -> r_val (g_r S1 r1) c1 a = r_val (g_r S2 r2) c2 a.
Proof.
  intros V D P R1 R2 gid1 gid2 val1 bnd1 val2 bnd2 S01 S02 S1 S2 G1 G2 C1 C2 ED EA P1 P2 (lvl & LV) I1 H1 F1 I2 H2 F2.
  pose proof (end_solution R1 val1 bnd1 G1 S1 (run_inv R1 val1 bnd1 G1 S01 S1 I1 H1) F1) as E1.
  pose proof (end_solution R2 val2 bnd2 G2 S2 (run_inv R2 val2 bnd2 G2 S02 S2 I2 H2) F2) as E2.
  pose proof G1 as (O1 & _). pose proof G2 as (O2 & _).
  intros r1 c1 r2 c2 a. remember (lvl r1 c1 a) as n eqn:En. revert r1 c1 r2 c2 En. induction n as [n IH] using lt_wf_ind. intros r1 c1 r2 c2 En V1 V2 EG.
  pose proof V1 as (Hr1 & Hc1 & Ha1). pose proof V2 as (Hr2 & Hc2 & Ha2).
  specialize (E1 r1 c1 a V1). specialize (E2 r2 c2 a V2). cbv beta in E1, E2. rewrite E1, E2. clear E1 E2.
  assert (EU : td_update (u_data R1) r1 c1 a = td_update (u_data R2) r2 c2 a).
  { destruct (P1 r1 c1 0 Hr1 Hc1 ltac:(lia)) as (_ & X1). destruct (X1 a Ha1) as (_ & U1 & _). destruct (P2 r2 c2 0 Hr2 Hc2 ltac:(lia)) as (_ & X2). destruct (X2 a Ha2) as (_ & U2 & _). now rewrite U1, U2, EG. }
  rewrite EU. f_equal. apply map_ext_in. intros f Hf. apply in_seq in Hf. assert (Hf4 : f < 4) by lia.
  destruct (P1 r1 c1 f Hr1 Hc1 Hf4) as (M1 & X1). destruct (X1 a Ha1) as (O1a & _ & R1a & D1a). clear X1.
  destruct (P2 r2 c2 f Hr2 Hc2 Hf4) as (M2 & X2). destruct (X2 a Ha2) as (O2a & _ & R2a & D2a). clear X2.
  unfold seen. rewrite C1, C2.
  assert (EI : isIncoming (u_dir R1) (u_mesh R1 r1) a c1 f = isIncoming (u_dir R2) (u_mesh R2 r2) a c2 f) by (unfold isIncoming; rewrite ED, O1a, O2a, EG; reflexivity).
  destruct (isIncoming (u_dir R1) (u_mesh R1 r1) a c1 f) eqn:IN1; rewrite <- EI; auto. rewrite <- EG in M2.
  destruct (u_mate R1 (r1, c1, f)) as [[[q1 d1] f1]|] eqn:EM1, (u_mate R2 (r2, c2, f)) as [[[q2 d2] f2]|] eqn:EM2; cbn [option_map fst snd] in M1, M2; try congruence.
  rewrite <- M1 in M2. injection M2 as EG' Ef. f_equal.
  destruct (mate_back _ _ _ _ _ O1 _ _ _ _ _ _ EM1) as (Hq1 & Hd1 & Hf1). destruct (mate_back _ _ _ _ _ O2 _ _ _ _ _ _ EM2) as (Hq2 & Hd2 & Hf2).
  assert (EV : r_val (g_r S1 q1) d1 a = r_val (g_r S2 q2) d2 a).
  { eapply (IH (lvl q1 d1 a)); eauto; [|split; auto|split; auto]. subst n. apply LV; auto. split; auto. split; auto. exists f, f1. split; auto. }
  assert (S1' : (if q1 =? r1 then td_read (u_data R1) r1 c1 f a (r_val (g_r S1 r1) d1 a) else td_getData (u_data R1) q1 d1 f1 a (r_val (g_r S1 q1) d1 a)) = p_read P (gid1 r1 c1) f a (r_val (g_r S1 q1) d1 a)).
  { destruct (Nat.eqb_spec q1 r1) as [E|E]; [subst q1; apply R1a|now apply D1a]. }
  assert (S2' : (if q2 =? r2 then td_read (u_data R2) r2 c2 f a (r_val (g_r S2 r2) d2 a) else td_getData (u_data R2) q2 d2 f2 a (r_val (g_r S2 q2) d2 a)) = p_read P (gid2 r2 c2) f a (r_val (g_r S2 q2) d2 a)).
  { destruct (Nat.eqb_spec q2 r2) as [E|E]; [subst q2; apply R2a|now apply D2a]. }
  rewrite S1', S2', EG, EV. reflexivity.
Qed.

(** ** C32: the size-then-data exchange *)
(** Messages of the [k]-th exchange are posted and received by both sides in their [k]-th round; a posted
    size counts up the messages sent, a received one those received, and what is between them is in the channel. *)
Theorem C32_lockstep : forall V D (R : run V D) val0 bnd0 S0 S, good_run R -> u_comm R = true -> u_mpi R = TychoTwoSided -> starts R val0 bnd0 S0 -> reaches R S0 S ->
  forall r q, r < u_ranks R ->
    (forall k todo, r_ph (g_r S r) = Send k todo -> In q todo -> g_sent S r q = g_round (g_r S r)) /\
    (forall k pend c pk, r_ph (g_r S r) = Recv k pend c pk -> In q pend -> g_rcvd S q r = g_round (g_r S r)) /\
    length (ch0 S r q) + g_rcvd S r q = g_sent S r q.
Proof.
  intros V D R val0 bnd0 S0 S G EC EM I H r q Hr. pose proof (run_inv R val0 bnd0 G S0 S I H) as C. pose proof G as (G1 & G2 & G3 & G4). unfold starts, reaches in *. rewrite EC, EM in *.
  destruct (lock_reach (u_dir R) (u_ranks R) (u_angles R) (u_threads R) (u_max R) (u_psize R) (u_mesh R) (u_data R) (u_mate R) val0 bnd0 G1 G2 G3 G4 S0 S I H) as (_ & L).
  pose proof (l_ph _ _ _ _ _ _ _ _ _ (c_loc _ _ _ _ _ _ _ _ _ _ _ _ S C r Hr)) as P6. unfold phOK in P6. pose proof (k_fresh _ _ S L r Hr) as FR. unfold fresh in FR.
  split; [|split; [|apply (k_len _ _ S L r q Hr)]].
  - intros k todo E Hq. rewrite E in *. destruct P6 as (_ & _ & _ & IC & _). destruct (k_pos _ _ S L r q Hr (IC q Hq) (FR q Hq)) as (P & _). unfold pos in P. rewrite E in P.
    apply mem_In in Hq. rewrite Hq in P. cbn [fst] in P. lia.
  - intros k pend c pk E Hq. rewrite E in *. destruct P6 as (_ & _ & _ & IC & _). destruct (k_pos _ _ S L r q Hr (IC q Hq) (FR q Hq)) as (_ & P). unfold pos in P. rewrite E in P.
    apply mem_In in Hq. rewrite Hq in P. cbn [snd] in P. lia.
Qed.
(** A rank that waits for a neighbour is not waiting for a finished one: the neighbour's message is there or the neighbour is still to send it. *)
Theorem C32_no_wait_for_finished : forall V D (R : run V D) val0 bnd0 S0 S, good_run R -> u_comm R = true -> u_mpi R = TychoTwoSided -> starts R val0 bnd0 S0 -> reaches R S0 S ->
  forall r q k pend c pk, r < u_ranks R -> r_ph (g_r S r) = Recv k pend c pk -> In q pend -> r_ph (g_r S q) = Done -> ch0 S q r <> [].
Proof.
  intros V D R val0 bnd0 S0 S G EC EM I H r q k pend c pk Hr E Hq DQ Z. pose proof (run_inv R val0 bnd0 G S0 S I H) as C. pose proof G as (G1 & G2 & G3 & G4). unfold starts, reaches in *. rewrite EC, EM in *.
  destruct (lock_reach (u_dir R) (u_ranks R) (u_angles R) (u_threads R) (u_max R) (u_psize R) (u_mesh R) (u_data R) (u_mate R) val0 bnd0 G1 G2 G3 G4 S0 S I H) as (_ & L).
  pose proof (l_ph _ _ _ _ _ _ _ _ _ (c_loc _ _ _ _ _ _ _ _ _ _ _ _ S C r Hr)) as P6. unfold phOK in P6. pose proof (k_fresh _ _ S L r Hr) as FR. unfold fresh in FR. rewrite E in *.
  destruct P6 as (_ & _ & _ & IC & _). pose proof (IC q Hq) as Ha. pose proof (FR q Hq) as Hd. destruct (adjRanks_lt _ _ _ _ _ G1 r q Hr Ha) as (Hqn & Nq).
  assert (Hrq : In r (adjRanks (u_mesh R) q)) by (apply (adjRanks_sym _ _ _ _ _ G1 r q); auto).
  destruct (k_pos _ _ S L r q Hr Ha Hd) as (_ & P2). unfold pos in P2. rewrite E in P2. pose proof Hq as Hm. apply mem_In in Hm. rewrite Hm in P2. cbn [snd] in P2.
  destruct (r_dark (g_r S q) r) eqn:Hdq.
  - destruct (k_dark _ _ S L q r Hqn Hdq) as (_ & K2 & K3 & K4). pose proof (k_len _ _ S L q r Hqn) as LN. rewrite Z in LN. cbn [length] in LN. lia.
  - destruct (k_told _ _ S L q r Hqn Hrq) as [X|X]; auto; [unfold killedTo; now rewrite DQ|congruence|rewrite Z in X; destruct X].
Qed.
(** At the end no message is in flight. *)
Theorem C32_nothing_left : forall V D (R : run V D) val0 bnd0 S0 S, good_run R -> u_comm R = true -> u_mpi R = TychoTwoSided -> starts R val0 bnd0 S0 -> reaches R S0 S -> ends R S ->
  forall q r, ch0 S q r = [] /\ ch1 S q r = [].
Proof.
  intros V D R val0 bnd0 S0 S G EC EM I H F. pose proof (run_inv R val0 bnd0 G S0 S I H) as C. pose proof G as (G1 & G2 & G3 & G4). unfold starts, reaches in *. rewrite EC, EM in *.
  destruct (lock_reach (u_dir R) (u_ranks R) (u_angles R) (u_threads R) (u_max R) (u_psize R) (u_mesh R) (u_data R) (u_mate R) val0 bnd0 G1 G2 G3 G4 S0 S I H) as (_ & L).
  assert (CH : ChInv (u_mesh R) S).
  { clear - I H G1 G2 G3 G4. induction H as [|S r l S' H CH Hr ST]; [eapply ch_initial; eauto|].
    pose proof (reach_ok _ _ _ _ _ _ _ _ _ _ _ _ _ G1 G2 G3 G4 S0 S I H) as C. exact (ch_step _ _ _ _ _ _ _ _ _ _ _ S r l S' C CH Hr ST). }
  intros q r. eapply finished_clean; eauto.
Qed.

(** C56: threads of a rank can run at the same time: in every reachable state two iterations of different
    threads leave each other's queue alone and give the same state in either order. *)
Theorem C56_threads : forall V D (R : run V D) val0 bnd0 S0 S, good_run R -> starts R val0 bnd0 S0 -> reaches R S0 S ->
  forall r steps t1 c1 a1 p1 l1 m1 t2 c2 a2 p2 l2 m2, r < u_ranks R -> r_ph (g_r S r) = Work steps -> t1 <> t2 -> t1 < u_threads R -> t2 < u_threads R ->
  r_queue (g_r S r) t1 = l1 ++ (c1, a1, p1) :: m1 -> r_queue (g_r S r) t2 = l2 ++ (c2, a2, p2) :: m2 ->
  let comp := compute (u_dir R) (u_comm R) (u_mesh R) (u_data R) r in
  let one := comp t1 (g_r S r) steps c1 a1 (l1 ++ m1) in
  let two := comp t2 (g_r S r) steps c2 a2 (l2 ++ m2) in
  a1 <> a2 /\ r_queue one t2 = r_queue (g_r S r) t2 /\ r_queue two t1 = r_queue (g_r S r) t1 /\
  exists s1 s2, r_ph one = Work s1 /\ r_ph two = Work s2 /\ s1 t2 = steps t2 /\ s2 t1 = steps t1 /\
    same_rank (comp t2 one s1 c2 a2 (l2 ++ m2)) (comp t1 two s2 c1 a1 (l1 ++ m1)).
Proof.
  intros V D R val0 bnd0 S0 S G I H r steps t1 c1 a1 p1 l1 m1 t2 c2 a2 p2 l2 m2 Hr Ph NT H1 H2 Q1 Q2 comp one two.
  pose proof (run_inv R val0 bnd0 G S0 S I H) as C. pose proof G as (G1 & G2 & G3 & G4).
  pose proof (l_q _ _ _ _ _ _ _ _ _ (c_loc _ _ _ _ _ _ _ _ _ _ _ _ S C r Hr)) as LQ.
  assert (NA : a1 <> a2).
  { intros <-. destruct (LQ t1 c1 a1 p1) as (E1 & _); [rewrite Q1; apply in_or_app; right; now left|]. destruct (LQ t2 c2 a1 p2) as (E2 & _); [rewrite Q2; apply in_or_app; right; now left|]. congruence. }
  split; [exact NA|].
  destruct (step_work_ok _ _ _ _ _ _ _ _ _ _ val0 bnd0 G1 G2 G3 G4 S r t1 steps c1 a1 p1 l1 m1 C Hr Ph H1 Q1) as (_ & _ & _ & _ & N1).
  destruct (step_work_ok _ _ _ _ _ _ _ _ _ _ val0 bnd0 G1 G2 G3 G4 S r t2 steps c2 a2 p2 l2 m2 C Hr Ph H2 Q2) as (_ & _ & _ & _ & N2).
  exact (threads_commute (u_dir R) (u_comm R) (u_mesh R) (u_data R) r (g_r S r) steps t1 c1 a1 (l1 ++ m1) t2 c2 a2 (l2 ++ m2) NT NA N1 N2).
Qed.

(** C33 (expectation not met): with the Capsaicin exchange two ranks can end up waiting for each other,
    if no send completes before its message is received. *)
Theorem C33_deadlock_refuted : ~ (forall V D (R : run V D) val0 bnd0 S0 S, good_run R -> racyclic R -> u_comm R = true -> u_max R > 0 ->
  starts R val0 bnd0 S0 -> reaches R S0 S -> ends R S \/ exists r l S', rstep R r S l S' /\ l <> LEager).
Proof.
  intros X. destruct two_waits as (S & H & P0 & P1 & L0 & L1).
  destruct (X nat nat (twoRun CapsaicinTwoSided) _ _ _ S (two_good _) (two_acyclic _) eq_refl ltac:(cbn; lia) (two_starts _) H) as [F|(r & l & S' & (Hr & ST) & NE)].
  - specialize (F 0 ltac:(cbn; lia)). congruence.
  - cbn in Hr. assert (PH : r_ph (g_r S r) = CWait) by (destruct r as [|[|r]]; [auto|auto|lia]).
    destruct ST; try congruence. destruct eager; [easy|]. specialize (H1 eq_refl). destruct (H1 (1 - r)) as (_ & E). destruct r as [|[|r]]; [| |lia]; cbn in E; rewrite E in *; discriminate.
Qed.
(** C20: a face that both of its cells take as incoming makes the sweep run for ever. *)
Theorem C20_hang_refuted : forall mx val0 bnd0 S0 S, starts (grazeRun mx) val0 bnd0 S0 -> reaches (grazeRun mx) S0 S ->
  ~ ends (grazeRun mx) S /\ exists r l S', rstep (grazeRun mx) r S l S'.
Proof.
  intros mx val0 bnd0 S0 S I H. destruct (graze_idle mx val0 bnd0 S0 S I H) as (Q & L & P). split.
  - intros F. specialize (F 0 ltac:(cbn; lia)). rewrite F in P. exact P.
  - exists 0. unfold rstep. destruct (r_ph (g_r S 0)) as [steps|[] [|? ?]|[] [|? ?] [?|] [|? ?]|[] [|? ?]|todo| |todo pk| |] eqn:Ph; try destruct P.
    + eexists _, _. split; [cbn; lia|]. eapply step_end; eauto.
    + eexists _, _. split; [cbn; lia|]. eapply step_sent; eauto.
    + eexists _, _. split; [cbn; lia|]. eapply step_recvd; eauto.
    + eexists _, _. split; [cbn; lia|]. eapply (step_wait _ _ _ _ _ _ _ _ _ 0 S false [] true); eauto. discriminate.
Qed.

(** The hypotheses are met by two ranks exchanging data both ways; the run ends with the values of the recursion. *)
Example C28_ex : let R := twoRun TychoTwoSided in good_run R /\ exchanges R /\ racyclic R /\
  exists S, starts R (fun _ _ _ => 0) (fun _ _ _ => 0) (twoInit TychoTwoSided) /\ reaches R (twoInit TychoTwoSided) S /\ ends R S /\
    r_val (g_r S 0) 0 0 = 1 /\ r_val (g_r S 1) 0 0 = 211.
Proof.
  intros R. assert (E : exchanges R) by (right; split; reflexivity). split; [apply two_good|]. split; [exact E|]. split; [apply two_acyclic|].
  pose proof (two_starts TychoTwoSided) as I.
  destruct (C30_finishes nat nat R (fun _ _ _ => 0) (fun _ _ _ => 0) (two_good _) E ltac:(cbn; lia) (two_acyclic _)) as (_ & K).
  destruct (K (twoInit TychoTwoSided) (twoInit TychoTwoSided) I ltac:(constructor)) as (S & _ & H & F). exists S. split; auto. split; auto. split; auto.
  destruct (C31_unique nat nat R _ _ _ S (fun _ _ _ => 0) (two_good _) (two_acyclic _) I H F) as (SO & _).
  assert (V0 : r_val (g_r S 0) 0 0 = 1) by (rewrite (SO 0 0 0); [reflexivity|split; cbn; lia]). split; auto.
  rewrite (SO 1 0 0); [|split; cbn; lia]. cbn [seq map]. unfold seen at 2 3 4. cbn [u_mate R twoRun twoMate]. unfold seen. cbn -[Nat.mul]. rewrite V0. reflexivity.
Qed.

Example C31_ex : good_run oneRun /\ racyclic oneRun /\ partition_of pairProblem oneRun (fun _ c => c) /\
  good_run (twoRun TychoTwoSided) /\ partition_of pairProblem (twoRun TychoTwoSided) (fun r _ => r) /\
  u_ranks oneRun <> u_ranks (twoRun TychoTwoSided) /\ u_threads oneRun <> u_threads (twoRun TychoTwoSided) /\ u_mpi oneRun <> u_mpi (twoRun TychoTwoSided).
Proof.
  split; [exact one_good|]. split; [exact one_acyclic|]. split; [exact one_pair|]. split; [apply two_good|]. split; [apply two_pair|]. repeat split; discriminate.
Qed.
Example C56_ex : good_run loneRun /\ starts loneRun (fun _ _ _ => 0) (fun _ _ _ => 0) loneInit /\
  r_ph (g_r loneInit 0) = Work (fun _ => 0) /\ r_queue (g_r loneInit 0) 0 = [(0, 0, 0%N)] /\ r_queue (g_r loneInit 0) 1 = [(0, 1, 1%N)].
Proof. split; [exact lone_good|]. split; [exact lone_starts|]. repeat split. Qed.
Example C20_hang_ex : forall mx, starts (grazeRun mx) (fun _ _ _ => 0) (fun _ _ _ => 0) (grazeInit mx) /\ r_left (g_r (grazeInit mx) 0) = 2%N.
Proof. intros mx. split; [exact (graze_starts mx)|reflexivity]. Qed.

Print Assumptions C28_once. Print Assumptions C28_frame. Print Assumptions C29_after_upwind. Print Assumptions C30_no_infinite_run. Print Assumptions C30_not_stuck.
Print Assumptions C30_finishes. Print Assumptions C30_zero_steps_refuted. Print Assumptions C31_unique. Print Assumptions C31_partition_independent.
Print Assumptions C32_lockstep. Print Assumptions C32_no_wait_for_finished. Print Assumptions C32_nothing_left. Print Assumptions C56_threads.
Print Assumptions C33_deadlock_refuted. Print Assumptions C20_hang_refuted.
