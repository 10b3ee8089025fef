(** Timers: C50. *)
From Coq Require Import Reals Lra.
From Verif Require Import Prelude TimerModel.
Local Open Scope R_scope.

(** What a timer is for.  [history h l]: the calls [h] follow the protocol, the timer is off
    after them, and [l] lists the start-stop intervals since the last reset. *)
Inductive history : list tcall -> list (R * R) -> Prop :=
| h_new : history [] []
| h_interval h l a b : history h l -> history (h ++ [Start a; Stop b]) (l ++ [(a, b)])
| h_reset h l : history h l -> history (h ++ [Reset]) [].
Definition total (l : list (R * R)) : R := fold_right Rplus 0 (map (fun i => snd i - fst i) l).

Lemma tRun_app a b t : tRun (a ++ b) t = match tRun a t with None => None | Some t' => tRun b t' end.
Proof. revert t; induction a as [|c a IH]; intros t; cbn; auto. destruct (tcallStep t c); auto. Qed.
Lemma total_app a b : total (a ++ b) = total a + total b.
Proof. unfold total. rewrite map_app. induction (map _ a); cbn; lra. Qed.


(** The state after any sequence of calls. *)
Definition agrees (l : list (R * R)) (t : timer) : Prop :=
  tm_on t = false /\ tm_sum t = total l /\ tm_num t = w64 (N.of_nat (length l)).

Lemma history_state h l : history h l -> exists t, tRun h newTimer = Some t /\ agrees l t /\
  (forall a b l', l = l' ++ [(a, b)] -> tm_begin t = a /\ tm_end t = b).
Proof.
  induction 1 as [|h l a b H (t & E & (A1 & A2 & A3) & B)|h l H (t & E & (A1 & A2 & A3) & B)].
  - exists newTimer. split; [reflexivity|]. split; [repeat split|]. intros a b l' E. destruct l'; discriminate.
  - rewrite tRun_app, E. cbn [tRun tcallStep]. unfold tStart. rewrite A1. unfold tStop. cbn [tm_on]. unfold wallClock. cbn [tm_on tm_begin tm_end tm_sum tm_num].
    eexists. split; [reflexivity|]. split.
    + split; [reflexivity|]. cbn [tm_sum tm_num]. split.
      * rewrite A2, total_app. unfold total at 3. cbn. lra.
      * rewrite A3, app_length. cbn [length]. unfold w64. rewrite N.add_mod_idemp_l by discriminate. f_equal. lia.
    + intros a' b' l' E'. apply app_inj_tail in E' as (_ & E'). injection E' as -> ->. auto.
  - rewrite tRun_app, E. cbn [tRun tcallStep]. unfold tReset. rewrite A1. eexists. split; [reflexivity|].
    split; [repeat split|]. intros a b l' E'. destruct l'; discriminate.
Qed.

(** Calls that do not abort follow the protocol. *)
Lemma run_history h : forall t, tRun h newTimer = Some t ->
  (tm_on t = false /\ exists l, history h l) \/
  (tm_on t = true /\ exists h' a l, h = h' ++ [Start a] /\ history h' l).
Proof.
  induction h as [|c h IH] using rev_ind; intros t E.
  - injection E as <-. left. split; auto. exists []. constructor.
  - rewrite tRun_app in E. destruct (tRun h newTimer) as [s|] eqn:Es; [|discriminate]. cbn [tRun] in E.
    destruct (tcallStep s c) as [s'|] eqn:Ec; [|discriminate]. injection E as <-.
    destruct (IH s eq_refl) as [(On & l & H)|(On & h' & a & l & -> & H)]; destruct c as [x|x|]; cbn [tcallStep] in Ec.
    + unfold tStart in Ec. rewrite On in Ec. injection Ec as <-. right. split; auto. exists h, x, l. auto.
    + unfold tStop in Ec. rewrite On in Ec. discriminate.
    + unfold tReset in Ec. rewrite On in Ec. injection Ec as <-. left. split; auto. exists []. econstructor; eauto.
    + unfold tStart in Ec. rewrite On in Ec. discriminate.
    + unfold tStop in Ec. rewrite On in Ec. cbn in Ec. injection Ec as <-. left. split; auto. exists (l ++ [(a, x)]). rewrite <- app_assoc. now constructor.
    + unfold tReset in Ec. rewrite On in Ec. discriminate.
Qed.

(** Over every sequence of calls following the protocol the reported wall clock is the total
    length of the intervals since the last reset, and the last interval is the reported one. *)
Theorem C50_total : forall h l, history h l -> exists t, tRun h newTimer = Some t /\ sumWallClock t = Some (total l) /\
  ((N.of_nat (length l) < 2^31)%N -> intervals t = Some (Z.of_nat (length l))) /\
  (forall a b l', l = l' ++ [(a, b)] -> wallClock t = Some (b - a)).
Proof.
  intros h l H. destruct (history_state h l H) as (t & E & (A1 & A2 & A3) & B). exists t. split; auto.
  unfold sumWallClock, intervals, wallClock. rewrite A1. split; [now rewrite A2|]. split.
  - intros L. rewrite A3, w64_small by (unfold two64; lia). rewrite nat_N_Z. rewrite Z.mod_small by lia.
    destruct (Z.ltb_spec (Z.of_nat (length l)) (2^31)); [auto|lia].
  - intros a b l' El. destruct (B a b l' El) as (-> & ->). reflexivity.
Qed.
Print Assumptions C50_total.

(** Any other sequence aborts, and so does any question asked of a running timer. *)
Theorem C50_protocol : forall h,
  (exists t, tRun h newTimer = Some t) <-> (exists l, history h l) \/ (exists h' a l, h = h' ++ [Start a] /\ history h' l).
Proof.
  intros h. split.
  - intros (t & E). destruct (run_history h t E) as [(_ & ?)|(_ & ?)]; auto.
  - intros [(l & H)|(h' & a & l & -> & H)].
    + destruct (history_state h l H) as (t & E & _). eauto.
    + destruct (history_state h' l H) as (t & E & (A & _) & _). rewrite tRun_app, E. cbn [tRun tcallStep]. unfold tStart. rewrite A. eauto.
Qed.
Print Assumptions C50_protocol.
Theorem C50_running : forall h a t, tRun (h ++ [Start a]) newTimer = Some t ->
  sumWallClock t = None /\ wallClock t = None /\ intervals t = None.
Proof.
  intros h a t E. rewrite tRun_app in E. destruct (tRun h newTimer) as [s|]; [|discriminate]. cbn [tRun tcallStep] in E. unfold tStart in E.
  destruct (tm_on s); [discriminate|]. injection E as <-. auto.
Qed.
Print Assumptions C50_running.

(** With a clock that does not go back the total is not negative and not more than the time
    between the first and the last reading. *)
Definition reading (c : tcall) : list R := match c with Start a => [a] | Stop b => [b] | Reset => [] end.
Inductive ascending : R -> R -> list R -> Prop :=
| asc_nil a : ascending a a []
| asc_cons a b c l : a <= b -> ascending b c l -> ascending a c (b :: l).
Lemma asc_app a c l m : ascending a c (l ++ m) -> exists b, ascending a b l /\ ascending b c m.
Proof.
  revert a. induction l as [|x l IH]; intros a H. { exists a. split; [constructor|auto]. }
  cbn in H. inversion H; subst. destruct (IH _ H5) as (b' & B1 & B2). exists b'. split; auto. now constructor.
Qed.
Theorem C50_elapsed : forall h l t0 t1, history h l -> ascending t0 t1 (flat_map reading h) -> 0 <= total l <= t1 - t0.
Proof.
  intros h l t0 t1 H. revert t1. induction H as [|h l a b H IH|h l H IH]; intros t1 A.
  - inversion A; subst. cbn. lra.
  - rewrite flat_map_app in A. cbn in A. destruct (asc_app _ _ _ _ A) as (m & A1 & A2). specialize (IH m A1). rewrite total_app. unfold total at 2 4. cbn.
    inversion A2; subst. match goal with K : ascending a _ _ |- _ => inversion K; subst end. match goal with K : ascending b _ [] |- _ => inversion K; subst end. lra.
  - rewrite flat_map_app in A. cbn in A. rewrite app_nil_r in A. specialize (IH t1 A). unfold total at 1 2. cbn. lra.
Qed.
Print Assumptions C50_elapsed.

(** intervals() returns the UINT counter as an int: after 2^31 intervals it is negative. *)
Lemma long_history n : exists h l, history h l /\ length l = n.
Proof.
  induction n as [|n (h & l & H & L)]. { exists [], []. split; [constructor|auto]. }
  eexists _, _. split; [apply (h_interval _ _ 0 0 H)|]. rewrite app_length, L. cbn. lia.
Qed.
Theorem C50_int_refuted : exists h l t, history h l /\ tRun h newTimer = Some t /\
  N.of_nat (length l) = (2^31)%N /\ intervals t = Some (-2^31)%Z.
Proof.
  destruct (long_history (N.to_nat (2^31))) as (h & l & H & L). destruct (history_state h l H) as (t & E & (A1 & A2 & A3) & B).
  exists h, l, t. split; auto. split; auto. assert (L' : N.of_nat (length l) = (2^31)%N) by (rewrite L; apply N2Nat.id).
  split; auto. unfold intervals. rewrite A1, A3, L'. reflexivity.
Qed.
Print Assumptions C50_int_refuted.

Example C50_ex : exists h l, history h l /\ h = [Start 1; Stop 3; Reset; Start 4; Stop 5; Start 7; Stop 10] /\ total l = 4 /\
  ascending 1 10 (flat_map reading h).
Proof.
  exists (((([] ++ [Start 1; Stop 3]) ++ [Reset]) ++ [Start 4; Stop 5]) ++ [Start 7; Stop 10]), [(4, 5); (7, 10)].
  split; [|split; [reflexivity|split]].
  - change [(4, 5); (7, 10)] with (([] ++ [(4, 5)]) ++ [(7, 10)]). repeat econstructor.
  - unfold total. cbn. lra.
  - cbn. repeat (constructor; [lra|]). constructor.
Qed.
