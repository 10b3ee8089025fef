(** C38, C39, C58, C59: the precomputed sweep schedule. *)
From Coq Require Import Permutation.
From Verif Require Import Prelude MeshModel TraverseModel TraverseSpec TraverseInv TraverseProofs TraverseTerm TraverseCases ScheduleModel ScheduleSpec ScheduleProofs ScheduleLevels.

Section C38.
  Variables (nRanks : nat) (M : nat -> rmesh) (angles : list nat) (over under : nat -> nat -> nat -> nat -> bool) (mate : site -> option site).
  Hypothesis OK : sys_ok nRanks 0 M mate.
  Hypothesis ND : NoDup angles.
  Hypothesis SY : in_sync angles over under mate.
  Variables (prio : nat -> nat -> nat -> N) (mx : N).
  Notation ordering := (ordering nRanks M angles over under prio mx).
  Let need := hasParent M angles over under. Let give := hasChild M angles over.
  Let Hgn := dep_sync nRanks M angles over under mate OK SY.
  Let HA : forall r c f a, need r a c f = true -> _ := parent_adj M angles over under.
  Let HB : forall r c f a, give r a c f = true -> _ := child_adj M angles over.
  Let RG L S H := run_GI nRanks M angles mate need give OK ND Hgn HA HB (fun _ _ _ _ => tt) (fun _ x _ _ _ => x) prio mx (fun _ x _ => x) (fun _ => tt) L S H.

  Lemma dnL_map L r : dnL angles L r = map (fun u => (fst u, glAngle angles (snd u))) (concat (map (fun w => w r) L)).
  Proof. unfold dnL, wv, wvld. rewrite concat_map, map_map. reflexivity. Qed.
  Lemma in_concat_pos (L : list (nat -> list (nat * nat))) r x : In x (concat (map (fun w => w r) L)) <-> exists k i, scheduled L r k i (fst x) (snd x).
  Proof.
    rewrite in_concat. split.
    - intros (l & Hl & Hx). apply in_map_iff in Hl. destruct Hl as (w & <- & Hw). apply In_nth_error in Hw, Hx. destruct Hw as [k Hk], Hx as [i Hi].
      exists k, i, w. split; auto. rewrite Hi. now destruct x.
    - intros (k & i & w & Hk & Hi). exists (w r). apply nth_error_In in Hk, Hi. split; [apply in_map_iff; eauto|]. now destruct x.
  Qed.
  Lemma pos_unique (L : list (nat -> list (nat * nat))) r : NoDup (concat (map (fun w => w r) L)) -> forall k i k' i' c g,
    scheduled L r k i c g -> scheduled L r k' i' c g -> k = k' /\ i = i'.
  Proof.
    induction L as [|w L IH]; cbn; intros HN k i k' i' c g (w1 & H1 & H2) (w2 & H3 & H4); [destruct k; discriminate|].
    assert (K : NoDup (w r) /\ NoDup (concat (map (fun w => w r) L)) /\ forall x, In x (w r) -> ~ In x (concat (map (fun w => w r) L))).
    { clear -HN. revert HN. generalize (concat (map (fun w => w r) L)) as m. induction (w r) as [|x l IHl]; cbn; intros m HN; [repeat split; auto; constructor|].
      inversion HN; subst. destruct (IHl m H2) as (A & B & C). rewrite in_app_iff in H1. repeat split; auto.
      - constructor; tauto.
      - intros y [->|Hy]; auto. }
    destruct K as (K1 & K2 & K3). assert (T : forall j w', nth_error L j = Some w' -> forall n, nth_error (w' r) n = Some (c, g) -> In (c, g) (concat (map (fun w => w r) L))).
    { intros j w' Hj n Hn. apply nth_error_In in Hj, Hn. apply in_concat. exists (w' r). split; auto. apply in_map_iff. eauto. }
    destruct k as [|k], k' as [|k']; cbn [nth_error] in H1, H3.
    - apply Some_inj in H1. apply Some_inj in H3. subst w1 w2. split; auto. apply (proj1 (NoDup_nth_error (w r)) K1); [apply nth_error_Some|]; congruence.
    - apply Some_inj in H1. subst w1. exfalso. apply (K3 (c, g)); [eapply nth_error_In; eauto|eapply T; eauto].
    - apply Some_inj in H3. subst w2. exfalso. apply (K3 (c, g)); [eapply nth_error_In; eauto|eapply T; eauto].
    - destruct (IH K2 k i k' i' c g) as [-> ->]; auto; eexists; eauto.
  Qed.
  Lemma ang_of L S r k i c g : srun nRanks M angles give prio mx (fun _ x _ => x) (fun _ _ _ _ => tt) (fun _ x _ _ _ => x) (initS M angles need (fun _ => tt)) L S ->
    r < nRanks -> scheduled L r k i c g -> c < rm_nCells (M r) /\ exists a, a < nAng angles /\ g = nth a angles 0.
  Proof.
    intros Hr Hr' (w & Hk & Hi). destruct (RG L S Hr) as [_ RO]. apply nth_error_split in Hk. destruct Hk as (L1 & L2 & -> & _). destruct (RO L1 w L2 eq_refl r Hr') as (T & _ & A).
    apply nth_error_In in Hi. destruct (A _ Hi) as (a & Ha & E). cbn in E. split; eauto.
    assert (V : vld M angles r (c, glAngle angles g)). { eapply in_turn_vld; eauto. unfold wv, wvld. apply in_map_iff. exists (c, g). auto. } apply V.
  Qed.

  (** Every pair is listed exactly once (and nothing else is). *)
  Theorem C38_once L : no_cycle over mate angles -> ordering L -> forall r, r < nRanks ->
    (forall c g, c < rm_nCells (M r) -> In g angles -> exists k i, scheduled L r k i c g) /\
    (forall k i k' i' c g, scheduled L r k i c g -> scheduled L r k' i' c g -> k = k' /\ i = i') /\
    (forall k i c g, scheduled L r k i c g -> c < rm_nCells (M r) /\ In g angles).
  Proof.
    intros AC (S & Hr & HD) r Hr'. destruct (RG L S Hr) as [G RO]. split; [|split].
    - intros c g Hc Hg. apply In_nth with (d := 0) in Hg. destruct Hg as (a & Ha & <-).
      assert (K : In (c, a) (dnL angles L r)).
      { eapply (done_all nRanks M angles mate need give OK Hgn HA HB (fun _ (x : unit) _ _ => tt) (fun _ x _ _ _ => x) prio (fun _ x _ => x)); eauto.
        - eapply acyc_up; eauto.
        - split; auto. }
      rewrite dnL_map in K. apply in_map_iff in K. destruct K as ([c1 g1] & E & Hin). cbn [fst snd] in E. injection E as -> E. apply in_concat_pos in Hin. destruct Hin as (k & i & Hs). cbn [fst snd] in Hs.
      destruct (ang_of _ _ _ _ _ _ _ Hr Hr' Hs) as (_ & a' & Ha' & Eg). exists k, i. replace (nth a angles 0) with g1; auto. rewrite Eg in *. rewrite gl_nth in E; congruence.
    - eapply pos_unique; eauto. eapply NoDup_map_inv. rewrite <- dnL_map. apply (gi_nodup _ _ _ _ _ _ _ G r Hr').
    - intros k i c g H. destruct (ang_of _ _ _ _ _ _ _ Hr Hr' H) as (Hc & a & Ha & ->). split; auto. apply nth_In. auto.
  Qed.
  (** No step has more than maxCellsPerStep pairs. *)
  Theorem C38_step_size L w r : ordering L -> In w L -> r < nRanks -> (N.of_nat (length (w r)) <= mx)%N.
  Proof.
    intros (S & Hr & _) Hw Hr'. destruct (RG L S Hr) as [_ RO]. apply in_split in Hw. destruct Hw as (L1 & L2 & ->). destruct (RO L1 w L2 eq_refl r Hr') as (_ & Hl & _).
    unfold limit in Hl. pose proof (N.mod_le mx 4294967296). lia.
  Qed.
  (** Every pair comes after all its upwind neighbours, in a later step if they are on another rank. *)
  Theorem C38_order L : ordering L -> forall r k i c g q c', r < nRanks -> scheduled L r k i c g -> flows over mate g (q, c') (r, c) ->
    exists k' i', scheduled L q k' i' c' g /\ (k' < k \/ q = r /\ k' = k /\ i' < i).
  Proof.
    intros (S & Hr & _) r k i c g q c' Hr' Hs (f' & f & Hm & Ho). destruct (ang_of _ _ _ _ _ _ _ Hr Hr' Hs) as (Hc & a & Ha & Eg). destruct Hs as (w & Hk & Hi).
    destruct (RG L S Hr) as [_ RO]. cbn [fst snd] in *.
    assert (SP : exists L1 L2, L = L1 ++ w :: L2 /\ length L1 = k) by (apply nth_error_split in Hk; auto). destruct SP as (L1 & L2 & EL & Hlen).
    assert (SW : exists w1 w2, w r = w1 ++ (c, g) :: w2 /\ length w1 = i) by (apply nth_error_split in Hi; auto). destruct SW as (w1 & w2 & Ew & Hleni).
    destruct (RO L1 w L2 EL r Hr') as (T & _ & A).
    pose proof (T (map (fun u => (fst u, glAngle angles (snd u))) w1) (c, a) (map (fun u => (fst u, glAngle angles (snd u))) w2)) as TT.
    destruct TT as (_ & _ & U). { unfold wv, wvld. rewrite Ew, map_app. cbn [map fst snd]. rewrite Eg, gl_nth; auto. }
    pose proof (so_sym _ _ _ _ OK _ _ Hm) as Hm'. destruct (mrange _ _ _ OK _ _ _ _ _ _ Hm') as ((_ & _ & Hf) & (Hq & Hc' & _)). specialize (U f Hf). cbn [fst snd] in U.
    assert (Hn : need r a c f = true).
    { unfold need. rewrite (dep_sync' nRanks M angles over under mate OK SY _ _ _ _ _ _ _ Hm') by auto. rewrite (child_over nRanks M angles over mate OK _ _ _ _ _ _ _ Hm). now rewrite <- Eg. }
    unfold unsat in U. fold need in U. rewrite Hn in U. cbn [andb] in U. apply negb_false_iff in U. unfold satF in U. rewrite Hm' in U.
    assert (Early : forall p, p < nRanks -> In (c', a) (dnL angles L1 p) -> exists k' i', scheduled L p k' i' c' g /\ k' < k).
    { intros p Hp Hin. rewrite dnL_map in Hin. apply in_map_iff in Hin. destruct Hin as ([c1 g1] & E & Hin). cbn [fst snd] in E. injection E as -> E. apply in_concat_pos in Hin. destruct Hin as (k' & i' & w' & Hk' & Hi'). cbn [fst snd] in Hi'.
      assert (Hk2 : nth_error L k' = Some w') by (rewrite EL; rewrite nth_error_app1; auto; apply nth_error_Some; congruence).
      destruct (ang_of L S p k' i' c' g1 Hr Hp) as (_ & a' & Ha' & Eg1); [exists w'; auto|]. exists k', i'. split.
      - exists w'. split; auto. rewrite Eg1 in *. rewrite gl_nth in E; auto. subst a'. congruence.
      - rewrite <- Hlen. apply nth_error_Some. congruence. }
    destruct (Nat.eqb_spec q r) as [->|Hqr]; apply mem2_In in U.
    - apply in_app_or in U. destruct U as [U|U].
      + destruct (Early r Hr' U) as (k' & i' & H1 & H2). exists k', i'. auto.
      + apply in_map_iff in U. destruct U as ([c1 g1] & E & Hin). cbn [fst snd] in E. injection E as -> E. apply In_nth_error in Hin. destruct Hin as [i' Hi'].
        assert (Li : i' < length w1) by (apply nth_error_Some; congruence).
        assert (Hi2 : nth_error (w r) i' = Some (c', g1)) by (rewrite Ew, nth_error_app1; auto).
        destruct (ang_of L S r k i' c' g1 Hr Hr') as (_ & a' & Ha' & Eg1); [exists w; auto|]. exists k, i'. split.
        * exists w. split; auto. rewrite Eg1 in *. rewrite gl_nth in E; auto. subst a'. congruence.
        * right. repeat split; auto. lia.
    - destruct (Early q Hq U) as (k' & i' & H1 & H2). exists k', i'. auto.
  Qed.
  (** The loop ends, with a complete schedule. *)
  Theorem C38_ends : (mx mod 4294967296 <> 0)%N ->
    (exists L, ordering L) /\
    forall L S, srun nRanks M angles give prio mx (fun _ x _ => x) (fun _ _ _ _ => tt) (fun _ x _ _ _ => x) (initS M angles need (fun _ => tt)) L S ->
      length L <= sumr nRanks (fun r => rm_nCells (M r) * length angles).
  Proof.
    intros Hl. assert (Hl' : (0 < limit mx)%N) by (unfold limit; lia). split.
    - destruct (run_complete nRanks M angles mate need give OK ND Hgn HA HB (fun _ (_ : unit) _ _ => tt) (fun _ x _ _ _ => x) prio mx (fun _ x _ => x) (fun _ => tt) Hl') as (L & S & H1 & H2). exists L, S. auto.
    - intros L S H. eapply (run_short nRanks M angles mate need give OK ND Hgn HA HB (fun _ (_ : unit) _ _ => tt) (fun _ x _ _ _ => x)); eauto.
  Qed.
  (** In every step a rank sends to exactly the ranks that expect data from it, and to every rank that
      has a cell downwind of one of its pairs. *)
  Theorem C38_matched w r p : r < nRanks -> p < nRanks -> (In p (sendProcs nRanks M angles over w r) <-> In r (recvProcs nRanks M angles over w p)).
  Proof.
    intros Hr Hp. unfold sendProcs, recvProcs. rewrite !filter_In.
    pose proof (neighbor_iff nRanks M angles mate need give OK Hgn HA HB) as NI. rewrite NI, NI by auto.
    split; intros ((Hne & c & f & c' & f' & Hm) & Hx); (split; [split; [auto|exists c', f', c, f; now apply (so_sym _ _ _ _ OK)]|exact Hx]).
  Qed.
  Theorem C38_sends w r p c g c' : r < nRanks -> p <> r -> In g angles -> In (c, g) (w r) -> flows over mate g (r, c) (p, c') -> In p (sendProcs nRanks M angles over w r).
  Proof.
    intros Hr Hpr Hg Hw (f & f' & Hm & Ho). cbn [fst snd] in *. apply In_nth with (d := 0) in Hg. destruct Hg as (a & Ha & <-).
    destruct (mrange _ _ _ OK _ _ _ _ _ _ Hm) as ((_ & Hc & Hf) & _).
    unfold sendProcs. apply filter_In. split; [apply (neighbor_iff nRanks M angles mate need give OK Hgn HA HB); auto; split; eauto 8|].
    assert (K : exists x, In x (stepMsg M angles over w r p)).
    { eexists. unfold stepMsg, outMsg. apply in_flat_map. exists (c, nth a angles 0). split; auto. apply in_flat_map. exists f. split; [apply in_seq; lia|].
      unfold sideMsg. cbn [fst snd]. rewrite gl_nth by auto. fold give. unfold give. rewrite (child_over nRanks M angles over mate OK _ _ _ _ _ _ _ Hm), Ho.
      rewrite (so_cell _ _ _ _ OK), (so_rank _ _ _ _ OK), Hm by auto. destruct (Nat.eqb_spec p r); [congruence|]. rewrite Nat.eqb_refl. now left. }
    destruct K as [x Hx]. destruct (stepMsg M angles over w r p); [easy|reflexivity].
  Qed.

  (** C39: a multiple of 2^32 makes no progress: nothing is ever listed and the loop does not end. *)
  Theorem C39_no_progress_refuted L S : (mx mod 4294967296 = 0)%N -> no_cycle over mate angles ->
    (exists r, r < nRanks /\ 0 < rm_nCells (M r)) -> angles <> [] ->
    srun nRanks M angles give prio mx (fun _ x _ => x) (fun _ _ _ _ => tt) (fun _ x _ _ _ => x) (initS M angles need (fun _ => tt)) L S ->
    ~ allDone nRanks S /\ forall w r, In w L -> r < nRanks -> w r = [].
  Proof.
    intros Hl AC (r & Hr & Hc) Ha H. destruct (run_stuck nRanks M angles mate need give OK ND Hgn HA HB (fun _ (_ : unit) _ _ => tt) (fun _ x _ _ _ => x) prio mx (fun _ x _ => x) (fun _ => tt) L S Hl H) as [K1 K2].
    split; auto. intros HD.
    assert (Ha' : 0 < nAng angles) by (unfold nAng; destruct angles; [easy|cbn; lia]).
    destruct (RG L S H) as [G _].
    assert (K : In (0, 0) (dnL angles L r)).
    { eapply (done_all nRanks M angles mate need give OK Hgn HA HB (fun _ (x : unit) _ _ => tt) (fun _ x _ _ _ => x) prio (fun _ x _ => x)); eauto.
      - eapply acyc_up; eauto.
      - split; auto. }
    rewrite dnL_map in K. apply in_map_iff in K. destruct K as (x & _ & Hin). apply in_concat in Hin. destruct Hin as (l & Hl' & Hx). apply in_map_iff in Hl'. destruct Hl' as (w & <- & Hw).
    rewrite (K1 w r Hw Hr) in Hx. easy.
  Qed.

  (** C60 (expectation not met): with cyclic dependencies the loop ends all the same, and no pair on a cycle is
      ever listed. *)
  Theorem C60_cyclic_refuted r c g : In g angles -> r < nRanks -> below over mate g (r, c) (r, c) ->
    (mx mod 4294967296 <> 0)%N ->
    (exists L, ordering L) /\ forall L, ordering L -> forall k i, ~ scheduled L r k i c g.
  Proof.
    intros Hg Hr B Hl. split; [now apply C38_ends|]. intros L HL k i HS.
    assert (K : forall y x, below over mate g y x -> fst x < nRanks -> forall k i, scheduled L (fst x) k i (snd x) g ->
      exists k' i', scheduled L (fst y) k' i' (snd y) g /\ (k' < k \/ fst y = fst x /\ k' = k /\ i' < i)).
    { clear k i HS B. intros y x H. induction H as [[r0 c0] H|[r0 c0] [r1 c1] H IH H1]; intros Hx k i Hs; cbn [fst snd] in *.
      - destruct y as [q c']. eapply C38_order; eauto.
      - destruct (C38_order L HL r1 k i c1 g r0 c0 Hx Hs H1) as (k1 & i1 & H2 & H3).
        assert (Hq : r0 < nRanks). { destruct H1 as (f & f' & Hm & _). cbn in Hm. apply (mrange _ _ _ OK) in Hm. apply Hm. }
        destruct (IH Hq k1 i1 H2) as (k2 & i2 & H4 & H5). exists k2, i2. split; auto.
        destruct H3 as [H3|(-> & -> & H3)], H5 as [H5|(H6 & -> & H5)]; try (left; lia). right. rewrite H6. repeat split; auto; lia. }
    destruct (K _ _ B Hr k i HS) as (k' & i' & H1 & H2). cbn [fst snd] in H1, H2.
    destruct HL as (S & HR & _). destruct (RG L S HR) as [G _].
    destruct (pos_unique L r) with (k := k) (i := i) (k' := k') (i' := i') (c := c) (g := g); auto; [|lia].
    eapply NoDup_map_inv. rewrite <- dnL_map. apply (gi_nodup _ _ _ _ _ _ _ G r Hr).
  Qed.

  (** C58: the levels of calcLevels are longest downwind distances in the whole graph. *)
  Theorem C58_levels S : no_cycle over mate angles -> levelled nRanks M angles over under mx S ->
    forall r a c, r < nRanks -> c < rm_nCells (M r) -> a < length angles ->
    longest_downwind over mate (nth a angles 0) (r, c) (fst (s_x (S r)) a c) /\
    forall f q c' f', mate (r, c, f) = Some (q, c', f') -> q <> r -> over r (nth a angles 0) c f = true ->
      longest_downwind over mate (nth a angles 0) (q, c') (snd (s_x (S r)) a (rm_side (M r) c f)).
  Proof.
    intros AC HL r a c Hr Hc Ha. destruct (acyc_down nRanks M angles over mate OK AC) as [lvl Hlvl].
    destruct (levels_final nRanks M angles over under mate OK ND SY lvl Hlvl mx S HL r a c Hr Hc Ha) as [A B]. split; auto.
    intros f q c' f' Hm Hq Ho. eapply B; eauto. rewrite (child_over nRanks M angles over mate OK _ _ _ _ _ _ _ Hm). auto.
  Qed.
  Theorem C58_ends : (mx mod 4294967296 <> 0)%N -> exists S, levelled nRanks M angles over under mx S.
  Proof.
    intros Hl. assert (Hl' : (0 < limit mx)%N) by (unfold limit; lia).
    destruct (run_complete nRanks M angles mate give need OK ND (dep_sync' nRanks M angles over under mate OK SY) HB HA (fun _ (x : levels) a c => fst x a c) (acceptLevel M) (fun _ _ _ => 0%N) mx (updateLevels M angles over under) (fun _ => (fun _ _ => 0, fun _ _ => 0)) Hl') as (L & S & H1 & H2).
    exists S, L. auto.
  Qed.
End C38.

(** ** C59: priorities and the queue *)
Lemma queue_exact p : (p < 9007199254740992)%N -> queuePriority p = Some p.
Proof. intros H. unfold queuePriority, roundDouble, two64. apply N.ltb_lt in H. rewrite H. apply N.ltb_lt in H. destruct (N.ltb_spec p 18446744073709551616); [reflexivity|lia]. Qed.
Section C59.
  Variables (M : nat -> rmesh) (angles : list nat) (over under : nat -> nat -> nat -> nat -> bool) (lev : nat -> nat -> N) (mx : N) (r : nat).
  (** Breadth-first priorities are levels: they pass through the queue's conversion unchanged. *)
  Theorem C59_bfds p' : (forall a s, lev a s < 9007199254740992)%N -> neighborPriorities M angles over under lev 1 0 0 mx r p' ->
    forall a c, queuePriority (p' a c) = Some (p' a c).
  Proof.
    intros HL H.
    assert (B : forall a c, (boundaryPriority M angles over lev 1 0 r a c < 9007199254740992)%N).
    { intros a c. unfold boundaryPriority. match goal with |- (fold_left ?g _ _ < _)%N => assert (T : forall l x, (x < 9007199254740992)%N -> (fold_left g l x < 9007199254740992)%N); [|apply T; lia] end.
      induction l as [|f l IH]; cbn [fold_left]; intros x K; auto. apply IH.
      destruct (acrossBoundary M angles over r a c f); auto. specialize (HL a (rm_side (M r) c f)). pose proof (w64_small (lev a (rm_side (M r) c f)) ltac:(unfold two64; lia)) as W. rewrite N.mul_1_r, N.add_0_r, !W. lia. }
    unfold neighborPriorities in H. remember (boundaryPriority M angles over lev 1 0 r) as p eqn:E0. clear E0. revert H. generalize (localChildren M angles over r, npQueue M angles over r) as s. generalize 0%N at 2 as n.
    intros n s H. revert B. induction H as [s n p E|s n p s' w p' E HT H IH]; intros B a c; [now apply queue_exact|]. apply IH. clear - B.
    unfold updatePriorities. revert p B. induction w as [|u w IH]; cbn [fold_left]; intros p B; auto. apply IH. clear IH.
    generalize (seq 0 4) as l. intros l. revert p B. induction l as [|f l IH]; cbn [fold_left]; intros p B; auto. apply IH. intros a c. unfold priorityFace.
    destruct (hasParent M angles over under r (glAngle angles (snd u)) (fst u) f); auto. destruct (rm_adjCell (M r) (fst u) f) as [c'|]; auto.
    pose proof (B (glAngle angles (snd u)) (fst u)) as B1. pose proof (B a c) as B2.
    destruct (Nat.eq_dec a (glAngle angles (snd u))) as [->|N1]; [destruct (Nat.eq_dec c c') as [->|N2]|].
    - rewrite fupd2_same. rewrite N.add_0_r, w64_small by (unfold two64; lia). lia.
    - rewrite fupd2_other by congruence. auto.
    - rewrite fupd2_other by congruence. auto.
  Qed.
End C59.
(** C59 (expectation not met): depth-first priorities wrap and are then not representable in the queue. *)
Definition flowOver (r g c f : nat) : bool := (f =? 0) && (c =? 0).
Definition flowUnder (r g c f : nat) : bool := (f =? 0) && (c =? 1).
Theorem C59_dfds_refuted : exists p', neighborPriorities oneMesh [0] flowOver flowUnder (fun _ _ => 0%N) 1 2 (two64 - 1) 10 0 p' /\ queuePriority (p' 0 0) = None.
Proof.
  eexists. split.
  - unfold neighborPriorities. eapply np_step; [vm_compute; discriminate| |].
    + change (npQueue oneMesh [0] flowOver 0) with ([] ++ (1, 0) :: []). eapply topo_pop; [reflexivity|intros; lia|].
      match goal with |- topo _ _ _ _ _ _ (fold_left ?g ?l ?s) _ _ _ => set (S0 := fold_left g l s); assert (E : S0 = (fst S0, [] ++ (0, 0) :: [])) by (vm_compute; reflexivity); rewrite E end.
      eapply topo_pop; [reflexivity|intros; lia|]. constructor. left. vm_compute. reflexivity.
    + apply np_done. vm_compute. reflexivity.
  - vm_compute. reflexivity.
Qed.

(** ** Concrete cases *)
(** Two ranks with one cell each; angle 0 flows from rank 0 to rank 1, angle 1 back. *)
Definition twoOver (r g c f : nat) : bool := (f =? 0) && (g =? r).
Definition twoUnder (r g c f : nat) : bool := (f =? 0) && negb (g =? r).
Lemma two_ok0 : sys_ok 2 0 twoMesh twoMate.
Proof. destruct two_ok. constructor; auto. Qed.
Lemma two_sync : in_sync [0; 1] twoOver twoUnder twoMate.
Proof.
  intros g r c f q c' f' Hg Hm. apply two_mate in Hm. destruct Hm as (A & -> & -> & E). injection E as -> -> ->.
  destruct r as [|[|r]]; [| |lia]; destruct Hg as [<-|[<-|[]]]; split; reflexivity.
Qed.
Lemma two_flows g x y : flows twoOver twoMate g y x -> y = (g, 0) /\ x = (1 - g, 0) /\ g < 2.
Proof.
  destruct y as [r c], x as [q c']. intros (f & f' & Hm & Ho). cbn [fst snd] in *. apply two_mate in Hm. destruct Hm as (A & -> & -> & E). injection E as -> -> ->.
  unfold twoOver in Ho. cbn in Ho. apply Nat.eqb_eq in Ho. subst. auto.
Qed.
Lemma two_no_cycle : no_cycle twoOver twoMate [0; 1].
Proof. exists (fun g x => if fst x =? g then 0 else 1). intros g y x _ H. apply two_flows in H. destruct H as (-> & -> & H). cbn [fst]. rewrite Nat.eqb_refl. destruct g as [|[|g]]; cbn; lia. Qed.
Lemma nd2 : NoDup [0; 1]. Proof. repeat constructor; cbn; intuition discriminate. Qed.
Lemma two_flow : flows twoOver twoMate 0 (0, 0) (1, 0).
Proof. exists 0, 0. split; reflexivity. Qed.
(** Every schedule of the two cells has both of them, rank 1 after rank 0 for angle 0. *)
Example C38_ex : exists L, ordering 2 twoMesh [0; 1] twoOver twoUnder (fun _ _ _ => 0%N) 5 L /\
  exists k i k' i', scheduled L 0 k i 0 0 /\ scheduled L 1 k' i' 0 0 /\ k < k' /\ length L <= 4.
Proof.
  destruct (C38_ends 2 twoMesh [0; 1] twoOver twoUnder twoMate two_ok0 nd2 two_sync (fun _ _ _ => 0%N) 5) as [(L & HL) Hb]; [discriminate|].
  exists L. split; auto.
  destruct (C38_once 2 twoMesh [0; 1] twoOver twoUnder twoMate two_ok0 nd2 two_sync (fun _ _ _ => 0%N) 5 L two_no_cycle HL 1) as (A & _); [lia|].
  destruct (A 0 0) as (k' & i' & H'); [cbn; lia|now left|].
  destruct (C38_order 2 twoMesh [0; 1] twoOver twoUnder twoMate two_ok0 nd2 two_sync (fun _ _ _ => 0%N) 5 L HL 1 k' i' 0 0 0 0 ltac:(lia) H' two_flow) as (k & i & H & O).
  exists k, i, k', i'. destruct HL as (S & HR & _). specialize (Hb L S HR). cbn in Hb. repeat split; auto. destruct O as [O|(E & _)]; [auto|discriminate].
Qed.
Example C38_sends_ex : In 1 (sendProcs 2 twoMesh [0; 1] twoOver (fun r => [(0, r)]) 0) /\ In 0 (recvProcs 2 twoMesh [0; 1] twoOver (fun r => [(0, r)]) 1).
Proof.
  assert (H : In 1 (sendProcs 2 twoMesh [0; 1] twoOver (fun r => [(0, r)]) 0)).
  { apply (C38_sends 2 twoMesh [0; 1] twoOver twoUnder twoMate two_ok0 nd2 two_sync _ 0 1 0 0 0); auto; try lia; [now left|now left|exact two_flow]. }
  split; auto. apply (C38_matched 2 twoMesh [0; 1] twoOver twoUnder twoMate two_ok0 two_sync); auto.
Qed.
Example C39_ex : forall L S, srun 2 twoMesh [0; 1] (hasChild twoMesh [0; 1] twoOver) (fun _ _ _ => 0%N) 4294967296 (fun _ x _ => x) (fun _ _ _ _ => tt) (fun _ x _ _ _ => x) (initS twoMesh [0; 1] (hasParent twoMesh [0; 1] twoOver twoUnder) (fun _ => tt)) L S -> ~ allDone 2 S.
Proof. intros L S H. eapply (C39_no_progress_refuted 2 twoMesh [0; 1] twoOver twoUnder twoMate two_ok0 nd2 two_sync _ 4294967296 L S eq_refl two_no_cycle); eauto; try discriminate; exists 0; cbn; lia. Qed.
Lemma two_down1 n : downwind twoOver twoMate 0 (1, 0) n -> n = 0.
Proof. intros D. inversion D as [|x y m F _]; auto. apply two_flows in F. destruct F as (E & _). discriminate. Qed.
Lemma two_down0 n : downwind twoOver twoMate 0 (0, 0) n -> n <= 1.
Proof. intros D. inversion D as [|x y m F D']; [lia|]. apply two_flows in F. destruct F as (_ & -> & _). apply two_down1 in D'. lia. Qed.
(** Both cells have the level of their place. *)
Example C58_ex : exists S, levelled 2 twoMesh [0; 1] twoOver twoUnder 5 S /\ fst (s_x (S 0)) 0 0 = 1 /\ fst (s_x (S 1)) 0 0 = 0.
Proof.
  destruct (C58_ends 2 twoMesh [0; 1] twoOver twoUnder twoMate two_ok0 nd2 two_sync 5) as (S & HS); [discriminate|]. exists S. split; auto.
  pose proof (C58_levels 2 twoMesh [0; 1] twoOver twoUnder twoMate two_ok0 nd2 two_sync 5 S two_no_cycle HS) as K.
  destruct (K 0 0 0) as [[A1 A2] _]; [cbn; lia..|]. destruct (K 1 0 0) as [[B1 _] _]; [cbn; lia..|]. cbn [nth] in *. split.
  - apply Nat.le_antisymm; [|apply A2; eapply dw_step; [exact two_flow|constructor]]. now apply two_down0.
  - now apply two_down1.
Qed.
(** A face that each of two cells sends over: a cycle. *)
Definition loopMesh (r : nat) : rmesh :=
  mkRmesh 2 (fun c f => if f <? 2 then Some (1 - c) else None) (fun _ f => if f <? 2 then Some 0 else None) (fun _ f => f) N.of_nat (fun g => Some (N.to_nat g)) (fun _ => 0) (fun _ _ _ => true).
Definition loopMate (x : site) : option site :=
  let '(r, c, f) := x in if (r =? 0) && (c <? 2) && (f <? 2) then Some (0, 1 - c, 1 - f) else None.
Definition loopOver (r g c f : nat) : bool := f =? 0.
Definition loopUnder (r g c f : nat) : bool := f =? 1.
Lemma loop_mate r c f y : loopMate (r, c, f) = Some y -> r = 0 /\ c < 2 /\ f < 2 /\ y = (0, 1 - c, 1 - f).
Proof. unfold loopMate. destruct (Nat.eqb_spec r 0), (Nat.ltb_spec c 2), (Nat.ltb_spec f 2); cbn [andb]; try discriminate. intros E. apply Some_inj in E. auto. Qed.
Lemma loop_ok : sys_ok 1 0 loopMesh loopMate.
Proof.
  pose proof loop_mate as MT. constructor.
  - intros r c f y H. apply MT in H. destruct H as (-> & A & B & _). split; [lia|]. split; [exact A|lia].
  - intros [[r c] f] y H. apply MT in H. destruct H as (-> & A & B & ->). destruct c as [|[|c]]; [| |lia]; (destruct f as [|[|f]]; [reflexivity|reflexivity|lia]).
  - intros r c f f' H. apply MT in H. destruct H as (_ & A & _ & E). destruct c as [|[|c]]; [discriminate|discriminate|lia].
  - intros r c f Hr Hc Hf. cbn in Hc. assert (r = 0) as -> by lia. unfold loopMate. destruct c as [|[|c]]; [| |lia]; cbn; destruct f as [|[|f]]; reflexivity.
  - intros r c f Hr Hc Hf. cbn in Hc. assert (r = 0) as -> by lia. unfold loopMate. destruct c as [|[|c]]; [| |lia]; cbn; destruct f as [|[|f]]; reflexivity.
  - intros r c f q c' f' H NE. apply MT in H. destruct H as (-> & A & B & E). injection E as -> -> ->. congruence.
  - intros r c f q c' f' d g q' d' g' H NE. apply MT in H. destruct H as (-> & A & B & E). injection E as -> -> ->. congruence.
  - intros; lia.
  - intros r Hr. vm_compute. reflexivity.
Qed.
Example C60_ex : exists L, ordering 1 loopMesh [0] loopOver loopUnder (fun _ _ _ => 0%N) 5 L /\ forall k i, ~ scheduled L 0 k i 0 0.
Proof.
  assert (F : forall c, c < 2 -> flows loopOver loopMate 0 (0, c) (0, 1 - c)) by (intros c Hc; exists 0, 1; destruct c as [|[|c]]; [split; reflexivity|split; reflexivity|lia]).
  destruct (C60_cyclic_refuted 1 loopMesh [0] loopOver loopUnder loopMate loop_ok) with (prio := fun _ _ _ : nat => 0%N) (mx := 5%N) (r := 0) (c := 0) (g := 0) as [(L & HL) K]; auto.
  - repeat constructor. auto.
  - intros g r c f q c' f' [<-|[]] Hm. apply loop_mate in Hm. destruct Hm as (-> & A & B & E). injection E as -> -> ->. destruct f as [|[|f]]; [split; reflexivity|split; reflexivity|lia].
  - now left.
  - eapply below_more; [apply below_one; apply (F 0); lia|exact (F 1 ltac:(lia))].
  - discriminate.
  - exists L. auto.
Qed.

Print Assumptions C38_once. Print Assumptions C38_step_size. Print Assumptions C38_order. Print Assumptions C38_ends. Print Assumptions C38_matched. Print Assumptions C38_sends.
Print Assumptions C39_no_progress_refuted. Print Assumptions C58_levels. Print Assumptions C58_ends. Print Assumptions C59_bfds. Print Assumptions C59_dfds_refuted. Print Assumptions C60_cyclic_refuted.
