(** Lemmas for PropertiesPriority. *)
From Coq Require Import Permutation Sorted.
From Verif Require Import Prelude Bytes MeshModel TraverseModel TraverseSpec TraverseInv PriorityModel PrioritySpec.

(** ** Folds of maxima *)
Lemma bfold l b : (b <= fold_left bLevelStep l b)%N /\ (forall t x, In (Some (t, x)) l -> (w64 (x + 1) <= fold_left bLevelStep l b)%N) /\
  (fold_left bLevelStep l b = b \/ exists t x, In (Some (t, x)) l /\ fold_left bLevelStep l b = w64 (x + 1)).
Proof.
  revert b. induction l as [|y l IH]; intros b; cbn [fold_left]; [split; [lia|]; split; [intros t x []|now left]|].
  destruct (IH (bLevelStep b y)) as (I1 & I2 & I3).
  assert (H : (b <= bLevelStep b y)%N) by (destruct y as [[t x]|]; cbn; lia).
  split; [lia|]. split.
  - intros t x [->|HI]; [cbn in *; lia|eauto].
  - destruct I3 as [I3|(t & x & HI & I3)]; [|right; exists t, x; split; [now right|auto]]. rewrite I3. destruct y as [[t x]|]; cbn; [|now left].
    destruct (N.max_spec b (w64 (x + 1))) as [(_ & E)|(_ & E)]; [right; exists t, x; split; [now left|auto]|now left].
Qed.
Lemma nfold_ext s1 h1 p1 s2 h2 p2 l b : (forall x, In x l -> forall q, neighborStep s1 h1 p1 q x = neighborStep s2 h2 p2 q x) ->
  fold_left (neighborStep s1 h1 p1) l b = fold_left (neighborStep s2 h2 p2) l b.
Proof.
  revert b. induction l as [|x l IH]; intros b H; [reflexivity|]. cbn [fold_left]. rewrite (H x) by now left. apply IH. intros y Hy. apply H. now right.
Qed.
Lemma nfold_max s h p l b x : In x l -> (neighborStep s h p 0 x <= fold_left (neighborStep s h p) l b)%N.
Proof.
  assert (M : forall l b, (b <= fold_left (neighborStep s h p) l b)%N).
  { clear. induction l as [|y l IH]; intros b; [cbn; lia|]. cbn [fold_left]. specialize (IH (neighborStep s h p b y)). unfold neighborStep at 1 in IH. lia. }
  revert b. induction l as [|y l IH]; intros b; [intros []|]. cbn [fold_left]. intros [->|HI]; [|now apply IH]. specialize (M l (neighborStep s h p b x)). unfold neighborStep at 1 in M. unfold neighborStep at 1. lia.
Qed.
Lemma nfold_le s h p l b B : (b <= B)%N -> (forall x, In x l -> (neighborStep s h p 0 x <= B)%N) -> (fold_left (neighborStep s h p) l b <= B)%N.
Proof.
  revert b. induction l as [|x l IH]; intros b H K; [exact H|]. cbn [fold_left]. apply IH; [|intros y Hy; apply K; now right]. specialize (K x (or_introl eq_refl)). unfold neighborStep in *. lia.
Qed.

(** ** Backward traversal without communication *)
Definition zeroSides (r s a : nat) : input := (false, 0%N).
Section Levels.
  Variables (nRanks nAngles : nat) (M : nat -> rmesh) (mate : site -> option site).
  Hypothesis OK : sys_fit Backward nRanks nAngles M mate.
  Hypothesis AC : acyclic Backward false nRanks nAngles M mate.
  Notation down := (downpath M mate).
  Notation ok := (valid nRanks nAngles M).
  Notation sol T := (solution Backward false nRanks nAngles M T mate).

  Lemma local_valid r a c f c' f' : ok r c a -> mate (r, c, f) = Some (r, c', f') -> ok r c' a.
  Proof. intros (Hr & Hc & Ha) E. apply (sf_sym _ _ _ _ _ OK) in E. apply (sf_range _ _ _ _ _ OK) in E. destruct E as (_ & E & _). split; [|split]; auto. Qed.
  (** The steps of a path visit different cells. *)
  Lemma path_cells : exists lvl : nat -> nat -> nat -> nat,
    (forall a r c q c', a < nAngles -> upwind Backward false nRanks M mate a (q, c') (r, c) -> lvl q c' a < lvl r c a) /\
    forall r a c k, ok r c a -> down r a c k -> exists l, NoDup l /\ k <= length l /\ forall d, In d l -> d < rm_nCells (M r) /\ lvl r d a <= lvl r c a.
  Proof.
    destruct AC as (lvl & LV). exists lvl. split; [exact LV|]. intros r a c k VA H. induction H as [c|c f c' f' k Hf Hm Ho H IH|c f q c' f' Hf Hm NE Ho].
    - exists []. split; [constructor|]. split; [cbn; lia|intros d []].
    - destruct (IH (local_valid r a c f c' f' VA Hm)) as (l & ND & LE & IN). exists (c :: l). pose proof VA as (Hr & Hc & Ha).
      assert (LT : lvl r c' a < lvl r c a) by (apply LV; auto; split; [auto|]; split; [auto|]; exists f, f'; auto).
      split; [constructor; auto; intros HI; apply IN in HI; lia|]. split; [cbn; lia|]. intros d [<-|HI]; [split; auto|]. apply IN in HI. lia.
    - exists [c]. destruct VA as (Hr & Hc & Ha). split; [repeat constructor; intros []|]. split; [cbn; lia|]. intros d [<-|[]]. split; auto.
  Qed.
  Lemma path_bound r a c k : ok r c a -> down r a c k -> (N.of_nat k < two64)%N.
  Proof.
    intros VA H. destruct path_cells as (lvl & _ & PC). destruct (PC r a c k VA H) as (l & ND & LE & IN). pose proof VA as (Hr & Hc & Ha).
    pose proof (sf_size _ _ _ _ _ OK r Hr) as SZ.
    assert (LL : length l <= rm_nCells (M r)). { rewrite <- (seq_length (rm_nCells (M r)) 0). apply NoDup_incl_length; auto. intros d Hd. apply in_seq. apply IN in Hd. lia. }
    assert (N.of_nat k <= N.of_nat nAngles * N.of_nat (rm_nCells (M r)))%N; [|lia].
    destruct nAngles as [|n]; [lia|]. apply N.le_trans with (1 * N.of_nat (rm_nCells (M r)))%N; [lia|]. apply N.mul_le_mono_r. lia.
  Qed.
  Lemma blevel_longest val : sol bLevelData zeroSides val -> forall r c a, ok r c a -> longest (down r a c) (N.to_nat (val r c a)).
  Proof.
    intros SO. destruct path_cells as (lvl & LV & _). intros r c a. remember (lvl r c a) as n eqn:En. revert c En. induction n as [n IH] using lt_wf_ind. intros c En VA.
    pose proof VA as (Hr & Hc & Ha). rewrite (SO r c a VA). cbn [td_update bLevelData]. unfold bLevelUpdate. set (l := map (seen Backward false M bLevelData mate val zeroSides r c a) (seq 0 4)).
    destruct (bfold l 0%N) as (_ & B2 & B3).
    assert (LOC : forall f c' f', f < 4 -> mate (r, c, f) = Some (r, c', f') -> rm_out (M r) a c f = true -> longest (down r a c') (N.to_nat (val r c' a)) /\ In (Some (true, val r c' a)) l /\ w64 (val r c' a + 1) = (val r c' a + 1)%N).
    { intros f c' f' Hf Hm Ho. assert (L : longest (down r a c') (N.to_nat (val r c' a))).
      { apply (IH (lvl r c' a)); auto; [|eapply local_valid; eauto]. rewrite En. apply LV; auto. split; [auto|]. split; [auto|]. exists f, f'. auto. }
      split; [exact L|]. split.
      - unfold l. apply in_map_iff. exists f. split; [|apply in_seq; lia]. unfold seen, isIncoming. rewrite Ho, Hm, Nat.eqb_refl. reflexivity.
      - apply w64_small. destruct L as (L & _). pose proof (path_bound r a c (S (N.to_nat (val r c' a))) VA ltac:(eapply dp_local; eauto)) as B. lia. }
    assert (REM : forall f q c' f', f < 4 -> mate (r, c, f) = Some (q, c', f') -> q <> r -> rm_out (M r) a c f = true -> In (Some (false, 0%N)) l).
    { intros f q c' f' Hf Hm NE Ho. unfold l. apply in_map_iff. exists f. split; [|apply in_seq; lia]. unfold seen, isIncoming. rewrite Ho, Hm. apply Nat.eqb_neq in NE. rewrite NE. reflexivity. }
    split.
    - destruct B3 as [E|(t & x & HI & E)]; rewrite E; [constructor|]. unfold l in HI. apply in_map_iff in HI. destruct HI as (f & ES & Hf). apply in_seq in Hf.
      unfold seen, isIncoming in ES. destruct (rm_out (M r) a c f) eqn:Ho; [|discriminate]. destruct (mate (r, c, f)) as [[[q c'] f']|] eqn:Hm; [|discriminate].
      destruct (Nat.eqb_spec q r) as [->|NE].
      + cbn in ES. injection ES as _ <-. destruct (LOC f c' f' ltac:(lia) Hm Ho) as ((L & _) & _ & W). rewrite W. rewrite N2Nat.inj_add. change (N.to_nat 1) with 1. rewrite Nat.add_1_r. exact (dp_local M mate r a c f c' f' _ (proj2 Hf) Hm Ho L).
      + cbn in ES. injection ES as _ <-. change (w64 (0 + 1)) with 1%N. exact (dp_leave M mate r a c f q c' f' (proj2 Hf) Hm NE Ho).
    - intros k H. inversion H as [d|d f c' f' k' Hf Hm Ho H'|d f q c' f' Hf Hm NE Ho]; subst.
      + lia.
      + destruct (LOC f c' f' Hf Hm Ho) as ((_ & L) & HI & W). specialize (B2 _ _ HI). rewrite W in B2. specialize (L k' H'). lia.
      + specialize (B2 _ _ (REM f q c' f' Hf Hm NE Ho)). change (w64 (0 + 1)) with 1%N in B2. lia.
  Qed.

  (** Unique solutions. *)
  Lemma backward_unique (T : tdata N input) val val' : sol T zeroSides val -> sol T zeroSides val' -> forall r c a, ok r c a -> val r c a = val' r c a.
  Proof. intros S1 S2 r c a VA. exact (solution_unique _ _ _ _ _ _ _ OK zeroSides val val' AC S1 S2 r c a VA). Qed.
  (** BFDS: nothing but zeros. *)
  Lemma bfds_zero val : sol (neighborData 1 0 0) zeroSides val -> forall r c a, ok r c a -> val r c a = 0%N.
  Proof.
    intros SO. apply (backward_unique (neighborData 1 0 0) val (fun _ _ _ => 0%N) SO). intros r c a VA. symmetry. cbn [td_update neighborData]. unfold neighborUpdate.
    apply N.le_0_r. apply nfold_le; [lia|]. intros x HI. apply in_map_iff in HI. destruct HI as (f & <- & _). unfold seen. destruct (isIncoming _ _ _ _ _); [|cbn; lia].
    destruct (mate (r, c, f)) as [[[q c'] f']|]; [|cbn; lia]. destruct (q =? r); cbn; lia.
  Qed.
  Lemma scale_irrelevant s1 s2 h p val : sol (neighborData s1 h p) zeroSides val -> sol (neighborData s2 h p) zeroSides val.
  Proof.
    intros SO r c a VA. rewrite (SO r c a VA) at 1. cbn [td_update neighborData]. unfold neighborUpdate.
    assert (E : map (seen Backward false M (neighborData s1 h p) mate val zeroSides r c a) (seq 0 4) = map (seen Backward false M (neighborData s2 h p) mate val zeroSides r c a) (seq 0 4)).
    { apply map_ext. intros f. unfold seen. destruct (isIncoming _ _ _ _ _); auto. }
    rewrite E. apply nfold_ext. intros x HI q. apply in_map_iff in HI. destruct HI as (f & <- & _). unfold seen. destruct (isIncoming _ _ _ _ _); [|reflexivity].
    destruct (mate (r, c, f)) as [[[q' c'] f']|]; [|reflexivity]. destruct (q' =? r); [reflexivity|]. unfold zeroSides, neighborStep. now rewrite !N.mul_0_l.
  Qed.
  (** The parent of a cell without downwind cells gets 2^64 - 1. *)
  Lemma wrap s h val : sol (neighborData s h minusOne) zeroSides val -> forall r c a f c' f', ok r c a -> f < 4 ->
    mate (r, c, f) = Some (r, c', f') -> rm_out (M r) a c f = true ->
    (forall g, g < 4 -> rm_out (M r) a c' g = true -> mate (r, c', g) = None) -> val r c' a = 0%N /\ val r c a = UINT64_MAX.
  Proof.
    intros SO r c a f c' f' VA Hf Hm Ho EX. pose proof (local_valid r a c f c' f' VA Hm) as VA'.
    assert (Z : val r c' a = 0%N).
    { rewrite (SO r c' a VA'). cbn [td_update neighborData]. unfold neighborUpdate. apply N.le_0_r. apply nfold_le; [lia|]. intros x HI. apply in_map_iff in HI. destruct HI as (g & <- & Hg). apply in_seq in Hg.
      unfold seen, isIncoming. destruct (rm_out (M r) a c' g) eqn:Hog; [|cbn; lia]. rewrite EX by (auto; lia). cbn. lia. }
    split; [exact Z|]. rewrite (SO r c a VA). cbn [td_update neighborData]. unfold neighborUpdate.
    apply N.le_antisymm.
    - apply nfold_le; [vm_compute; discriminate|]. intros x _. assert (B : forall n, (w64 n <= UINT64_MAX)%N) by (intros n; unfold w64; pose proof (N.mod_lt n two64 ltac:(discriminate)) as L; unfold two64, UINT64_MAX in *; lia).
      unfold neighborStep. destruct x as [[[|] x]|]; rewrite ?N.max_0_l; auto. vm_compute. discriminate.
    - eapply N.le_trans; [|apply nfold_max with (x := Some (true, 0%N))]; [vm_compute; discriminate|]. apply in_map_iff. exists f. split; [|apply in_seq; lia].
      unfold seen, isIncoming. rewrite Ho, Hm, Nat.eqb_refl. cbn. now rewrite Z.
  Qed.
End Levels.

(** ** The largest b-level *)
Lemma max_fold (X : Type) (h : X -> N) l m : (m <= fold_left (fun m x => N.max m (h x)) l m)%N /\ (forall x, In x l -> (h x <= fold_left (fun m x => N.max m (h x)) l m)%N) /\
  (fold_left (fun m x => N.max m (h x)) l m = m \/ exists x, In x l /\ fold_left (fun m x => N.max m (h x)) l m = h x).
Proof.
  revert m. induction l as [|y l IH]; intros m; cbn [fold_left]; [split; [lia|]; split; [intros x []|now left]|].
  destruct (IH (N.max m (h y))) as (I1 & I2 & I3). split; [lia|]. split.
  - intros x [->|HI]; [lia|auto].
  - destruct I3 as [I3|(x & HI & I3)]; [|right; exists x; split; [now right|auto]]. rewrite I3. destruct (N.max_spec m (h y)) as [(_ & E)|(_ & E)]; [right; exists y; split; [now left|auto]|now left].
Qed.
Lemma max_blevel nRanks nAngles nCells b : (forall r c a, r < nRanks -> c < nCells r -> a < nAngles -> (b r c a <= maxBLevel nRanks nAngles nCells b)%N) /\
  (maxBLevel nRanks nAngles nCells b = 0%N \/ exists r c a, r < nRanks /\ c < nCells r /\ a < nAngles /\ maxBLevel nRanks nAngles nCells b = b r c a).
Proof.
  unfold maxBLevel. set (l := flat_map _ _).
  assert (IN : forall r c a, In (r, c, a) l <-> r < nRanks /\ c < nCells r /\ a < nAngles).
  { intros r c a. unfold l. rewrite in_flat_map. split.
    - intros (r' & Hr & HI). apply in_map_iff in HI. destruct HI as ([c' a'] & E & HI). cbn [fst snd] in E. injection E as -> -> ->. apply in_prod_iff in HI. destruct HI as (HI & HA). apply in_seq in HI, HA, Hr. lia.
    - intros (Hr & Hc & Ha). exists r. split; [apply in_seq; lia|]. apply in_map_iff. exists (c, a). split; auto. apply in_prod_iff. rewrite !in_seq. lia. }
  assert (E : fold_left (fun m x => let '(r, c, a) := x in N.max m (b r c a)) l 0%N = fold_left (fun m x => N.max m ((fun x => b (fst (fst x)) (snd (fst x)) (snd x)) x)) l 0%N).
  { generalize 0%N. clear. induction l as [|[[r c] a] l IH]; intros m; [reflexivity|]. cbn [fold_left fst snd]. apply IH. }
  rewrite E. destruct (max_fold _ (fun x => b (fst (fst x)) (snd (fst x)) (snd x)) l 0%N) as (_ & M2 & M3). split.
  - intros r c a Hr Hc Ha. apply (M2 (r, c, a)). apply IN. auto.
  - destruct M3 as [->|([[r c] a] & HI & ->)]; [now left|]. right. apply IN in HI. exists r, c, a. cbn. repeat split; tauto.
Qed.

(** ** Angles *)
Section Angles.
  Local Open Scope N_scope.
  Variables (nAngles nCells : nat) (L C : N) (p : nat -> nat -> N).
  Hypothesis OV : N.of_nat nAngles * L * C <= two64.
  Hypothesis SMALL : forall c a, (c < nCells)%nat -> (a < nAngles)%nat -> p c a < L * C.
  Lemma offset_exact k : (k < nAngles)%nat -> offset k L C = N.of_nat k * L * C /\ N.of_nat (S k) * L * C <= two64.
  Proof.
    intros Hk. assert (B : N.of_nat (S k) * L * C <= two64). { eapply N.le_trans; [|exact OV]. apply N.mul_le_mono_r, N.mul_le_mono_r. lia. }
    split; [|exact B]. unfold offset. destruct (N.eq_dec C 0) as [->|NC]; [rewrite !N.mul_0_r; reflexivity|]. destruct (N.eq_dec L 0) as [->|NL]; [rewrite !N.mul_0_r; reflexivity|].
    assert (B1 : N.of_nat k * L * C < two64). { eapply N.lt_le_trans; [|exact B]. apply N.mul_lt_mono_pos_r; [lia|]. apply N.mul_lt_mono_pos_r; lia. }
    assert (B2 : N.of_nat k * L < two64). { eapply N.le_lt_trans; [|exact B1]. rewrite <- (N.mul_1_r (N.of_nat k * L)) at 1. apply N.mul_le_mono_l. lia. }
    now rewrite (w64_small (N.of_nat k * L)), w64_small.
  Qed.
  Lemma sum_exact c a k : (c < nCells)%nat -> (a < nAngles)%nat -> (k < nAngles)%nat -> w64 (p c a + offset k L C) = p c a + N.of_nat k * L * C.
  Proof.
    intros Hc Ha Hk. destruct (offset_exact k Hk) as (-> & B). apply w64_small. specialize (SMALL c a Hc Ha). rewrite Nat2N.inj_succ, N.mul_succ_l, N.mul_add_distr_r in B. lia.
  Qed.
  Lemma block_order k k' x y : (k < k')%nat -> x < L * C -> x + N.of_nat k * L * C < y + N.of_nat k' * L * C.
  Proof.
    intros H Hx. assert (N.of_nat (S k) * L * C <= N.of_nat k' * L * C) by (apply N.mul_le_mono_r, N.mul_le_mono_r; lia). rewrite Nat2N.inj_succ, N.mul_succ_l, N.mul_add_distr_r in H0. lia.
  Qed.
  (** Locally prioritized: the k-th angle in increasing order gets block k. *)
  Lemma local_block l : forall o q, (length l + o <= nAngles)%nat -> NoDup (map snd l) ->
    (forall j h a, nth_error l j = Some (h, a) -> forall c, localLoop nAngles o L C l q c a = w64 (q c a + offset (nAngles - S (o + j)) L C)) /\
    (forall a, ~ In a (map snd l) -> forall c, localLoop nAngles o L C l q c a = q c a).
  Proof.
    induction l as [|[h a] l IH]; intros o q Hl ND; cbn [localLoop].
    - split; [intros j h a E; destruct j; discriminate|auto].
    - cbn [map snd] in ND. apply NoDup_cons_iff in ND. destruct ND as (NI & ND). cbn [length] in Hl.
      set (q' := fun c b => if (b =? a)%nat then w64 (q c b + offset (nAngles - S o) L C) else q c b). destruct (IH (S o) q' ltac:(lia) ND) as (I1 & I2). split.
      + intros [|j] h' a' E c; cbn [nth_error] in E.
        * apply Some_inj in E. injection E as -> ->. rewrite I2 by auto. unfold q'. rewrite Nat.eqb_refl, Nat.add_0_r. reflexivity.
        * rewrite (I1 j h' a' E c). unfold q'. destruct (Nat.eqb_spec a' a) as [->|NE]; [|do 3 f_equal; lia]. exfalso. apply NI. apply in_map_iff. exists (h', a). split; auto. eapply nth_error_In; eauto.
      + intros b Hb c. cbn [map snd In] in Hb. rewrite I2 by tauto. unfold q'. destruct (Nat.eqb_spec b a) as [->|NE]; [tauto|reflexivity].
  Qed.
End Angles.
