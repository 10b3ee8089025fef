(** C88: what the options of a precomputed schedule do. *)
From Coq Require Import Permutation Sorted.
From Verif Require Import Prelude MeshModel TraverseModel TraverseSpec TraverseInv TraverseProofs TraverseTerm TraverseCases PriorityModel PriorityProofs ScheduleModel ScheduleSpec ScheduleProofs ScheduleLevels PropertiesSchedule PropertiesPriority ConstructModel ConstructProofs.

(** [later]: entry (k', j) of a rank comes after entry (k, i). *)
Definition later (k i k' j : nat) : Prop := k < k' \/ k = k' /\ i < j.


Definition exactDouble : N := 9007199254740992.   (* 2^53 *)
Lemma nlevels_ub nRanks M angles (S : nat -> srank (X:=levels)) r a c : r < nRanks -> a < length angles -> c < rm_nCells (M r) -> (N.of_nat (fst (s_x (S r)) a c) <= calcNlevels nRanks M angles S)%N.
Proof.
  intros Hr Ha Hc. unfold calcNlevels. match goal with |- (_ <= N.of_nat (list_max ?l))%N => pose proof (proj1 (list_max_le l (list_max l)) (le_n _)) as F; rewrite Forall_forall in F; cut (In (fst (s_x (S r)) a c) l); [intros I; specialize (F _ I); clear - F; lia|] end.
  apply in_flat_map. exists r. split; [apply in_seq; lia|]. apply in_flat_map. exists a. split; [apply in_seq; unfold nAng; lia|]. apply in_map_iff. exists c. split; [reflexivity|apply in_seq; lia].
Qed.
Lemma nlevels_lub nRanks M angles (S : nat -> srank (X:=levels)) K : (forall r a c, r < nRanks -> a < length angles -> c < rm_nCells (M r) -> fst (s_x (S r)) a c <= K) -> (calcNlevels nRanks M angles S <= N.of_nat K)%N.
Proof.
  intros H. unfold calcNlevels. match goal with |- (N.of_nat (list_max ?l) <= _)%N => cut (list_max l <= K); [lia|] end. apply list_max_le. apply Forall_forall. intros v I.
  apply in_flat_map in I. destruct I as (r & Ir & I). apply in_flat_map in I. destruct I as (a & Ia & I). apply in_map_iff in I. destruct I as (c & <- & Ic). apply in_seq in Ir, Ia, Ic. apply H; unfold nAng in *; lia.
Qed.
Lemma local_value nAngles nCells L C p sorted : (N.of_nat nAngles * L * C <= two64)%N -> (forall c a, c < nCells -> a < nAngles -> (p c a < L * C)%N) ->
  Permutation (map snd sorted) (seq 0 nAngles) -> forall e, e < nAngles -> exists i, i < nAngles /\ forall c, c < nCells -> localAngles nAngles L C sorted p c e = (p c e + N.of_nat i * L * C)%N.
Proof.
  intros OV SM MS e He. assert (LEN : length sorted = nAngles) by (rewrite <- (map_length snd), (Permutation_length MS), seq_length; reflexivity).
  assert (ND : NoDup (map snd (rev sorted))). { rewrite map_rev. apply (Permutation_NoDup (l := seq 0 nAngles)); [rewrite <- Permutation_rev; now symmetry|apply seq_NoDup]. }
  destruct (local_block nAngles nCells L C p OV SM (rev sorted) 0 p) as (LB & _); [rewrite rev_length; lia|exact ND|].
  assert (HI : In e (map snd sorted)) by (apply (Permutation_in _ (Permutation_sym MS)), in_seq; lia). apply in_map_iff in HI. destruct HI as ([h e'] & Ee & HI). cbn in Ee. subst e'.
  apply In_nth_error in HI. destruct HI as (i & Ei). assert (Hi : i < nAngles) by (rewrite <- LEN; apply nth_error_Some; congruence). exists i. split; [auto|]. intros c' Hc'.
  assert (ER : nth_error (rev sorted) (nAngles - S i) = Some (h, e)).
  { rewrite (nth_error_nth' _ (0%N, 0)) by (rewrite rev_length; lia). rewrite rev_nth by lia. rewrite LEN. replace (nAngles - S (nAngles - S i)) with i by lia.
    rewrite (nth_error_nth _ _ _ Ei). reflexivity. }
  unfold localAngles. rewrite (LB _ _ _ ER c'). replace (nAngles - S (0 + (nAngles - S i))) with i by lia. now apply (sum_exact nAngles nCells L C p OV SM).
Qed.
Lemma sumr_two n f r q : r < n -> q < n -> r <> q -> f r + f q <= sumr n f.
Proof.
  assert (O : forall n r, r < n -> f r <= sumr n f). { clear. induction n as [|n IH]; intros r H; [lia|]. rewrite sumr_S. destruct (Nat.eq_dec r n) as [->|]; [lia|]. specialize (IH r ltac:(lia)). lia. }
  induction n as [|n IH]; intros Hr Hq N; [lia|]. rewrite sumr_S. destruct (Nat.eq_dec r n) as [->|]; [pose proof (O n q ltac:(lia)); lia|]. destruct (Nat.eq_dec q n) as [->|]; [pose proof (O n r ltac:(lia)); lia|]. specialize (IH ltac:(lia) ltac:(lia) N). lia.
Qed.
Lemma sumr_one n f r : r < n -> f r <= sumr n f.
Proof. induction n as [|n IH]; intros H; [lia|]. rewrite sumr_S. destruct (Nat.eq_dec r n) as [->|]; [lia|]. specialize (IH ltac:(lia)). lia. Qed.

Lemma prod_ge a k c : (1 <= a -> 1 <= k -> c <= a * k * c)%N.
Proof. intros Ha Hk. assert (1 <= a * k)%N by nia. nia. Qed.
Lemma prod_le a k k' c : (k <= k' -> a * k * c <= a * k' * c)%N.
Proof. intros H. apply N.mul_le_mono_r. now apply N.mul_le_mono_l. Qed.
Lemma round_exact p : (p < exactDouble)%N -> roundDouble p = p.
Proof. intros H. unfold roundDouble. unfold exactDouble in H. apply N.ltb_lt in H. rewrite H. reflexivity. Qed.
Lemma high_lt nC p a B : (0 < B)%N -> (forall c, c < nC -> (p c a < B)%N) -> (highPriority nC p a < B)%N.
Proof.
  intros HB H. unfold highPriority. assert (K : forall l h, (forall c, In c l -> c < nC) -> (h < B)%N -> (fold_left (fun h cell => N.max h (p cell a)) l h < B)%N).
  { induction l as [|c l IH]; intros h Hl Hh; cbn [fold_left]; [auto|]. apply IH; [intros; apply Hl; now right|]. pose proof (H c (Hl c (or_introl eq_refl))). lia. }
  apply K; [|auto]. intros c I. apply in_seq in I. lia.
Qed.
Lemma w64_le x : (w64 x <= x)%N.
Proof. unfold w64. apply N.mod_le. discriminate. Qed.
Lemma intra_1 nRanks M angles over under mx (S : nat -> srank (X:=levels)) r p : intra nRanks M angles over under mx S r 1 p -> p = fun a c => N.of_nat (fst (s_x (S r)) a c).
Proof. inversion 1; [reflexivity|]. match goal with H : (4 < _)%N |- _ => exfalso; clear - H; lia end. Qed.
Lemma inter_0 nRanks M angles nl r o p q : inter nRanks M angles nl r o p q -> o <> 1%N -> o <> 2%N -> q = p.
Proof. inversion 1; congruence. Qed.
Lemma inter_1 nRanks M angles nl r p q : inter nRanks M angles nl r 1 p q -> q = fun a c => globalAngles nl (totalCells nRanks M) (fun c a => p a c) c a.
Proof. inversion 1; congruence. Qed.
Lemma inter_2 nRanks M angles nl r p q : inter nRanks M angles nl r 2 p q -> exists sorted, Permutation sorted (map (fun a => (roundDouble (highPriority (rm_nCells (M r)) (fun c a => p a c) a), a)) (seq 0 (nAng angles))) /\ StronglySorted lex sorted /\
  q = fun a c => localAngles (nAng angles) nl (totalCells nRanks M) sorted (fun c a => p a c) c a.
Proof. inversion 1; [|congruence]. eauto. Qed.

(** A sort. *)
Definition lexb (x y : N * nat) : bool := (fst x <? fst y)%N || (fst x =? fst y)%N && (snd x <? snd y).
Fixpoint ins (x : N * nat) (l : list (N * nat)) : list (N * nat) := match l with [] => [x] | y :: l' => if lexb x y then x :: l else y :: ins x l' end.
Definition isort (l : list (N * nat)) : list (N * nat) := fold_right ins [] l.
Lemma ins_perm x l : Permutation (ins x l) (x :: l).
Proof. induction l as [|y l IH]; cbn; [reflexivity|]. destruct (lexb x y); [reflexivity|]. rewrite IH. apply perm_swap. Qed.
Lemma isort_perm l : Permutation (isort l) l.
Proof. induction l as [|x l IH]; cbn; [reflexivity|]. rewrite ins_perm. now rewrite IH. Qed.
Lemma lexb_true x y : lexb x y = true -> lex x y.
Proof. unfold lexb, lex. intros H. apply orb_true_iff in H. destruct H as [H|H]; [left; now apply N.ltb_lt|]. apply andb_true_iff in H. destruct H as [A B]. right. split; [now apply N.eqb_eq|now apply Nat.ltb_lt]. Qed.
Lemma lexb_false x y : lexb x y = false -> snd x <> snd y -> lex y x.
Proof.
  unfold lexb, lex. intros H NE. apply orb_false_iff in H. destruct H as [A B]. apply N.ltb_ge in A. destruct (N.eqb_spec (fst x) (fst y)) as [E|E]; [|left; lia]. cbn in B. apply Nat.ltb_ge in B. right. split; [auto|lia].
Qed.
Lemma lex_trans x y z : lex x y -> lex y z -> lex x z.
Proof. unfold lex. intros A B. lia. Qed.
Lemma ins_sorted x l : (forall y, In y l -> snd x <> snd y) -> StronglySorted lex l -> StronglySorted lex (ins x l).
Proof.
  intros NE H. induction H as [|y l HS IH F]; cbn; [repeat constructor|]. destruct (lexb x y) eqn:E.
  - apply lexb_true in E. constructor; [constructor; auto|]. constructor; [auto|]. eapply Forall_impl; [|exact F]. intros z. now apply lex_trans.
  - apply lexb_false in E; [|apply NE; now left]. constructor; [apply IH; intros; apply NE; now right|]. eapply Permutation_Forall; [symmetry; apply ins_perm|]. constructor; auto.
Qed.
Lemma isort_sorted l : NoDup (map snd l) -> StronglySorted lex (isort l).
Proof.
  induction l as [|x l IH]; cbn; intros H; [constructor|]. inversion H as [|? ? NI ND]; subst. apply ins_sorted; [|auto]. intros y I E. apply NI. rewrite E. apply in_map. apply (Permutation_in _ (isort_perm l)), I.
Qed.
Lemma local_le n L C c a : forall l o p, NoDup (map snd l) -> (localLoop n o L C l p c a <= p c a + (if in_dec Nat.eq_dec a (map snd l) then N.of_nat (n - 1) * (L * C) else 0))%N.
Proof.
  induction l as [|[h e] l IH]; intros o p H; [cbn; lia|]. cbn [map snd] in H. inversion H as [|? ? NI HD]; subst.
  change (localLoop n o L C ((h, e) :: l) p c a) with (localLoop n (S o) L C l (fun c a => if (a =? e)%nat then w64 (p c a + offset (n - S o) L C) else p c a) c a).
  specialize (IH (S o) (fun c a => if (a =? e)%nat then w64 (p c a + offset (n - S o) L C) else p c a) HD). cbn beta in IH. eapply N.le_trans; [exact IH|]. cbn [map snd].
  destruct (Nat.eqb_spec a e) as [->|NE].
  - destruct (in_dec Nat.eq_dec e (map snd l)) as [I|_]; [contradiction|]. destruct (in_dec Nat.eq_dec e (e :: map snd l)) as [_|NI']; [|exfalso; apply NI'; now left].
    rewrite N.add_0_r. eapply N.le_trans; [apply w64_le|]. apply N.add_le_mono_l. unfold offset. eapply N.le_trans; [apply w64_le|]. rewrite N.mul_assoc. apply N.mul_le_mono_r. eapply N.le_trans; [apply w64_le|]. apply N.mul_le_mono_r. lia.
  - destruct (in_dec Nat.eq_dec a (map snd l)) as [I|I], (in_dec Nat.eq_dec a (e :: map snd l)) as [J|J].
    + apply N.le_refl.
    + exfalso. apply J. now right.
    + apply N.add_le_mono_l, N.le_0_l.
    + apply N.le_refl.
Qed.

Section C88.
  Variables (nRanks : nat) (M : nat -> rmesh) (angles : list nat) (over under : nat -> nat -> nat -> nat -> bool) (mate : site -> option site).
  Hypothesis OK : sys_ok nRanks 0 M mate.
  Hypothesis ND : NoDup angles.
  Hypothesis SY : in_sync angles over under mate.
  Notation ang a := (nth a angles 0).
  (** When (c, g) is taken on rank [r], at entry (k, i), a neighbour from which radiation flows into cell [d] at angle [h] is not yet done: on rank [r] it comes
      at this entry or later, on another rank in this step or later. *)
  Definition not_ready (L : list (nat -> list (nat * nat))) (r k i d h : nat) : Prop :=
    exists q e kk ii, flows over mate h (q, e) (r, d) /\ scheduled L q kk ii e h /\ (k < kk \/ kk = k /\ (q = r -> i <= ii)).

  Section Order.
  Variables (prio : nat -> nat -> nat -> N) (mx : N).
  Let need := hasParent M angles over under. Let give := hasChild M angles over.
  Let Hgn := dep_sync nRanks M angles over under mate OK SY.
  Let HA : forall r c f a, need r a c f = true -> _ := parent_adj M angles over under.
  Let HB : forall r c f a, give r a c f = true -> _ := child_adj M angles over.
  Let RG L S H := run_GI nRanks M angles mate need give OK ND Hgn HA HB (fun _ _ _ _ => tt) (fun _ x _ _ _ => x) prio mx (fun _ x _ => x) (fun _ => tt) L S H.
  (** A pair that is ready is never passed over by one of lower priority. *)
  Theorem C88_respects L : ordering nRanks M angles over under prio mx L -> forall r k i c a k' j d b, r < nRanks -> a < length angles -> b < length angles ->
    scheduled L r k i c (ang a) -> scheduled L r k' j d (ang b) -> later k i k' j -> (prio r a c < prio r b d)%N -> not_ready L r k i d (ang b).
  Proof.
    intros HO r k i c a k' j d b Hr Ha Hb Hs Hs' HL Hpr. pose proof HO as (S & HR & HD).
    destruct Hs as (w & Hk & Hi). destruct (srun_at _ _ _ _ _ _ _ _ _ _ _ _ HR k w Hk) as (L1 & L2 & S1 & S2 & EL & Ek & R1 & (_ & mid & Hmid & _)).
    pose proof (Hmid r Hr) as HT. destruct (RG L1 S1 R1) as [G _]. pose proof (gi_li _ _ _ _ _ _ _ G r Hr) as LI0. pose proof (gi_closed _ _ _ _ _ _ _ G r Hr) as CL0.
    destruct (topo_ok nRanks M angles mate need give OK ND Hgn HA HB prio mx r (dnL angles L1 r) (dnL angles L1) _ _ _ _ Hr HT CL0) as (LI1 & _ & _ & _ & _ & _).
    { cbn [wvld map]. rewrite app_nil_r. exact LI0. } { intros [|? ?] ? ? E; discriminate. } { intros u []. }
    destruct (topo_from _ _ _ _ _ _ _ _ _ _ HT) as (x & Ex & F & T & F' & T'). cbn [app] in Ex.
    assert (VX : forall n e g, nth_error x n = Some (e, g) -> g < nAng angles).
    { induction n as [n IH] using lt_wf_ind. intros e g En. destruct (F n e g En) as [I|(m & e' & Hm & Em & _)]; [|now apply (IH m Hm e')]. apply (li_q _ _ _ _ _ _ _ LI0) in I. apply I. }
    assert (NX : forall n e g, g < nAng angles -> nth_error (w r) n = Some (e, ang g) -> nth_error x n = Some (e, g)).
    { intros n e g Hg En. rewrite Ex in En. rewrite nth_error_map in En. destruct (nth_error x n) as [[e' g']|] eqn:E; [|discriminate]. cbn in En. apply Some_inj in En. injection En as -> Eg.
      pose proof (VX n e g' E) as Hg'. f_equal. f_equal. rewrite <- (gl_nth angles ND g), <- (gl_nth angles ND g') by auto. congruence. }
    assert (XW : forall n e g, nth_error x n = Some (e, g) -> scheduled L r k n e (ang g)).
    { intros n e g En. exists w. split; auto. rewrite Ex, nth_error_map, En. reflexivity. }
    assert (RF : forall n e, nth_error x n = Some (e, b) -> releases M give r b e d -> flows over mate (ang b) (r, e) (r, d)).
    { intros n e En (f & Hf & Hg & Hc). destruct (ang_of nRanks M angles over under mate OK ND SY prio mx _ _ _ _ _ _ _ HR Hr (XW _ _ _ En)) as (He & _).
      rewrite (so_cell _ _ _ _ OK) in Hc by auto. destruct (mate (r, e, f)) as [[[q c'] f']|] eqn:Em; [|discriminate]. destruct (Nat.eqb_spec q r) as [->|]; [|discriminate]. injection Hc as ->.
      eapply child_flows; eauto. }
    pose proof (NX i c a Ha Hi) as Xi.
    assert (DONE : (exists n e, i <= n /\ nth_error x n = Some (e, b) /\ releases M give r b e d) -> not_ready L r k i d (ang b)).
    { intros (n & e & Hn & En & R). exists r, e, k, n. split; [eapply RF; eauto|]. split; [auto|]. right. auto. }
    destruct HL as [HL|[<- HL]].
    - destruct (in_dec (fun u v : nat * nat => ltac:(decide equality; apply Nat.eq_dec) : {u = v} + {u <> v}) (d, b) (snd (mid r))) as [I|I]; [apply DONE; eapply T'; eauto|].
      destruct (ang_of nRanks M angles over under mate OK ND SY prio mx _ _ _ _ _ _ _ HR Hr Hs') as (Hd & _).
      (* The pair is not yet done. *)
      destruct (RG L S HR) as [GL _]. pose proof (gi_nodup _ _ _ _ _ _ _ GL r Hr) as NDL. rewrite dnL_map in NDL. apply NoDup_map_inv in NDL.
      assert (LATE : forall q e n m, q < nRanks -> scheduled L q n m e (ang b) -> (In (e, b) (dnL angles L1 q) -> n < k) /\ (q = r -> In (e, b) (wvld angles r (w r)) -> n = k)).
      { intros q e n m Hq Hn. destruct (RG L S HR) as [GL' _]. pose proof (gi_nodup _ _ _ _ _ _ _ GL' q Hq) as NDq. rewrite dnL_map in NDq. apply NoDup_map_inv in NDq. split.
        - intros In1. rewrite dnL_map in In1. apply in_map_iff in In1. destruct In1 as ([c1 g1] & E & Hin). cbn [fst snd] in E. injection E as -> E. apply in_concat_pos in Hin. destruct Hin as (n' & m' & w' & Hn' & Hm'). cbn [fst snd] in Hm'.
          assert (Ln : n' < k) by (rewrite <- Ek; apply nth_error_Some; congruence). assert (Hn2 : nth_error L n' = Some w') by (rewrite EL, nth_error_app1; auto; lia).
          destruct (ang_of nRanks M angles over under mate OK ND SY prio mx L S q n' m' e g1 HR Hq) as (_ & a' & Ha' & Eg1); [exists w'; auto|]. rewrite Eg1 in *. rewrite gl_nth in E by auto. subst a'.
          destruct (pos_unique L q NDq n m n' m' e (ang b)) as [-> _]; auto. exists w'; auto.
        - intros -> In1. unfold wvld in In1. apply in_map_iff in In1. destruct In1 as ([c1 g1] & E & Hin). cbn [fst snd] in E. injection E as -> E. apply In_nth_error in Hin. destruct Hin as [m' Hm'].
          destruct (ang_of nRanks M angles over under mate OK ND SY prio mx L S r k m' e g1 HR Hr) as (_ & a' & Ha' & Eg1); [exists w; auto|]. rewrite Eg1 in *. rewrite gl_nth in E by auto. subst a'.
          destruct (pos_unique L r NDL n m k m' e (ang b)) as [-> _]; auto. }
      assert (U : exists f, f < 4 /\ unsat need r (satF mate r (dnL angles L1 r ++ wvld angles r (w r)) (dnL angles L1)) d b f = true).
      { destruct (existsb (fun f => unsat need r (satF mate r (dnL angles L1 r ++ wvld angles r (w r)) (dnL angles L1)) d b f) (seq 0 4)) eqn:EX.
        - apply existsb_exists in EX. destruct EX as (f & If & Uf). apply in_seq in If. exists f. split; [lia|auto].
        - exfalso. apply I. apply (li_q _ _ _ _ _ _ _ LI1). split; [split; auto|]. split.
          + intros J. apply in_app_or in J. destruct (LATE r d k' j Hr Hs') as [A B]. destruct J as [J|J]; [apply A in J; lia|apply B in J; [lia|auto]].
          + intros f Hf. cbn [fst snd]. apply not_true_iff_false. intros Uf. apply not_true_iff_false in EX. apply EX. apply existsb_exists. exists f. split; [apply in_seq; lia|exact Uf]. }
      destruct U as (f & Hf & U). unfold unsat in U. apply andb_true_iff in U. destruct U as [Un Us]. apply negb_true_iff in Us. unfold satF in Us.
      destruct (mate (r, d, f)) as [[[q e] f']|] eqn:Em; [|exfalso; apply HA in Un; apply Un; rewrite (so_rank _ _ _ _ OK) by auto; now rewrite Em]. pose proof (so_sym _ _ _ _ OK _ _ Em) as Em'. destruct (mrange _ _ _ OK _ _ _ _ _ _ Em') as ((Hq & _) & _).
      assert (FL : flows over mate (ang b) (q, e) (r, d)).
      { eapply child_flows; eauto. }
      destruct (C38_order nRanks M angles over under mate OK ND SY prio mx L HO r k' j d (ang b) q e Hr Hs' FL) as (kk & ii & Hs2 & _).
      exists q, e, kk, ii. split; [exact FL|]. split; [exact Hs2|].
      assert (OUT : forall p, p = q -> ~ In (e, b) (dnL angles L1 p) -> k <= kk).
      { intros p -> J. destruct (Nat.lt_ge_cases kk k) as [Hkk|Hkk]; [|auto]. exfalso. apply J. rewrite dnL_map. apply in_map_iff. exists (e, ang b). cbn [fst snd]. rewrite gl_nth by auto. split; [reflexivity|].
        apply in_concat_pos. exists kk, ii. destruct Hs2 as (w' & A & B). exists w'. split; auto. rewrite EL, nth_error_app1 in A by lia. auto. }
      destruct (Nat.eqb_spec q r) as [->|Hqr].
      + left. assert (J : ~ In (e, b) (dnL angles L1 r ++ wvld angles r (w r))) by (intros J; apply mem2_In in J; congruence).
        assert (k <= kk) by (apply (OUT r eq_refl); intros J'; apply J; apply in_or_app; auto). destruct (Nat.eq_dec kk k) as [->|]; [|lia]. exfalso. apply J. apply in_or_app. right.
        destruct Hs2 as (w' & A & B). assert (w' = w) by congruence. subst w'. unfold wvld. apply in_map_iff. exists (e, ang b). cbn [fst snd]. rewrite gl_nth by auto. split; [reflexivity|]. eapply nth_error_In; eauto.
      + assert (J : ~ In (e, b) (dnL angles L1 q)) by (intros J; apply mem2_In in J; congruence). apply (OUT q eq_refl) in J. destruct (Nat.eq_dec kk k) as [->|]; [right; split; [auto|congruence]|left; lia].
    - destruct Hs' as (w' & Hk' & Hj). assert (w' = w) by congruence. subst w'. pose proof (NX j d b Hb Hj) as Xj. destruct (T i j c a d b HL Xi Xj Hpr) as (n & e & Hn & En & R). apply DONE. exists n, e. split; [lia|auto].
  Qed.
  End Order.

  Notation constructed := (constructed nRanks M angles over under).
  Notation longest := (longest_downwind over mate).
  (** Whatever the options are: every pair exactly once, and after its upwind neighbours. *)
  Theorem C88_schedule mx o1 o2 L : constructed mx o1 o2 L -> no_cycle over mate angles -> forall r, r < nRanks ->
    (forall c g, c < rm_nCells (M r) -> In g angles -> exists k i, scheduled L r k i c g) /\
    (forall k i k' i' c g, scheduled L r k i c g -> scheduled L r k' i' c g -> k = k' /\ i = i') /\
    forall k i c g q c', scheduled L r k i c g -> flows over mate g (q, c') (r, c) -> exists k' i', scheduled L q k' i' c' g /\ (k' < k \/ q = r /\ later k' i' k i).
  Proof.
    intros (S & p & q & prio & _ & _ & _ & _ & HO) AC r Hr. destruct (C38_once nRanks M angles over under mate OK ND SY prio mx L AC HO r Hr) as (A & B & _). split; [exact A|]. split; [exact B|].
    intros k i c g q' c' Hs Hf. destruct (C38_order nRanks M angles over under mate OK ND SY prio mx L HO r k i c g q' c' Hr Hs Hf) as (k' & i' & Hs' & K). exists k', i'. split; [exact Hs'|].
    destruct K as [K|(-> & -> & K)]; [auto|right; split; [auto|right; auto]].
  Qed.
  Lemma longest_eq g x m n : longest g x m -> longest g x n -> m = n.
  Proof. intros [A B] [C D]. apply B in C. apply D in A. lia. Qed.
  (** Intra-angle option 1, angles interleaved: of two ready pairs the one with the longer way downwind comes first. *)
  Theorem C88_levels mx o2 L : constructed mx 1 o2 L -> o2 <> 1%N -> o2 <> 2%N -> no_cycle over mate angles ->
    forall r k i c g k' j d h m n, r < nRanks -> scheduled L r k i c g -> scheduled L r k' j d h -> later k i k' j ->
    longest g (r, c) m -> longest h (r, d) n -> m < n -> (N.of_nat n < exactDouble)%N -> not_ready L r k i d h.
  Proof.
    intros (S & p & q & prio & HS & HP & HQ & HX & HO) N1 N2 AC r k i c g k' j d h m n Hr Hs Hs' HL Lm Ln Hmn Hn.
    pose proof HO as (T & HR & _). destruct (ang_of nRanks M angles over under mate OK ND SY prio mx _ _ _ _ _ _ _ HR Hr Hs) as (Hc & a & Ha & ->). destruct (ang_of nRanks M angles over under mate OK ND SY prio mx _ _ _ _ _ _ _ HR Hr Hs') as (Hd & b & Hb & ->).
    specialize (HP r Hr). specialize (HQ r Hr). apply inter_0 in HQ; auto.
    pose proof (intra_1 _ _ _ _ _ _ _ _ _ HP) as EP.
    assert (V : forall a c l, a < nAng angles -> c < rm_nCells (M r) -> longest (ang a) (r, c) l -> (N.of_nat l < exactDouble)%N -> prio r a c = N.of_nat l).
    { intros a0 c0 l Ha0 Hc0 Hl Hb0. pose proof (HX r a0 c0 Hr Ha0 Hc0) as E. destruct (C58_levels nRanks M angles over under mate OK ND SY mx S AC HS r a0 c0 Hr Hc0 Ha0) as (LL & _). rewrite HQ, EP in E. rewrite (longest_eq _ _ _ _ LL Hl) in E.
      rewrite queue_exact in E by exact Hb0. congruence. }
    eapply (C88_respects prio mx L HO r k i c a k' j d b); eauto. rewrite (V a c m Ha Hc Lm), (V b d n Hb Hd Ln) by lia. lia.
  Qed.

  Definition cells : nat := sumr nRanks (fun r => rm_nCells (M r)).
  (** The blocks of priorities fit into the integers of a double; [K] bounds the longest ways. *)
  Definition blocks_fit : Prop := exists K, (forall g x n, In g angles -> longest g x n -> n <= K) /\ (N.of_nat (length angles) * N.of_nat K * N.of_nat cells < exactDouble)%N.
  Lemma block_facts mx S : no_cycle over mate angles -> levelled nRanks M angles over under mx S -> blocks_fit ->
    let lv r a c := N.of_nat (fst (s_x (S r)) a c) in let nl := calcNlevels nRanks M angles S in let C := totalCells nRanks M in
    (forall r a c, r < nRanks -> a < length angles -> c < rm_nCells (M r) -> (lv r a c <= nl)%N /\ longest (ang a) (r, c) (fst (s_x (S r)) a c)) /\
    (0 < length angles -> 0 < cells -> (nl < exactDouble)%N) /\
    (nl * C = nl * N.of_nat cells)%N /\ (N.of_nat (length angles) * nl * C < exactDouble)%N.
  Proof.
    intros AC HS (K & HK & HB) lv nl C.
    assert (LL : forall r a c, r < nRanks -> a < length angles -> c < rm_nCells (M r) -> longest (ang a) (r, c) (fst (s_x (S r)) a c)) by (intros r a c Hr Ha Hc; apply (C58_levels nRanks M angles over under mate OK ND SY mx S AC HS r a c Hr Hc Ha)).
    assert (NK : (nl <= N.of_nat K)%N). { apply nlevels_lub. intros r a c Hr Ha Hc. apply (HK (ang a) (r, c)); [now apply nth_In|auto]. }
    split; [intros r a c Hr Ha Hc; split; [now apply nlevels_ub|auto]|].
    assert (EC : length angles <> 0 -> (nl * C = nl * N.of_nat cells)%N).
    { intros NA. destruct (N.eq_dec nl 0) as [->|NZ]; [reflexivity|]. unfold C, totalCells. fold (sumr nRanks (fun r => rm_nCells (M r))). fold cells. rewrite w64_small; [reflexivity|]. pose proof (prod_ge (N.of_nat (length angles)) (N.of_nat K) (N.of_nat cells) ltac:(lia) ltac:(lia)). unfold exactDouble in HB. unfold two64. lia. }
    destruct (Nat.eq_dec (length angles) 0) as [E0|NA].
    - assert (nl = 0%N) as ->. { enough (nl <= N.of_nat 0)%N by lia. apply nlevels_lub. intros r a c _ Ha. lia. } split; [intros; unfold exactDouble; lia|]. split; [reflexivity|]. rewrite E0. unfold exactDouble. cbn. lia.
    - pose proof (prod_le (N.of_nat (length angles)) nl (N.of_nat K) (N.of_nat cells) NK) as PL. split; [intros _ HC|split; [auto|]].
      + pose proof (prod_ge (N.of_nat (length angles)) (N.of_nat cells) nl ltac:(lia) ltac:(lia)). replace (N.of_nat (length angles) * N.of_nat cells * nl)%N with (N.of_nat (length angles) * nl * N.of_nat cells)%N in * by ring. lia.
      + rewrite <- N.mul_assoc, EC, N.mul_assoc by auto. lia.
  Qed.
  Lemma flow_cells g y x : flows over mate g y x -> 2 <= cells.
  Proof.
    destruct y as [r c], x as [q c']. intros (f & f' & Hm & _). cbn [fst snd] in Hm. destruct (mrange _ _ _ OK _ _ _ _ _ _ Hm) as ((Hr & Hc & _) & (Hq & Hc' & _)).
    destruct (Nat.eq_dec r q) as [->|N]; [|pose proof (sumr_two nRanks (fun r => rm_nCells (M r)) r q Hr Hq N); unfold cells; cbn beta in *; lia].
    pose proof (sumr_one nRanks (fun r => rm_nCells (M r)) q Hq). cbn beta in *. unfold cells. assert (c <> c') by (intros ->; exact (so_irr _ _ _ _ OK _ _ _ _ Hm)). lia.
  Qed.
  Lemma flow_level mx S g y x : no_cycle over mate angles -> levelled nRanks M angles over under mx S -> In g angles -> flows over mate g y x -> (1 <= calcNlevels nRanks M angles S)%N.
  Proof.
    intros AC HS Ig Hf. apply In_nth with (d := 0) in Ig. destruct Ig as (a & Ha & <-). destruct y as [r c]. pose proof Hf as (f & f' & Hm & _). cbn [fst snd] in Hm. destruct (mrange _ _ _ OK _ _ _ _ _ _ Hm) as ((Hr & Hc & _) & _).
    destruct (C58_levels nRanks M angles over under mate OK ND SY mx S AC HS r a c Hr Hc Ha) as ((_ & U) & _). specialize (U 1 (dw_step _ _ _ _ _ _ Hf (dw_here _ _ _ _))). eapply N.le_trans; [|exact (nlevels_ub nRanks M angles S r a c Hr Ha Hc)]. clear - U. lia.
  Qed.
  (** Intra-angle option 1, angles prioritized globally: later angles of the list first; within an angle as before. *)
  Theorem C88_global mx L : constructed mx 1 1 L -> no_cycle over mate angles -> blocks_fit -> (exists g y x, In g angles /\ flows over mate g y x) ->
    forall r k i c a k' j d b, r < nRanks -> a < length angles -> b < length angles -> scheduled L r k i c (ang a) -> scheduled L r k' j d (ang b) -> later k i k' j ->
    a < b \/ a = b /\ (exists m n, longest (ang a) (r, c) m /\ longest (ang a) (r, d) n /\ m < n) -> not_ready L r k i d (ang b).
  Proof.
    intros (S & p & q & prio & HS & HP & HQ & HX & HO) AC BF (g0 & y0 & x0 & Ig & Fl) r k i c a k' j d b Hr Ha Hb Hs Hs' HL HC.
    pose proof HO as (T & HR & _). destruct (ang_of nRanks M angles over under mate OK ND SY prio mx _ _ _ _ _ _ _ HR Hr Hs) as (Hc & _). destruct (ang_of nRanks M angles over under mate OK ND SY prio mx _ _ _ _ _ _ _ HR Hr Hs') as (Hd & _).
    destruct (block_facts mx S AC HS BF) as (LV & _ & EC & OV). pose proof (flow_cells _ _ _ Fl) as C2. pose proof (flow_level mx S g0 y0 x0 AC HS Ig Fl) as L1.
    specialize (HP r Hr). specialize (HQ r Hr). pose proof (inter_1 _ _ _ _ _ _ _ HQ) as E2.
    pose proof (intra_1 _ _ _ _ _ _ _ _ _ HP) as EP.
    set (nl := calcNlevels nRanks M angles S) in *. set (C := totalCells nRanks M) in *. set (P := fun c a => p r a c) in *.
    assert (SM : forall c a, c < rm_nCells (M r) -> a < nAng angles -> (P c a < nl * C)%N). { intros c0 a0 Hc0 Ha0. unfold P. rewrite EP, EC. destruct (LV r a0 c0 Hr Ha0 Hc0) as (B & _). nia. }
    assert (OV' : (N.of_nat (nAng angles) * nl * C <= two64)%N) by (unfold nAng, two64 in *; unfold exactDouble in OV; lia).
    assert (V : forall a c, a < nAng angles -> c < rm_nCells (M r) -> prio r a c = globalAngles nl C P c a).
    { intros a0 c0 Ha0 Hc0. pose proof (HX r a0 c0 Hr Ha0 Hc0) as E. rewrite E2 in E. change (queuePriority (globalAngles nl C P c0 a0) = Some (prio r a0 c0)) in E. rewrite queue_exact in E; [congruence|]. unfold globalAngles. rewrite (sum_exact (nAng angles) (rm_nCells (M r)) nl C P OV' SM) by auto.
      specialize (SM c0 a0 Hc0 Ha0). unfold exactDouble in OV. unfold nAng in *. nia. }
    eapply (C88_respects prio mx L HO r k i c a k' j d b); eauto. rewrite !V by auto. destruct (C37_global (nAng angles) (rm_nCells (M r)) nl C P OV' SM c d a b Hc Hd Ha Hb) as (G1 & _).
    destruct HC as [HC|(<- & m & n & Lm & Ln & Hmn)]; [auto|]. destruct (C37_global (nAng angles) (rm_nCells (M r)) nl C P OV' SM d c a a Hd Hc Ha Ha) as (_ & G2).
    apply N.lt_nge. intros GE. apply G2 in GE. unfold P in GE. rewrite EP in GE. rewrite (longest_eq _ _ _ _ Lm (proj2 (LV r a c Hr Ha Hc))), (longest_eq _ _ _ _ Ln (proj2 (LV r a d Hr Ha Hd))) in Hmn. lia.
  Qed.
  (** The longest way from any cell of the rank. *)
  Definition farthest (r g m : nat) : Prop := (exists c, c < rm_nCells (M r) /\ longest g (r, c) m) /\ forall c n, c < rm_nCells (M r) -> longest g (r, c) n -> n <= m.
  (** Intra-angle option 1, angles prioritized locally: the angle with the longest way from the rank first, the later one of the list if they are equal; within an angle as before. *)
  Theorem C88_local mx L : constructed mx 1 2 L -> no_cycle over mate angles -> blocks_fit -> (exists g y x, In g angles /\ flows over mate g y x) ->
    forall r k i c a k' j d b, r < nRanks -> a < length angles -> b < length angles -> scheduled L r k i c (ang a) -> scheduled L r k' j d (ang b) -> later k i k' j ->
    (exists m n, farthest r (ang a) m /\ farthest r (ang b) n /\ (m < n \/ m = n /\ a < b)) \/ a = b /\ (exists m n, longest (ang a) (r, c) m /\ longest (ang a) (r, d) n /\ m < n) ->
    not_ready L r k i d (ang b).
  Proof.
    intros (S & p & q & prio & HS & HP & HQ & HX & HO) AC BF (g0 & y0 & x0 & Ig & Fl) r k i c a k' j d b Hr Ha Hb Hs Hs' HL HC.
    pose proof HO as (T & HR & _). destruct (ang_of nRanks M angles over under mate OK ND SY prio mx _ _ _ _ _ _ _ HR Hr Hs) as (Hc & _). destruct (ang_of nRanks M angles over under mate OK ND SY prio mx _ _ _ _ _ _ _ HR Hr Hs') as (Hd & _).
    destruct (block_facts mx S AC HS BF) as (LV & NL & EC & OV). pose proof (flow_cells _ _ _ Fl) as C2. pose proof (flow_level mx S g0 y0 x0 AC HS Ig Fl) as L1. specialize (NL ltac:(lia) ltac:(lia)).
    specialize (HP r Hr). specialize (HQ r Hr). destruct (inter_2 _ _ _ _ _ _ _ HQ) as (sorted & PE & SS & E2). pose proof (intra_1 _ _ _ _ _ _ _ _ _ HP) as EP.
    set (nl := calcNlevels nRanks M angles S) in *. set (C := totalCells nRanks M) in *. set (P := fun c a => p r a c) in *.
    assert (SM : forall c a, c < rm_nCells (M r) -> a < nAng angles -> (P c a < nl * C)%N). { intros c0 a0 Hc0 Ha0. unfold P. rewrite EP, EC. destruct (LV r a0 c0 Hr Ha0 Hc0) as (B & _). nia. }
    assert (OV' : (N.of_nat (nAng angles) * nl * C <= two64)%N) by (unfold nAng, two64 in *; unfold exactDouble in OV; lia).
    assert (PE' : Permutation sorted (map (fun a => (highPriority (rm_nCells (M r)) P a, a)) (seq 0 (nAng angles)))).
    { rewrite PE. apply Permutation_refl'. apply map_ext_in. intros a0 I. apply in_seq in I. f_equal. apply round_exact. apply high_lt; [unfold exactDouble; lia|]. intros c0 Hc0. destruct (LV r a0 c0 Hr ltac:(unfold nAng in *; lia) Hc0) as (B & _). unfold P. rewrite EP. lia. }
    assert (MS : Permutation (map snd sorted) (seq 0 (nAng angles))) by (rewrite (Permutation_map snd PE'), map_map; cbn; rewrite map_id; reflexivity).
    assert (V : forall a c, a < nAng angles -> c < rm_nCells (M r) -> prio r a c = localAngles (nAng angles) nl C sorted P c a).
    { intros a0 c0 Ha0 Hc0. pose proof (HX r a0 c0 Hr Ha0 Hc0) as E. rewrite E2 in E. change (queuePriority (localAngles (nAng angles) nl C sorted P c0 a0) = Some (prio r a0 c0)) in E. rewrite queue_exact in E; [congruence|].
      destruct (local_value (nAng angles) (rm_nCells (M r)) nl C P sorted OV' SM MS a0 Ha0) as (i0 & Hi0 & EV). rewrite EV by auto. specialize (SM c0 a0 Hc0 Ha0). unfold exactDouble in OV. unfold nAng in *. nia. }
    eapply (C88_respects prio mx L HO r k i c a k' j d b); eauto. rewrite !V by auto.
    destruct HC as [(m & n & Fm & Fn & HC)|(<- & m & n & Lm & Ln & Hmn)].
    - destruct (C37_local (nAng angles) (rm_nCells (M r)) nl C P sorted OV' SM PE' SS c d a b Hc Hd Ha Hb) as (G1 & _).
      assert (LG : forall e l, e < nAng angles -> farthest r (ang e) l -> largest (rm_nCells (M r)) P e (N.of_nat l)).
      { intros e l He ((c0 & Hc0 & Lc0) & U). split.
        - exists c0. split; [auto|]. unfold P. rewrite EP. f_equal. apply (longest_eq (ang e) (r, c0)); [apply LV; auto|auto].
        - intros c1 Hc1. unfold P. rewrite EP. specialize (U c1 _ Hc1 (proj2 (LV r e c1 Hr He Hc1))). lia. }
      apply (G1 _ _ (LG a m Ha Fm) (LG b n Hb Fn)). lia.
    - destruct (C37_local (nAng angles) (rm_nCells (M r)) nl C P sorted OV' SM PE' SS d c a a Hd Hc Ha Ha) as (_ & G2).
      apply N.lt_nge. intros GE. apply G2 in GE. unfold P in GE. rewrite EP in GE. rewrite (longest_eq _ _ _ _ Lm (proj2 (LV r a c Hr Ha Hc))), (longest_eq _ _ _ _ Ln (proj2 (LV r a d Hr Ha Hd))) in Hmn. lia.
  Qed.
  (** The constructor has a result. *)
  Theorem C88_ends mx o2 : (mx mod 4294967296 <> 0)%N -> no_cycle over mate angles -> blocks_fit -> exists L, constructed mx 1 o2 L.
  Proof.
    intros Hmx AC BF. destruct (C58_ends nRanks M angles over under mate OK ND SY mx Hmx) as (S & HS). destruct (block_facts mx S AC HS BF) as (LV & NL & EC & OV).
    set (p := fun r a c => N.of_nat (fst (s_x (S r)) a c)). set (nl := calcNlevels nRanks M angles S) in *. set (C := totalCells nRanks M) in *.
    set (so := fun r => map (fun a => (roundDouble (highPriority (rm_nCells (M r)) (fun c a => p r a c) a), a)) (seq 0 (nAng angles))).
    set (q := if (o2 =? 1)%N then fun r a c => globalAngles nl C (fun c a => p r a c) c a else if (o2 =? 2)%N then fun r a c => localAngles (nAng angles) nl C (isort (so r)) (fun c a => p r a c) c a else p).
    assert (SO : forall r, map snd (so r) = seq 0 (nAng angles)) by (intros r; unfold so; rewrite map_map; cbn [snd]; apply map_id).
    destruct (C38_ends nRanks M angles over under mate OK ND SY q mx Hmx) as ((L & HO) & _). exists L, S, p, q, q. split; [exact HS|]. split; [intros r Hr; apply intra_levels|]. split; [|split; [|exact HO]].
    - intros r Hr. unfold q. destruct (N.eqb_spec o2 1) as [->|N1]; [apply inter_global|]. destruct (N.eqb_spec o2 2) as [->|N2]; [|apply inter_other; auto].
      apply inter_local; [apply isort_perm|]. apply isort_sorted. rewrite SO. apply seq_NoDup.
    - intros r a c Hr Ha Hc. apply queue_exact. assert (HC : 1 <= cells) by (pose proof (sumr_one nRanks (fun r => rm_nCells (M r)) r Hr); unfold cells; cbn beta in *; lia).
      destruct (LV r a c Hr Ha Hc) as (B & _). fold (p r a c) in B. unfold nAng in Ha. specialize (NL ltac:(lia) HC).
      assert (B2 : (p r a c <= nl * C)%N) by (rewrite EC; nia). assert (K : forall n, n < length angles -> (p r a c + N.of_nat n * (nl * C) < 9007199254740992)%N).
      { intros n Hn. assert (B3 : ((N.of_nat n + 1) * (nl * C) <= N.of_nat (length angles) * (nl * C))%N) by (apply N.mul_le_mono_r; lia). unfold exactDouble in OV. rewrite <- N.mul_assoc in OV. lia. }
      unfold q. destruct (o2 =? 1)%N; [|destruct (o2 =? 2)%N; [|unfold exactDouble in NL; lia]].
      + unfold globalAngles, offset. eapply N.le_lt_trans; [apply w64_le|]. eapply N.le_lt_trans; [apply N.add_le_mono_l; eapply N.le_trans; [apply w64_le|apply N.mul_le_mono_r, w64_le]|]. rewrite <- N.mul_assoc. now apply K.
      + unfold localAngles. eapply N.le_lt_trans; [apply local_le|].
        * rewrite map_rev. apply NoDup_rev. apply (Permutation_NoDup (l := seq 0 (nAng angles))); [|apply seq_NoDup]. rewrite <- (SO r). apply Permutation_map. symmetry. apply isort_perm.
        * destruct (in_dec _ _ _) as [_|_]; [apply K; unfold nAng; lia|]. specialize (K 0 ltac:(lia)). lia.
  Qed.
End C88.

(** ** Concrete cases *)
(** Two cells on one rank; at angle 0 radiation flows from cell 0 to cell 1 and at angle 1 from cell 1 to cell 0. *)
Definition pairOver (r g c f : nat) : bool := (f =? 0) && (c =? g).
Definition pairUnder (r g c f : nat) : bool := (f =? 0) && negb (c =? g).
Lemma one_ok0 : sys_ok 1 0 oneMesh oneMate.
Proof.
  pose proof one_mate as MT. constructor.
  - intros r c f y H. apply MT in H. destruct H as (-> & A & -> & _). split; [lia|]. split; [exact A|lia].
  - intros [[r c] f] y H. apply MT in H. destruct H as (-> & A & -> & ->). destruct c as [|[|c]]; [reflexivity|reflexivity|lia].
  - intros r c f f' H. apply MT in H. destruct H as (_ & A & _ & E). destruct c as [|[|c]]; [discriminate|discriminate|lia].
  - intros r c f Hr Hc Hf. cbn in Hc. assert (r = 0) as -> by lia. unfold oneMate. destruct c as [|[|c]]; [| |lia]; cbn; destruct (f =? 0); reflexivity.
  - intros r c f Hr Hc Hf. cbn in Hc. assert (r = 0) as -> by lia. unfold oneMate. destruct c as [|[|c]]; [| |lia]; cbn; destruct (f =? 0); reflexivity.
  - intros r c f q c' f' H NE. apply MT in H. destruct H as (-> & A & -> & E). injection E as -> -> ->. congruence.
  - intros r c f q c' f' d g q' d' g' H NE. apply MT in H. destruct H as (-> & A & -> & E). injection E as -> -> ->. congruence.
  - intros r c f q c' f' a H Ha. apply MT in H. destruct H as (-> & A & -> & E). injection E as -> -> ->. cbn. destruct c as [|[|c]]; [| |lia]; destruct a as [|[|a]]; reflexivity || lia.
  - intros r Hr. assert (r = 0) as -> by lia. reflexivity.
Qed.
Lemma pair_sync : in_sync [0; 1] pairOver pairUnder oneMate.
Proof.
  intros g r c f q c' f' Hg Hm. apply one_mate in Hm. destruct Hm as (-> & Hc & -> & E). injection E as -> -> ->.
  destruct c as [|[|c]]; [| |lia]; destruct Hg as [<-|[<-|[]]]; split; reflexivity.
Qed.
Lemma pair_flows g x y : flows pairOver oneMate g y x -> y = (0, g) /\ x = (0, 1 - g) /\ g < 2.
Proof.
  destruct y as [r c], x as [q c']. intros (f & f' & Hm & Ho). cbn [fst snd] in *. apply one_mate in Hm. destruct Hm as (-> & Hc & -> & E). injection E as -> -> ->.
  unfold pairOver in Ho. cbn [Nat.eqb andb] in Ho. apply Nat.eqb_eq in Ho. subst. auto.
Qed.
Lemma pair_no_cycle : no_cycle pairOver oneMate [0; 1].
Proof. exists (fun g x => if snd x =? g then 0 else 1). intros g y x _ H. apply pair_flows in H. destruct H as (-> & -> & H). cbn [snd]. rewrite Nat.eqb_refl. destruct g as [|[|g]]; cbn; lia. Qed.
Lemma pair_flow g : g < 2 -> flows pairOver oneMate g (0, g) (0, 1 - g).
Proof. intros H. exists 0, 0. destruct g as [|[|g]]; [| |lia]; split; reflexivity. Qed.
Lemma pair_fit : blocks_fit 1 oneMesh [0; 1] pairOver oneMate.
Proof.
  exists 1. split; [|reflexivity]. intros g x n _ (D & _). destruct D as [|x y n F D]; [lia|]. apply pair_flows in F. destruct F as (-> & -> & Hg). inversion D as [|x' y' n' F D']; subst; [lia|]. apply pair_flows in F. destruct F as (E & _). destruct g as [|[|g]]; [discriminate E|discriminate E|lia].
Qed.
(** With globally prioritized angles the work at angle 1 is listed first. *)
Example C88_ex : exists L, constructed 1 oneMesh [0; 1] pairOver pairUnder 5 1 1 L /\ exists k i k' j, scheduled L 0 k i 1 1 /\ scheduled L 0 k' j 0 0 /\ later k i k' j.
Proof.
  destruct (C88_ends 1 oneMesh [0; 1] pairOver pairUnder oneMate one_ok0 nd2 pair_sync 5 1 ltac:(discriminate) pair_no_cycle pair_fit) as (L & HL). exists L. split; [exact HL|].
  destruct (C88_schedule 1 oneMesh [0; 1] pairOver pairUnder oneMate one_ok0 nd2 pair_sync 5 1 1 L HL pair_no_cycle 0 ltac:(lia)) as (A & _ & _).
  destruct (A 1 1) as (k & i & S1); [cbn; lia|cbn; auto|]. destruct (A 0 0) as (k' & j & S0); [cbn; lia|cbn; auto|]. exists k, i, k', j. split; [exact S1|]. split; [exact S0|].
  assert (X : ~ later k' j k i).
  { intros LT. destruct (C88_global 1 oneMesh [0; 1] pairOver pairUnder oneMate one_ok0 nd2 pair_sync 5 L HL pair_no_cycle pair_fit (ex_intro _ 0 (ex_intro _ _ (ex_intro _ _ (conj (or_introl eq_refl) (pair_flow 0 ltac:(lia)))))) 0 k' j 0 0 k i 1 1 ltac:(lia) ltac:(cbn; lia) ltac:(cbn; lia) S0 S1 LT (or_introl Nat.lt_0_1)) as (q & e & kk & ii & F & _).
    apply pair_flows in F. destruct F as (_ & E & _). injection E as E. cbn in E. lia. }
  unfold later in *. destruct (Nat.lt_trichotomy k k') as [|[->|]]; [auto| |exfalso; apply X; auto].
  destruct (Nat.lt_trichotomy i j) as [|[->|]]; [auto| |exfalso; apply X; auto]. exfalso. destruct S1 as (w & E1 & E2), S0 as (w' & E3 & E4). rewrite E1 in E3. injection E3 as <-. rewrite E2 in E4. discriminate.
Qed.

Lemma pair_longest g : g < 2 -> longest_downwind pairOver oneMate g (0, g) 1 /\ longest_downwind pairOver oneMate g (0, 1 - g) 0.
Proof.
  intros Hg. split; split.
  - eapply dw_step; [exact (pair_flow g Hg)|constructor].
  - intros m D. inversion D as [|x y n F D']; subst; [lia|]. apply pair_flows in F. destruct F as (_ & -> & _). inversion D' as [|x' y' n' F D'']; subst; [lia|]. apply pair_flows in F. destruct F as (E & _). destruct g as [|[|g]]; [discriminate E|discriminate E|lia].
  - constructor.
  - intros m D. inversion D as [|x y n F D']; subst; [lia|]. apply pair_flows in F. destruct F as (E & _). destruct g as [|[|g]]; [discriminate E|discriminate E|lia].
Qed.
Lemma pair_ready L k i : ~ not_ready pairOver oneMate L 0 k i 1 1.
Proof. intros (q & e & kk & ii & F & _). apply pair_flows in F. destruct F as (_ & E & _). discriminate E. Qed.
Lemma turn L k i k' j c g d h : scheduled L 0 k i c g -> scheduled L 0 k' j d h -> (c, g) <> (d, h) -> ~ later k' j k i -> later k i k' j.
Proof.
  intros (w & E1 & E2) (w' & E3 & E4) NE X. unfold later in *. destruct (Nat.lt_trichotomy k k') as [|[->|]]; [auto| |exfalso; apply X; auto].
  destruct (Nat.lt_trichotomy i j) as [|[->|]]; [auto| |exfalso; apply X; auto]. exfalso. rewrite E1 in E3. injection E3 as <-. rewrite E2 in E4. apply Some_inj in E4. contradiction.
Qed.
(** Interleaved: cell 1 at angle 1, where radiation goes on, comes before cell 1 at angle 0, where it does not. *)
Example C88_levels_ex : exists L, constructed 1 oneMesh [0; 1] pairOver pairUnder 5 1 0 L /\ exists k i k' j, scheduled L 0 k i 1 1 /\ scheduled L 0 k' j 1 0 /\ later k i k' j.
Proof.
  destruct (C88_ends 1 oneMesh [0; 1] pairOver pairUnder oneMate one_ok0 nd2 pair_sync 5 0 ltac:(discriminate) pair_no_cycle pair_fit) as (L & HL). exists L. split; [exact HL|].
  destruct (C88_schedule 1 oneMesh [0; 1] pairOver pairUnder oneMate one_ok0 nd2 pair_sync 5 1 0 L HL pair_no_cycle 0 ltac:(lia)) as (A & _ & _).
  destruct (A 1 1) as (k & i & S1); [cbn; lia|cbn; auto|]. destruct (A 1 0) as (k' & j & S0); [cbn; lia|cbn; auto|]. exists k, i, k', j. split; [exact S1|]. split; [exact S0|].
  apply (turn L k i k' j 1 1 1 0 S1 S0); [discriminate|]. intros LT. apply (pair_ready L k' j).
  refine (C88_levels 1 oneMesh [0; 1] pairOver pairUnder oneMate one_ok0 nd2 pair_sync 5 0 L HL _ _ pair_no_cycle 0 k' j 1 0 k i 1 1 0 1 _ S0 S1 LT (proj2 (pair_longest 0 _)) (proj1 (pair_longest 1 _)) _ _); try discriminate; try lia; reflexivity.
Qed.
(** Locally prioritized: the ways are equally long, so the work at angle 1 is listed first. *)
Example C88_local_ex : exists L, constructed 1 oneMesh [0; 1] pairOver pairUnder 5 1 2 L /\ exists k i k' j, scheduled L 0 k i 1 1 /\ scheduled L 0 k' j 0 0 /\ later k i k' j.
Proof.
  destruct (C88_ends 1 oneMesh [0; 1] pairOver pairUnder oneMate one_ok0 nd2 pair_sync 5 2 ltac:(discriminate) pair_no_cycle pair_fit) as (L & HL). exists L. split; [exact HL|].
  destruct (C88_schedule 1 oneMesh [0; 1] pairOver pairUnder oneMate one_ok0 nd2 pair_sync 5 1 2 L HL pair_no_cycle 0 ltac:(lia)) as (A & _ & _).
  destruct (A 1 1) as (k & i & S1); [cbn; lia|cbn; auto|]. destruct (A 0 0) as (k' & j & S0); [cbn; lia|cbn; auto|]. exists k, i, k', j. split; [exact S1|]. split; [exact S0|].
  apply (turn L k i k' j 1 1 0 0 S1 S0); [discriminate|]. intros LT. apply (pair_ready L k' j).
  assert (FA : forall g, g < 2 -> farthest oneMesh pairOver oneMate 0 g 1).
  { intros g Hg. split; [exists g; split; [cbn; lia|apply pair_longest; auto]|]. intros c n Hc (D & _). inversion D as [|x y m F D']; subst; [lia|]. apply pair_flows in F. destruct F as (E & -> & _). injection E as ->. apply (proj2 (pair_longest g Hg)) in D'. lia. }
  refine (C88_local 1 oneMesh [0; 1] pairOver pairUnder oneMate one_ok0 nd2 pair_sync 5 L HL pair_no_cycle pair_fit (ex_intro _ 0 (ex_intro _ _ (ex_intro _ _ (conj (or_introl eq_refl) (pair_flow 0 Nat.lt_0_2))))) 0 k' j 0 0 k i 1 1 _ _ _ S0 S1 LT _); cbn [length]; try lia.
  left. exists 1, 1. split; [apply FA; cbn; lia|]. split; [apply FA; cbn; lia|lia].
Qed.

Print Assumptions C88_respects.
Print Assumptions C88_schedule.
Print Assumptions C88_levels.
Print Assumptions C88_global.
Print Assumptions C88_local.
Print Assumptions C88_ends.
Print Assumptions C88_ex.
Print Assumptions C88_levels_ex.
Print Assumptions C88_local_ex.
