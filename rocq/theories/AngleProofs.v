From Verif Require Import Prelude AngleModel.

(** Closed form of a chunk boundary. *)
Definition lo (size n i : nat) : nat := i * (size / n) + Nat.min i (size mod n).

Lemma lo_0 size n : lo size n 0 = 0.
Proof. reflexivity. Qed.

Lemma lo_S size n i :
  lo size n (S i) = (if i <? size mod n then S (lo size n i + size / n) else lo size n i + size / n).
Proof.
  unfold lo. generalize (size mod n) (size / n). intros m q.
  destruct (Nat.ltb_spec i m); cbn [Nat.mul]; lia.
Qed.

Lemma lo_full size n : n > 0 -> lo size n n = size.
Proof.
  intros. unfold lo. pose proof (Nat.mod_upper_bound size n ltac:(lia)).
  pose proof (Nat.div_mod size n ltac:(lia)).
  rewrite Nat.min_r by lia. lia.
Qed.

Lemma lo_le size n i : lo size n i <= lo size n (S i).
Proof. rewrite lo_S. generalize (size / n). intro. destruct (i <? size mod n); lia. Qed.

Lemma lo_mono size n i j : i <= j -> lo size n i <= lo size n j.
Proof.
  induction 1; [lia|]. pose proof (lo_le size n m). lia.
Qed.

Lemma chunkLoop_nth size n fuel : forall i cur k,
  cur = lo size n i -> k < fuel -> nth k (chunkLoop fuel i cur size n) 0 = lo size n (S i + k).
Proof.
  induction fuel as [|f IH]; intros i cur k Hc Hk; [lia|].
  cbn [chunkLoop].
  set (nx := if i <? size mod n then S (cur + size / n) else cur + size / n).
  assert (Hn : nx = lo size n (S i)) by (unfold nx; rewrite lo_S, Hc; reflexivity).
  destruct k as [|k].
  - cbn [nth]. rewrite Hn. f_equal; lia.
  - cbn [nth]. rewrite IH; [f_equal; lia | auto | lia].
Qed.

Lemma chunkLoop_length size n fuel : forall i cur, length (chunkLoop fuel i cur size n) = fuel.
Proof. induction fuel; intros; cbn; auto. Qed.

Lemma splitIntoChunks_nth size n k : k <= n -> nth k (splitIntoChunks size n) 0 = lo size n k.
Proof.
  intros. unfold splitIntoChunks. destruct k; [reflexivity|].
  cbn [nth]. rewrite chunkLoop_nth; [f_equal; lia | reflexivity | lia].
Qed.

Lemma splitIntoChunks_length size n : length (splitIntoChunks size n) = S n.
Proof. unfold splitIntoChunks. cbn. now rewrite chunkLoop_length. Qed.

Lemma map_add_seq k lo0 : forall s, map (fun a => a + lo0) (seq s k) = seq (s + lo0) k.
Proof. induction k; intros; cbn; [auto|]. f_equal. rewrite IHk. reflexivity. Qed.

Lemma sweeperAngles_seq n T t : t < T ->
  sweeperAngles n T t = seq (lo n T t) (lo n T (S t) - lo n T t).
Proof.
  intros. unfold sweeperAngles. rewrite !splitIntoChunks_nth by lia.
  rewrite map_add_seq. reflexivity.
Qed.

Lemma concat_seq_lo n T k : k <= T ->
  concat (map (sweeperAngles n T) (seq 0 k)) = seq 0 (lo n T k).
Proof.
  induction k; intros; [reflexivity|].
  rewrite seq_S, map_app, concat_app, IHk by lia. cbn [map concat].
  rewrite app_nil_r, sweeperAngles_seq by lia.
  cbn [Nat.add].
  pose proof (seq_app (lo n T k) (lo n T (S k) - lo n T k) 0) as E. cbn [Nat.add] in E.
  rewrite <- E. f_equal.
  pose proof (lo_le n T k); lia.
Qed.

Lemma split_concat n T : T > 0 -> concat (map (sweeperAngles n T) (seq 0 T)) = seq 0 n.
Proof. intros. rewrite concat_seq_lo, lo_full by lia. reflexivity. Qed.

Lemma split_balanced n T t t' : t < T -> t' < T ->
  length (sweeperAngles n T t) <= S (length (sweeperAngles n T t')).
Proof.
  intros. rewrite !sweeperAngles_seq, !seq_length by auto.
  rewrite !lo_S. generalize (n / T). intro.
  destruct (t <? n mod T), (t' <? n mod T); lia.
Qed.

Lemma angleGroupLoop_spec n T fuel : forall g low a,
  low = lo n T g -> low <= a -> a < lo n T (g + fuel) ->
  exists t, angleGroupLoop fuel g low (n / T) (n mod T) a = Some t /\
    g <= t < g + fuel /\ lo n T t <= a < lo n T (S t).
Proof.
  induction fuel as [|f IH]; intros g low a Hl Hla Ha.
  - rewrite Nat.add_0_r in Ha. lia.
  - cbn [angleGroupLoop].
    set (nx := if g <? n mod T then S (low + n / T) else low + n / T).
    assert (Hn : nx = lo n T (S g)) by (unfold nx; rewrite lo_S, Hl; reflexivity).
    destruct (Nat.ltb_spec a nx).
    + exists g. repeat split; try lia.
    + destruct (IH (S g) nx a) as (t & E & B & C); try lia.
      { replace (S g + f) with (g + S f) by lia. auto. }
      exists t. repeat split; try lia. exact E.
Qed.

Lemma angleGroup_spec n T a : T > 0 -> a < n ->
  exists t, angleGroupIndex n T a = Some t /\ t < T /\ lo n T t <= a < lo n T (S t).
Proof.
  intros HT Ha.
  destruct (angleGroupLoop_spec n T T 0 0 a) as (t & E & B & C); try lia; auto.
  { rewrite Nat.add_0_l, lo_full; auto. }
  exists t. repeat split; auto; lia.
Qed.

Lemma lo_unique n T t t' a : lo n T t <= a < lo n T (S t) -> lo n T t' <= a < lo n T (S t') -> t = t'.
Proof.
  intros [A B] [C D].
  destruct (Nat.lt_trichotomy t t') as [H|[H|H]]; auto.
  - pose proof (lo_mono n T (S t) t' H). lia.
  - pose proof (lo_mono n T (S t') t H). lia.
Qed.

Lemma angleGroup_total n T a : T > 0 -> a < n -> exists t, angleGroupIndex n T a = Some t /\ t < T.
Proof. intros HT Ha. destruct (angleGroup_spec n T a HT Ha) as (t & ? & ? & _). eauto. Qed.

Lemma angleGroup_sweeper n T a t : T > 0 -> a < n -> t < T ->
  (angleGroupIndex n T a = Some t <-> In a (sweeperAngles n T t)).
Proof.
  intros HT Ha Ht. rewrite sweeperAngles_seq by auto. rewrite in_seq.
  destruct (angleGroup_spec n T a HT Ha) as (t0 & E & B & C).
  rewrite E. pose proof (lo_le n T t). split.
  - intros [= ->]. lia.
  - intros. f_equal. eapply lo_unique; eauto. lia.
Qed.

Lemma angleGroup_mono n T a a' t t' : T > 0 -> a <= a' -> a' < n ->
  angleGroupIndex n T a = Some t -> angleGroupIndex n T a' = Some t' -> t <= t'.
Proof.
  intros HT Haa Ha' E E'.
  destruct (angleGroup_spec n T a HT ltac:(lia)) as (t0 & E0 & B0 & C0).
  destruct (angleGroup_spec n T a' HT Ha') as (t1 & E1 & B1 & C1).
  rewrite E in E0; rewrite E' in E1. injection E0 as <-. injection E1 as <-.
  destruct (Nat.le_gt_cases t t'); auto.
  pose proof (lo_mono n T (S t') t H). lia.
Qed.

(** An angle outside 0..nAngles-1 fails the Assert. *)
Lemma angleGroupLoop_none n T fuel : forall g low a,
  low = lo n T g -> lo n T (g + fuel) <= a ->
  angleGroupLoop fuel g low (n / T) (n mod T) a = None.
Proof.
  induction fuel as [|f IH]; intros g low a Hl Ha; [reflexivity|].
  cbn [angleGroupLoop].
  set (nx := if g <? n mod T then S (low + n / T) else low + n / T).
  assert (Hn : nx = lo n T (S g)) by (unfold nx; rewrite lo_S, Hl; reflexivity).
  pose proof (lo_mono n T (S g) (g + S f) ltac:(lia)).
  destruct (Nat.ltb_spec a nx); [lia|].
  apply IH; auto. replace (S g + f) with (g + S f) by lia. auto.
Qed.

Lemma angleGroup_none n T a : T > 0 -> n <= a -> angleGroupIndex n T a = None.
Proof.
  intros. unfold angleGroupIndex. apply angleGroupLoop_none; auto.
  rewrite Nat.add_0_l, lo_full; auto.
Qed.
