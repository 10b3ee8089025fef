From Coq Require Import ZArith Reals Lra Lia Permutation.
From Flocq Require Import Core IEEE754.BinarySingleNaN IEEE754.Binary IEEE754.Bits.
From Verif Require Import Prelude Bytes DeckModel MeshModel GeometryModel DoubleModel DoubleProofs RoundProofs CommandModel DiffModel DiffSpec.

(** The doubles of a file. *)
Lemma words_at : forall n f, length f < n -> bytes_words f = map (fun i => le_word (firstn 8 (skipn (8 * i) f))) (seq 0 (length f / 8)).
Proof.
  induction n as [|n IH]; intros f L; [lia|].
  destruct f as [|b0 [|b1 [|b2 [|b3 [|b4 [|b5 [|b6 [|b7 f]]]]]]]]; try reflexivity.
  assert (E : length (b0 :: b1 :: b2 :: b3 :: b4 :: b5 :: b6 :: b7 :: f) / 8 = S (length f / 8)).
  { cbn [length]. change (S (S (S (S (S (S (S (S (length f))))))))) with (8 + length f). replace (8 + length f) with (1 * 8 + length f) by lia. now rewrite Nat.div_add_l by lia. }
  rewrite E. cbn [seq map]. rewrite <- seq_shift, map_map. cbn [bytes_words]. f_equal. rewrite (IH f) by (cbn [length] in L; lia). apply map_ext. intros i.
  replace (8 * S i) with (8 + 8 * i) by lia. reflexivity.
Qed.
Lemma skipn_map {X Y} (g : X -> Y) n l : skipn n (map g l) = map g (skipn n l).
Proof. revert l; induction n as [|n IH]; intros [|x l]; cbn; auto. Qed.
Lemma skipn_seq n : forall a m, skipn n (seq a m) = seq (n + a) (m - n).
Proof. induction n as [|n IH]; intros a [|m]; cbn [skipn seq]; auto. rewrite IH. f_equal. lia. Qed.
Lemma seq_add k m : forall a, seq (k + a) m = map (fun i => k + i) (seq a m).
Proof. induction m as [|m IH]; intros a; cbn [seq map]; auto. f_equal. now rewrite <- IH, Nat.add_succ_r. Qed.
Lemma payload_eq {T} (dec : N -> T) f : payload dec f = map (number_at dec f) (seq 0 (number_of f)).
Proof.
  unfold payload. rewrite (words_at (S (length f)) f) by lia. rewrite map_map, skipn_map, skipn_seq. unfold number_of.
  replace ((length f - 64) / 8) with (length f / 8 - 8).
  2:{ destruct (Nat.le_gt_cases 64 (length f)) as [H|H].
      - replace (length f) with (8 * 8 + (length f - 64)) at 1 by lia. rewrite Nat.div_add_l by lia. lia.
      - replace (length f - 64) with 0 by lia. rewrite Nat.div_small with (a := 0) by lia. pose proof (Nat.div_le_mono (length f) 64 8 ltac:(lia) ltac:(lia)) as K. change (64 / 8) with 8 in K. lia. }
  change (8 + 0) with 8. generalize (length f / 8 - 8). intros m.
  assert (E : seq 8 m = map (fun i => 8 + i) (seq 0 m)) by exact (seq_add 8 m 0).
  rewrite E, map_map. apply map_ext. intros i. unfold number_at. replace (8 * (8 + i)) with (64 + 8 * i) by lia. reflexivity.
Qed.
Lemma minus_map {T} (A : arith T) {X} (g h : X -> T) l : minus A (map g l) (map h l) = map (fun x => asub A (g x) (h x)) l.
Proof. induction l as [|x l IH]; cbn; congruence. Qed.
(** The largest entry is one of them. *)
Lemma fold_pick {T} (gt : T -> T -> bool) l : forall x, In (fold_left (fun m y => if gt y m then y else m) l x) (x :: l).
Proof. induction l as [|y l IH]; intros x; cbn [fold_left]; [left; reflexivity|]. destruct (IH (if gt y x then y else x)) as [E|E]; [|right; right; exact E]. rewrite <- E. destruct (gt y x); [right; left|left]; reflexivity. Qed.

(** Exact arithmetic. *)
Section Exact.
  Local Open Scope R_scope.
  Fixpoint total (l : list R) : R := match l with [] => 0 | x :: l' => x + total l' end.
  Lemma total_app l m : total (l ++ m) = total l + total m.
  Proof. induction l as [|x l IH]; cbn [app total]; [lra|]. rewrite IH. lra. Qed.
  Lemma total_perm l m : Permutation l m -> total l = total m.
  Proof. induction 1; cbn [total]; auto; try lra. Qed.
  Lemma added_exact l s : added Rops l s -> s = total l.
  Proof. induction 1 as [|x|l l1 l2 a b P _ IH1 _ IH2]; cbn [total]; [reflexivity|lra|]. rewrite (total_perm _ _ P), total_app. rewrite <- IH1, <- IH2. reflexivity. Qed.
  Lemma total_upto (t : nat -> R) n : total (map t (seq 0 n)) = upto n t.
  Proof. induction n as [|n IH]; [reflexivity|]. rewrite seq_S, map_app, total_app, IH. cbn [map total upto plus]. lra. Qed.
  Lemma fold_max l : forall x y, In y (x :: l) -> y <= fold_left (fun m z => if agt Rops z m then z else m) l x.
  Proof.
    induction l as [|z l IH]; intros x y H; cbn [fold_left]; [destruct H as [->|[]]; lra|].
    assert (G : x <= (if agt Rops z x then z else x) /\ z <= (if agt Rops z x then z else x)) by (cbn; destruct (Rgt_dec z x); lra).
    destruct H as [->|[->|H]].
    - eapply Rle_trans; [exact (proj1 G)|]. apply IH. now left.
    - eapply Rle_trans; [exact (proj2 G)|]. apply IH. now left.
    - apply IH. now right.
  Qed.
  Lemma upto_nonneg t n : (forall i, (i < n)%nat -> 0 <= t i) -> 0 <= upto n t.
  Proof. induction n as [|n IH]; intros H; cbn; [lra|]. pose proof (H n ltac:(lia)). assert (0 <= upto n t) by (apply IH; intros; apply H; lia). lra. Qed.
  Lemma upto_pos t n i : (forall i, (i < n)%nat -> 0 <= t i) -> (i < n)%nat -> 0 < t i -> 0 < upto n t.
  Proof.
    induction n as [|n IH]; intros H L P; [lia|]. cbn. pose proof (H n ltac:(lia)). assert (0 <= upto n t) by (apply upto_nonneg; intros; apply H; lia).
    destruct (Nat.eq_dec i n) as [->|]; [lra|]. assert (0 < upto n t) by (apply IH; [intros; apply H; lia|lia|exact P]). lra.
  Qed.
  Lemma largest_exact (g : nat -> R) n : (0 < n)%nat -> exists m j, largest Rops (map g (seq 0 n)) = Some m /\ (j < n)%nat /\ m = Rabs (g j) /\ forall i, (i < n)%nat -> Rabs (g i) <= m.
  Proof.
    intros H. unfold largest. rewrite map_map. cbn [aabs Rops]. destruct n as [|n]; [lia|]. set (l := map (fun x => Rabs (g x)) (seq 1 n)).
    change (map (fun x => Rabs (g x)) (seq 0 (S n))) with (Rabs (g 0%nat) :: l). pose proof (fold_pick (agt Rops) l (Rabs (g 0%nat))) as P. pose proof (fold_max l (Rabs (g 0%nat))) as M.
    set (m := fold_left _ _ _) in *. change (Rabs (g 0%nat) :: l) with (map (fun x => Rabs (g x)) (seq 0 (S n))) in P, M. apply in_map_iff in P as (j & E & J). apply in_seq in J. exists m, j. split; [reflexivity|]. split; [lia|]. split; [auto|].
    intros i Hi. apply M. apply in_map_iff. exists i. split; [reflexivity|]. apply in_seq. lia.
  Qed.
End Exact.

Theorem compare_exact dec nsum tol f1 f2 : adds Rops nsum -> (exists i, i < number_of f2 /\ number_at dec f2 i <> 0%R) ->
  (compareFiles Rops dec nsum tol f1 f2 = true <-> close tol f1 f2 (number_at dec f1) (number_at dec f2)).
Proof.
  intros AD (k & K & NZ). unfold compareFiles, close. rewrite !payload_eq, !map_length, !seq_length. set (n := number_of f2) in *. set (g := number_at dec f1). set (h := number_at dec f2) in *. cbv zeta.
  destruct (Nat.eqb_spec (number_of f1) n) as [E|E]; cbn [negb]; [|split; [discriminate|intros (? & _); contradiction]]. rewrite E, minus_map.
  destruct (largest_exact (fun x => asub Rops (g x) (h x)) n ltac:(lia)) as (m1 & j1 & -> & J1 & E1 & M1). destruct (largest_exact h n ltac:(lia)) as (m2 & j2 & -> & J2 & E2 & M2).
  cbn [asub Rops] in *. assert (N1 : forall (t : nat -> R), norm1 Rops nsum (map t (seq 0 n)) = upto n (fun i => Rabs (t i))).
  { intros t. unfold norm1. rewrite map_map. rewrite (added_exact _ _ (AD _)). apply (total_upto (fun i => Rabs (t i))). }
  rewrite !N1. set (S1 := upto n (fun i => Rabs (g i - h i))). set (S2 := upto n (fun i => Rabs (h i))).
  assert (P2 : (0 < S2)%R) by (apply (upto_pos _ n k); [intros; apply Rabs_pos|exact K|now apply Rabs_pos_lt]).
  assert (PM : (0 < m2)%R) by (eapply Rlt_le_trans; [apply (Rabs_pos_lt _ NZ)|exact (M2 k K)]).
  assert (Q : forall a b, (0 < b)%R -> (agt Rops tol (adiv Rops a b) = true <-> (a < tol * b)%R)).
  { intros a b B. cbn. destruct (Rgt_dec tol (a / b)) as [G|G]; split; intros H; auto; try discriminate.
    - apply (Rmult_lt_compat_r b) in G; [|exact B]. unfold Rdiv in G. rewrite Rmult_assoc, Rinv_l in G by lra. lra.
    - exfalso. apply G. apply Rlt_gt. apply (Rmult_lt_reg_r b); [exact B|]. unfold Rdiv. rewrite Rmult_assoc, Rinv_l by lra. lra. }
  assert (Z : agt Rops tol (azero Rops) = true <-> (0 < tol)%R) by (cbn; destruct (Rgt_dec tol 0); split; intros; auto; try discriminate; lra).
  split.
  - intros H. destruct (agt Rops tol (adiv Rops S1 S2)) eqn:A1; [|discriminate]. destruct (agt Rops tol (adiv Rops m1 m2)) eqn:A2; [|discriminate]. apply Z in H. apply (Q _ _ P2) in A1. apply (Q _ _ PM) in A2.
    split; [reflexivity|]. split; [exact H|]. split; [exact A1|]. exists j2. split; [exact J2|]. intros i Hi. rewrite <- E2. eapply Rle_lt_trans; [exact (M1 i Hi)|exact A2].
  - intros (_ & H & L & j & J & F). rewrite (proj2 (Q _ _ P2) L). assert (X : (m1 < tol * m2)%R).
    { rewrite E1. eapply Rlt_le_trans; [exact (F j1 J1)|]. apply Rmult_le_compat_l; [lra|exact (M2 j J)]. }
    rewrite (proj2 (Q _ _ PM) X). now apply Z.
Qed.
