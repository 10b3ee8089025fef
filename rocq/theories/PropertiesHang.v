(** C76: a sweep ends exactly if no cell waits for itself. *)
From Verif Require Import Prelude MeshModel TraverseModel TraverseSpec TraverseRun TraverseCases PropertiesTraverse HangProofs.

(** Whatever ends has no cycle: with any exchange, thread count, limit of steps and timing. *)
Theorem C76_ends_acyclic : forall V D (R : run V D) val0 bnd0 S0 S, good_run R -> starts R val0 bnd0 S0 -> reaches R S0 S -> ends R S -> racyclic R.
Proof.
  intros V D R val0 bnd0 S0 S G I H F. destruct (run_ordered R val0 bnd0 G S0 S I H) as (lvl & n & O). exists lvl. intros a r c q c' Ha U. pose proof U as (Hr & Hc & _).
  apply (O a r c); auto. split; auto. destruct (C28_once V D R val0 bnd0 S0 S G I H r Hr) as (_ & _ & P). specialize (P F).
  apply (Permutation.Permutation_in (c, a) (Permutation.Permutation_sym P)). apply in_prod_iff. split; apply in_seq; lia.
Qed.
(** With the exchanges of the program it is an equivalence; and where there is a cycle the traversal is never stuck either:
    it goes round for ever. *)
Theorem C76_ends_iff : forall V D (R : run V D) val0 bnd0, good_run R -> exchanges R -> u_max R > 0 ->
  ((exists S0 S, starts R val0 bnd0 S0 /\ reaches R S0 S /\ ends R S) <-> racyclic R) /\
  (~ racyclic R -> forall S0 S, starts R val0 bnd0 S0 -> reaches R S0 S -> exists r l S', rstep R r S l S' /\ l <> LEager).
Proof.
  intros V D R val0 bnd0 G E MX. split.
  - split.
    + intros (S0 & S & I & H & F). exact (C76_ends_acyclic V D R val0 bnd0 S0 S G I H F).
    + intros AC. destruct (C30_finishes V D R val0 bnd0 G E MX AC) as ((S0 & I) & K). destruct (K S0 S0 I) as (S & _ & H & F); [constructor|]. eauto.
  - intros NA S0 S I H. destruct (C30_not_stuck V D R val0 bnd0 S0 S G E I H) as [F|]; auto. destruct NA. exact (C76_ends_acyclic V D R val0 bnd0 S0 S G I H F).
Qed.
(** No cell from which one can go upwind for ever is updated in any run. *)
Theorem C76_never_updated : forall V D (R : run V D) val0 bnd0 S0 S a (h : nat -> nat * nat), good_run R -> starts R val0 bnd0 S0 -> reaches R S0 S ->
  (forall i, upwind (u_dir R) (u_comm R) (u_ranks R) (u_mesh R) (u_mate R) a (h (1 + i)) (h i)) -> ~ In (snd (h 0), a) (g_log (g_r S (fst (h 0)))).
Proof.
  intros V D R val0 bnd0 S0 S a h G I H U K. destruct (run_ordered R val0 bnd0 G S0 S I H) as (lvl & n & O).
  assert (Z : forall i, inLog R S a (fst (h i)) (snd (h i)) /\ lvl (fst (h i)) (snd (h i)) a + i <= lvl (fst (h 0)) (snd (h 0)) a).
  { induction i as [|i (L & B)].
    - split; [|lia]. split; auto. pose proof (U 0) as X. destruct (h 0) as (r & c). destruct (h (1 + 0)). now destruct X.
    - pose proof (U i) as X. destruct (h (1 + i)) as (q & c') eqn:E1, (h i) as (r & c) eqn:E2. cbn [fst snd] in *. destruct (O a r c L) as (_ & Y). destruct (Y q c' X) as (L' & LT).
      change (h (Datatypes.S i)) with (h (1 + i)). rewrite E1. cbn [fst snd]. split; [exact L'|lia]. }
  destruct (Z (1 + lvl (fst (h 0)) (snd (h 0)) a)) as (_ & B). lia.
Qed.
(** A face that both of its cells take as incoming: neither of them is updated in any run, and no run ends. *)
Theorem C76_both_incoming : forall V D (R : run V D) val0 bnd0 S0 S r c f q c' f' a, good_run R -> starts R val0 bnd0 S0 -> reaches R S0 S ->
  u_mate R (r, c, f) = Some (q, c', f') -> u_comm R = true \/ q = r -> a < u_angles R ->
  isIncoming (u_dir R) (u_mesh R r) a c f = true -> isIncoming (u_dir R) (u_mesh R q) a c' f' = true ->
  ~ In (c, a) (g_log (g_r S r)) /\ ~ In (c', a) (g_log (g_r S q)) /\ ~ ends R S.
Proof.
  intros V D R val0 bnd0 S0 S r c f q c' f' a G I H Hm K Ha I1 I2. pose proof G as (G1 & _). pose proof (sf_sym _ _ _ _ _ G1 _ _ Hm) as Hb.
  destruct (sf_range _ _ _ _ _ G1 _ _ _ _ Hm) as (Hr & Hc & Hf). destruct (sf_range _ _ _ _ _ G1 _ _ _ _ Hb) as (Hq & Hc' & Hf').
  assert (U1 : upwind (u_dir R) (u_comm R) (u_ranks R) (u_mesh R) (u_mate R) a (q, c') (r, c)) by (split; auto; split; auto; exists f, f'; auto).
  assert (U2 : upwind (u_dir R) (u_comm R) (u_ranks R) (u_mesh R) (u_mate R) a (r, c) (q, c')) by (split; auto; split; auto; exists f', f; destruct K; subst; auto 10).
  assert (N1 : ~ In (c, a) (g_log (g_r S r))).
  { apply (C76_never_updated V D R val0 bnd0 S0 S a (fun i => if Nat.even i then (r, c) else (q, c')) G I H). intros i. rewrite Nat.add_1_l, Nat.even_succ, <- Nat.negb_even. destruct (Nat.even i); auto. }
  split; [exact N1|]. split.
  - apply (C76_never_updated V D R val0 bnd0 S0 S a (fun i => if Nat.even i then (q, c') else (r, c)) G I H). intros i. rewrite Nat.add_1_l, Nat.even_succ, <- Nat.negb_even. destruct (Nat.even i); auto.
  - intros F. apply N1. destruct (C28_once V D R val0 bnd0 S0 S G I H r Hr) as (_ & _ & P). specialize (P F).
    apply (Permutation.Permutation_in (c, a) (Permutation.Permutation_sym P)). apply in_prod_iff. split; apply in_seq; lia.
Qed.

(** One rank, two cells that both take their common face as incoming: the hypotheses hold, it starts, there is a cycle. And two ranks without one. *)
Definition C76_mate (x : nat * nat * nat) : option (nat * nat * nat) :=
  match x with (0, 0, 0) => Some (0, 1, 0) | (0, 1, 0) => Some (0, 0, 0) | _ => None end.
Definition C76_run (mx : nat) : run nat nat := mkRun Forward true TychoTwoSided 1 1 1 mx 24 grazeMesh sumData C76_mate.
Lemma C76_mate_inv r c f q c' f' : C76_mate (r, c, f) = Some (q, c', f') -> r = 0 /\ q = 0 /\ f = 0 /\ f' = 0 /\ c' = 1 - c /\ c < 2.
Proof. destruct r; [|discriminate]. destruct c as [|[|c]]; (destruct f; [|discriminate]); cbn; intros E; try discriminate; inversion E; subst; lia. Qed.
Example C76_ex mx : good_run (C76_run mx) /\ exchanges (C76_run mx) /\ starts (C76_run mx) (fun _ _ _ => 0) (fun _ _ _ => 0) (grazeInit mx) /\
  u_mate (C76_run mx) (0, 0, 0) = Some (0, 1, 0) /\ isIncoming Forward (u_mesh (C76_run mx) 0) 0 0 0 = true /\ isIncoming Forward (u_mesh (C76_run mx) 0) 0 1 0 = true /\
  ~ racyclic (C76_run mx) /\ (good_run (twoRun TychoTwoSided) /\ exchanges (twoRun TychoTwoSided) /\ u_max (twoRun TychoTwoSided) > 0 /\ racyclic (twoRun TychoTwoSided)).
Proof.
  split.
  { split; [|split; [cbn; lia|split; [reflexivity|intros r Hr; reflexivity]]]. constructor; cbn [u_dir u_ranks u_angles u_mesh u_mate C76_run].
    - intros r c f ((q & c') & f') E. apply C76_mate_inv in E. destruct E as (-> & -> & -> & -> & -> & L). cbn. lia.
    - intros ((r & c) & f) ((q & c') & f') E. apply C76_mate_inv in E. destruct E as (-> & -> & -> & -> & -> & L). destruct c as [|[|c]]; [reflexivity|reflexivity|lia].
    - intros r c f f' E. apply C76_mate_inv in E. lia.
    - intros r c f Hr Hc Hf. destruct r; [|lia]. cbn in Hc. destruct f as [|f]; destruct c as [|[|c]]; try lia; reflexivity.
    - intros r c f Hr Hc Hf. destruct r; [|lia]. cbn in Hc. destruct f as [|f]; destruct c as [|[|c]]; try lia; reflexivity.
    - intros r c f q c' f' E NE. apply C76_mate_inv in E. lia.
    - intros r c f q c' f' d g q' d' g' E NE. apply C76_mate_inv in E. lia.
    - intros r c f q c' f' a E _ O. apply C76_mate_inv in E. destruct E as (-> & -> & -> & -> & -> & L). discriminate O.
    - intros r Hr. reflexivity. }
  split; [right; split; reflexivity|]. split; [exact (graze_starts mx)|]. split; [reflexivity|]. split; [reflexivity|]. split; [reflexivity|]. split.
  - intros (lvl & L). pose proof (L 0 0 0 0 1 ltac:(cbn; lia)) as L1. pose proof (L 0 0 1 0 0 ltac:(cbn; lia)) as L2.
    assert (lvl 0 1 0 < lvl 0 0 0) by (apply L1; split; [cbn; lia|split; [cbn; lia|exists 0, 0; repeat split; auto; lia]]).
    assert (lvl 0 0 0 < lvl 0 1 0) by (apply L2; split; [cbn; lia|split; [cbn; lia|exists 0, 0; repeat split; auto; lia]]). lia.
  - split; [apply two_good|]. split; [right; split; reflexivity|]. split; [cbn; lia|apply two_acyclic].
Qed.
Print Assumptions C76_ends_acyclic. Print Assumptions C76_ends_iff. Print Assumptions C76_never_updated. Print Assumptions C76_both_incoming.
