(** Proofs about the sweep over a precomputed schedule. *)
From Coq Require Import Permutation Sorted.
From Verif Require Import Prelude MeshModel TraverseModel TraverseSpec TraverseInv TraverseProofs ScheduleModel ScheduleSpec ScheduleProofs PropertiesSchedule CommModel OrigModel OrigSpec.

(** ** Lists *)
Lemma fm_app {X Y} (F : X -> list Y) l m : flat_map F (l ++ m) = flat_map F l ++ flat_map F m.
Proof. induction l; cbn; auto. now rewrite IHl, app_assoc. Qed.
Lemma fm_map {X Y Z} (F : Y -> list Z) (h : X -> Y) l : flat_map F (map h l) = flat_map (fun x => F (h x)) l.
Proof. induction l; cbn; auto. now rewrite IHl. Qed.
Lemma fm_fm {X Y Z} (F : Y -> list Z) (h : X -> list Y) l : flat_map F (flat_map h l) = flat_map (fun x => flat_map F (h x)) l.
Proof. induction l; cbn; auto. now rewrite fm_app, IHl. Qed.
Lemma fm_one {X Y} (F : X -> list Y) l x : NoDup l -> In x l -> (forall y, In y l -> y <> x -> F y = []) -> flat_map F l = F x.
Proof.
  induction l as [|y l IH]; cbn; intros ND Hx H; [easy|]. inversion ND as [|? ? N1 N2]; subst. destruct Hx as [->|Hx].
  - rewrite flat_map_nil, app_nil_r; auto. intros z Hz. apply H; auto. intros ->. contradiction.
  - rewrite H, IH; auto. intros ->. contradiction.
Qed.
Lemma fm_ext {X Y} (F F' : X -> list Y) l : (forall x, In x l -> F x = F' x) -> flat_map F l = flat_map F' l.
Proof. induction l; cbn; intros H; auto. rewrite H, IHl; auto. Qed.
Lemma argmin {X} (key : X -> nat) (l : list X) : l <> [] -> exists x, In x l /\ forall y, In y l -> key x <= key y.
Proof.
  induction l as [|x [|y l] IH]; [easy| |]; intros _.
  - exists x. split; [now left|]. intros z [->|[]]. auto.
  - destruct IH as (z & Hz & K); [easy|]. destruct (Nat.le_gt_cases (key x) (key z)).
    + exists x. split; [now left|]. intros u [->|Hu]; auto. specialize (K u Hu). lia.
    + exists z. split; [now right|]. intros u [->|Hu]; auto. lia.
Qed.
Lemma ss_app {X} (R : X -> X -> Prop) l m : StronglySorted R l -> StronglySorted R m -> (forall x y, In x l -> In y m -> R x y) -> StronglySorted R (l ++ m).
Proof.
  induction l as [|x l IH]; cbn; intros H1 H2 H; auto. inversion H1 as [|? ? K1 K2]; subst. constructor.
  - apply IH; auto.
  - apply Forall_app. split; auto. apply Forall_forall. auto.
Qed.
Lemma ss_mid {X} (R : X -> X -> Prop) l x m : StronglySorted R (l ++ x :: m) -> forall y, In y m -> R x y.
Proof. induction l as [|z l IH]; cbn; intros H; inversion H as [|? ? K1 K2]; subst; auto. now apply Forall_forall. Qed.
Lemma ss_const {X} (R : X -> X -> Prop) l : (forall x y, In x l -> In y l -> R x y) -> StronglySorted R l.
Proof. induction l as [|x l IH]; intros H; constructor; [apply IH; intros; apply H; now right|]. apply Forall_forall. intros y Hy. apply H; [now left|now right]. Qed.
Lemma ss_flat {X} (R : X -> X -> Prop) (F : nat -> list X) n : (forall k, k < n -> StronglySorted R (F k)) -> (forall k k' x y, k < k' -> k' < n -> In x (F k) -> In y (F k') -> R x y) ->
  StronglySorted R (flat_map F (seq 0 n)).
Proof.
  intros H1 H2. induction n as [|n IH]; [constructor|]. rewrite seq_S, fm_app. cbn. rewrite app_nil_r. apply ss_app.
  - apply IH; auto. intros k k' x y ? ? ? ?. apply (H2 k k'); auto; lia.
  - apply H1. lia.
  - intros x y Hx Hy. apply in_flat_map in Hx. destruct Hx as (k & Hk & Hx). apply in_seq in Hk. apply (H2 k n); auto; lia.
Qed.
Lemma prefix_nth {X} (l m l' : list X) x : l ++ m = l' -> forall i, nth_error l i = Some x -> nth_error l' i = Some x.
Proof. intros <- i H. rewrite nth_error_app1; auto. apply nth_error_Some. congruence. Qed.
Lemma skipn_next {X} n : forall (l m : list X) x, skipn n l = x :: m -> skipn (S n) l = m.
Proof. induction n as [|n IH]; intros [|y l] m x H; cbn in *; try discriminate; [congruence|]. apply (IH l m x H). Qed.
Lemma len1 {X Y} (F : X -> list Y) l : (forall x, In x l -> length (F x) <= 1) -> length (flat_map F l) <= length l.
Proof. induction l as [|x l IH]; cbn; intros H; auto. rewrite app_length. specialize (H x) as Hx. assert (length (F x) <= 1) by auto. assert (length (flat_map F l) <= length l) by auto. lia. Qed.

(** ** There is a solution *)
Section Exists.
  Context {V D : Type}.
  Variables (nRanks nAngles : nat) (M : nat -> rmesh) (T : tdata V D) (mate : site -> option site).
  Hypothesis OK : sys_ok nRanks nAngles M mate.
  Hypothesis AC : acyclic Forward true nRanks nAngles M mate.
  Lemma solution_exists bnd : exists sol, solution Forward true nRanks nAngles M T mate bnd sol.
  Proof.
    destruct AC as (lvl & L).
    set (it := fix it n := match n with 0 => fun r c a => td_update T r c a [] | S n => fun r c a => td_update T r c a (map (seen Forward true M T mate (it n) bnd r c a) (seq 0 4)) end).
    assert (itS : forall n r c a, it (S n) r c a = td_update T r c a (map (seen Forward true M T mate (it n) bnd r c a) (seq 0 4))) by reflexivity. clearbody it.
    assert (U : forall r c a q c' f f', valid nRanks nAngles M r c a -> f < 4 -> isIncoming Forward (M r) a c f = true -> mate (r, c, f) = Some (q, c', f') -> valid nRanks nAngles M q c' a /\ lvl q c' a < lvl r c a).
    { intros r c a q c' f f' (Hr & Hc & Ha) Hf Ei Em. split.
      - apply (so_sym _ _ _ _ OK) in Em. apply (so_range _ _ _ _ OK) in Em. split; [|split]; auto; apply Em.
      - apply L; auto. split; auto. split; auto. exists f, f'. auto. }
    assert (K : forall k r c a n m, valid nRanks nAngles M r c a -> lvl r c a < k -> k <= n -> k <= m -> it n r c a = it m r c a).
    { induction k as [|k IH]; intros r c a n m Hv Hl Hn Hm; [lia|]. destruct n as [|n]; [lia|]. destruct m as [|m]; [lia|]. rewrite !itS. f_equal. apply map_ext_in. intros f Hf. apply in_seq in Hf.
      unfold seen. destruct (isIncoming Forward (M r) a c f) eqn:Ei; auto. destruct (mate (r, c, f)) as [[[q c'] f']|] eqn:Em; auto.
      destruct (U r c a q c' f f' Hv ltac:(lia) Ei Em) as [Hv' Hl']. rewrite (IH q c' a n m) by (auto; lia). destruct (Nat.eqb_spec q r) as [E|_]; auto. subst q. rewrite (IH r c' a n m) by (auto; lia). reflexivity. }
    exists (fun r c a => it (S (lvl r c a)) r c a). intros r c a Hv. rewrite itS. f_equal. apply map_ext_in. intros f Hf. apply in_seq in Hf.
    unfold seen. destruct (isIncoming Forward (M r) a c f) eqn:Ei; auto. destruct (mate (r, c, f)) as [[[q c'] f']|] eqn:Em; auto.
    destruct (U r c a q c' f f' Hv ltac:(lia) Ei Em) as [Hv' Hl']. rewrite (K (S (lvl q c' a)) q c' a (lvl r c a) (S (lvl q c' a))) by (auto; lia).
    destruct (Nat.eqb_spec q r) as [E|_]; auto. subst q. rewrite (K (S (lvl r c' a)) r c' a (lvl r c a) (S (lvl r c' a))) by (auto; lia). reflexivity.
  Qed.
End Exists.

Section Orig.
  Context {V D : Type}.
  Variables (nRanks nAngles G : nat) (M : nat -> rmesh) (T : tdata V D) (mate : site -> option site).
  Variables (over under : nat -> nat -> nat -> nat -> bool) (ang : nat -> list nat) (sched : nat -> list (nat -> list (nat * nat))) (prio : nat -> nat -> nat -> nat -> N) (mx : N).
  Hypothesis OK : sys_ok nRanks nAngles M mate.
  Hypothesis SD : sides_distinct nRanks M.
  Hypothesis NG : no_grazing nAngles M mate over under.
  Hypothesis AN : forall g, g < G -> NoDup (ang g) /\ forall a, In a (ang g) -> a < nAngles.
  Hypothesis AC : acyclic Forward true nRanks nAngles M mate.
  Hypothesis OR : forall g, g < G -> ordering nRanks M (ang g) over under (prio g) mx (sched g).
  Variables (bar : bool) (bnd0 : nat -> nat -> nat -> D) (sol : nat -> nat -> nat -> V).
  Hypothesis SOL : solution Forward true nRanks nAngles M T mate bnd0 sol.
  Notation prog := (prog nRanks G M over ang sched bar).
  Notation stepProg := (stepProg nRanks M over ang sched bar).
  Notation mxs := (maxNSteps G sched).

  Lemma ok0 : sys_ok nRanks 0 M mate.
  Proof. destruct OK. constructor; auto; intros; [lia|]. cbn. unfold two64. lia. Qed.
  Lemma osync g : g < G -> in_sync (ang g) over under mate.
  Proof.
    intros Hg a r c f q c' f' Ha Hm. apply (proj2 (AN g Hg)) in Ha. pose proof (so_sym _ _ _ _ OK _ _ Hm) as Hm'.
    destruct (NG r c f a Ha ltac:(congruence)) as [-> ->]. destruct (NG q c' f' a Ha ltac:(congruence)) as [_ ->]. rewrite (so_flow _ _ _ _ OK _ _ _ _ _ _ a Hm Ha). now destruct (rm_out (M q) a c' f').
  Qed.
  Lemma onocyc g : g < G -> no_cycle over mate (ang g).
  Proof.
    intros Hg. destruct AC as (lvl & L). exists (fun a x => lvl (fst x) (snd x) a). intros a [q c'] [r c] Ha (f' & f & Hm & Ho). cbn [fst snd] in *. apply (proj2 (AN g Hg)) in Ha.
    apply L; auto. destruct (mrange nRanks M mate ok0 _ _ _ _ _ _ Hm) as (_ & Hr & Hc & Hf). split; auto. split; auto. exists f, f'. split; auto. split; [now apply (so_sym _ _ _ _ OK)|]. split; auto.
    destruct (NG q c' f' a Ha ltac:(congruence)) as [E _]. rewrite E in Ho. rewrite (so_flow _ _ _ _ OK _ _ _ _ _ _ a Hm Ha) in Ho. exact Ho.
  Qed.
  Lemma oflow g a q c' f' r c f : g < G -> In a (ang g) -> mate (q, c', f') = Some (r, c, f) -> rm_out (M q) a c' f' = true -> flows over mate a (q, c') (r, c).
  Proof. intros Hg Ha Hm Ho. exists f', f. cbn [fst snd]. split; auto. apply (proj2 (AN g Hg)) in Ha. destruct (NG q c' f' a Ha ltac:(congruence)) as [E _]. congruence. Qed.
  Lemma once g (Hg : g < G) : forall r, r < nRanks ->
    (forall c a, c < rm_nCells (M r) -> In a (ang g) -> exists k i, scheduled (sched g) r k i c a) /\
    (forall k i k' i' c a, scheduled (sched g) r k i c a -> scheduled (sched g) r k' i' c a -> k = k' /\ i = i') /\
    (forall k i c a, scheduled (sched g) r k i c a -> c < rm_nCells (M r) /\ In a (ang g)).
  Proof. exact (C38_once nRanks M (ang g) over under mate ok0 (proj1 (AN g Hg)) (osync g Hg) (prio g) mx (sched g) (onocyc g Hg) (OR g Hg)). Qed.
  Lemma work_in g k w r c a : g < G -> r < nRanks -> nth_error (sched g) k = Some w -> In (c, a) (w r) -> c < rm_nCells (M r) /\ In a (ang g) /\ a < nAngles.
  Proof.
    intros Hg Hr Hw Hin. apply In_nth_error in Hin. destruct Hin as [i Hi]. destruct (once g Hg r Hr) as (_ & _ & K). destruct (K k i c a) as [K1 K2]; [exists w; auto|]. split; auto. split; auto. now apply (AN g Hg).
  Qed.

  (** ** Projections of programs *)
  Definition worksOf (k : nat) (l : list (nat * act)) : list (nat * nat) :=
    flat_map (fun kx : nat * act => match snd kx with AWork c a => if fst kx =? k then [(c, a)] else [] | _ => [] end) l.
  Definition sendSteps (p : nat) (l : list (nat * act)) : list nat :=
    flat_map (fun kx : nat * act => match snd kx with ASend p' => if p' =? p then [fst kx] else [] | _ => [] end) l.
  Definition recvSteps (p : nat) (l : list (nat * act)) : list nat :=
    flat_map (fun kx : nat * act => match snd kx with ARecv p' => if p' =? p then [fst kx] else [] | _ => [] end) l.
  Lemma max_ge g : g < G -> length (sched g) <= mxs.
  Proof.
    unfold maxNSteps. intros Hg.
    assert (K : forall l m, m <= fold_left (fun m g => Nat.max m (length (sched g))) l m /\ forall g, In g l -> length (sched g) <= fold_left (fun m g => Nat.max m (length (sched g))) l m).
    { induction l as [|x l IH]; cbn [fold_left]; intros m; [split; [auto|easy]|]. destruct (IH (Nat.max m (length (sched x)))) as [K1 K2]. split; [lia|]. intros y [->|Hy]; auto. lia. }
    apply (K (seq 0 G) 0). apply in_seq. lia.
  Qed.
  Lemma step_lt g k w : g < G -> nth_error (sched g) k = Some w -> k < mxs.
  Proof. intros Hg H. pose proof (max_ge g Hg). assert (k < length (sched g)) by (apply nth_error_Some; congruence). lia. Qed.
  Lemma in_prog r g k x : In (k, x) (prog r g) <-> k < mxs /\ In x (stepProg r g k).
  Proof.
    unfold OrigModel.prog. rewrite in_flat_map. split.
    - intros (k' & Hk & H). apply in_map_iff in H. destruct H as (x' & E & H). injection E as -> ->. apply in_seq in Hk. split; auto. lia.
    - intros [Hk H]. exists k. split; [apply in_seq; lia|]. now apply in_map.
  Qed.
  Lemma in_step r g k x : In x (stepProg r g k) <->
    match nth_error (sched g) k with
    | Some w => (exists c a, x = AWork c a /\ In (c, a) (w r)) \/ (exists p, x = ASend p /\ In p (sendProcs nRanks M (ang g) over w r)) \/ (exists p, x = ARecv p /\ In p (recvProcs nRanks M (ang g) over w r))
    | None => False
    end \/ x = AWait \/ (bar = true /\ x = ABarrier).
  Proof.
    unfold OrigModel.stepProg. rewrite in_app_iff. cbn [In].
    assert (E : In x (if bar then [ABarrier] else []) <-> bar = true /\ x = ABarrier). { destruct bar; cbn; intuition congruence. } rewrite E. clear E.
    assert (E : forall A B C D : Prop, (A <-> B) -> (C <-> D) -> (A \/ C <-> B \/ D)) by (intros; tauto). apply E; clear E; [|intuition congruence].
    destruct (nth_error (sched g) k) as [w|]; [|easy]. rewrite !in_app_iff, !in_map_iff. split.
    - intros [([c a] & <- & H)|[(p & <- & H)|(p & <- & H)]]; [left|right; left|right; right]; eauto.
    - intros [(c & a & -> & H)|[(p & -> & H)|(p & -> & H)]]; [left; exists (c, a)|right; left|right; right]; eauto.
  Qed.
  Lemma works_prog r g k w : g < G -> nth_error (sched g) k = Some w -> worksOf k (prog r g) = w r.
  Proof.
    intros Hg Hw. unfold worksOf, OrigModel.prog. rewrite fm_fm. rewrite (fm_one _ _ k).
    - rewrite fm_map. unfold OrigModel.stepProg. rewrite Hw, !fm_app, !fm_map. cbn [fst snd]. rewrite Nat.eqb_refl.
      rewrite (flat_map_nil (fun _ => []) (sendProcs _ _ _ _ _ _)), (flat_map_nil (fun _ => []) (recvProcs _ _ _ _ _ _)) by auto. destruct bar; cbn; rewrite !app_nil_r.
      all: clear; induction (w r) as [|[c a] l IH]; cbn; congruence.
    - apply seq_NoDup.
    - apply in_seq. pose proof (step_lt g k w Hg Hw). lia.
    - intros k' _ N. rewrite fm_map. apply flat_map_nil. intros x _. cbn [fst snd]. destruct x; auto. destruct (Nat.eqb_spec k' k); congruence.
  Qed.
  Lemma sel_in k x l : NoDup l -> flat_map (fun y => if y =? x then [k] else []) l = if existsb (Nat.eqb x) l then [k] else [] : list nat.
  Proof.
    induction l as [|y l IH]; cbn; intros ND; auto. inversion ND as [|? ? N1 N2]; subst. rewrite IH by auto. rewrite Nat.eqb_sym. destruct (Nat.eqb_spec x y) as [->|N]; cbn; auto.
    destruct (existsb (Nat.eqb y) l) eqn:E; auto. apply existsb_exists in E. destruct E as (z & Hz & E). apply Nat.eqb_eq in E. subst. contradiction.
  Qed.
  Lemma send_nodup w r g : NoDup (sendProcs nRanks M (ang g) over w r).
  Proof. apply NoDup_filter, NoDup_filter, seq_NoDup. Qed.
  Lemma recv_nodup w r g : NoDup (recvProcs nRanks M (ang g) over w r).
  Proof. apply NoDup_filter, NoDup_filter, seq_NoDup. Qed.
  Lemma send_lt w r g p : In p (sendProcs nRanks M (ang g) over w r) -> p < nRanks.
  Proof. intros H. apply filter_In in H. destruct H as [H _]. apply filter_In in H. destruct H as [H _]. apply in_seq in H. lia. Qed.
  Lemma recv_lt w r g p : In p (recvProcs nRanks M (ang g) over w r) -> p < nRanks.
  Proof. intros H. apply filter_In in H. destruct H as [H _]. apply filter_In in H. destruct H as [H _]. apply in_seq in H. lia. Qed.
  Definition sendAt (r p g k : nat) : list nat :=
    match nth_error (sched g) k with Some w => if existsb (Nat.eqb p) (sendProcs nRanks M (ang g) over w r) then [k] else [] | None => [] end.
  Lemma sends_step r p g k : sendSteps p (map (pair k) (stepProg r g k)) = sendAt r p g k.
  Proof.
    unfold sendSteps, sendAt, OrigModel.stepProg. rewrite fm_map. destruct (nth_error (sched g) k) as [w|]; [|destruct bar; reflexivity].
    rewrite !fm_app, !fm_map. cbn [fst snd]. rewrite (flat_map_nil (fun _ => []) (w r)), (flat_map_nil (fun _ => []) (recvProcs _ _ _ _ _ _)) by auto. rewrite (sel_in k p _ (send_nodup w r g)). destruct bar; cbn; now rewrite !app_nil_r.
  Qed.
  Lemma sends_prog r p g : sendSteps p (prog r g) = flat_map (sendAt r p g) (seq 0 mxs).
  Proof. unfold sendSteps at 1, OrigModel.prog. rewrite fm_fm. apply fm_ext. intros k _. apply sends_step. Qed.
  Lemma recvs_prog r p g : g < G -> r < nRanks -> p < nRanks -> recvSteps r (prog p g) = sendSteps p (prog r g).
  Proof.
    intros Hg Hr Hp. rewrite sends_prog. unfold recvSteps, OrigModel.prog. rewrite fm_fm. apply fm_ext. intros k _. unfold sendAt, OrigModel.stepProg. rewrite fm_map. destruct (nth_error (sched g) k) as [w|]; [|destruct bar; reflexivity].
    rewrite !fm_app, !fm_map. cbn [fst snd]. rewrite (flat_map_nil (fun _ => []) (w p)), (flat_map_nil (fun _ => []) (sendProcs _ _ _ _ _ _)) by auto. rewrite (sel_in k r _ (recv_nodup w p g)).
    assert (E : existsb (Nat.eqb r) (recvProcs nRanks M (ang g) over w p) = existsb (Nat.eqb p) (sendProcs nRanks M (ang g) over w r)).
    { pose proof (C38_matched nRanks M (ang g) over under mate ok0 (osync g Hg) w r p Hr Hp) as K. apply eq_iff_eq_true. rewrite !existsb_exists. split.
      - intros (x & Hx & E). apply Nat.eqb_eq in E. subst x. exists p. split; [tauto|apply Nat.eqb_refl].
      - intros (x & Hx & E). apply Nat.eqb_eq in E. subst x. exists r. split; [tauto|apply Nat.eqb_refl]. }
    rewrite E. destruct bar; cbn; rewrite !app_nil_r; reflexivity.
  Qed.
  Lemma sends_nodup r p g : NoDup (sendSteps p (prog r g)).
  Proof.
    rewrite sends_prog. apply flat_map_nodup; [apply seq_NoDup| |].
    - intros k _. unfold sendAt. destruct (nth_error (sched g) k); [|constructor]. destruct existsb; repeat constructor. easy.
    - assert (K : forall k x, In x (sendAt r p g k) -> x = k). { intros k x. unfold sendAt. destruct (nth_error (sched g) k); [|easy]. destruct existsb; cbn; intuition. }
      intros x y b _ _ H1 H2. apply K in H1, H2. congruence.
  Qed.
  Lemma in_sends p l k : In k (sendSteps p l) <-> In (k, ASend p) l.
  Proof.
    unfold sendSteps. rewrite in_flat_map. split.
    - intros ([k' x] & H & K). cbn [fst snd] in K. destruct x as [| p' | | |]; try easy. destruct (Nat.eqb_spec p' p) as [->|]; [|easy]. destruct K as [->|[]]. auto.
    - intros H. exists (k, ASend p). split; auto. cbn. rewrite Nat.eqb_refl. now left.
  Qed.
  Lemma in_recvs p l k : In k (recvSteps p l) <-> In (k, ARecv p) l.
  Proof.
    unfold recvSteps. rewrite in_flat_map. split.
    - intros ([k' x] & H & K). cbn [fst snd] in K. destruct x as [| | p' | |]; try easy. destruct (Nat.eqb_spec p' p) as [->|]; [|easy]. destruct K as [->|[]]. auto.
    - intros H. exists (k, ARecv p). split; auto. cbn. rewrite Nat.eqb_refl. now left.
  Qed.
  Lemma in_works k l c a : In (c, a) (worksOf k l) <-> In (k, AWork c a) l.
  Proof.
    unfold worksOf. rewrite in_flat_map. split.
    - intros ([k' x] & H & K). cbn [fst snd] in K. destruct x as [c' a'| | | |]; try easy. destruct (Nat.eqb_spec k' k) as [->|]; [|easy]. destruct K as [E|[]]. injection E as -> ->. auto.
    - intros H. exists (k, AWork c a). split; auto. cbn. rewrite Nat.eqb_refl. now left.
  Qed.
  (** Steps come in order. *)
  Lemma prog_steps r g : StronglySorted (fun x y : nat * act => fst x <= fst y) (prog r g).
  Proof.
    unfold OrigModel.prog. apply ss_flat.
    - intros k _. apply ss_const. intros x y Hx Hy. apply in_map_iff in Hx, Hy. destruct Hx as (? & <- & _), Hy as (? & <- & _). auto.
    - intros k k' x y Hk _ Hx Hy. apply in_map_iff in Hx, Hy. destruct Hx as (? & <- & _), Hy as (? & <- & _). cbn. lia.
  Qed.
  Lemma early r g dn k x todo k' x' : prog r g = dn ++ (k, x) :: todo -> In (k', x') (prog r g) -> k' < k -> In (k', x') dn.
  Proof.
    intros E H Hk. rewrite E in H. apply in_app_or in H. destruct H as [H|[H|H]]; auto.
    - injection H as -> _. lia.
    - pose proof (prog_steps r g) as S. rewrite E in S. apply (ss_mid _ _ _ _ S) in H. cbn in H. lia.
  Qed.
  Lemma done_works r g dn k c a todo : g < G -> r < nRanks -> prog r g = dn ++ (k, AWork c a) :: todo ->
    exists w i, nth_error (sched g) k = Some w /\ nth_error (w r) i = Some (c, a) /\ forall i' c' a', i' < i -> nth_error (w r) i' = Some (c', a') -> In (k, AWork c' a') dn.
  Proof.
    intros Hg Hr E. assert (H : In (k, AWork c a) (prog r g)) by (rewrite E; apply in_elt). apply in_prog in H. destruct H as [_ H]. apply in_step in H.
    destruct (nth_error (sched g) k) as [w|] eqn:Ew; [|destruct H as [[]|[H|[_ H]]]; discriminate]. exists w, (length (worksOf k dn)). split; auto.
    assert (K : w r = worksOf k dn ++ (c, a) :: worksOf k todo).
    { rewrite <- (works_prog r g k w Hg Ew), E. unfold worksOf. rewrite fm_app. cbn [flat_map fst snd]. rewrite Nat.eqb_refl. reflexivity. }
    rewrite K. split; [rewrite nth_error_app2, Nat.sub_diag by lia; reflexivity|]. intros i' c' a' Hi Hn. rewrite nth_error_app1 in Hn by auto. apply in_works. eapply nth_error_In; eauto.
  Qed.

  (** ** Packets *)
  Definition outFace (r p c a f : nat) : list (packet D) :=
    match rm_adjCell (M r) c f, rm_adjRank (M r) c f with
    | None, Some p' => if rm_out (M r) a c f && (p' =? p) then [(rm_lgSide (M r) (rm_side (M r) c f), a, td_getData T r c f a (sol r c a))] else []
    | _, _ => []
    end.
  Definition pkt (r p : nat) (ca : nat * nat) : list (packet D) := flat_map (outFace r p (fst ca) (snd ca)) (seq 0 4).
  Definition msg (r p g k : nat) : list (packet D) := match nth_error (sched g) k with Some w => flat_map (pkt r p) (w r) | None => [] end.
  Definition tstep (r p : nat) (s : list (packet D) * list (list (packet D))) (kx : nat * act) : list (packet D) * list (list (packet D)) :=
    match snd kx with
    | AWork c a => (fst s ++ pkt r p (c, a), snd s)
    | ASend p' => if p' =? p then ([], snd s ++ [fst s]) else s
    | _ => s
    end.
  Definition tr (r p : nat) (l : list (nat * act)) : list (packet D) * list (list (packet D)) := fold_left (tstep r p) l ([], []).
  Lemma tr_app r p l m : tr r p (l ++ m) = fold_left (tstep r p) m (tr r p l).
  Proof. unfold tr. apply fold_left_app. Qed.
  Lemma tr_ext r p l : forall s, exists e, snd (fold_left (tstep r p) l s) = snd s ++ e /\ length e = length (sendSteps p l).
  Proof.
    induction l as [|[k x] l IH]; cbn [fold_left]; intros s; [exists []; now rewrite app_nil_r|]. destruct (IH (tstep r p s (k, x))) as (e & E1 & E2). unfold sendSteps in *. cbn [flat_map fst snd]. rewrite E1. unfold tstep. cbn [snd].
    destruct x as [c a|p'|p'| |]; cbn [snd fst]; try (exists e; now auto). destruct (Nat.eqb_spec p' p); [|exists e; now auto].
    exists (fst s :: e). cbn [snd app length]. rewrite <- app_assoc. cbn [app length]. auto.
  Qed.
  Lemma mate_out r c f p : r < nRanks -> c < rm_nCells (M r) -> f < 4 -> rm_adjCell (M r) c f = None -> rm_adjRank (M r) c f = Some p ->
    p <> r /\ exists c' f', mate (r, c, f) = Some (p, c', f').
  Proof.
    intros Hr Hc Hf H1 H2. rewrite (so_cell _ _ _ _ OK) in H1 by auto. rewrite (so_rank _ _ _ _ OK) in H2 by auto. destruct (mate (r, c, f)) as [[[q c'] f']|] eqn:E; [|discriminate].
    apply Some_inj in H2. subst q. destruct (Nat.eqb_spec p r); [discriminate|]. split; eauto.
  Qed.
  Lemma out_in r p c a m : r < nRanks -> c < rm_nCells (M r) -> In m (pkt r p (c, a)) ->
    p <> r /\ exists f c' f', mate (r, c, f) = Some (p, c', f') /\ rm_out (M r) a c f = true /\ m = (rm_lgSide (M r) (rm_side (M r) c f), a, td_getData T r c f a (sol r c a)).
  Proof.
    intros Hr Hc H. unfold pkt in H. apply in_flat_map in H. destruct H as (f & Hf & H). apply in_seq in Hf. cbn [fst snd] in H. unfold outFace in H.
    destruct (rm_adjCell (M r) c f) eqn:E1; [easy|]. destruct (rm_adjRank (M r) c f) as [p'|] eqn:E2; [|easy]. destruct (rm_out (M r) a c f) eqn:E3; [|easy]. cbn [andb] in H. destruct (Nat.eqb_spec p' p) as [->|]; [|easy]. destruct H as [<-|[]].
    destruct (mate_out r c f p) as (N & c' & f' & Hm); auto; [lia|]. split; auto. exists f, c', f'. auto.
  Qed.
  Lemma out_mem r p c a f c' f' : mate (r, c, f) = Some (p, c', f') -> p <> r -> rm_out (M r) a c f = true -> In (rm_lgSide (M r) (rm_side (M r) c f), a, td_getData T r c f a (sol r c a)) (pkt r p (c, a)).
  Proof.
    intros Hm Hp Ho. destruct (so_range _ _ _ _ OK _ _ _ _ Hm) as (Hr & Hc & Hf). unfold pkt. apply in_flat_map. exists f. split; [apply in_seq; lia|]. cbn [fst snd]. unfold outFace.
    rewrite (so_cell _ _ _ _ OK), (so_rank _ _ _ _ OK), Hm, Ho by auto. destruct (Nat.eqb_spec p r); [congruence|]. rewrite Nat.eqb_refl. now left.
  Qed.
  Lemma msg_nil g k w r p : g < G -> r < nRanks -> nth_error (sched g) k = Some w -> ~ In p (sendProcs nRanks M (ang g) over w r) -> msg r p g k = [].
  Proof.
    intros Hg Hr Hw Hn. unfold msg. rewrite Hw. apply flat_map_nil. intros [c a] Hin. destruct (work_in g k w r c a Hg Hr Hw Hin) as (Hc & Ha & _).
    destruct (pkt r p (c, a)) as [|m l] eqn:E; auto. exfalso. destruct (out_in r p c a m Hr Hc) as (Np & f & c' & f' & Hm & Ho & _); [rewrite E; now left|].
    apply Hn. eapply (C38_sends nRanks M (ang g) over under mate ok0 (proj1 (AN g Hg)) (osync g Hg) w r p c a c'); auto. eapply oflow; eauto.
  Qed.
  Lemma tr_step r p g k s : g < G -> r < nRanks -> fold_left (tstep r p) (map (pair k) (stepProg r g k)) ([], s) = ([], s ++ map (msg r p g) (sendAt r p g k)).
  Proof.
    intros Hg Hr. unfold OrigModel.stepProg, sendAt.
    assert (K1 : forall l b s, fold_left (tstep r p) (map (pair k) (map (fun ca => AWork (fst ca) (snd ca)) l)) (b, s) = (b ++ flat_map (pkt r p) l, s)).
    { induction l as [|[c a] l IH]; intros b s'; cbn [map fold_left flat_map]; [now rewrite app_nil_r|]. unfold tstep at 2. cbn [fst snd]. rewrite IH. now rewrite app_assoc. }
    assert (K2 : forall l b s, NoDup l -> fold_left (tstep r p) (map (pair k) (map ASend l)) (b, s) = if existsb (Nat.eqb p) l then ([], s ++ [b]) else (b, s)).
    { induction l as [|q l IH]; intros b s' ND; cbn [map fold_left existsb]; auto. inversion ND as [|? ? N1 N2]; subst. unfold tstep at 2. cbn [fst snd]. rewrite (Nat.eqb_sym p q). destruct (Nat.eqb_spec q p) as [->|N]; cbn [orb].
      - rewrite IH by auto. destruct (existsb (Nat.eqb p) l) eqn:E; auto. apply existsb_exists in E. destruct E as (z & Hz & E). apply Nat.eqb_eq in E. subst. contradiction.
      - now apply IH. }
    assert (K3 : forall l s, fold_left (tstep r p) (map (pair k) (map ARecv l)) s = s) by (induction l; intros; cbn [map fold_left]; [auto|apply IHl]).
    assert (K4 : forall s, fold_left (tstep r p) (map (pair k) (AWait :: if bar then [ABarrier] else [])) s = s) by (intros; destruct bar; reflexivity).
    rewrite !map_app, fold_left_app. rewrite K4. destruct (nth_error (sched g) k) as [w|] eqn:Ew; [|cbn; now rewrite app_nil_r].
    rewrite !map_app, !fold_left_app. rewrite K1, K2, K3 by apply send_nodup. cbn [app]. destruct (existsb (Nat.eqb p) (sendProcs nRanks M (ang g) over w r)) eqn:E.
    - cbn [map]. unfold msg. now rewrite Ew.
    - cbn [map]. rewrite app_nil_r. f_equal. pose proof (msg_nil g k w r p Hg Hr Ew) as N. unfold msg in N. rewrite Ew in N. apply N. intros Hin. apply not_true_iff_false in E. apply E. apply existsb_exists. exists p. split; auto. apply Nat.eqb_refl.
  Qed.
  Lemma tr_prog r p g : g < G -> r < nRanks -> tr r p (prog r g) = ([], map (msg r p g) (sendSteps p (prog r g))).
  Proof.
    intros Hg Hr. rewrite sends_prog. unfold OrigModel.prog. generalize mxs as n. induction n as [|n IH]; [reflexivity|]. rewrite seq_S, !fm_app, tr_app, IH. cbn [flat_map plus]. rewrite !app_nil_r, map_app. now apply tr_step.
  Qed.
  (** What has been sent so far. *)
  Lemma tr_sent r p g dn todo : g < G -> r < nRanks -> prog r g = dn ++ todo -> snd (tr r p dn) = map (msg r p g) (sendSteps p dn).
  Proof.
    intros Hg Hr E. pose proof (tr_prog r p g Hg Hr) as K. rewrite E in K. rewrite tr_app in K. destruct (tr_ext r p todo (tr r p dn)) as (e & E1 & E2). rewrite K in E1. cbn [snd] in E1.
    destruct (tr_ext r p dn ([], [])) as (e' & E3 & E4). cbn [snd app] in E3. change (snd (tr r p dn) = e') in E3. rewrite <- E3 in E4. unfold sendSteps in E1. rewrite fm_app, map_app in E1. fold (sendSteps p dn) in E1.
    apply (f_equal (firstn (length (snd (tr r p dn))))) in E1. rewrite !firstn_app in E1. rewrite E4 in E1 at 1 2. rewrite map_length in E1. rewrite !Nat.sub_diag in E1. cbn [firstn] in E1. rewrite !app_nil_r in E1.
    rewrite firstn_all2 in E1 by (rewrite map_length; lia). rewrite firstn_all in E1. auto.
  Qed.

  (** ** Boundary data *)
  Lemma bound_other r c a v s a0 l : (forall f, In f l -> rm_adjCell (M r) c f = None -> rm_out (M r) a c f = true -> (s, a0) <> (rm_side (M r) c f, a)) ->
    forall b, fold_left (boundFace M T r c a v) l b s a0 = b s a0.
  Proof.
    induction l as [|f l IH]; intros H b; cbn [fold_left]; auto. rewrite IH by (intros; apply H; auto; now right). unfold boundFace. destruct (rm_adjCell (M r) c f) eqn:E1; auto. destruct (rm_out (M r) a c f) eqn:E2; auto.
    apply fupd2_other. apply H; auto. now left.
  Qed.
  Lemma bound_own r c a v f : r < nRanks -> c < rm_nCells (M r) -> rm_adjCell (M r) c f = None -> rm_out (M r) a c f = true -> f < 4 ->
    forall b, fold_left (boundFace M T r c a v) (seq 0 4) b (rm_side (M r) c f) a = td_getData T r c f a v.
  Proof.
    intros Hr Hc H1 H2 Hf. assert (K : forall l, NoDup l -> (forall h, In h l -> h < 4) -> In f l -> forall b, fold_left (boundFace M T r c a v) l b (rm_side (M r) c f) a = td_getData T r c f a v).
    { induction l as [|h l IH]; intros ND Hl Hin b; [easy|]. cbn [fold_left]. inversion ND as [|? ? N1 N2]; subst. destruct Hin as [->|Hin].
      - rewrite bound_other.
        + unfold boundFace. rewrite H1, H2. apply fupd2_same.
        + intros h Hh E1 E2 E. injection E as E. destruct (SD r c f c h) as [_ ->]; auto. apply Hl. now right.
      - apply IH; auto. intros; apply Hl; now right. }
    apply K; [apply seq_NoDup| |apply in_seq; lia]. intros h Hh. apply in_seq in Hh. lia.
  Qed.
  Definition goodp (r : nat) (m : packet D) : Prop :=
    exists p c' f' c f a, mate (p, c', f') = Some (r, c, f) /\ p <> r /\ m = (rm_lgSide (M p) (rm_side (M p) c' f'), a, td_getData T p c' f' a (sol p c' a)).
  Lemma store_ok r m : Forall (goodp r) m -> forall b, exists b', fold_left (storePacket M r) m (Some b) = Some b' /\
    forall p c' f' c f a, mate (p, c', f') = Some (r, c, f) -> p <> r ->
      (b (rm_side (M r) c f) a = td_getData T p c' f' a (sol p c' a) \/ In (rm_lgSide (M p) (rm_side (M p) c' f'), a, td_getData T p c' f' a (sol p c' a)) m) ->
      b' (rm_side (M r) c f) a = td_getData T p c' f' a (sol p c' a).
  Proof.
    induction 1 as [|x m (p1 & c1' & f1' & c1 & f1 & a1 & Hm1 & Hp1 & ->) H IH]; intros b; [exists b; split; auto; intros ? ? ? ? ? ? ? ? [?|[]]; auto|].
    cbn [fold_left]. unfold storePacket at 2. cbn [obind]. destruct (so_side _ _ _ _ OK _ _ _ _ _ _ Hm1 ltac:(auto)) as [E1 _]. rewrite E1. cbn [obind].
    destruct (IH (fupd2 b (rm_side (M r) c1 f1) a1 (td_getData T p1 c1' f1' a1 (sol p1 c1' a1)))) as (b' & Eb & K). exists b'. split; auto.
    intros p c' f' c f a Hm Hp HH. apply K; auto. destruct HH as [HH|[HH|HH]]; auto; left.
    - destruct (Nat.eq_dec a a1) as [->|Na]; [destruct (Nat.eq_dec (rm_side (M r) c f) (rm_side (M r) c1 f1)) as [Es|Ns]|].
      + pose proof (so_sym _ _ _ _ OK _ _ Hm) as Hs. pose proof (so_sym _ _ _ _ OK _ _ Hm1) as Hs1. destruct (so_inj _ _ _ _ OK _ _ _ _ _ _ _ _ _ _ _ Hs Hp Hs1 Hp1 Es) as [-> ->]. rewrite Hs in Hs1. injection Hs1 as -> -> ->. now rewrite fupd2_same.
      + rewrite fupd2_other by congruence. auto.
      + rewrite fupd2_other by congruence. auto.
    - injection HH as Eg <- Ed. destruct (so_side _ _ _ _ OK _ _ _ _ _ _ Hm ltac:(auto)) as [E2 _]. rewrite <- Eg, E1 in E2. apply Some_inj in E2. rewrite <- E2, fupd2_same. exact Ed.
  Qed.
  Lemma msg_good p r g k : g < G -> p < nRanks -> Forall (goodp r) (msg p r g k).
  Proof.
    intros Hg Hp. apply Forall_forall. intros m Hm. unfold msg in Hm. destruct (nth_error (sched g) k) as [w|] eqn:Ew; [|easy]. apply in_flat_map in Hm. destruct Hm as ([c a] & Hin & Hm).
    destruct (work_in g k w p c a Hg Hp Ew Hin) as (Hc & _). destruct (out_in p r c a m Hp Hc Hm) as (N & f & c' & f' & E & Ho & ->). exists p, c, f, c', f', a. auto.
  Qed.

  (** ** The invariant; [dn] is what has been done *)
  Record oinv (S : gos) (dn : nat -> nat -> list (nat * act)) : Prop := {
    iv_prog : forall r g, r < nRanks -> g < G -> prog r g = dn r g ++ otodo S r g;
    iv_val : forall r g k c a, r < nRanks -> g < G -> In (k, AWork c a) (dn r g) -> o_val (os S r) c a = sol r c a;
    iv_bnd : forall r g k p w c' f' c f a, r < nRanks -> g < G -> In (k, ARecv p) (dn r g) -> nth_error (sched g) k = Some w -> In (c', a) (w p) ->
      mate (p, c', f') = Some (r, c, f) -> p <> r -> rm_out (M p) a c' f' = true -> o_bnd (os S r) (rm_side (M r) c f) a = td_getData T p c' f' a (sol p c' a);
    iv_out : forall r g p, r < nRanks -> g < G -> p < nRanks -> o_out (os S r) g p = fst (tr r p (dn r g));
    iv_ch : forall r g p, r < nRanks -> g < G -> p < nRanks -> och S r p g = skipn (length (recvSteps r (dn p g))) (map (msg r p g) (sendSteps p (dn r g))) /\
      length (recvSteps r (dn p g)) <= length (sendSteps p (dn r g))
  }.
  Lemma oinv_start ty val : hasBarrier ty = bar -> oinv (ostart nRanks G M over ang sched ty val bnd0) (fun _ _ => []).
  Proof. intros E. constructor; cbn; try easy. intros r g _ _. now rewrite E. Qed.

  (** What the work reads. *)
  Lemma reads S dn r g k c a todo : oinv S dn -> r < nRanks -> g < G -> otodo S r g = (k, AWork c a) :: todo ->
    c < rm_nCells (M r) /\ a < nAngles /\ td_update T r c a (map (readFace Forward M T r (o_val (os S r)) (o_bnd (os S r)) c a) (seq 0 4)) = sol r c a.
  Proof.
    intros I Hr Hg Et. pose proof (iv_prog _ _ I r g Hr Hg) as E. rewrite Et in E. destruct (done_works r g _ k c a todo Hg Hr E) as (w & i & Hw & Hi & Hd).
    destruct (work_in g k w r c a Hg Hr Hw (nth_error_In _ _ Hi)) as (Hc & Ha & Ha'). split; auto. split; auto. rewrite (SOL r c a) by (split; auto). f_equal. apply map_ext_in. intros f Hf. apply in_seq in Hf.
    unfold readFace, seen. destruct (isIncoming Forward (M r) a c f) eqn:Ei; auto. rewrite (so_cell _ _ _ _ OK), (so_rank _ _ _ _ OK) by (auto; lia). destruct (mate (r, c, f)) as [[[q c'] f']|] eqn:Em; auto.
    pose proof (so_sym _ _ _ _ OK _ _ Em) as Em'. assert (Ho : rm_out (M q) a c' f' = true). { rewrite (so_flow _ _ _ _ OK _ _ _ _ _ _ a Em' Ha'). exact Ei. }
    assert (Hq : q < nRanks) by apply (so_range _ _ _ _ OK _ _ _ _ Em').
    assert (FL : flows over mate a (q, c') (r, c)) by (eapply oflow; eauto).
    destruct (C38_order nRanks M (ang g) over under mate ok0 (proj1 (AN g Hg)) (osync g Hg) (prio g) mx (sched g) (OR g Hg) r k i c a q c' Hr) as (k' & i' & (w' & Hw' & Hi') & HO); auto; [exists w; auto|].
    pose proof (step_lt g k' w' Hg Hw') as Hk'.
    destruct (Nat.eqb_spec q r) as [->|Nq].
    - f_equal. f_equal.
      assert (Hin : In (k', AWork c' a) (dn r g)).
      { destruct HO as [HO|(_ & -> & HO)].
        - eapply early; eauto. apply in_prog. split; auto. apply in_step. rewrite Hw'. left. left. exists c', a. split; auto. eapply nth_error_In; eauto.
        - rewrite Hw in Hw'. apply Some_inj in Hw'. subst w'. eapply Hd; eauto. }
      eapply (iv_val _ _ I); eauto.
    - f_equal. destruct HO as [HO|(-> & _)]; [|congruence].
      assert (Hs : In r (sendProcs nRanks M (ang g) over w' q)). { eapply (C38_sends nRanks M (ang g) over under mate ok0 (proj1 (AN g Hg)) (osync g Hg) w' q r c' a c); auto. eapply nth_error_In; eauto. }
      apply (C38_matched nRanks M (ang g) over under mate ok0 (osync g Hg) w' q r Hq Hr) in Hs.
      assert (Hin : In (k', ARecv q) (dn r g)). { eapply early; eauto. apply in_prog. split; auto. apply in_step. rewrite Hw'. left. right. right. exists q. auto. }
      eapply (iv_bnd _ _ I); eauto. eapply nth_error_In; eauto.
  Qed.
  Lemma todo_act S dn r g k x todo : oinv S dn -> r < nRanks -> g < G -> otodo S r g = (k, x) :: todo -> k < mxs /\ In x (stepProg r g k).
  Proof. intros I Hr Hg Et. pose proof (iv_prog _ _ I r g Hr Hg) as E. rewrite Et in E. apply in_prog. rewrite E. apply in_elt. Qed.
  Lemma recv_index S dn r g k p todo : oinv S dn -> r < nRanks -> g < G -> otodo S r g = (k, ARecv p) :: todo ->
    p < nRanks /\ nth_error (sendSteps r (prog p g)) (length (recvSteps p (dn r g))) = Some k.
  Proof.
    intros I Hr Hg Et. destruct (todo_act _ _ _ _ _ _ _ I Hr Hg Et) as [_ H]. apply in_step in H. destruct (nth_error (sched g) k) as [w|] eqn:Ew; [|destruct H as [[]|[H|[_ H]]]; discriminate].
    assert (Hp : p < nRanks). { destruct H as [[(c & a & H & _)|[(q & H & _)|(q & H & K)]]|[H|[_ H]]]; try discriminate. injection H as <-. eapply recv_lt; eauto. }
    split; auto. rewrite <- (recvs_prog p r g) by auto. rewrite (iv_prog _ _ I r g Hr Hg), Et. unfold recvSteps. rewrite fm_app. cbn [flat_map fst snd]. rewrite Nat.eqb_refl. fold (recvSteps p (dn r g)). cbn [app].
    rewrite nth_error_app2, Nat.sub_diag by lia. reflexivity.
  Qed.
  Lemma recv_msg S dn r g k p todo m l : oinv S dn -> r < nRanks -> g < G -> otodo S r g = (k, ARecv p) :: todo -> och S p r g = m :: l ->
    m = msg p r g k /\ length (recvSteps p (dn r g)) < length (sendSteps r (dn p g)) /\ l = skipn (Datatypes.S (length (recvSteps p (dn r g)))) (map (msg p r g) (sendSteps r (dn p g))).
  Proof.
    intros I Hr Hg Et Ec. destruct (recv_index _ _ _ _ _ _ _ I Hr Hg Et) as [Hp Hn]. destruct (iv_ch _ _ I p g r Hp Hg Hr) as [Ech Hle]. rewrite Ech in Ec.
    set (n := length (recvSteps p (dn r g))) in *. set (L := map (msg p r g) (sendSteps r (dn p g))) in *.
    assert (Hm : nth_error L n = Some m). { rewrite <- (firstn_skipn n L), Ec. rewrite nth_error_app2 by (rewrite firstn_length; lia). rewrite firstn_length. assert (n < length L). { apply (f_equal (@length _)) in Ec. rewrite skipn_length in Ec. cbn in Ec. lia. } rewrite Nat.min_l by lia. now rewrite Nat.sub_diag. }
    assert (Hlt : n < length (sendSteps r (dn p g))). { rewrite <- (map_length (msg p r g)). apply nth_error_Some. fold L. congruence. }
    split; [|split]; auto.
    - unfold L in Hm. rewrite nth_error_map in Hm. destruct (nth_error (sendSteps r (dn p g)) n) as [k1|] eqn:E1; [|discriminate]. cbn in Hm. apply Some_inj in Hm. subst m. f_equal.
      assert (K : nth_error (sendSteps r (prog p g)) n = Some k1). { rewrite (iv_prog _ _ I p g Hp Hg). unfold sendSteps. rewrite fm_app. eapply prefix_nth; eauto. }
      congruence.
    - symmetry. now apply skipn_next with (x := m).
  Qed.

  (** One step keeps the invariant. *)
  Lemma recvs_snoc p l kx : recvSteps p (l ++ [kx]) = recvSteps p l ++ match snd kx with ARecv p' => if p' =? p then [fst kx] else [] | _ => [] end.
  Proof. unfold recvSteps. rewrite fm_app. cbn [flat_map]. now rewrite app_nil_r. Qed.
  Lemma sends_snoc p l kx : sendSteps p (l ++ [kx]) = sendSteps p l ++ match snd kx with ASend p' => if p' =? p then [fst kx] else [] | _ => [] end.
  Proof. unfold sendSteps. rewrite fm_app. cbn [flat_map]. now rewrite app_nil_r. Qed.
  Lemma tr_snoc r p l kx : tr r p (l ++ [kx]) = tstep r p (tr r p l) kx.
  Proof. rewrite tr_app. reflexivity. Qed.
  Definition did (dn : nat -> nat -> list (nat * act)) (r g : nat) (kx : nat * act) : nat -> nat -> list (nat * act) := fupd2 dn r g (dn r g ++ [kx]).
  Lemma did_same dn r g kx : did dn r g kx r g = dn r g ++ [kx].
  Proof. apply fupd2_same. Qed.
  Lemma did_other dn r g kx r' g' : (r', g') <> (r, g) -> did dn r g kx r' g' = dn r' g'.
  Proof. apply fupd2_other. Qed.
  Lemma did_in dn r g kx r' g' y : In y (did dn r g kx r' g') <-> In y (dn r' g') \/ (r', g') = (r, g) /\ y = kx.
  Proof.
    destruct (Nat.eq_dec r' r) as [->|N]; [destruct (Nat.eq_dec g' g) as [->|N]|].
    - rewrite did_same, in_app_iff. cbn. intuition congruence.
    - rewrite did_other by congruence. intuition congruence.
    - rewrite did_other by congruence. intuition congruence.
  Qed.
  Lemma did_recvs dn r g kx r' g' p : (forall p', snd kx <> ARecv p') -> recvSteps p (did dn r g kx r' g') = recvSteps p (dn r' g').
  Proof.
    intros H. destruct (Nat.eq_dec r' r) as [->|N]; [destruct (Nat.eq_dec g' g) as [->|N]|]; try (rewrite did_other by congruence; auto).
    rewrite did_same, recvs_snoc. destruct (snd kx); auto using app_nil_r. now destruct (H p0).
  Qed.
  Lemma did_sends dn r g kx r' g' p : (forall p', snd kx <> ASend p') -> sendSteps p (did dn r g kx r' g') = sendSteps p (dn r' g').
  Proof.
    intros H. destruct (Nat.eq_dec r' r) as [->|N]; [destruct (Nat.eq_dec g' g) as [->|N]|]; try (rewrite did_other by congruence; auto).
    rewrite did_same, sends_snoc. destruct (snd kx); auto using app_nil_r. now destruct (H p0).
  Qed.
  Lemma did_prog S dn r g kx todo (ss : nat -> @ost V D) (ch : nat -> nat -> nat -> list (list (packet D))) : oinv S dn -> otodo S r g = kx :: todo ->
    forall r' g', r' < nRanks -> g' < G -> prog r' g' = did dn r g kx r' g' ++ otodo (mkGos ss ch (fupd2 (otodo S) r g todo)) r' g'.
  Proof.
    intros I Et r' g' Hr' Hg'. cbn [otodo]. rewrite (iv_prog _ _ I r' g' Hr' Hg').
    destruct (Nat.eq_dec r' r) as [->|N]; [destruct (Nat.eq_dec g' g) as [->|N]|].
    - rewrite did_same, fupd2_same, Et, <- app_assoc. reflexivity.
    - rewrite did_other, fupd2_other by congruence. reflexivity.
    - rewrite did_other, fupd2_other by congruence. reflexivity.
  Qed.
  (** Actions other than send and receive leave the channels as they should be. *)
  Lemma ch_same S dn r g kx r' g' p : oinv S dn -> (forall q, snd kx <> ASend q) -> (forall q, snd kx <> ARecv q) -> r' < nRanks -> g' < G -> p < nRanks ->
    och S r' p g' = skipn (length (recvSteps r' (did dn r g kx p g'))) (map (msg r' p g') (sendSteps p (did dn r g kx r' g'))) /\
    length (recvSteps r' (did dn r g kx p g')) <= length (sendSteps p (did dn r g kx r' g')).
  Proof. intros I H1 H2 Hr Hg Hp. rewrite did_sends, did_recvs by auto. now apply (iv_ch _ _ I). Qed.
  Lemma inv_work S dn r g k c a todo : oinv S dn -> r < nRanks -> g < G -> otodo S r g = (k, AWork c a) :: todo ->
    oinv (mkGos (fupd (os S) r (doWork M T r g (os S r) c a)) (och S) (fupd2 (otodo S) r g todo)) (did dn r g (k, AWork c a)).
  Proof.
    intros I Hr Hg Et. destruct (reads _ _ _ _ _ _ _ _ I Hr Hg Et) as (Hc & Ha & Ev).
    set (v := td_update T r c a (map (readFace Forward M T r (o_val (os S r)) (o_bnd (os S r)) c a) (seq 0 4))) in *.
    constructor; cbn [os och].
    - eapply did_prog; eauto.
    - intros r' g' k' c' a' Hr' Hg' H. apply did_in in H. destruct (Nat.eq_dec r' r) as [->|N].
      + rewrite fupd_same. cbn [o_val doWork]. fold v. destruct (Nat.eq_dec c' c) as [->|Nc]; [destruct (Nat.eq_dec a' a) as [->|Na]|].
        * now rewrite fupd2_same.
        * rewrite fupd2_other by congruence. destruct H as [H|[_ H]]; [eapply (iv_val _ _ I); eauto|congruence].
        * rewrite fupd2_other by congruence. destruct H as [H|[_ H]]; [eapply (iv_val _ _ I); eauto|congruence].
      + rewrite fupd_other by auto. destruct H as [H|[E _]]; [eapply (iv_val _ _ I); eauto|congruence].
    - intros r' g' k' p w c' f' c0 f0 a0 Hr' Hg' H Hw Hin Hm Hp Ho. apply did_in in H. destruct H as [H|[_ H]]; [|discriminate].
      pose proof (iv_bnd _ _ I _ _ _ _ _ _ _ _ _ _ Hr' Hg' H Hw Hin Hm Hp Ho) as K. destruct (Nat.eq_dec r' r) as [->|N]; [|rewrite fupd_other by auto; auto].
      rewrite fupd_same. cbn [o_bnd doWork]. rewrite bound_other; auto. intros f Hf E1 E2 E. apply in_seq in Hf. injection E as Es ->.
      pose proof (so_sym _ _ _ _ OK _ _ Hm) as Hm'. destruct (so_range _ _ _ _ OK _ _ _ _ Hm') as (_ & Hc0 & Hf0).
      assert (E0 : rm_adjCell (M r) c0 f0 = None). { rewrite (so_cell _ _ _ _ OK), Hm' by auto. destruct (Nat.eqb_spec p r); congruence. }
      destruct (SD r c0 f0 c f) as [-> ->]; auto; [lia|]. rewrite (so_flow _ _ _ _ OK _ _ _ _ _ _ a Hm' Ha), Ho in E2. discriminate.
    - intros r' g' p Hr' Hg' Hp. destruct (Nat.eq_dec r' r) as [->|N].
      + rewrite fupd_same. cbn [o_out doWork]. fold v. destruct (Nat.eqb_spec g' g) as [->|Ng].
        * rewrite did_same, tr_snoc. unfold tstep. cbn [fst snd]. rewrite (iv_out _ _ I r g p) by auto. f_equal. unfold pkt. apply fm_ext. intros f Hf. apply in_seq in Hf. cbn [fst snd]. unfold commFace, outFace.
          destruct (rm_adjCell (M r) c f) eqn:E1; auto. destruct (rm_adjRank (M r) c f) as [p'|]; auto. destruct (rm_out (M r) a c f) eqn:E2; auto. cbn [andb]. destruct (p' =? p); auto. do 2 f_equal.
          rewrite bound_own by (auto; lia). now rewrite Ev.
        * rewrite did_other by congruence. now apply (iv_out _ _ I).
      + rewrite fupd_other by auto. rewrite did_other by congruence. now apply (iv_out _ _ I).
    - intros r' g' p Hr' Hg' Hp. apply ch_same; auto; cbn; congruence.
  Qed.
  Lemma inv_send S dn r g k p todo : oinv S dn -> r < nRanks -> g < G -> otodo S r g = (k, ASend p) :: todo ->
    oinv (mkGos (fupd (os S) r (clearOut (os S r) g p)) (fupd3 (och S) r p g (och S r p g ++ [o_out (os S r) g p])) (fupd2 (otodo S) r g todo)) (did dn r g (k, ASend p)).
  Proof.
    intros I Hr Hg Et. pose proof (did_prog S dn r g _ todo (os S) (och S) I Et) as DP. cbn [otodo] in DP.
    assert (Hp : p < nRanks). { destruct (todo_act _ _ _ _ _ _ _ I Hr Hg Et) as [_ H]. apply in_step in H. destruct (nth_error (sched g) k) as [w|]; [|destruct H as [[]|[H|[_ H]]]; discriminate].
      destruct H as [[(c & a & H & _)|[(q & H & K)|(q & H & _)]]|[H|[_ H]]]; try discriminate. injection H as <-. eapply send_lt; eauto. }
    constructor; cbn [os och].
    - eapply did_prog; eauto.
    - intros r' g' k' c' a' Hr' Hg' H. apply did_in in H. destruct H as [H|[_ H]]; [|discriminate]. pose proof (iv_val _ _ I _ _ _ _ _ Hr' Hg' H).
      destruct (Nat.eq_dec r' r) as [->|N]; [rewrite fupd_same|rewrite fupd_other by auto]; auto.
    - intros r' g' k' q w c' f' c0 f0 a0 Hr' Hg' H Hw Hin Hm Hq Ho. apply did_in in H. destruct H as [H|[_ H]]; [|discriminate].
      pose proof (iv_bnd _ _ I _ _ _ _ _ _ _ _ _ _ Hr' Hg' H Hw Hin Hm Hq Ho). destruct (Nat.eq_dec r' r) as [->|N]; [rewrite fupd_same|rewrite fupd_other by auto]; auto.
    - intros r' g' q Hr' Hg' Hq. destruct (Nat.eq_dec r' r) as [->|N].
      + rewrite fupd_same. cbn [o_out clearOut]. destruct (Nat.eq_dec g' g) as [->|Ng].
        * rewrite did_same, tr_snoc. unfold tstep. cbn [fst snd]. destruct (Nat.eqb_spec p q) as [->|Nq]; [now rewrite fupd2_same|]. rewrite fupd2_other by congruence. now apply (iv_out _ _ I).
        * rewrite did_other, fupd2_other by congruence. now apply (iv_out _ _ I).
      + rewrite fupd_other by auto. rewrite did_other by congruence. now apply (iv_out _ _ I).
    - intros r' g' q Hr' Hg' Hq. rewrite did_recvs by (cbn; congruence). destruct (iv_ch _ _ I r' g' q Hr' Hg' Hq) as [K1 K2]. unfold fupd3.
      destruct (Nat.eqb_spec r' r) as [->|N1]; cbn [andb].
      + destruct (Nat.eqb_spec g' g) as [->|N3].
        * destruct (Nat.eqb_spec q p) as [->|N2]; cbn [andb].
          -- rewrite K1, (iv_out _ _ I r g p) by auto. pose proof (tr_sent r p g _ _ Hg Hr (DP r g Hr Hg)) as E. rewrite did_same in E |- *. rewrite tr_snoc, sends_snoc in E. rewrite sends_snoc. unfold tstep in E. cbn [fst snd] in E |- *. rewrite Nat.eqb_refl in E |- *. cbn [snd] in E.
             pose proof (tr_sent r p g _ _ Hg Hr (iv_prog _ _ I r g Hr Hg)) as E0. rewrite map_app in E |- *. rewrite E0 in E. apply app_inv_head in E. rewrite E. rewrite app_length. split; [|cbn; lia].
             rewrite skipn_app. replace (length (recvSteps r (dn p g)) - length (map (msg r p g) (sendSteps p (dn r g)))) with 0 by (rewrite map_length; lia). reflexivity.
          -- rewrite did_same, sends_snoc. cbn [fst snd]. destruct (Nat.eqb_spec p q); [congruence|]. rewrite app_nil_r. auto.
        * rewrite andb_false_r. rewrite did_other by congruence. auto.
      + rewrite did_other by congruence. auto.
  Qed.
  Lemma inv_recv S dn r g k p todo m l bnd : oinv S dn -> r < nRanks -> g < G -> otodo S r g = (k, ARecv p) :: todo -> och S p r g = m :: l ->
    fold_left (storePacket M r) m (Some (o_bnd (os S r))) = Some bnd ->
    oinv (mkGos (fupd (os S) r (setBnd (os S r) bnd)) (fupd3 (och S) p r g l) (fupd2 (otodo S) r g todo)) (did dn r g (k, ARecv p)).
  Proof.
    intros I Hr Hg Et Ec Eb. destruct (recv_msg _ _ _ _ _ _ _ _ _ I Hr Hg Et Ec) as (-> & Hlt & El). destruct (recv_index _ _ _ _ _ _ _ I Hr Hg Et) as [Hp _].
    destruct (store_ok r (msg p r g k) (msg_good p r g k Hg Hp) (o_bnd (os S r))) as (b' & Eb' & SK). rewrite Eb in Eb'. apply Some_inj in Eb'. subst b'.
    constructor; cbn [os och].
    - eapply did_prog; eauto.
    - intros r' g' k' c' a' Hr' Hg' H. apply did_in in H. destruct H as [H|[_ H]]; [|discriminate]. pose proof (iv_val _ _ I _ _ _ _ _ Hr' Hg' H).
      destruct (Nat.eq_dec r' r) as [->|N]; [rewrite fupd_same|rewrite fupd_other by auto]; auto.
    - intros r' g' k' q w c' f' c0 f0 a0 Hr' Hg' H Hw Hin Hm Hq Ho. apply did_in in H. destruct (Nat.eq_dec r' r) as [->|N].
      + rewrite fupd_same. cbn [o_bnd setBnd]. apply SK; auto. destruct H as [H|[E H]].
        * left. eapply (iv_bnd _ _ I); eauto.
        * injection E as ->. injection H as -> ->. right. unfold msg. rewrite Hw. apply in_flat_map. exists (c', a0). split; auto. eapply out_mem; eauto.
      + rewrite fupd_other by auto. destruct H as [H|[E _]]; [|congruence]. eapply (iv_bnd _ _ I); eauto.
    - intros r' g' q Hr' Hg' Hq. assert (E : tr r' q (did dn r g (k, ARecv p) r' g') = tr r' q (dn r' g')).
      { destruct (Nat.eq_dec r' r) as [->|N]; [destruct (Nat.eq_dec g' g) as [->|N]|]; try (now rewrite did_other by congruence). rewrite did_same, tr_snoc. reflexivity. }
      rewrite E. rewrite <- (iv_out _ _ I) by auto. destruct (Nat.eq_dec r' r) as [->|N]; [rewrite fupd_same|rewrite fupd_other by auto]; auto.
    - intros r' g' q Hr' Hg' Hq. rewrite did_sends by (cbn; congruence). destruct (iv_ch _ _ I r' g' q Hr' Hg' Hq) as [K1 K2]. unfold fupd3.
      destruct (Nat.eqb_spec q r) as [->|N1]; cbn [andb].
      + destruct (Nat.eqb_spec g' g) as [->|N3].
        * destruct (Nat.eqb_spec r' p) as [->|N2]; cbn [andb].
          -- rewrite did_same, recvs_snoc. cbn [fst snd]. rewrite Nat.eqb_refl, app_length. cbn [length]. rewrite Nat.add_1_r. split; [exact El|lia].
          -- rewrite did_same, recvs_snoc. cbn [fst snd]. destruct (Nat.eqb_spec p r'); [congruence|]. rewrite app_nil_r. auto.
        * rewrite andb_false_r. rewrite did_other by congruence. auto.
      + rewrite andb_false_r. cbn [andb]. rewrite did_other by congruence. auto.
  Qed.
  Lemma inv_idle S dn r g k x todo : oinv S dn -> r < nRanks -> g < G -> otodo S r g = (k, x) :: todo -> x = AWait \/ x = ABarrier ->
    oinv (mkGos (os S) (och S) (fupd2 (otodo S) r g todo)) (did dn r g (k, x)).
  Proof.
    intros I Hr Hg Et Hx. constructor; cbn [os och].
    - eapply did_prog; eauto.
    - intros r' g' k' c' a' Hr' Hg' H. apply did_in in H. destruct H as [H|[_ H]]; [eapply (iv_val _ _ I); eauto|destruct Hx; congruence].
    - intros r' g' k' q w c' f' c0 f0 a0 Hr' Hg' H Hw Hin Hm Hq Ho. apply did_in in H. destruct H as [H|[_ H]]; [eapply (iv_bnd _ _ I); eauto|destruct Hx; congruence].
    - intros r' g' q Hr' Hg' Hq. rewrite (iv_out _ _ I) by auto. destruct (Nat.eq_dec r' r) as [->|N]; [destruct (Nat.eq_dec g' g) as [->|N]|]; try (now rewrite did_other by congruence).
      rewrite did_same, tr_snoc. unfold tstep. cbn [snd]. destruct Hx as [-> | ->]; reflexivity.
    - intros r' g' p Hr' Hg' Hp. apply ch_same; auto; cbn [snd]; intros q E; destruct Hx; congruence.
  Qed.
  Lemma inv_step ty rv S dn S' : oinv S dn -> ostep nRanks G M T ty rv S S' -> exists dn', oinv S' dn'.
  Proof.
    intros I H. destruct H as [r g k x l os' ch' Hr Hg Et _ HA]. exists (did dn r g (k, x)). destruct HA as [c a|p|p m l' bnd Ec Eb| |].
    - now apply inv_work.
    - now apply inv_send.
    - now apply inv_recv with (m := m).
    - apply inv_idle; auto.
    - apply inv_idle; auto.
  Qed.
  Lemma inv_reach ty rv S0 n S : (exists dn, oinv S0 dn) -> oreach nRanks G M T ty rv S0 n S -> exists dn, oinv S dn.
  Proof. intros I H. induction H as [|n S S' H IH K]; auto. destruct IH as [dn IH]; auto. eapply inv_step; eauto. Qed.
  (** At the end every cell has its value. *)
  Lemma inv_end S dn : oinv S dn -> oend nRanks G S -> forall r g c a, r < nRanks -> g < G -> c < rm_nCells (M r) -> In a (ang g) -> o_val (os S r) c a = sol r c a.
  Proof.
    intros I E r g c a Hr Hg Hc Ha. destruct (once g Hg r Hr) as (K & _). destruct (K c a Hc Ha) as (k & i & w & Hw & Hi). apply (iv_val _ _ I r g k); auto.
    pose proof (iv_prog _ _ I r g Hr Hg) as P. rewrite (E r g Hr Hg), app_nil_r in P. rewrite <- P. apply in_prog. split; [eapply step_lt; eauto|]. apply in_step. rewrite Hw. left. left. exists c, a. split; auto. eapply nth_error_In; eauto.
  Qed.

  (** ** Progress: the thread that is furthest behind can go on *)
  Definition ph (x : act) : nat := match x with AWork _ _ => 0 | ASend _ => 1 | ARecv _ => 2 | AWait => 3 | ABarrier => 4 end.
  Definition okey (ty : sweepType) (g : nat) (kx : nat * act) : nat := match ty with Tycho1 => key1 G g kx | Tycho2 => 5 * slot G g (fst kx) + ph (snd kx) end.
  Lemma okey_step ty g k k' x x' : g < G -> k < k' -> okey ty g (k, x) <= okey ty g (k', x').
  Proof.
    intros Hg Hk. destruct ty; cbn [okey]; unfold key1, slot; cbn [fst snd].
    - assert (phase1 G g x <= 1 + 2 * G) by (destruct x; cbn; lia). assert (E : exists j, k' = k + 1 + j) by (exists (k' - k - 1); lia). destruct E as [j ->]. rewrite !Nat.mul_add_distr_r. lia.
    - assert (ph x <= 4) by (destruct x; cbn; lia). assert (E : exists j, k' = k + 1 + j) by (exists (k' - k - 1); lia). destruct E as [j ->]. rewrite !Nat.mul_add_distr_r. lia.
  Qed.
  Lemma okey_ph ty g k x x' : g < G -> ph x <= ph x' -> okey ty g (k, x) <= okey ty g (k, x').
  Proof. intros Hg H. destruct ty; cbn [okey]; unfold key1, slot; cbn [fst snd]; [|lia]. destruct x, x'; cbn in *; lia. Qed.
  Lemma okey_lt ty g k x x' : g < G -> ph x < ph x' -> ph x < 3 -> 1 < ph x' -> okey ty g (k, x) < okey ty g (k, x').
  Proof. intros Hg H H3 H1. destruct ty; cbn [okey]; unfold key1, slot; cbn [fst snd]; [|lia]. destruct x, x'; cbn in *; lia. Qed.
  Lemma prog_keys ty r g : g < G -> StronglySorted (fun x y => okey ty g x <= okey ty g y) (prog r g).
  Proof.
    intros Hg. unfold OrigModel.prog. apply ss_flat.
    - intros k _. unfold OrigModel.stepProg.
      assert (Const : forall (X : Type) (h : X -> act) n l, (forall x, ph (h x) = n) -> StronglySorted (fun x y => okey ty g x <= okey ty g y) (map (pair k) (map h l))).
      { intros X h n l H. apply ss_const. intros x y Hx Hy. apply in_map_iff in Hx, Hy. destruct Hx as (x1 & <- & Hx), Hy as (y1 & <- & Hy). apply in_map_iff in Hx, Hy. destruct Hx as (x2 & <- & _), Hy as (y2 & <- & _). apply okey_ph; auto. rewrite !H. auto. }
      assert (Tail : StronglySorted (fun x y => okey ty g x <= okey ty g y) (map (pair k) (AWait :: if bar then [ABarrier] else []))).
      { destruct bar; cbn [map]; repeat constructor. apply okey_ph; auto. cbn. lia. }
      rewrite map_app. apply ss_app; [|exact Tail|].
      + destruct (nth_error (sched g) k) as [w|]; [|constructor]. rewrite !map_app. apply ss_app; [now apply Const with (n := 0)| |].
        * apply ss_app; [now apply Const with (n := 1)|now apply Const with (n := 2)|].
          intros x y Hx Hy. apply in_map_iff in Hx, Hy. destruct Hx as (x1 & <- & Hx), Hy as (y1 & <- & Hy). apply in_map_iff in Hx, Hy. destruct Hx as (x2 & <- & _), Hy as (y2 & <- & _). apply okey_ph; auto. cbn. lia.
        * intros x y Hx Hy. apply in_map_iff in Hx. destruct Hx as (x1 & <- & Hx). apply in_map_iff in Hx. destruct Hx as (x2 & <- & _). apply in_app_or in Hy. destruct Hy as [Hy|Hy]; apply in_map_iff in Hy; destruct Hy as (y1 & <- & _); apply okey_ph; auto; cbn; lia.
      + intros x y Hx Hy. apply in_map_iff in Hx, Hy. destruct Hx as (x1 & <- & Hx), Hy as (y1 & <- & Hy). apply okey_ph; auto.
        assert (3 <= ph y1) by (destruct Hy as [<-|Hy]; [auto|]; destruct bar; [destruct Hy as [<-|[]]; cbn; lia|easy]).
        assert (ph x1 <= 2); [|lia]. destruct (nth_error (sched g) k) as [w|]; [|easy]. rewrite !in_app_iff in Hx. rewrite !in_map_iff in Hx. destruct Hx as [(? & <- & _)|[(? & <- & _)|(? & <- & _)]]; cbn; lia.
    - intros k k' x y Hk _ Hx Hy. apply in_map_iff in Hx, Hy. destruct Hx as (? & <- & _), Hy as (? & <- & _). now apply okey_step.
  Qed.
  Lemma todo_keys ty S dn r g h l : oinv S dn -> r < nRanks -> g < G -> otodo S r g = h :: l -> forall y, In y (otodo S r g) -> okey ty g h <= okey ty g y.
  Proof. intros I Hr Hg Et y Hy. rewrite Et in Hy. destruct Hy as [->|Hy]; auto. pose proof (prog_keys ty r g Hg) as K. rewrite (iv_prog _ _ I r g Hr Hg), Et in K. exact (ss_mid _ _ _ _ K y Hy). Qed.
  Lemma done_or S dn r g y : oinv S dn -> r < nRanks -> g < G -> In y (prog r g) -> ~ In y (dn r g) -> exists h l, otodo S r g = h :: l /\ In y (otodo S r g).
  Proof. intros I Hr Hg H N. rewrite (iv_prog _ _ I r g Hr Hg) in H. apply in_app_or in H. destruct H as [H|H]; [easy|]. destruct (otodo S r g) as [|h l]; [easy|]. eauto. Qed.
  Lemma nodup_prefix {X} (l m : list X) : NoDup (l ++ m) -> NoDup l.
  Proof. induction l as [|x l IH]; cbn; intros H; [constructor|]. inversion H as [|? ? N1 N2]; subst. constructor; auto. intros K. apply N1, in_or_app. auto. Qed.

  Theorem oprogress ty S dn : bar = hasBarrier ty -> oinv S dn -> oend nRanks G S \/ exists S', ostep nRanks G M T ty true S S'.
  Proof.
    intros Hbar I.
    set (heads := flat_map (fun rg => match otodo S (fst rg) (snd rg) with [] => [] | h :: _ => [(rg, h)] end) (list_prod (seq 0 nRanks) (seq 0 G))).
    assert (HI : forall r g h l, r < nRanks -> g < G -> otodo S r g = h :: l -> In ((r, g), h) heads).
    { intros r g h l Hr Hg E. apply in_flat_map. exists (r, g). split; [apply in_prod; apply in_seq; lia|]. cbn [fst snd]. rewrite E. now left. }
    destruct (list_eq_dec (fun x y : (nat * nat) * (nat * act) => ltac:(repeat decide equality)) heads []) as [E0|NE].
    - left. intros r g Hr Hg. destruct (otodo S r g) as [|h l] eqn:E; auto. pose proof (HI r g h l Hr Hg E) as K. rewrite E0 in K. destruct K.
    - right. destruct (argmin (fun x : (nat * nat) * (nat * act) => okey ty (snd (fst x)) (snd x)) heads NE) as ([[r g] [k x]] & Hin & Min). cbn [fst snd] in Min.
      apply in_flat_map in Hin. destruct Hin as ([r' g'] & Hin & K). cbn [fst snd] in K. apply in_prod_iff in Hin. destruct Hin as [Hr Hg]. apply in_seq in Hr, Hg. cbn [plus] in Hr, Hg. destruct Hr as [_ Hr], Hg as [_ Hg].
      destruct (otodo S r' g') as [|h todo] eqn:Et; [easy|]. destruct K as [K|[]]. injection K as -> -> ->.
      assert (Mn : forall r' g' h l, r' < nRanks -> g' < G -> otodo S r' g' = h :: l -> okey ty g (k, x) <= okey ty g' h) by (intros r' g' h l Hr' Hg' E; exact (Min _ (HI _ _ _ _ Hr' Hg' E))).
      assert (AL : allowed G ty S r g (k, x)).
      { destruct ty; cbn [allowed].
        - intros g' kx' l Hg' E. exact (Mn r g' kx' l Hr Hg' E).
        - unfold allowed2. cbn [fst snd]. assert (Z : forall g' k' x' l, g' < G -> otodo S r g' = (k', x') :: l -> slot G g k <= slot G g' k').
          { intros g' k' x' l Hg' E. pose proof (Mn r g' (k', x') l Hr Hg' E) as Z. cbn [okey fst snd] in Z. assert (ph x' <= 4) by (destruct x'; cbn; lia). lia. }
          destruct x; auto. }
      assert (GO : forall os' ch', doAct nRanks M T true r g k S x os' ch' -> exists S', ostep nRanks G M T ty true S S') by (intros; eexists; econstructor; eauto).
      destruct (todo_act _ _ _ _ _ _ _ I Hr Hg Et) as [Hk Hstep]. destruct x as [c a|p|p| |].
      + eapply GO. constructor.
      + eapply GO. constructor.
      + destruct (recv_index _ _ _ _ _ _ _ I Hr Hg Et) as [Hp Hn]. destruct (iv_ch _ _ I p g r Hp Hg Hr) as [Ech Hle].
        assert (Hs : In (k, ASend r) (prog p g)) by (apply in_sends; eapply nth_error_In; eauto).
        assert (Hd : In (k, ASend r) (dn p g)).
        { destruct (in_dec (fun x y : nat * act => ltac:(repeat decide equality)) (k, ASend r) (dn p g)) as [|N]; auto. exfalso. destruct (done_or _ _ _ _ _ I Hp Hg Hs N) as (h & l & E & Hin).
          pose proof (todo_keys ty _ _ _ _ _ _ I Hp Hg E _ Hin). pose proof (Mn p g h l Hp Hg E). pose proof (okey_lt ty g k (ASend r) (ARecv p) Hg ltac:(cbn; lia) ltac:(cbn; lia) ltac:(cbn; lia)). lia. }
        assert (Hlt : length (recvSteps p (dn r g)) < length (sendSteps r (dn p g))).
        { apply in_sends in Hd. apply In_nth_error in Hd. destruct Hd as [j Hj]. assert (Lj : j < length (sendSteps r (dn p g))) by (apply nth_error_Some; congruence).
          assert (K : nth_error (sendSteps r (prog p g)) j = Some k). { rewrite (iv_prog _ _ I p g Hp Hg). unfold sendSteps. rewrite fm_app. eapply prefix_nth; eauto. }
          replace (length (recvSteps p (dn r g))) with j; auto. apply (proj1 (NoDup_nth_error _) (sends_nodup p r g)); [apply nth_error_Some; congruence|congruence]. }
        destruct (och S p r g) as [|m l] eqn:Ec.
        { symmetry in Ech. apply (f_equal (@length _)) in Ech. rewrite skipn_length, map_length in Ech. cbn in Ech. lia. }
        destruct (recv_msg _ _ _ _ _ _ _ _ _ I Hr Hg Et Ec) as (-> & _ & _). destruct (store_ok r (msg p r g k) (msg_good p r g k Hg Hp) (o_bnd (os S r))) as (b' & Eb & _).
        eapply GO. econstructor; eauto.
      + eapply GO. apply do_wait. intros _ p Hp. destruct (iv_ch _ _ I r g p Hr Hg Hp) as [-> _]. apply skipn_all2. rewrite map_length. apply NoDup_incl_length.
        * pose proof (sends_nodup r p g) as ND. rewrite (iv_prog _ _ I r g Hr Hg) in ND. unfold sendSteps in ND. rewrite fm_app in ND. eapply nodup_prefix; eauto.
        * intros k1 H1. assert (H2 : In k1 (sendSteps p (prog r g))). { rewrite (iv_prog _ _ I r g Hr Hg). unfold sendSteps. rewrite fm_app. apply in_or_app. left. exact H1. }
          rewrite <- (recvs_prog r p g) in H2 by auto. apply in_recvs in H2. apply in_recvs. apply in_sends in H1.
          destruct (in_dec (fun x y : nat * act => ltac:(repeat decide equality)) (k1, ARecv r) (dn p g)) as [|N]; auto. exfalso. destruct (done_or _ _ _ _ _ I Hp Hg H2 N) as (h & l & E & Hin).
          pose proof (todo_keys ty _ _ _ _ _ _ I Hp Hg E _ Hin) as Q1. pose proof (Mn p g h l Hp Hg E) as Q2. pose proof (okey_lt ty g k1 (ARecv r) AWait Hg ltac:(cbn; lia) ltac:(cbn; lia) ltac:(cbn; lia)) as Q3.
          assert (Hk1 : k1 <= k).
          { pose proof (prog_steps r g) as SS. rewrite (iv_prog _ _ I r g Hr Hg), Et in SS. apply in_split in H1. destruct H1 as (l1 & l2 & E1). rewrite E1, <- app_assoc in SS. cbn [app] in SS. apply (ss_mid _ _ _ _ SS (k, AWait)). apply in_elt. }
          destruct (Nat.eq_dec k1 k) as [->|Nk]; [lia|]. pose proof (okey_step ty g k1 k AWait AWait Hg ltac:(lia)). lia.
      + apply in_step in Hstep. assert (Hb : bar = true). { destruct (nth_error (sched g) k); [destruct Hstep as [[(? & ? & ? & _)|[(? & ? & _)|(? & ? & _)]]|[?|[? _]]]|destruct Hstep as [[]|[?|[? _]]]]; congruence. }
        destruct ty; [cbn in Hbar; congruence|]. eapply GO. apply do_barrier. intros r' Hr' Hin. destruct (otodo S r' g) as [|h l] eqn:E; [easy|]. exists l. f_equal.
        pose proof (Mn r' g h l Hr' Hg E) as Q1. rewrite <- E in Hin. pose proof (todo_keys Tycho2 _ _ _ _ _ _ I Hr' Hg E _ Hin) as Q2. destruct h as [k' x']. cbn [okey fst snd] in Q1, Q2. unfold slot in Q1, Q2.
        assert (ph x' <= 4) by (destruct x'; cbn; lia). cbn [ph] in Q1, Q2. assert (ph x' = 4 /\ k' = k). { assert (k' * G = k * G) by lia. split; [lia|]. apply Nat.mul_cancel_r in H0; lia. }
        destruct H0 as [H0 ->]. destruct x'; cbn in H0; try lia. reflexivity.
  Qed.
End Orig.
