(** C59: the dependent-seeking priorities of the precomputed schedule. *)
From Coq Require Import Permutation.
From Verif Require Import Prelude MeshModel TraverseModel TraverseSpec TraverseInv TraverseProofs TraverseTerm TraverseCases ScheduleModel ScheduleSpec ScheduleProofs ScheduleLevels PropertiesSchedule SeekSpec SeekProofs.

Section C59.
  Variables (nRanks : nat) (M : nat -> rmesh) (angles : list nat) (over under : nat -> nat -> nat -> nat -> bool) (mate : site -> option site).
  Hypothesis OK : sys_ok nRanks 0 M mate.
  Hypothesis ND : NoDup angles.
  Hypothesis SY : in_sync angles over under mate.
  Variables (mx : N) (r : nat).
  Hypothesis Hr : r < nRanks.
  Hypothesis Hsize : (N.of_nat (length angles) * N.of_nat (rm_nCells (M r)) < 18446744073709551616)%N.
  Notation nC := (rm_nCells (M r)).

  (** C59: whatever the order in which the queue takes the cells, the priority of a cell is the largest of: scaled and
      shifted levels of the sides over which radiation leaves the rank, and shifted priorities of the downwind cells on
      the rank, all modulo 2^64. *)
  Theorem C59_seeking lev scale shift parent p' : neighborPriorities M angles over under lev scale shift parent mx r p' -> forall a, a < length angles ->
    seeking over mate r (nth a angles 0) nC (fun c f => (lev a (rm_side (M r) c f) * scale + shift) mod 18446744073709551616)%N (fun x => (x + parent) mod 18446744073709551616)%N (p' a).
  Proof.
    intros H a Ha. destruct (seek_final nRanks M angles over under mate OK ND SY lev scale shift parent mx r Hr Hsize p' H a Ha) as [A B C].
    assert (E : forall c f, value M lev scale shift r a c f = ((lev a (rm_side (M r) c f) * scale + shift) mod 18446744073709551616)%N) by (intros; apply w64_twice).
    constructor.
    - intros c f x L. rewrite <- E. eapply A; eauto.
    - exact B.
    - intros c Hc. destruct (C c Hc) as [K|[(f & x & L & K)|K]]; auto. right. left. exists f, x. rewrite <- E. auto.
  Qed.
  Theorem C59_seeking_ends lev scale shift parent : no_cycle over mate angles -> (mx mod 4294967296 <> 0)%N -> exists p', neighborPriorities M angles over under lev scale shift parent mx r p'.
  Proof.
    intros AC Hl. assert (Hl' : (0 < limit mx)%N) by (unfold limit; lia).
    apply (loop_total nRanks M angles over under mate OK ND SY lev parent mx r Hr Hsize AC Hl' (nC * nAng angles) [] _ (boundaryPriority M angles over lev scale shift r)).
    - cbn. lia.
    - intros x [].
    - constructor.
    - now apply (init_LI nRanks M angles over under mate OK SY lev r Hr).
  Qed.
  Lemma below64 lev scale shift parent p' a c : neighborPriorities M angles over under lev scale shift parent mx r p' -> a < length angles -> c < nC -> (p' a c < 18446744073709551616)%N.
  Proof.
    intros H Ha Hc. destruct (C59_seeking lev scale shift parent p' H a Ha) as [_ _ C]. destruct (C c Hc) as [->|[(f & x & _ & ->)|(c' & _ & ->)]]; [reflexivity| |]; apply N.mod_lt; discriminate.
  Qed.

  (** C59: with the levels of calcLevels the breadth-first priority of a cell is the longest downwind distance of the
      cells of other ranks that radiation from it comes to first; 0 if there are none. *)
  Theorem C59_breadth S p' : no_cycle over mate angles -> levelled nRanks M angles over under mx S ->
    (forall g x m, longest_downwind over mate g x m -> (N.of_nat m < 18446744073709551616)%N) ->
    neighborPriorities M angles over under (fun a side => N.of_nat (snd (s_x (S r)) a side)) 1 0 0 mx r p' -> forall a c, a < length angles -> c < nC ->
    (forall x m, exits over mate r (nth a angles 0) c x -> longest_downwind over mate (nth a angles 0) x m -> (N.of_nat m <= p' a c)%N) /\
    (p' a c = 0%N \/ exists x, exits over mate r (nth a angles 0) c x /\ longest_downwind over mate (nth a angles 0) x (N.to_nat (p' a c))).
  Proof.
    intros AC HL Hb H a c Ha Hc. set (g := nth a angles 0). pose proof (C58_levels nRanks M angles over under mate OK ND SY mx S AC HL) as LV. pose proof (C59_seeking _ _ _ _ p' H a Ha) as [A B C]. fold g in A, B, C.
    pose proof (fun c => below64 _ _ _ _ p' a c H Ha) as P64.
    assert (LF : forall d f x, leaves over mate r g d f x -> longest_downwind over mate g x (snd (s_x (S r)) a (rm_side (M r) d f))).
    { intros d f [q d'] (f' & Em & Hq & Ho). cbn [fst snd] in *. destruct (mrange _ _ _ OK _ _ _ _ _ _ Em) as ((_ & Hd & _) & _). destruct (LV r a d Hr Hd Ha) as (_ & K). exact (K f q d' f' Em Hq Ho). }
    assert (VAL : forall d f x, leaves over mate r g d f x -> ((N.of_nat (snd (s_x (S r)) a (rm_side (M r) d f)) * 1 + 0) mod 18446744073709551616 = N.of_nat (snd (s_x (S r)) a (rm_side (M r) d f)))%N).
    { intros d f x L. rewrite N.mul_1_r, N.add_0_r, N.mod_small; [reflexivity|]. exact (Hb _ _ _ (LF d f x L)). }
    assert (RG : forall d d', flows over mate g (r, d) (r, d') -> d' < nC). { intros d d' (f & f' & Em & _). cbn [fst snd] in Em. apply (mrange _ _ _ OK) in Em. tauto. }
    split.
    - intros x m E. revert m. induction E as [d f x L|d d' x F E IH]; intros m D.
      + specialize (A d f x L). rewrite (VAL d f x L) in A. destruct D as (D1 & _). destruct (LF d f x L) as (_ & D2). specialize (D2 m D1). lia.
      + specialize (B d d' F). rewrite N.add_0_r, N.mod_small in B by (apply P64; eapply RG; eauto). eapply N.le_trans; [|exact B]. apply IH; auto. eapply RG; eauto.
    - destruct (acyc_down nRanks M angles over mate OK AC) as [lvl Hl].
      assert (K : forall n d, lvl r d a < n -> d < nC -> p' a d = 0%N \/ exists x, exits over mate r g d x /\ longest_downwind over mate g x (N.to_nat (p' a d))).
      { induction n; intros d Hn Hd; [lia|]. destruct (C d Hd) as [E|[(f & x & L & E)|(d' & F & E)]]; [auto| |].
        - right. exists x. split; [eapply ex_here; eauto|]. rewrite E, (VAL d f x L), Nat2N.id. eauto.
        - rewrite N.add_0_r, N.mod_small in E by (apply P64; eapply RG; eauto). destruct (IHn d') as [Z|(x & X1 & X2)]; [|eapply RG; eauto|left; congruence|].
          + assert (lvl r d' a < lvl r d a); [|lia]. destruct F as (f & f' & Em & Ho). cbn [fst snd] in *. apply (Hl r d f a r d' f'); auto. now rewrite (child_over nRanks M angles over mate OK _ _ _ _ _ _ _ Em).
          + right. exists x. split; [eapply ex_step; eauto|]. now rewrite E. }
      apply (K (Datatypes.S (lvl r c a))); [lia|exact Hc].
  Qed.

  (** C59 (expectation not met): on every mesh, if radiation goes from a cell to one of the same rank that is the last,
      the depth-first priorities of the cell, strict or not, are the largest 64-bit number, which the queue cannot take. *)
  Theorem C59_depth_refuted lev scale shift p' a c c' : neighborPriorities M angles over under lev scale shift 18446744073709551615 mx r p' -> a < length angles ->
    flows over mate (nth a angles 0) (r, c) (r, c') -> (forall x, ~ flows over mate (nth a angles 0) (r, c') x) -> p' a c = 18446744073709551615%N /\ queuePriority (p' a c) = None.
  Proof.
    intros H Ha F Last. pose proof (C59_seeking _ _ _ _ p' H a Ha) as [_ B C].
    assert (R : c < nC /\ c' < nC). { destruct F as (f & f' & Em & _). cbn [fst snd] in Em. apply (mrange _ _ _ OK) in Em. tauto. } destruct R as (Rc & Rc').
    assert (Z : p' a c' = 0%N).
    { destruct (C c' Rc') as [Z|[(f & [q d] & (f' & Em & _ & Ho) & _)|(d & F' & _)]]; [exact Z|exfalso..]; [|exact (Last _ F')]. apply (Last (q, d)). exists f, f'. auto. }
    specialize (B c c' F). rewrite Z in B. change ((0 + 18446744073709551615) mod 18446744073709551616)%N with 18446744073709551615%N in B. pose proof (below64 _ _ _ _ p' a c H Ha Rc) as U.
    assert (E : p' a c = 18446744073709551615%N) by lia. split; [exact E|]. rewrite E. vm_compute. reflexivity.
  Qed.
End C59.

(** On rank 0 of the two ranks with one cell each the priority for angle 0, which leaves the rank, is twice the level plus
    one; for angle 1 it is 0. *)
Example C59_seeking_ex : exists p', neighborPriorities twoMesh [0; 1] twoOver twoUnder (fun _ _ => 5%N) 2 1 18446744073709551615 7 0 p' /\ p' 0 0 = 11%N /\ p' 1 0 = 0%N.
Proof.
  destruct (C59_seeking_ends 2 twoMesh [0; 1] twoOver twoUnder twoMate two_ok0 nd2 two_sync 7 0 ltac:(lia) ltac:(reflexivity) (fun _ _ => 5%N) 2 1 18446744073709551615 two_no_cycle) as (p' & H); [discriminate|].
  exists p'. split; [exact H|]. pose proof (C59_seeking 2 twoMesh [0; 1] twoOver twoUnder twoMate two_ok0 nd2 two_sync 7 0 ltac:(lia) ltac:(reflexivity) _ _ _ _ p' H) as K. split.
  - destruct (K 0) as [A _ C]; [cbn; lia|]. assert (L : leaves twoOver twoMate 0 0 0 0 (1, 0)) by (exists 0; split; [reflexivity|split; [discriminate|reflexivity]]). specialize (A 0 0 (1, 0) L). change ((5 * 2 + 1) mod 18446744073709551616)%N with 11%N in *.
    destruct (C 0) as [Z|[(f & x & _ & ->)|(c' & F & _)]]; [cbn; lia|rewrite Z in A; exfalso; revert A; vm_compute; intros A; now apply A|reflexivity|]. apply two_flows in F. destruct F as (_ & E & _). discriminate.
  - destruct (K 1) as [_ _ C]; [cbn; lia|]. destruct (C 0) as [Z|[(f & x & (f' & Em & _ & Ho) & _)|(c' & F & _)]]; [cbn; lia|exact Z| |].
    + exfalso. unfold twoOver in Ho. cbn in Ho. rewrite andb_false_r in Ho. discriminate.
    + apply two_flows in F. destruct F as (E & _). discriminate.
Qed.
(** The hypotheses of [C59_breadth] hold there as well; [C59_dfds_refuted] is a case of [C59_depth_refuted]. *)
Lemma two_short g x m : downwind twoOver twoMate g x m -> m <= 1.
Proof.
  intros D. inversion D as [|x1 y k F D' E1 E2]; [lia|]. subst. inversion D' as [|x2 z k' F' D'' E1 E2]; [lia|]. subst. apply two_flows in F, F'. destruct F as (_ & -> & Hg), F' as (E & _). apply (f_equal fst) in E. cbn [fst] in E. lia.
Qed.
Example C59_breadth_ex : exists S p', levelled 2 twoMesh [0; 1] twoOver twoUnder 5 S /\ neighborPriorities twoMesh [0; 1] twoOver twoUnder (fun a side => N.of_nat (snd (s_x (S 0)) a side)) 1 0 0 5 0 p' /\
  forall m, longest_downwind twoOver twoMate 0 (1, 0) m -> (N.of_nat m <= p' 0%nat 0%nat)%N.
Proof.
  destruct (C58_ends 2 twoMesh [0; 1] twoOver twoUnder twoMate two_ok0 nd2 two_sync 5) as (S & HS); [discriminate|].
  destruct (C59_seeking_ends 2 twoMesh [0; 1] twoOver twoUnder twoMate two_ok0 nd2 two_sync 5 0 ltac:(lia) ltac:(reflexivity) (fun a side => N.of_nat (snd (s_x (S 0)) a side)) 1 0 0 two_no_cycle) as (p' & H); [discriminate|].
  exists S, p'. split; [exact HS|]. split; [exact H|]. intros m D.
  apply (proj1 (C59_breadth 2 twoMesh [0; 1] twoOver twoUnder twoMate two_ok0 nd2 two_sync 5 0 ltac:(lia) ltac:(reflexivity) S p' two_no_cycle HS ltac:(intros g x k (K & _); apply two_short in K; lia) H 0 0 ltac:(cbn; lia) ltac:(cbn; lia)) (1, 0) m); [|exact D].
  apply ex_here with (f := 0). exists 0. split; [reflexivity|split; [discriminate|reflexivity]].
Qed.
Print Assumptions C59_seeking.
Print Assumptions C59_seeking_ends.
Print Assumptions C59_breadth.
Print Assumptions C59_depth_refuted.
