(** C35-C37: b-levels and priorities. *)
From Coq Require Import Permutation Sorted.
From Verif Require Import Prelude Bytes MeshModel AngleModel TraverseModel TraverseSpec TraverseRun PropertiesTraverse PriorityModel PrioritySpec PriorityProofs.

(** A completed backward traversal without communication, started with zero side levels (Priorities.cc:61-77, 396-404). *)
Definition computes (R : run N input) (T : tdata N input) (val : nat -> nat -> nat -> N) : Prop :=
  u_dir R = Backward /\ u_comm R = false /\ u_data R = T /\ good_run R /\ racyclic R /\
  exists val0 S0 S, starts R val0 zeroSides S0 /\ reaches R S0 S /\ ends R S /\ val = fun r => r_val (g_r S r).
Notation in_range R := (valid (u_ranks R) (u_angles R) (u_mesh R)).

Lemma computes_solution R T val : computes R T val -> sys_fit Backward (u_ranks R) (u_angles R) (u_mesh R) (u_mate R) /\
  acyclic Backward false (u_ranks R) (u_angles R) (u_mesh R) (u_mate R) /\ solution Backward false (u_ranks R) (u_angles R) (u_mesh R) T (u_mate R) zeroSides val.
Proof.
  intros (D & C & E & G & AC & val0 & S0 & S & I & H & F & ->). pose proof (end_solution R val0 zeroSides G S (run_inv R val0 zeroSides G S0 S I H) F) as SO.
  rewrite D, C, E in SO. unfold racyclic in AC. rewrite D, C in AC. destruct G as (G & _). rewrite D in G. auto.
Qed.

(** C35: the b-level is the length of the longest downwind path over cells of the rank, counting a last step
    to another rank, for every schedule of the traversal. *)
Theorem C35_longest : forall R val, computes R bLevelData val -> forall r c a, in_range R r c a ->
  longest (downpath (u_mesh R) (u_mate R) r a c) (N.to_nat (val r c a)).
Proof. intros R val H r c a VA. destruct (computes_solution R _ val H) as (OK & AC & SO). exact (blevel_longest _ _ _ _ OK AC val SO r c a VA). Qed.
(** C35, C36: each of these traversals finishes. *)
Theorem C35_computed : forall R, u_dir R = Backward -> u_comm R = false -> good_run R -> racyclic R -> u_max R > 0 -> exists val, computes R (u_data R) val.
Proof.
  intros R D C G AC MX. destruct (C30_finishes _ _ R (fun _ _ _ => 0%N) zeroSides G (or_introl C) MX AC) as ((S0 & I) & K).
  destruct (K S0 S0 I ltac:(constructor)) as (S & _ & H & F). exists (fun r => r_val (g_r S r)). unfold computes. split; [exact D|]. split; [exact C|]. split; [reflexivity|].
  split; [exact G|]. split; [exact AC|]. exists (fun _ _ _ => 0%N), S0, S. auto.
Qed.

(** C36: without communication the levels of other ranks are zero, so BFDS does not prioritise at all. *)
Theorem C36_bfds_zero : forall R val, computes R (neighborData 1 0 0) val -> forall r c a, in_range R r c a -> val r c a = 0%N.
Proof. intros R val H r c a VA. destruct (computes_solution R _ val H) as (OK & AC & SO). exact (bfds_zero _ _ _ _ OK AC val SO r c a VA). Qed.
(** C36: and DFDS and DFHDS are the same. *)
Theorem C36_dfds_dfhds : forall R R' L val val', computes R (neighborData 1 L minusOne) val -> computes R' (neighborData L L minusOne) val' ->
  u_ranks R' = u_ranks R -> u_angles R' = u_angles R -> u_mesh R' = u_mesh R -> u_mate R' = u_mate R -> forall r c a, in_range R r c a -> val r c a = val' r c a.
Proof.
  intros R R' L val val' H H' E1 E2 E3 E4 r c a VA. destruct (computes_solution R _ val H) as (OK & AC & SO). destruct (computes_solution R' _ val' H') as (_ & _ & SO').
  rewrite E1, E2, E3, E4 in SO'. apply (scale_irrelevant _ _ _ _ 1%N L) in SO. exact (backward_unique _ _ _ _ OK AC _ val val' SO SO' r c a VA).
Qed.
(** C36: a cell next to the outflow gets 0 and its parents the largest 64-bit number. *)
Theorem C36_wrap : forall R scale shift val, computes R (neighborData scale shift minusOne) val -> forall r c a f c' f', in_range R r c a -> f < 4 ->
  u_mate R (r, c, f) = Some (r, c', f') -> rm_out (u_mesh R r) a c f = true ->
  (forall g, g < 4 -> rm_out (u_mesh R r) a c' g = true -> u_mate R (r, c', g) = None) -> val r c' a = 0%N /\ val r c a = UINT64_MAX.
Proof. intros R s h val H. destruct (computes_solution R _ val H) as (OK & AC & SO). exact (wrap _ _ _ _ OK s h val SO). Qed.

(** ** A chain: cell 0 of rank 0, then cells 0 and 1 of rank 1, the same for two angles *)
Definition chainMesh (r : nat) : rmesh :=
  mkRmesh (S r) (fun c f => if (r =? 1) && (((c =? 0) && (f =? 0)) || ((c =? 1) && (f =? 1))) then Some (1 - c) else None)
    (fun c f => if (r =? 0) then (if f =? 0 then Some 1 else None) else if (c =? 0) && (f =? 1) then Some 0 else if ((c =? 0) && (f =? 0)) || ((c =? 1) && (f =? 1)) then Some 1 else None)
    (fun c f => 4 * c + f) (fun s => if r =? 0 then N.of_nat s else N.of_nat (s - 1)) (fun g => Some (if r =? 0 then N.to_nat g else N.to_nat g + 1)) (fun s => s / 4)
    (fun _ _ f => negb (f =? 1)).
Definition chainMate (x : site) : option site :=
  match x with (0, 0, 0) => Some (1, 0, 1) | (1, 0, 1) => Some (0, 0, 0) | (1, 0, 0) => Some (1, 1, 1) | (1, 1, 1) => Some (1, 0, 0) | _ => None end.
Definition chainRun (T : tdata N input) : run N input := mkRun Backward false TychoTwoSided 2 2 1 10 24 chainMesh T chainMate.
Lemma chain_mate x y : chainMate x = Some y -> (x = (0, 0, 0) /\ y = (1, 0, 1)) \/ (x = (1, 0, 1) /\ y = (0, 0, 0)) \/ (x = (1, 0, 0) /\ y = (1, 1, 1)) \/ (x = (1, 1, 1) /\ y = (1, 0, 0)).
Proof.
  destruct x as [[r c] f]. unfold chainMate. destruct r as [|[|r]], c as [|[|c]], f as [|[|f]]; try discriminate; intros E; apply Some_inj in E; subst y; auto.
Qed.
Ltac chain_cases H := apply chain_mate in H; destruct H as [(? & ?)|[(? & ?)|[(? & ?)|(? & ?)]]]; try discriminate; subst;
  repeat match goal with E : (_, _, _) = (_, _, _) |- _ => inversion E; clear E; subst end.
Lemma chain_good T : good_run (chainRun T).
Proof.
  split; [|split; [cbn; lia|split; [reflexivity|intros [|[|r]] Hr; [vm_compute; reflexivity|vm_compute; reflexivity|cbn in Hr; lia]]]]. apply ok_fit. constructor; cbn [u_ranks u_angles u_mesh u_mate chainRun].
  - intros r c f y H. chain_cases H; cbn; lia.
  - intros x y H. chain_cases H; reflexivity.
  - intros r c f f' H. chain_cases H.
  - intros r c f Hr Hc Hf. cbn in Hc. destruct r as [|[|r]]; [| |lia].
    + destruct c as [|c]; [|lia]. destruct f as [|[|[|[|f]]]]; [reflexivity..|lia].
    + destruct c as [|[|c]]; [| |lia]; destruct f as [|[|[|[|f]]]]; reflexivity || lia.
  - intros r c f Hr Hc Hf. cbn in Hc. destruct r as [|[|r]]; [| |lia].
    + destruct c as [|c]; [|lia]. destruct f as [|[|[|[|f]]]]; [reflexivity..|lia].
    + destruct c as [|[|c]]; [| |lia]; destruct f as [|[|[|[|f]]]]; reflexivity || lia.
  - intros r c f q c' f' H NE. chain_cases H; try (exfalso; apply NE; reflexivity); split; reflexivity.
  - intros r c f q c' f' d g q' d' g' H NE H' NE' E. chain_cases H; chain_cases H'; try (exfalso; apply NE; reflexivity); try (exfalso; apply NE'; reflexivity); cbn in E; try discriminate; auto.
  - intros r c f q c' f' a H Ha. chain_cases H; reflexivity.
  - intros [|[|r]] Hr; [vm_compute; reflexivity|vm_compute; reflexivity|lia].
Qed.
Lemma chain_acyclic T : racyclic (chainRun T).
Proof.
  exists (fun r c _ => 2 - (r + c)). intros a r c q c' Ha (Hr & Hc & f & f' & Hf & Hm & Hi & [X|X]); [discriminate X|]. subst q. cbn [u_mate chainRun] in Hm. chain_cases Hm; try discriminate Hi. cbn. lia.
Qed.
Lemma chain_computed T : exists val, computes (chainRun T) T val.
Proof. apply (C35_computed (chainRun T)); try reflexivity; [apply chain_good|apply chain_acyclic|cbn; lia]. Qed.
Example C35_ex : exists val, computes (chainRun bLevelData) bLevelData val /\ val 0 0 0 = 1%N /\ val 1 0 0 = 1%N /\ val 1 1 0 = 0%N.
Proof.
  destruct (chain_computed bLevelData) as (val & H). exists val. split; [exact H|]. destruct (computes_solution _ _ val H) as (_ & _ & SO).
  assert (V11 : val 1 1 0 = 0%N) by (rewrite (SO 1 1 0) by (split; [|split]; cbn; lia); reflexivity).
  split; [rewrite (SO 0 0 0) by (split; [|split]; cbn; lia); reflexivity|]. split; [|exact V11].
  rewrite (SO 1 0 0) by (split; [|split]; cbn; lia). cbn -[N.max]. rewrite V11. reflexivity.
Qed.

(** C35 (expectation not met): the user guide defines the b-level over the entire graph. *)
Theorem C35_entire_graph_refuted : ~ (forall R val, computes R bLevelData val -> forall r c a, in_range R r c a ->
  longest (anypath (u_mesh R) (u_mate R) a r c) (N.to_nat (val r c a))).
Proof.
  intros X. destruct C35_ex as (val & H & V & _). destruct (X _ val H 0 0 0) as (_ & L); [split; [|split]; cbn; lia|]. rewrite V in L.
  specialize (L 2). cut (2 <= N.to_nat 1); [cbn; lia|]. apply L.
  apply (ap_step _ _ 0 0 0 0 1 0 1 1); [lia|reflexivity|reflexivity|]. apply (ap_step _ _ 0 1 0 0 1 1 1 0); [lia|reflexivity|reflexivity|constructor].
Qed.
(** Cells downwind of a cell, over all ranks. *)
Inductive descendant (M : nat -> rmesh) (mate : site -> option site) (a : nat) (x : nat * nat) : nat * nat -> Prop :=
| de_child f y f' : f < 4 -> mate (x, f) = Some (y, f') -> rm_out (M (fst x)) a (snd x) f = true -> descendant M mate a x y
| de_more y f z f' : descendant M mate a x y -> f < 4 -> mate (y, f) = Some (z, f') -> rm_out (M (fst y)) a (snd y) f = true -> descendant M mate a x z.
(** C36 (expectation not met): BFDS should be at least the b-level of every descendant in another partition. *)
Theorem C36_bfds_refuted : ~ (forall R val, computes R (neighborData 1 0 0) val -> forall r c a q c' k, in_range R r c a ->
  descendant (u_mesh R) (u_mate R) a (r, c) (q, c') -> q <> r -> anypath (u_mesh R) (u_mate R) a q c' k -> (N.of_nat k <= val r c a)%N).
Proof.
  intros X. destruct (chain_computed (neighborData 1 0 0)) as (val & H). assert (V : in_range (chainRun (neighborData 1 0 0)) 0 0 0) by (split; [|split]; cbn; lia).
  specialize (X _ val H 0 0 0 1 0 1 V). rewrite (C36_bfds_zero _ val H 0 0 0 V) in X. cut (N.of_nat 1 <= 0)%N; [cbn; lia|]. apply X.
  - apply (de_child _ _ 0 (0, 0) 0 (1, 0) 1); [lia|reflexivity|reflexivity].
  - discriminate.
  - apply (ap_step _ _ 0 1 0 0 1 1 1 0); [lia|reflexivity|reflexivity|constructor].
Qed.
Lemma chain_wrap s h val : computes (chainRun (neighborData s h minusOne)) (neighborData s h minusOne) val -> forall a, a < 2 -> val 1 0 a = UINT64_MAX.
Proof.
  intros H a Ha. assert (VA : in_range (chainRun (neighborData s h minusOne)) 1 0 a) by (split; [|split]; cbn; lia).
  refine (proj2 (C36_wrap _ s h val H 1 0 a 0 1 1 VA _ eq_refl eq_refl _)); [lia|]. intros [|[|[|[|g]]]] Hg Ho; try reflexivity; discriminate Ho.
Qed.
(** C36 (expectation not met): DFDS should be 0 for a cell without descendants in another partition. *)
Theorem C36_dfds_refuted : ~ (forall R L val, computes R (neighborData 1 L minusOne) val -> forall r c a, in_range R r c a ->
  (forall q c', descendant (u_mesh R) (u_mate R) a (r, c) (q, c') -> q = r) -> val r c a = 0%N).
Proof.
  intros X. destruct (chain_computed (neighborData 1 1 minusOne)) as (val & H). pose proof (chain_wrap 1 1 val H 0 ltac:(lia)) as W.
  rewrite (X _ 1%N val H 1 0 0) in W; [discriminate|split; [|split]; cbn; lia|].
  intros q c' D. assert (K : forall x y, descendant chainMesh chainMate 0 x y -> fst x = 1 -> fst y = 1); [|exact (K _ _ D eq_refl)].
  assert (ST : forall x f y f', chainMate (x, f) = Some (y, f') -> rm_out (chainMesh (fst x)) 0 (snd x) f = true -> fst x = 1 -> fst y = 1).
  { intros [r c] f [q' c''] f' Hm Ho Hx. cbn [fst snd] in *. subst r. chain_cases Hm; try discriminate Ho; reflexivity. }
  intros x y D'. induction D' as [f y f' Hf Hm Ho|y f z f' D' IH Hf Hm Ho]; intros Hx; [exact (ST _ _ _ _ Hm Ho Hx)|exact (ST _ _ _ _ Hm Ho (IH Hx))].
Qed.

(** ** Angles *)
Definition lex (x y : N * nat) : Prop := (fst x < fst y)%N \/ (fst x = fst y /\ snd x < snd y).
(** C37: globally prioritized angles. *)
Theorem C37_global : forall nAngles nCells L C p, (N.of_nat nAngles * L * C <= two64)%N ->
  (forall c a, c < nCells -> a < nAngles -> (p c a < L * C)%N) ->
  let g := globalAngles L C p in forall c d a b, c < nCells -> d < nCells -> a < nAngles -> b < nAngles ->
  (a < b -> (g c a < g d b)%N) /\ ((g c a <= g d a)%N <-> (p c a <= p d a)%N).
Proof.
  intros nAngles nCells L C p OV SM g c d a b Hc Hd Ha Hb. unfold g, globalAngles. rewrite !(sum_exact nAngles nCells L C p OV SM) by auto. split; [intros H; apply (block_order nAngles nCells L C p); auto|lia].
Qed.
(** The largest priority of an angle on the rank. *)
Definition largest (nCells : nat) (p : nat -> nat -> N) (a : nat) (m : N) : Prop := (exists c, c < nCells /\ p c a = m) /\ forall c, c < nCells -> (p c a <= m)%N.
Lemma high_largest nCells p a m : largest nCells p a m -> highPriority nCells p a = m.
Proof.
  intros ((c0 & H0 & <-) & U). unfold highPriority.
  assert (K : forall l h, (forall c, In c l -> c < nCells) -> (h <= p c0 a)%N -> (fold_left (fun h cell => N.max h (p cell a)) l h <= p c0 a)%N /\ (h <= fold_left (fun h cell => N.max h (p cell a)) l h)%N /\
    (In c0 l -> (p c0 a <= fold_left (fun h cell => N.max h (p cell a)) l h)%N)).
  { induction l as [|c l IH]; intros h L B; cbn [fold_left]; [split; [exact B|split; [lia|intros []]]|]. pose proof (U c (L c (or_introl eq_refl))).
    destruct (IH (N.max h (p c a))) as (K1 & K2 & K3); [intros; apply L; now right|lia|]. split; [exact K1|]. split; [lia|]. intros [->|HI]; [lia|auto]. }
  destruct (K (seq 0 nCells) 0%N) as (K1 & K2 & K3); [intros c HC; apply in_seq in HC; lia|lia|]. apply N.le_antisymm; [exact K1|]. apply K3. apply in_seq. lia.
Qed.
(** C37: locally prioritized angles: the order of angles is that of (largest priority, index). *)
Theorem C37_local : forall nAngles nCells L C p sorted, (N.of_nat nAngles * L * C <= two64)%N ->
  (forall c a, c < nCells -> a < nAngles -> (p c a < L * C)%N) ->
  Permutation sorted (map (fun a => (highPriority nCells p a, a)) (seq 0 nAngles)) -> StronglySorted lex sorted ->
  let g := localAngles nAngles L C sorted p in forall c d a b, c < nCells -> d < nCells -> a < nAngles -> b < nAngles ->
  (forall m m', largest nCells p a m -> largest nCells p b m' -> (m < m')%N \/ m = m' /\ a < b -> (g c a < g d b)%N) /\ ((g c a <= g d a)%N <-> (p c a <= p d a)%N).
Proof.
  intros nAngles nCells L C p sorted OV SM PE SS g c d a b Hc Hd Ha Hb. set (high a := (highPriority nCells p a, a)) in *.
  assert (LEN : length sorted = nAngles) by (rewrite (Permutation_length PE), map_length, seq_length; reflexivity).
  assert (MS : Permutation (map snd sorted) (seq 0 nAngles)) by (rewrite (Permutation_map snd PE), map_map; cbn; rewrite map_id; reflexivity).
  assert (ND : NoDup (map snd (rev sorted))). { rewrite map_rev. apply (Permutation_NoDup (l := seq 0 nAngles)); [rewrite <- Permutation_rev; now symmetry|apply seq_NoDup]. }
  destruct (local_block nAngles nCells L C p OV SM (rev sorted) 0 p) as (LB & _); [rewrite rev_length; lia|exact ND|].
  assert (POS : forall e, e < nAngles -> exists i, i < nAngles /\ nth_error sorted i = Some (high e) /\ forall c, c < nCells -> g c e = (p c e + N.of_nat i * L * C)%N).
  { intros e He. assert (HI : In (high e) sorted) by (apply (Permutation_in _ (Permutation_sym PE)), in_map_iff; exists e; split; [auto|apply in_seq; lia]).
    apply In_nth_error in HI. destruct HI as (i & Ei). assert (Hi : i < nAngles) by (rewrite <- LEN; apply nth_error_Some; congruence). exists i. split; [auto|]. split; [auto|]. intros c' Hc'.
    assert (ER : nth_error (rev sorted) (nAngles - S i) = Some (high e)).
    { rewrite (nth_error_nth' _ (0%N, 0)) by (rewrite rev_length; lia). rewrite rev_nth by lia. rewrite LEN. replace (nAngles - S (nAngles - S i)) with i by lia.
      rewrite (nth_error_nth _ _ _ Ei). reflexivity. }
    unfold g, localAngles. rewrite (LB _ _ _ ER c'). replace (nAngles - S (0 + (nAngles - S i))) with i by lia. now apply (sum_exact nAngles nCells L C p OV SM). }
  destruct (POS a Ha) as (i & Hi & Ei & Ga). destruct (POS b Hb) as (j & Hj & Ej & Gb). rewrite !Ga, Gb by auto. split; [|lia].
  intros m m' LA LB' LX0. assert (LX : lex (high a) (high b)) by (unfold lex, high; cbn [fst snd]; rewrite (high_largest _ _ _ _ LA), (high_largest _ _ _ _ LB'); lia). apply (block_order nAngles nCells L C p); auto. destruct (Nat.lt_trichotomy i j) as [K|[K|K]]; [exact K| |]; exfalso.
  - subst j. rewrite Ei in Ej. apply Some_inj in Ej. rewrite Ej in LX. destruct LX as [LX|(_ & LX)]; lia.
  - assert (LX' : lex (high b) (high a)).
    { clear - SS Ei Ej K. revert i j Ei Ej K. induction SS as [|x l SS IH FA]; intros i j Ei Ej K; [destruct j; discriminate|].
      destruct i as [|i]; [lia|]. destruct j as [|j]; cbn [nth_error] in *.
      - apply Some_inj in Ej. subst x. rewrite Forall_forall in FA. apply FA. eapply nth_error_In; eauto.
      - apply (IH i j); auto. lia. }
    unfold lex in *. cbn [fst snd high] in *. lia.
Qed.
Example C37_ex : let p c a := N.of_nat (c + 5 - 5 * a) in let sorted := [(1%N, 1); (6%N, 0)] in
  Permutation sorted (map (fun a => (highPriority 2 p a, a)) (seq 0 2)) /\ StronglySorted lex sorted /\ localAngles 2 4 2 sorted p 0 0 = 13%N /\ localAngles 2 4 2 sorted p 1 1 = 1%N.
Proof.
  cbn zeta. split; [vm_compute; apply perm_swap|]. split; [|split; reflexivity]. repeat constructor.
Qed.

(** C37: b-levels are small enough. *)
Definition totalCells (R : run N input) : nat := fold_left (fun s r => s + rm_nCells (u_mesh R r)) (seq 0 (u_ranks R)) 0.
Theorem C37_blevels : forall R val, computes R bLevelData val ->
  let L := maxBLevel (u_ranks R) (u_angles R) (fun r => rm_nCells (u_mesh R r)) val in let C := N.of_nat (totalCells R) in
  (forall r c a, in_range R r c a -> (val r c a <= L)%N) /\ (L <> 0%N -> forall r c a, in_range R r c a -> (val r c a < L * C)%N).
Proof.
  intros R val H L C. destruct (max_blevel (u_ranks R) (u_angles R) (fun r => rm_nCells (u_mesh R r)) val) as (M1 & M2). fold L in M1, M2.
  assert (LE : forall r c a, in_range R r c a -> (val r c a <= L)%N) by (intros r c a (Hr & Hc & Ha); now apply M1). split; [exact LE|].
  intros NZ. destruct M2 as [M2|(r & c & a & Hr & Hc & Ha & EL)]; [congruence|]. assert (VA : in_range R r c a) by (split; [|split]; auto).
  destruct (C35_longest R val H r c a VA) as (PA & _). rewrite <- EL in PA. destruct (computes_solution R _ val H) as (OK & _ & _).
  assert (SUM : forall l s, s + fold_left (fun s r => s + rm_nCells (u_mesh R r)) l 0 = fold_left (fun s r => s + rm_nCells (u_mesh R r)) l s).
  { clear. induction l as [|x l IH]; intros s; cbn [fold_left]; [lia|]. rewrite <- (IH (s + rm_nCells (u_mesh R x))), <- (IH (0 + rm_nCells (u_mesh R x))). lia. }
  assert (ONE : forall l x, In x l -> rm_nCells (u_mesh R x) <= fold_left (fun s r => s + rm_nCells (u_mesh R r)) l 0).
  { induction l as [|y l IH]; intros x; [intros []|]. cbn [fold_left]. rewrite <- SUM. intros [->|HI]; [lia|]. specialize (IH x HI). lia. }
  assert (TWO : forall l x y, NoDup l -> In x l -> In y l -> x <> y -> rm_nCells (u_mesh R x) + rm_nCells (u_mesh R y) <= fold_left (fun s r => s + rm_nCells (u_mesh R r)) l 0).
  { induction l as [|z l IH]; intros x y ND; [intros []|]. apply NoDup_cons_iff in ND. destruct ND as (NI & ND). cbn [fold_left]. rewrite <- SUM. intros [->|HX] [->|HY] NE; [congruence|pose proof (ONE l y HY); lia|pose proof (ONE l x HX); lia|].
    specialize (IH x y ND HX HY NE). lia. }
  assert (C2 : 2 <= totalCells R).
  { unfold totalCells. inversion PA as [d E0 E1|d f c' f' k Hf Hm Ho PA' E0 E1|d f q c' f' Hf Hm NE Ho E0 E1]; subst.
    - lia.
    - assert (c' <> c) by (intros ->; eapply (sf_irr _ _ _ _ _ OK); eauto). apply (sf_sym _ _ _ _ _ OK) in Hm. apply (sf_range _ _ _ _ _ OK) in Hm. pose proof (ONE (seq 0 (u_ranks R)) r ltac:(apply in_seq; lia)). lia.
    - apply (sf_sym _ _ _ _ _ OK) in Hm. apply (sf_range _ _ _ _ _ OK) in Hm. pose proof (TWO (seq 0 (u_ranks R)) r q (seq_NoDup _ _) ltac:(apply in_seq; lia) ltac:(apply in_seq; lia) ltac:(auto)). lia. }
  intros r' c' a' VA'. specialize (LE r' c' a' VA'). assert (L * 2 <= L * C)%N by (apply N.mul_le_mono_l; unfold C; lia). lia.
Qed.
(** C37 (expectation not met): random priorities are not bounded by levels times cells, so angles mix. *)
Theorem C37_random_refuted : ~ (forall R val p, computes R bLevelData val ->
  let L := maxBLevel (u_ranks R) (u_angles R) (fun r => rm_nCells (u_mesh R r)) val in let C := N.of_nat (totalCells R) in
  (N.of_nat (u_angles R) * L * C <= two64)%N -> (forall r c a, (p r c a <= RAND_MAX)%N) -> forall r c d a b, in_range R r c a -> in_range R r d b -> a < b ->
  (globalAngles L C (p r) c a < globalAngles L C (p r) d b)%N).
Proof.
  intros X. destruct C35_ex as (val & H & V0 & V1 & V2). specialize (X _ val (fun _ _ a => if a =? 0 then 1000%N else 0%N) H). cbn zeta in X.
  assert (B : (maxBLevel 2 2 (fun r => rm_nCells (chainMesh r)) val <= 3)%N).
  { destruct (max_blevel 2 2 (fun r => rm_nCells (chainMesh r)) val) as (_ & [->|(r & c & a & Hr & Hc & Ha & ->)]); [lia|].
    assert (VA : in_range (chainRun bLevelData) r c a) by (split; [|split]; auto). destruct (C35_longest _ val H r c a VA) as (PA & _).
    assert (K : forall c k, downpath chainMesh chainMate r a c k -> c <= 1 -> k + c <= 2 \/ (k = 1)).
    { clear. intros c k P. induction P as [c|c f c' f' k Hf Hm Ho P IH|c f q c' f' Hf Hm NE Ho]; intros Hc; [left; lia| |right; reflexivity]. chain_cases Hm; try discriminate Ho. left. destruct IH; lia. }
    cbn [u_mesh u_mate chainRun] in PA. specialize (K c _ PA ltac:(cbn in Hc; lia)). lia. }
  cbn [u_ranks u_angles u_mesh chainRun] in X. change (totalCells (chainRun bLevelData)) with 3 in X. set (L := maxBLevel 2 2 (fun r => rm_nCells (chainMesh r)) val) in *.
  cut (globalAngles L 3 (fun _ a => if (a =? 0)%nat then 1000 else 0) 0%nat 0%nat < globalAngles L 3 (fun _ a => if (a =? 0)%nat then 1000 else 0) 0%nat 1%nat)%N.
  - unfold globalAngles, offset. cbn [Nat.eqb N.of_nat]. assert (E : (L = 0 \/ L = 1 \/ L = 2 \/ L = 3)%N) by lia. destruct E as [->|[->|[->| ->]]]; vm_compute; discriminate.
  - apply X with (r := 0); [change (2 * L * 3 <= two64)%N; unfold two64; lia| intros r c a; destruct (a =? 0); unfold RAND_MAX; lia| | |lia]; split; [|split| |split]; cbn; lia.
Qed.
(** C37 (expectation not met): nor are the wrapped priorities of DFDS. *)
Theorem C37_dfds_refuted : ~ (forall R L C val, computes R (neighborData 1 L minusOne) val -> (0 < L -> 0 < C -> N.of_nat (u_angles R) * L * C <= two64 ->
  forall r c d a b, in_range R r c a -> in_range R r d b -> (a < b)%nat -> globalAngles L C (val r) c a < globalAngles L C (val r) d b)%N).
Proof.
  intros X. destruct (chain_computed (neighborData 1 1 minusOne)) as (val & H). pose proof (chain_wrap 1 1 val H) as W.
  specialize (X _ 1%N 3%N val H ltac:(lia) ltac:(lia) ltac:(unfold two64; cbn; lia) 1 0 0 0 1 ltac:(split; [|split]; cbn; lia) ltac:(split; [|split]; cbn; lia) ltac:(lia)).
  unfold globalAngles in X. rewrite !W in X by lia. vm_compute in X. discriminate.
Qed.

Print Assumptions C35_longest. Print Assumptions C35_computed. Print Assumptions C35_entire_graph_refuted. Print Assumptions C36_bfds_zero. Print Assumptions C36_dfds_dfhds. Print Assumptions C36_wrap.
Print Assumptions C36_bfds_refuted. Print Assumptions C36_dfds_refuted. Print Assumptions C37_global. Print Assumptions C37_local. Print Assumptions C37_blevels. Print Assumptions C37_random_refuted. Print Assumptions C37_dfds_refuted.
