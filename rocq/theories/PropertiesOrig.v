(** C64: sweeps over a precomputed schedule (SweepType OriginalTycho1 and OriginalTycho2). *)
From Coq Require Import Permutation.
From Verif Require Import Prelude MeshModel AngleModel AngleProofs PropertiesAngle TraverseModel TraverseSpec TraverseInv TraverseProofs TraverseTerm TraverseRun TraverseCases PropertiesTraverse
  ScheduleModel ScheduleSpec ScheduleProofs PropertiesSchedule CommModel OrigModel OrigSpec OrigProofs.

Lemma split_angles nAngles nGroups g : nGroups > 0 -> g < nGroups -> NoDup (sweeperAngles nAngles nGroups g) /\ forall a, In a (sweeperAngles nAngles nGroups g) -> a < nAngles.
Proof.
  intros GP Hg. pose proof (C02_split_covers nAngles nGroups GP) as E. split.
  - unfold sweeperAngles. apply FinFun.Injective_map_NoDup; [|apply seq_NoDup]. intros x y. lia.
  - intros a Ha. assert (K : In a (concat (map (sweeperAngles nAngles nGroups) (seq 0 nGroups)))). { apply in_concat. exists (sweeperAngles nAngles nGroups g). split; auto. apply in_map. apply in_seq. lia. }
    rewrite E in K. apply in_seq in K. lia.
Qed.
Lemma split_group nAngles nGroups a : nGroups > 0 -> a < nAngles -> exists g, g < nGroups /\ In a (sweeperAngles nAngles nGroups g).
Proof.
  intros GP Ha. pose proof (C02_split_covers nAngles nGroups GP) as E. assert (K : In a (concat (map (sweeperAngles nAngles nGroups) (seq 0 nGroups)))) by (rewrite E; apply in_seq; lia).
  apply in_concat in K. destruct K as (l & Hl & K). apply in_map_iff in Hl. destruct Hl as (g & <- & Hg). apply in_seq in Hg. exists g. split; auto. lia.
Qed.
Section C64.
  Context {V D : Type}.
  Variables (nRanks nAngles nGroups : nat) (M : nat -> rmesh) (T : tdata V D) (mate : site -> option site).
  Variables (over under : nat -> nat -> nat -> nat -> bool) (sched : nat -> list (nat -> list (nat * nat))) (prio : nat -> nat -> nat -> nat -> N) (mx : N).
  Let ang := sweeperAngles nAngles nGroups.
  Hypothesis GP : nGroups > 0.
  Hypothesis OK : sys_ok nRanks nAngles M mate.
  Hypothesis SD : sides_distinct nRanks M.
  Hypothesis NG : no_grazing nAngles M mate over under.
  Hypothesis AC : acyclic Forward true nRanks nAngles M mate.
  Hypothesis OR : forall g, g < nGroups -> ordering nRanks M (ang g) over under (prio g) mx (sched g).
  Variables (ty : sweepType) (rv : bool) (val : nat -> nat -> nat -> V) (bnd : nat -> nat -> nat -> D).
  Let start := ostart nRanks nGroups M over ang sched ty val bnd.
  Notation reach := (oreach nRanks nGroups M T ty rv start).

  Lemma reach_inv n S : reach n S -> exists sol, solution Forward true nRanks nAngles M T mate bnd sol /\ exists dn, oinv nRanks nGroups M T mate over ang sched (hasBarrier ty) sol S dn.
  Proof.
    intros H. destruct (solution_exists nRanks nAngles M T mate OK AC bnd) as (sol & HS). exists sol. split; auto.
    refine (inv_reach nRanks nAngles nGroups M T mate over under ang sched prio mx OK SD NG (fun g => split_angles nAngles nGroups g GP) AC OR (hasBarrier ty) bnd sol HS ty rv start n S _ H).
    eexists. apply oinv_start. reflexivity.
  Qed.
  (** Whatever the threads, ranks and messages do, a complete sweep leaves the solution of the upwind recursion. *)
  Theorem C64_result n S : reach n S -> oend nRanks nGroups S -> solution Forward true nRanks nAngles M T mate bnd (fun r => o_val (os S r)).
  Proof.
    intros H E. destruct (reach_inv n S H) as (sol & HS & dn & I).
    assert (K : forall r c a, valid nRanks nAngles M r c a -> o_val (os S r) c a = sol r c a).
    { intros r c a (Hr & Hc & Ha). destruct (split_group nAngles nGroups a GP Ha) as (g & Hg & Hin). exact (inv_end nRanks nAngles nGroups M T mate over under ang sched prio mx OK NG (fun g => split_angles nAngles nGroups g GP) AC OR (hasBarrier ty) sol S dn I E r g c a Hr Hg Hc Hin). }
    intros r c a Hv. rewrite (K r c a Hv), (HS r c a Hv). f_equal. apply map_ext_in. intros f Hf. apply in_seq in Hf. unfold seen. destruct (isIncoming Forward (M r) a c f); auto. destruct (mate (r, c, f)) as [[[q c'] f']|] eqn:Em; auto. f_equal.
    assert (Hv' : valid nRanks nAngles M q c' a). { destruct Hv as (_ & _ & Ha). apply (so_sym _ _ _ _ OK) in Em. apply (so_range _ _ _ _ OK) in Em. split; [|split]; auto; apply Em. }
    pose proof (K q c' a Hv') as Kq. cbv beta. destruct (Nat.eqb_spec q r) as [->|]; now rewrite Kq.
  Qed.
  (** No deadlock, no undefined side: until all is done some thread can go on, even if sends wait for their receives. *)
  Lemma strict_step S S' : ostep nRanks nGroups M T ty true S S' -> ostep nRanks nGroups M T ty rv S S'.
  Proof. intros [r g k x l os' ch' Hr Hg Et AL A]. econstructor; eauto. destruct A; econstructor; eauto. Qed.
  Theorem C64_progress n S : reach n S -> oend nRanks nGroups S \/ exists S', ostep nRanks nGroups M T ty rv S S'.
  Proof.
    intros H. destruct (reach_inv n S H) as (sol & HS & dn & I).
    destruct (oprogress nRanks nAngles nGroups M T mate over under ang sched prio mx OK NG (fun g => split_angles nAngles nGroups g GP) AC OR (hasBarrier ty) sol ty S dn eq_refl I) as [E|(S' & K)]; auto. right. exists S'. now apply strict_step.
  Qed.
  (** Every execution ends, after a number of actions that does not depend on the timing. *)
  Definition total : nat := sumr nRanks (fun r => sumr nGroups (fun g => length (prog nRanks nGroups M over ang sched (hasBarrier ty) r g))).
  Definition left (S : gos (V:=V) (D:=D)) : nat := sumr nRanks (fun r => sumr nGroups (fun g => length (otodo S r g))).
  Lemma sumr_ext' m f h : (forall i, i < m -> f i = h i) -> sumr m f = sumr m h.
  Proof. intros H. unfold sumr. f_equal. apply map_ext_in. intros i Hi. apply in_seq in Hi. apply H. lia. Qed.
  Lemma sumr_one m f h i : i < m -> f i = Datatypes.S (h i) -> (forall j, j <> i -> f j = h j) -> sumr m f = Datatypes.S (sumr m h).
  Proof.
    intros Hi E H. induction m as [|m IH]; [lia|]. rewrite !sumr_S. destruct (Nat.eq_dec i m) as [->|N].
    - rewrite E. rewrite (sumr_ext' m f h); [lia|]. intros j Hj. apply H. lia.
    - rewrite IH, H by lia. lia.
  Qed.
  Lemma left_reach n S : reach n S -> n + left S = total.
  Proof.
    intros H. induction H as [|n S S' H IH K]; [reflexivity|]. rewrite <- IH. destruct K as [r g k x l os' ch' Hr Hg Et _ _]. unfold left. cbn [otodo].
    rewrite (sumr_one nRanks (fun r => sumr nGroups (fun g => length (otodo S r g))) (fun r' => sumr nGroups (fun g' => length (fupd2 (otodo S) r g l r' g'))) r Hr); [lia| |].
    - apply (sumr_one nGroups) with (i := g); auto.
      + rewrite fupd2_same, Et. reflexivity.
      + intros j Hj. now rewrite fupd2_other by congruence.
    - intros j Hj. apply sumr_ext'. intros i _. now rewrite fupd2_other by congruence.
  Qed.
  Lemma left_end S : left S = 0 <-> oend nRanks nGroups S.
  Proof.
    unfold left. split.
    - intros H r g Hr Hg. assert (A : sumr nGroups (fun g => length (otodo S r g)) = 0).
      { destruct (sumr nGroups (fun g => length (otodo S r g))) eqn:E; auto. exfalso. assert (K : sumr nRanks (fun _ => 0) < sumr nRanks (fun r => sumr nGroups (fun g => length (otodo S r g)))) by (apply sumr_lt with (r := r); [lia|auto|lia]). lia. }
      destruct (otodo S r g) as [|h l] eqn:E; auto. exfalso. assert (K : sumr nGroups (fun _ => 0) < sumr nGroups (fun g => length (otodo S r g))) by (apply sumr_lt with (r := g); [lia|auto|rewrite E; cbn; lia]). lia.
    - intros E. assert (Z : forall m f, (forall i, i < m -> f i = 0) -> sumr m f = 0). { intros m f Hf. induction m as [|m IH]; auto. rewrite sumr_S, Hf, IH by auto. lia. }
      apply Z. intros r Hr. apply Z. intros g Hg. rewrite (E r g Hr Hg). reflexivity.
  Qed.
  Theorem C64_bounded n S : reach n S -> n <= total /\ (n = total <-> oend nRanks nGroups S).
  Proof. intros H. pose proof (left_reach n S H). split; [lia|]. rewrite <- left_end. lia. Qed.
  Theorem C64_completes n S : reach n S -> exists n' S', reach n' S' /\ oend nRanks nGroups S'.
  Proof.
    intros H. remember (left S) as m eqn:E. revert n S H E. induction m as [m IH] using lt_wf_ind. intros n S H E.
    destruct (C64_progress n S H) as [K|(S' & K)]; [eauto|]. assert (H' : reach (Datatypes.S n) S') by (econstructor; eauto).
    apply (IH (left S')) with (n := Datatypes.S n) (S := S'); auto. pose proof (left_reach _ _ H). pose proof (left_reach _ _ H'). lia.
  Qed.
  (** It is what the graph traversal computes on the same partition, from any starting values. *)
  Theorem C64_same_as_traversal (R : run V D) val1 bnd1 S0 S1 n S : good_run R -> u_dir R = Forward -> u_comm R = true -> u_ranks R = nRanks -> u_angles R = nAngles -> u_mesh R = M -> u_data R = T -> u_mate R = mate ->
    starts R val1 bnd1 S0 -> reaches R S0 S1 -> ends R S1 -> reach n S -> oend nRanks nGroups S ->
    forall r c a, valid nRanks nAngles M r c a -> o_val (os S r) c a = r_val (g_r S1 r) c a.
  Proof.
    intros HG E1 E2 E3 E4 E5 E6 E7 H0 H1 H2 H3 H4 r c a Hv.
    assert (RA : racyclic R) by (unfold racyclic; rewrite E1, E2, E3, E4, E5, E7; exact AC).
    destruct (C31_unique V D R val1 bnd1 S0 S1 (fun r => o_val (os S r)) HG RA H0 H1 H2) as [_ K]. rewrite E1, E2, E3, E4, E5, E6, E7 in K. symmetry. apply K; auto.
    pose proof (C64_result n S H3 H4) as Z. intros r' c' a' Hv'. exact (Z r' c' a' Hv').
  Qed.
End C64.

(** ** The vectors of a message: entry [i] at the receiver is side, angle and data of packet [i] *)
Section Flat.
  Context {X : Type}.
  Variables (zero : X) (nGroups : nat).
  Lemma setAt_length (l : list X) i x : length (setAt l i x) = length l.
  Proof.
    unfold setAt. rewrite app_length. rewrite <- (firstn_skipn i l) at 3. rewrite app_length. f_equal. now destruct (skipn i l).
  Qed.
  Lemma setAt_same (l : list X) i x : i < length l -> nth_error (setAt l i x) i = Some x.
  Proof.
    intros H. unfold setAt. rewrite nth_error_app2 by (rewrite firstn_length; lia). rewrite firstn_length, Nat.min_l, Nat.sub_diag by lia.
    destruct (skipn i l) eqn:E; auto. apply (f_equal (@length _)) in E. rewrite skipn_length in E. cbn in E. lia.
  Qed.
  Lemma setAt_other (l : list X) i j x : j <> i -> nth_error (setAt l i x) j = nth_error l j.
  Proof.
    revert i j. induction l as [|y l IH]; intros i j H; [destruct i; reflexivity|]. destruct i as [|i], j as [|j]; cbn; auto; [congruence|]. apply IH. congruence.
  Qed.
  Lemma vg_inj v g v' g' : v < 3 -> v' < 3 -> VG v g = VG v' g' -> v = v' /\ g = g'.
  Proof. unfold VG. lia. Qed.
  Lemma bound_data (d : sideData (X:=X)) : length (getBoundData zero nGroups d) = 3 * nGroups /\ forall v g, v < 3 -> g < nGroups -> nth_error (getBoundData zero nGroups d) (VG v g) = Some (d g v).
  Proof.
    unfold getBoundData. set (step := fun l vg => setAt l (VG (fst vg) (snd vg)) (d (snd vg) (fst vg))).
    assert (K : forall ps l, (forall vg, In vg ps -> fst vg < 3 /\ snd vg < nGroups) -> length l = 3 * nGroups -> length (fold_left step ps l) = 3 * nGroups /\
      forall v g, v < 3 -> g < nGroups -> (In (v, g) ps \/ nth_error l (VG v g) = Some (d g v)) -> nth_error (fold_left step ps l) (VG v g) = Some (d g v)).
    { induction ps as [|[v0 g0] ps IH]; cbn [fold_left]; intros l Hps Hl; [split; auto; intros v g _ _ [[]|]; auto|].
      destruct (Hps (v0, g0)) as [Hv0 Hg0]; [now left|]. cbn [fst snd] in *. destruct (IH (step l (v0, g0))) as [K1 K2]; [intros; apply Hps; now right|unfold step; now rewrite setAt_length|]. split; auto.
      intros v g Hv Hg HH. apply K2; auto. unfold step. cbn [fst snd]. destruct HH as [[HH|HH]|HH]; auto.
      - injection HH as -> ->. right. apply setAt_same. unfold VG. lia.
      - right. destruct (Nat.eq_dec (VG v g) (VG v0 g0)) as [E|N]; [|now rewrite setAt_other]. destruct (vg_inj v g v0 g0) as [-> ->]; auto. apply setAt_same. unfold VG. lia. }
    destruct (K (list_prod (seq 0 3) (seq 0 nGroups)) (repeat zero (3 * nGroups))) as [K1 K2].
    - intros [v g] H. apply in_prod_iff in H. destruct H as [H1 H2]. apply in_seq in H1, H2. cbn [fst snd]. lia.
    - apply repeat_length.
    - split; auto. intros v g Hv Hg. apply K2; auto. left. apply in_prod; apply in_seq; lia.
  Qed.
  Lemma flatten_eq l : flatten zero nGroups l = (flat_map (fun m => [fst (fst m); N.of_nat (snd (fst m))]) l, flat_map (fun m => getBoundData zero nGroups (snd m)) l).
  Proof.
    unfold flatten. assert (K : forall a b, fold_left (fun s m => let '(side, angle, d) := m in (fst s ++ [side; N.of_nat angle], snd s ++ getBoundData zero nGroups d)) l (a, b) =
      (a ++ flat_map (fun m => [fst (fst m); N.of_nat (snd (fst m))]) l, b ++ flat_map (fun m => getBoundData zero nGroups (snd m)) l)).
    { induction l as [|[[s a0] d] l IH]; intros a b; cbn [fold_left flat_map]; [now rewrite !app_nil_r|]. cbn [fst snd]. rewrite IH, <- !app_assoc. reflexivity. }
    apply (K [] []).
  Qed.
  Lemma nth_blocks {A B} (F : A -> list B) n l i j x : (forall y, length (F y) = n) -> nth_error l i = Some x -> j < n -> nth_error (flat_map F l) (i * n + j) = nth_error (F x) j.
  Proof.
    intros HF. revert i. induction l as [|y l IH]; intros i Hi Hj; [destruct i; discriminate|]. destruct i as [|i]; cbn [flat_map].
    - cbn in Hi. apply Some_inj in Hi. subst y. cbn. rewrite nth_error_app1; auto. now rewrite HF.
    - rewrite nth_error_app2 by (rewrite HF; lia). rewrite HF. replace (Datatypes.S i * n + j - n) with (i * n + j) by lia. now apply IH.
  Qed.
  Theorem C64_message l i side angle d : nth_error l i = Some (side, angle, d) ->
    let s := flatten zero nGroups l in
    nSides s = length l /\ length (snd s) = 3 * nGroups * length l /\ sideOf s i = Some side /\ angleOf s i = Some (N.of_nat angle) /\
    forall v g, v < 3 -> g < nGroups -> psiOf nGroups s i g v = Some (d g v).
  Proof.
    intros Hi s. unfold s. rewrite flatten_eq. unfold nSides, sideOf, angleOf, psiOf. cbn [fst snd].
    assert (L2 : length (flat_map (fun m : N * nat * sideData (X:=X) => [fst (fst m); N.of_nat (snd (fst m))]) l) = length l * 2) by (clear; induction l; cbn; auto; lia).
    assert (B : forall y : N * nat * sideData (X:=X), length (getBoundData zero nGroups (snd y)) = 3 * nGroups) by (intros; apply bound_data).
    split; [rewrite L2; apply Nat.div_mul; lia|]. split; [|split; [|split]].
    - clear Hi L2. induction l as [|m l IH]; cbn [flat_map length]; [lia|]. rewrite app_length, B, IH. lia.
    - replace (2 * i) with (i * 2 + 0) by lia. rewrite (nth_blocks (fun m : N * nat * sideData (X:=X) => [fst (fst m); N.of_nat (snd (fst m))]) 2 l i 0 _ (fun _ => eq_refl) Hi) by lia. reflexivity.
    - replace (2 * i + 1) with (i * 2 + 1) by lia. rewrite (nth_blocks (fun m : N * nat * sideData (X:=X) => [fst (fst m); N.of_nat (snd (fst m))]) 2 l i 1 _ (fun _ => eq_refl) Hi) by lia. reflexivity.
    - intros v g Hv Hg. rewrite <- Nat.mul_assoc. rewrite (nth_blocks (fun m : N * nat * sideData (X:=X) => getBoundData zero nGroups (snd m)) (3 * nGroups) l i (VG v g) _ B Hi) by (unfold VG; lia). cbn [snd]. now apply bound_data.
  Qed.
End Flat.

(** ** A face within the tolerance of the schedule *)
(** One rank with two cells; radiation of the only angle flows from cell 0 to cell 1 through face 0, but the dot
    product is within the tolerance of the schedule, which knows no dependency and takes cell 1 first. *)
Definition grazeMesh (r : nat) : rmesh :=
  mkRmesh 2 (fun c f => if f =? 0 then Some (1 - c) else None) (fun _ f => if f =? 0 then Some 0 else None) (fun c f => 4 * c + f) N.of_nat (fun g => Some (N.to_nat g)) (fun _ => 0)
    (fun a c f => if f =? 0 then c =? 0 else true).
Definition grazeMate (x : site) : option site :=
  let '(r, c, f) := x in if (r =? 0) && (c <? 2) && (f =? 0) then Some (0, 1 - c, 0) else None.
Definition grazeSched (g : nat) : list (nat -> list (nat * nat)) := [fun _ => [(1, 0); (0, 0)]].
Definition nowhere (r g c f : nat) : bool := false.
Lemma graze_mate r c f y : grazeMate (r, c, f) = Some y -> r = 0 /\ c < 2 /\ f = 0 /\ y = (0, 1 - c, 0).
Proof. unfold grazeMate. destruct (Nat.eqb_spec r 0), (Nat.ltb_spec c 2), (Nat.eqb_spec f 0); cbn [andb]; try discriminate. intros E. apply Some_inj in E. auto. Qed.
Lemma graze_ok : sys_ok 1 1 grazeMesh grazeMate.
Proof.
  pose proof graze_mate as MT. constructor.
  - intros r c f y H. apply MT in H. destruct H as (-> & A & -> & _). split; [lia|]. split; [exact A|lia].
  - intros [[r c] f] y H. apply MT in H. destruct H as (-> & A & -> & ->). destruct c as [|[|c]]; [| |lia]; reflexivity.
  - intros r c f f' H. apply MT in H. destruct H as (_ & A & _ & E). destruct c as [|[|c]]; [discriminate|discriminate|lia].
  - intros r c f Hr Hc Hf. cbn in Hc. assert (r = 0) as -> by lia. unfold grazeMate. destruct c as [|[|c]]; [| |lia]; cbn; destruct f as [|f]; reflexivity.
  - intros r c f Hr Hc Hf. cbn in Hc. assert (r = 0) as -> by lia. unfold grazeMate. destruct c as [|[|c]]; [| |lia]; cbn; destruct f as [|f]; reflexivity.
  - intros r c f q c' f' H NE. apply MT in H. destruct H as (-> & A & B & E). injection E as -> -> ->. congruence.
  - intros r c f q c' f' d g q' d' g' H NE. apply MT in H. destruct H as (-> & A & B & E). injection E as -> -> ->. congruence.
  - intros r c f q c' f' a H Ha. apply MT in H. destruct H as (-> & A & -> & E). injection E as -> -> ->. destruct c as [|[|c]]; [reflexivity|reflexivity|lia].
  - intros r Hr. vm_compute. reflexivity.
Qed.
Lemma graze_sides : sides_distinct 1 grazeMesh.
Proof. intros r c f d h _ _ Hf _ Hh _ _ E. cbn in E. lia. Qed.
Lemma graze_acyclic : acyclic Forward true 1 1 grazeMesh grazeMate.
Proof.
  exists (fun r c a => c). intros a r c q c' _ (Hr & Hc & f & f' & Hf & Hm & Hi & _). apply graze_mate in Hm. destruct Hm as (-> & A & -> & E). injection E as -> -> ->. cbn in Hi. destruct c as [|[|c]]; [discriminate|lia|lia].
Qed.
Theorem C64_grazing_refuted : exists (val : nat -> nat -> nat -> nat) (bnd : nat -> nat -> nat -> nat) n S,
  sys_ok 1 1 grazeMesh grazeMate /\ sides_distinct 1 grazeMesh /\ acyclic Forward true 1 1 grazeMesh grazeMate /\ in_sync (sweeperAngles 1 1 0) nowhere nowhere grazeMate /\
  ordering 1 grazeMesh (sweeperAngles 1 1 0) nowhere nowhere (fun _ _ c => N.of_nat c) 10 (grazeSched 0) /\
  oreach 1 1 grazeMesh sumData Tycho1 true (ostart 1 1 grazeMesh nowhere (sweeperAngles 1 1) grazeSched Tycho1 val bnd) n S /\ oend 1 1 S /\
  ~ solution Forward true 1 1 grazeMesh sumData grazeMate bnd (fun r => o_val (os S r)).
Proof.
  exists (fun _ _ _ => 0), (fun _ _ _ => 0). eexists _, _. split; [exact graze_ok|]. split; [exact graze_sides|]. split; [exact graze_acyclic|]. split; [intros g r c f q c' f' _ _; split; reflexivity|]. split; [|split; [|split]].
  - exists (fun r => mkSrank (numDependents (hasParent grazeMesh (sweeperAngles 1 1 0) nowhere nowhere) r) [] tt). split; [|intros r _; reflexivity]. unfold grazeSched. change [fun _ : nat => [(1, 0); (0, 0)]] with ([] ++ [fun _ : nat => [(1, 0); (0, 0)]]). eapply srun_snoc; [constructor|]. split.
    + intros H. specialize (H 0 ltac:(lia)). vm_compute in H. discriminate.
    + exists (fun r => (numDependents (hasParent grazeMesh (sweeperAngles 1 1 0) nowhere nowhere) r, [])). split.
      * intros r Hr. assert (r = 0) as -> by lia. cbn [initS s_nd s_q].
        change (initializeWorkQ grazeMesh (sweeperAngles 1 1 0) (hasParent grazeMesh (sweeperAngles 1 1 0) nowhere nowhere) 0) with ([] ++ (1, 0) :: [(0, 0)]).
        eapply topo_pop; [reflexivity| |].
        { intros c' a' [H|[H|[]]]; injection H as <- <-; lia. }
        match goal with |- topo _ _ _ _ _ _ (fold_left ?h ?l ?s) _ _ _ => assert (E : fold_left h l s = (fst s, [] ++ (0, 0) :: [])) by (vm_compute; reflexivity); rewrite E; clear E end.
        eapply topo_pop; [reflexivity| |].
        { intros c' a' [H|[]]; injection H as <- <-; lia. }
        match goal with |- topo _ _ _ _ _ _ (fold_left ?h ?l ?s) _ _ _ => assert (E : fold_left h l s = (fst s, [])) by (vm_compute; reflexivity); rewrite E; clear E end.
        apply topo_stop. left. reflexivity.
      * intros r Hr. assert (r = 0) as -> by lia. reflexivity.
  - eapply oreach_step; [eapply oreach_step; [eapply oreach_step; [apply oreach_refl|]|]|].
    + eapply ostep_do with (r := 0) (g := 0) (k := 0) (x := AWork 1 0); [lia|lia|reflexivity| |constructor]. intros g' kx' l Hg' E. assert (g' = 0) as -> by lia. cbn in E. injection E as <- _. auto.
    + eapply ostep_do with (r := 0) (g := 0) (k := 0) (x := AWork 0 0); [lia|lia|reflexivity| |constructor]. intros g' kx' l Hg' E. assert (g' = 0) as -> by lia. cbn in E. injection E as <- _. auto.
    + eapply ostep_do with (r := 0) (g := 0) (k := 0) (x := AWait); [lia|lia|reflexivity| |constructor; intros _ p Hp; reflexivity]. intros g' kx' l Hg' E. assert (g' = 0) as -> by lia. cbn in E. injection E as <- _. auto.
  - intros r g Hr Hg. assert (r = 0) as -> by lia. assert (g = 0) as -> by lia. reflexivity.
  - intros H. specialize (H 0 1 0 ltac:(unfold valid; cbn; lia)). vm_compute in H. discriminate.
Qed.

(** ** A concrete case: two ranks, two angle groups, both sweep types *)
Lemma two_sides : sides_distinct 2 twoMesh.
Proof. intros r c f d h _ Hc Hf Hd Hh _ _ E. cbn in *. lia. Qed.
Lemma two_graze : no_grazing 2 twoMesh twoMate twoOver twoUnder.
Proof. intros r c f a Ha Hm. destruct (twoMate (r, c, f)) as [y|] eqn:E; [|congruence]. apply two_mate in E. destruct E as (A & -> & -> & _). cbn. now destruct (a =? r). Qed.
Lemma two_acyclic : acyclic Forward true 2 2 twoMesh twoMate.
Proof.
  exists (fun r c a => if r =? a then 0 else 1). intros a r c q c' Ha (Hr & Hc & f & f' & Hf & Hm & Hi & _). apply two_mate in Hm. destruct Hm as (_ & -> & -> & E). injection E as -> -> ->. cbn in Hi.
  destruct r as [|[|r]]; [| |lia]; (destruct a as [|[|a]]; [| |lia]); cbn in *; try discriminate; lia.
Qed.
Lemma two_sched : exists sched, forall g, g < 2 -> ordering 2 twoMesh (sweeperAngles 2 2 g) twoOver twoUnder (fun _ _ _ => 0%N) 1 (sched g).
Proof.
  assert (K : forall g, g < 2 -> exists L, ordering 2 twoMesh (sweeperAngles 2 2 g) twoOver twoUnder (fun _ _ _ => 0%N) 1 L).
  { intros g Hg. destruct (C38_ends 2 twoMesh (sweeperAngles 2 2 g) twoOver twoUnder twoMate two_ok0) with (prio := fun _ _ _ : nat => 0%N) (mx := 1%N) as [K _]; auto; [| |discriminate].
    - apply (split_angles 2 2 g ltac:(lia) Hg).
    - intros a r c f q c' f' Ha. apply two_sync. destruct g as [|[|g]]; [| |lia]; cbn in Ha; destruct Ha as [<-|[]]; cbn; auto. }
  destruct (K 0 ltac:(lia)) as [L0 H0]. destruct (K 1 ltac:(lia)) as [L1 H1]. exists (fun g => if g =? 0 then L0 else L1). intros [|[|g]] Hg; auto. lia.
Qed.
Example C64_ex : forall ty rv, exists sched n S, oreach 2 2 twoMesh sumData ty rv (ostart 2 2 twoMesh twoOver (sweeperAngles 2 2) sched ty (fun _ _ _ => 7) (fun _ _ _ => 8)) n S /\ oend 2 2 S /\
  o_val (os S 0) 0 0 = 1 /\ o_val (os S 1) 0 0 = 211 /\ o_val (os S 1) 0 1 = 12 /\ o_val (os S 0) 0 1 = 1302.
Proof.
  intros ty rv. destruct two_sched as (sched & HS). exists sched.
  destruct (C64_completes 2 2 2 twoMesh sumData twoMate twoOver twoUnder sched (fun _ _ _ _ => 0%N) 1 ltac:(lia) two_ok two_sides two_graze two_acyclic HS ty rv (fun _ _ _ => 7) (fun _ _ _ => 8) 0 _ (oreach_refl _ _ _ _ _ _ _)) as (n & S & HR & HE).
  exists n, S. split; auto. split; auto.
  pose proof (C64_result 2 2 2 twoMesh sumData twoMate twoOver twoUnder sched (fun _ _ _ _ => 0%N) 1 ltac:(lia) two_ok two_sides two_graze two_acyclic HS ty rv (fun _ _ _ => 7) (fun _ _ _ => 8) n S HR HE) as K.
  assert (A : o_val (os S 0) 0 0 = 1) by (rewrite (K 0 0 0) by (unfold valid; cbn; lia); reflexivity).
  assert (B : o_val (os S 1) 0 1 = 12) by (rewrite (K 1 0 1) by (unfold valid; cbn; lia); reflexivity).
  assert (C : o_val (os S 1) 0 0 = 10 + 0 + (1 + 100 * (1 + o_val (os S 0) 0 0))) by (rewrite (K 1 0 0) by (unfold valid; cbn; lia); reflexivity).
  assert (E : o_val (os S 0) 0 1 = 0 + 1 + (1 + 100 * (1 + o_val (os S 1) 0 1))) by (rewrite (K 0 0 1) by (unfold valid; cbn; lia); reflexivity).
  rewrite A in C. rewrite B in E. repeat split; auto; lia.
Qed.
Example C64_message_ex : snd (flatten 0 2 [(5%N, 1, fun g v => 10 * g + v)]) = [0; 1; 2; 10; 11; 12].
Proof. reflexivity. Qed.

Print Assumptions C64_result. Print Assumptions C64_progress. Print Assumptions C64_bounded. Print Assumptions C64_completes. Print Assumptions C64_same_as_traversal. Print Assumptions C64_message. Print Assumptions C64_grazing_refuted.
