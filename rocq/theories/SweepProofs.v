(** Lemmas for PropertiesSweep. *)
From Coq Require Import Reals Lra.
From Verif Require Import Prelude MeshModel GeometryModel GaussModel TransportModel TransportSpec TransportProofs TraverseModel TraverseSpec SweepModel SweepSpec.

Lemma rhs_ext (T : Type) (A : arith T) V area c2f psiB psiB' src src' :
  (forall fv f, f < 4 -> psiB fv f = psiB' fv f) -> (forall v, v < 4 -> src v = src' v) -> cellRhs A V area c2f psiB src = cellRhs A V area c2f psiB' src'.
Proof.
  intros HB HS. unfold cellRhs. assert (E : calcSource A V src = calcSource A V src') by (unfold calcSource; rewrite !HS by lia; reflexivity).
  rewrite E. unfold calcIncomingFlux. assert (E0 : forall x, incoming0 A c2f area psiB x = incoming0 A c2f area psiB' x) by (intros; unfold incoming0; rewrite !HB by lia; reflexivity).
  assert (E1 : forall x, incoming1 A c2f area psiB x = incoming1 A c2f area psiB' x) by (intros; unfold incoming1; rewrite !HB by lia; reflexivity).
  assert (E2 : forall x, incoming2 A c2f area psiB x = incoming2 A c2f area psiB' x) by (intros; unfold incoming2; rewrite !HB by lia; reflexivity).
  assert (E3 : forall x, incoming3 A c2f area psiB x = incoming3 A c2f area psiB' x) by (intros; unfold incoming3; rewrite !HB by lia; reflexivity).
  now rewrite E0, E1, E2, E3.
Qed.
Lemma solveGroup_ext (T : Type) (A : arith T) g V area sigma c2f psiB psiB' src src' :
  (forall fv f, f < 4 -> psiB fv f = psiB' fv f) -> (forall v, v < 4 -> src v = src' v) -> solveGroup A g V area sigma c2f psiB src = solveGroup A g V area sigma c2f psiB' src'.
Proof. intros HB HS. unfold solveGroup. f_equal. now apply rhs_ext. Qed.

Lemma nth_map4 {X} (h : nat -> option X) f : f < 4 -> nth f (map h (seq 0 4)) None = h f.
Proof. destruct f as [|[|[|[|f]]]]; [reflexivity..|lia]. Qed.

(** Groups in a solution of the upwind recursion. *)
Section Groups.
  Context {T : Type}.
  Variables (A : arith T) (g : gaussElim) (geo : nat -> rgeo T) (sigmaT : nat -> nat -> T).
  Variables (dir : direction) (doComm : bool) (nRanks nAngles : nat) (M : nat -> rmesh) (mate : site -> option site).
  Variables (n n' : nat) (src src' : nat -> nat -> nat -> block T) (pr pr' : nat -> nat -> nat -> N).
  Notation data := (sweepData A g n geo sigmaT src pr). Notation data' := (sweepData A g n' geo sigmaT src' pr').
  Variables (bnd bnd' : nat -> nat -> nat -> block T) (val val' : nat -> nat -> nat -> value T) (G G' : nat).
  Hypothesis HG : G < n. Hypothesis HG' : G' < n'.
  Hypothesis AC : acyclic dir doComm nRanks nAngles M mate.
  Hypothesis RG : forall r c f y, mate (r, c, f) = Some y -> r < nRanks /\ c < rm_nCells (M r) /\ f < 4.
  Hypothesis SY : forall x y, mate x = Some y -> mate y = Some x.
  Hypothesis SO : solution dir doComm nRanks nAngles M data mate bnd val.
  Hypothesis SO' : solution dir doComm nRanks nAngles M data' mate bnd' val'.
  Hypothesis OK : forall r c a, valid nRanks nAngles M r c a -> val r c a <> None.
  Hypothesis OK' : forall r c a, valid nRanks nAngles M r c a -> val' r c a <> None.
  Hypothesis ES : forall r c a v, valid nRanks nAngles M r c a -> v < 4 -> src r c a v G = src' r c a v G'.
  Hypothesis EB : doComm = false -> forall r s a fv, r < nRanks -> a < nAngles -> bnd r s a fv G = bnd' r s a fv G'.
  Lemma group_eq r c a : valid nRanks nAngles M r c a -> forall v, getBlock A (val r c a) v G = getBlock A (val' r c a) v G'.
  Proof.
    destruct AC as (lvl & LV). remember (lvl r c a) as k eqn:Ek. revert r c Ek. induction k as [k IH] using lt_wf_ind. intros r c Ek VA v.
    pose proof VA as (Hr & Hc & Ha).
    pose proof (SO r c a VA) as E. pose proof (SO' r c a VA) as E'. cbn [td_update sweepData] in E, E'. unfold sweepUpdate in E, E'.
    pose proof (OK r c a VA) as N. pose proof (OK' r c a VA) as N'.
    destruct (val r c a) as [p|]; [|congruence]. destruct (val' r c a) as [p'|]; [|congruence]. symmetry in E, E'.
    destruct (solve_ok A g _ _ _ _ _ _ _ _ _ _ E) as (K & Z). destruct (solve_ok A g _ _ _ _ _ _ _ _ _ _ E') as (K' & Z').
    cbn [getBlock]. destruct (le_lt_dec 4 v) as [V4|V4]; [rewrite Z, Z' by auto; reflexivity|].
    destruct (K G HG) as (x & Ex & Hx). destruct (K' G' HG') as (x' & Ex' & Hx'). rewrite Hx, Hx' by auto. f_equal. apply Some_inj. rewrite <- Ex, <- Ex'. apply solveGroup_ext.
    - intros fv f Hf. unfold localPsiBound. rewrite !nth_map4 by auto. unfold seen. destruct (isIncoming dir (M r) a c f) eqn:EI; [|reflexivity].
      destruct (mate (r, c, f)) as [[[q c'] f']|] eqn:EM; [|reflexivity].
      assert (UP : doComm = true \/ q = r -> forall w, getBlock A (val q c' a) w G = getBlock A (val' q c' a) w G').
      { intros D w. apply (IH (lvl q c' a)); auto.
        - rewrite Ek. apply LV; auto. split; [auto|]. split; [auto|]. exists f, f'. auto.
        - pose proof (SY _ _ EM) as EM'. apply RG in EM'. destruct EM' as (? & ? & _). split; [|split]; auto. }
      destruct (Nat.eqb_spec q r) as [->|NE].
      + cbn [td_read sweepData]. unfold sweepRead. now apply UP; right.
      + destruct doComm eqn:ED; [cbn [td_getData sweepData]; unfold sweepGetData; now apply UP; left|]. now apply EB.
    - intros w Hw. now apply ES.
  Qed.
End Groups.

(** The DG system. *)
Section Dg.
  Local Open Scope R_scope.
  Context {X : Type}.
  Variables (g : gaussElim) (geo : nat -> rgeo R) (sigmaT : nat -> nat -> R) (n : nat) (src : nat -> nat -> nat -> block R) (pr : nat -> nat -> nat -> N).
  Variables (doComm : bool) (nRanks nAngles : nat) (M : nat -> rmesh) (mate : site -> option site) (node : nat -> nat -> nat -> X).
  Notation data := (sweepData Rops g n geo sigmaT src pr).
  Definition farea (r c : nat) (f : nat) : R := get4 (rg_area (geo r) c) f.
  Definition fom (r a c : nat) (f : nat) : R := get4 (rg_omN (geo r) a c) f.
  Hypothesis GF : geo_fits nRanks nAngles (fun r => rm_nCells (M r)) (fun r => rm_out (M r)) mate node (fun r => rg_volume (geo r)) farea fom
    (fun r => rg_c2f (geo r)) (fun r => rg_f2c (geo r)) (fun r => rg_nbr (geo r)).
  Hypothesis SG : forall r c, (r < nRanks)%nat -> (c < rm_nCells (M r))%nat -> 0 < sigmaT r c.
  Definition sarea (r a c : nat) (f : nat) : R := farea r c f * fom r a c f.
  Lemma signed_get r a c f : (f < 4)%nat -> get4 (signedAreas Rops (rg_area (geo r) c) (rg_omN (geo r) a c)) f = sarea r a c f.
  Proof. intros Hf. unfold sarea, farea, fom, signedAreas. destruct f as [|[|[|[|f]]]]; [reflexivity..|lia]. Qed.
  Lemma signed_zero r a c : (r < nRanks)%nat -> (a < nAngles)%nat -> (c < rm_nCells (M r))%nat -> sum_q4 (signedAreas Rops (rg_area (geo r) c) (rg_omN (geo r) a c)) = 0.
  Proof. intros Hr Ha Hc. pose proof (gf_closed _ _ _ _ _ _ _ _ _ _ _ _ GF r a c Hr Ha Hc) as H. exact H. Qed.
  Lemma not_out r a c f : (r < nRanks)%nat -> (a < nAngles)%nat -> (c < rm_nCells (M r))%nat -> (f < 4)%nat -> (sarea r a c f > 0 <-> rm_out (M r) a c f = true).
  Proof.
    intros Hr Ha Hc Hf. rewrite (gf_out _ _ _ _ _ _ _ _ _ _ _ _ GF r a c f Hr Ha Hc Hf). pose proof (gf_area _ _ _ _ _ _ _ _ _ _ _ _ GF r c f Hr Hc Hf) as P. unfold sarea.
    split; intros H.
    - apply Rmult_lt_reg_l with (1 := P). lra.
    - now apply Rmult_lt_0_compat.
  Qed.

  Section One.
    Variables (bnd : nat -> nat -> nat -> block R) (val : nat -> nat -> nat -> value R).
    Hypothesis SO : solution Forward doComm nRanks nAngles M data mate bnd val.
    Definition psiOf (r c a G v : nat) : R := getBlock Rops (val r c a) v G.
    (** The value of every pair is there and satisfies the system with what it saw. *)
    Lemma cell_dg r c a : valid nRanks nAngles M r c a -> val r c a <> None /\ forall G, (G < n)%nat ->
      dg (rg_volume (geo r) c) (sarea r a c) (sigmaT r c) (fun v => src r c a v G)
        (fun f j => match seen Forward doComm M data mate val bnd r c a f with Some d => d (rg_c2f (geo r) c f j) G | None => 0 end) (psiOf r c a G).
    Proof.
      intros VA. pose proof VA as (Hr & Hc & Ha). pose proof (SO r c a VA) as E. cbn [td_update sweepData] in E. unfold sweepUpdate in E.
      pose proof (gf_volume _ _ _ _ _ _ _ _ _ _ _ _ GF r c Hr Hc) as HV. pose proof (SG r c Hr Hc) as HS. pose proof (signed_zero r a c Hr Ha Hc) as HZ.
      set (inp := map (seen Forward doComm M data mate val bnd r c a) (seq 0 4)) in *.
      assert (TOT : exists p, val r c a = Some p).
      { rewrite E. apply solve_total. intros G HG. destruct (solve_group _ _ _ (rg_c2f (geo r) c) (fun fv f => localPsiBound Rops inp fv f G) (fun v => src r c a v G) HV HS HZ) as (x & K & _). rewrite K. discriminate. }
      destruct TOT as (p & EP). split; [congruence|]. intros G HG. rewrite EP in E. symmetry in E. destruct (solve_ok Rops g _ _ _ _ _ _ _ _ _ _ E) as (K & _).
      destruct (K G HG) as (x & Ex & Hx). destruct (solve_group _ _ _ (rg_c2f (geo r) c) (fun fv f => localPsiBound Rops inp fv f G) (fun v => src r c a v G) HV HS HZ) as (x' & E' & D & _).
      rewrite E' in Ex. apply Some_inj in Ex. subst x'. intros i Hi. specialize (D i Hi).
      assert (P : forall v, (v < 4)%nat -> psiOf r c a G v = get4 x v) by (intros v Hv; unfold psiOf; rewrite EP; cbn [getBlock]; auto).
      assert (IN : forall f j, (f < 4)%nat -> localPsiBound Rops inp (rg_c2f (geo r) c f j) f G = match seen Forward doComm M data mate val bnd r c a f with Some d => d (rg_c2f (geo r) c f j) G | None => 0 end).
      { intros f j Hf. unfold localPsiBound, inp. now rewrite nth_map4. }
      unfold dg_row, sumFace, sum4, TransportSpec.upwind, vec in *. cbv beta in D. rewrite !signed_get in D by lia.
      rewrite !IN in D by lia. rewrite !P by lia.
      destruct i as [|[|[|[|i]]]]; [exact D..|lia].
    Qed.
  End One.

  (** Swept together the ranks solve the global system, and it has no other solution. *)
  Variables (bnd : nat -> nat -> nat -> block R) (val : nat -> nat -> nat -> value R).
  Hypothesis DC : doComm = true.
  Hypothesis SO : solution Forward doComm nRanks nAngles M data mate bnd val.
  Lemma global_dg r c a G : valid nRanks nAngles M r c a -> (G < n)%nat ->
    dg_cell node mate (rg_volume (geo r) c) (sarea r a c) (sigmaT r c) (fun v => src r c a v G) (fun r c a G v => psiOf val r c a G v) r c a G.
  Proof.
    intros VA HG. pose proof VA as (Hr & Hc & Ha). destruct (cell_dg bnd val SO r c a VA) as (_ & D). eexists. split; [|exact (D G HG)].
    intros f j Hf Hj NE NO. cbn beta. unfold across, seen. unfold isIncoming.
    assert (NO' : rm_out (M r) a c f = false) by (destruct (rm_out (M r) a c f) eqn:E; auto; exfalso; apply NO; now apply not_out). rewrite NO'. cbn [negb].
    destruct (mate (r, c, f)) as [[[q c'] f']|] eqn:EM; [|reflexivity].
    destruct (Nat.eqb_spec q r) as [->|NQ].
    - destruct (gf_local _ _ _ _ _ _ _ _ _ _ _ _ GF r c f c' f' j EM Hj NE) as (K1 & K2 & K3). eexists. split; [exact K1|]. split; [exact K2|]. split; [exact K3|reflexivity].
    - rewrite DC. destruct (gf_remote _ _ _ _ _ _ _ _ _ _ _ _ GF r c f q c' f' j EM NQ Hj NE) as (K1 & K2 & K3). eexists. split; [exact K1|]. split; [exact K2|]. split; [exact K3|reflexivity].
  Qed.
End Dg.
(** The global system determines the field. *)
Section Unique.
  Local Open Scope R_scope.
  Context {X : Type}.
  Variables (geo : nat -> rgeo R) (sigmaT : nat -> nat -> R) (src : nat -> nat -> nat -> block R).
  Variables (nRanks nAngles : nat) (M : nat -> rmesh) (mate : site -> option site) (node : nat -> nat -> nat -> X).
  Hypothesis GF : geo_fits nRanks nAngles (fun r => rm_nCells (M r)) (fun r => rm_out (M r)) mate node (fun r => rg_volume (geo r)) (farea geo) (fom geo)
    (fun r => rg_c2f (geo r)) (fun r => rg_f2c (geo r)) (fun r => rg_nbr (geo r)).
  Hypothesis SG : forall r c, (r < nRanks)%nat -> (c < rm_nCells (M r))%nat -> 0 < sigmaT r c.
  Hypothesis AC : acyclic Forward true nRanks nAngles M mate.
  Hypothesis RG : forall r c f y, mate (r, c, f) = Some y -> (r < nRanks /\ c < rm_nCells (M r) /\ f < 4)%nat.
  Hypothesis SY : forall x y, mate x = Some y -> mate y = Some x.
  Hypothesis NI : forall r c v w, (r < nRanks)%nat -> (c < rm_nCells (M r))%nat -> (v < 4)%nat -> (w < 4)%nat -> node r c v = node r c w -> v = w.
  Variables (psi psi' : nat -> nat -> nat -> nat -> nat -> R) (G : nat).
  Notation DG psi := (forall r c a, valid nRanks nAngles M r c a -> dg_cell node mate (rg_volume (geo r) c) (sarea geo r a c) (sigmaT r c) (fun v => src r c a v G) psi r c a G).
  Hypothesis D1 : DG psi. Hypothesis D2 : DG psi'.
  Lemma global_unique r c a v : valid nRanks nAngles M r c a -> (v < 4)%nat -> psi r c a G v = psi' r c a G v.
  Proof.
    destruct AC as (lvl & LV). remember (lvl r c a) as k eqn:Ek. revert r c v Ek. induction k as [k IH] using lt_wf_ind. intros r c v Ek VA Hv.
    pose proof VA as (Hr & Hc & Ha). destruct (D1 r c a VA) as (nb & N1 & E1). destruct (D2 r c a VA) as (nb' & N2 & E2).
    pose proof (gf_volume _ _ _ _ _ _ _ _ _ _ _ _ GF r c Hr Hc) as HV. pose proof (SG r c Hr Hc) as HS.
    pose proof (gf_closed _ _ _ _ _ _ _ _ _ _ _ _ GF r a c Hr Ha Hc) as HZ. set (area := sarea geo r a c) in *.
    assert (NB : forall f j, (f < 4)%nat -> (j < 4)%nat -> j <> f -> ~ area f > 0 -> nb f j = nb' f j).
    { intros f j Hf Hj NE NO. specialize (N1 f j Hf Hj NE NO). specialize (N2 f j Hf Hj NE NO). unfold across in N1, N2. destruct (mate (r, c, f)) as [[[q c'] f']|] eqn:EM; [|congruence].
      destruct N1 as (w & W1 & _ & W2 & ->). destruct N2 as (w' & W1' & _ & W2' & ->). pose proof (SY _ _ EM) as EM'. apply RG in EM'. destruct EM' as (Hq & Hc' & _).
      assert (w' = w) as -> by (apply (NI q c'); congruence || auto). apply (IH (lvl q c' a)); auto; [|split; [|split]; auto]. rewrite Ek. apply LV; auto. split; [auto|]. split; [auto|].
      exists f, f'. split; auto. split; auto. split; [|auto]. unfold isIncoming. destruct (rm_out (M r) a c f) eqn:E; auto. exfalso. apply NO. unfold area. now apply (not_out geo nRanks nAngles M mate node GF). }
    set (q4of := fun h : nat -> R => Q4 (h 0%nat) (h 1%nat) (h 2%nat) (h 3%nat)).
    assert (QG : forall h i, (i < 4)%nat -> get4 (q4of h) i = h i) by (intros h [|[|[|[|i]]]] Hi; [reflexivity..|lia]).
    assert (QZ : sum_q4 (q4of area) = 0) by exact HZ.
    set (lp := fun fv f => nb f fv).
    destruct (solve_group _ _ (q4of area) (fun _ j => j) lp (fun v => src r c a v G) HV HS QZ) as (x & _ & _ & U).
    assert (X1 : q4of (psi r c a G) = x).
    { apply U. intros i Hi. specialize (E1 i Hi). unfold dg_row, sumFace, sum4, TransportSpec.upwind, vec in *. rewrite !QG by lia. destruct i as [|[|[|[|i]]]]; [exact E1..|lia]. }
    assert (X2 : q4of (psi' r c a G) = x).
    { apply U. intros i Hi. specialize (E2 i Hi). unfold lp. unfold dg_row, sumFace, sum4, TransportSpec.upwind, vec in *. rewrite !QG by lia.
      assert (P : forall f j, (f < 4)%nat -> (j < 4)%nat -> j <> f -> (if Rgt_dec (area f) 0 then psi' r c a G j else nb f j) = (if Rgt_dec (area f) 0 then psi' r c a G j else nb' f j)).
      { intros f j Hf Hj NE. destruct (Rgt_dec (area f) 0); auto. }
      destruct i as [|[|[|[|i]]]]; [cbn [Nat.eqb] in *; rewrite !P by lia; exact E2..|lia]. }
    rewrite <- (QG (psi r c a G) v Hv), <- (QG (psi' r c a G) v Hv). congruence.
  Qed.
End Unique.

(** diffBetweenGroups. *)
Section Diff.
  Local Open Scope R_scope.
  Variables (nG nA nC : nat) (psi : nat -> nat -> nat -> nat -> R).
  Notation one := (diffGroup Rops psi). Notation entry := (diffEntry Rops nG psi).
  Lemma group_fold v a c l d : d <= fold_left (one v a c) l d /\ (forall G, In G l -> Rabs (psi 0%nat v a c - psi G v a c) <= fold_left (one v a c) l d) /\
    (fold_left (one v a c) l d = d \/ exists G, In G l /\ fold_left (one v a c) l d = Rabs (psi 0%nat v a c - psi G v a c)).
  Proof.
    revert d. induction l as [|G l IH]; intros d; cbn [fold_left]; [split; [lra|]; split; [intros G []|now left]|].
    specialize (IH (one v a c d G)). destruct IH as (I1 & I2 & I3).
    assert (H : d <= one v a c d G /\ Rabs (psi 0%nat v a c - psi G v a c) <= one v a c d G /\ (one v a c d G = d \/ one v a c d G = Rabs (psi 0%nat v a c - psi G v a c))).
    { unfold diffGroup. cbn [agt aabs asub Rops]. destruct (Rgt_dec _ d); repeat split; try lra; auto. }
    destruct H as (H1 & H2 & H3). split; [lra|]. split.
    - intros G' [<-|HI]; [lra|auto].
    - destruct I3 as [I3|(G' & HI & I3)]; [|right; exists G'; split; [now right|auto]]. rewrite I3. destruct H3 as [->| ->]; [now left|right; exists G; split; [now left|auto]].
  Qed.
  Definition covered (l : list (nat * nat * nat)) (s : R * R) : Prop := forall c a v, In (c, a, v) l ->
    Rabs (psi 0%nat v a c) <= snd s /\ forall G, (G < nG)%nat -> Rabs (psi 0%nat v a c - psi G v a c) <= fst s.
  Definition attained (s : R * R) : Prop := fst s = 0 \/ exists v a c G, (G < nG)%nat /\ fst s = Rabs (psi 0%nat v a c - psi G v a c).
  Lemma entries_fold l0 l s : 0 <= fst s -> covered l0 s -> attained s -> covered (l0 ++ l) (fold_left entry l s) /\ attained (fold_left entry l s) /\ 0 <= fst (fold_left entry l s).
  Proof.
    revert l0 s. induction l as [|[[c a] v] l IH]; intros l0 s Z C AT; cbn [fold_left]; [now rewrite app_nil_r|].
    replace (l0 ++ (c, a, v) :: l) with ((l0 ++ [(c, a, v)]) ++ l) by now rewrite <- app_assoc.
    destruct s as [d e]. cbn [fst snd] in *. destruct (group_fold v a c (seq 1 (nG - 1)) d) as (K1 & K2 & K3). unfold diffEntry at 2 4 6. cbv beta iota zeta.
    apply IH; cbn [fst snd]; [lra| |].
    - intros c' a' v' HI. apply in_app_or in HI. cbn [agt aabs Rops]. cbn [fst snd].
      assert (HE : e <= (if if Rgt_dec (Rabs (psi 0%nat v a c)) e then true else false then Rabs (psi 0%nat v a c) else e) /\
        Rabs (psi 0%nat v a c) <= (if if Rgt_dec (Rabs (psi 0%nat v a c)) e then true else false then Rabs (psi 0%nat v a c) else e)) by (destruct (Rgt_dec _ e); lra).
      destruct HI as [HI|[E|[]]].
      + destruct (C c' a' v' HI) as (C1 & C2). cbn [fst snd] in *. split; [lra|]. intros G HG. specialize (C2 G HG). lra.
      + injection E as <- <- <-. split; [lra|]. intros [|G] HG.
        * rewrite Rminus_diag_eq, Rabs_R0; auto. lra.
        * apply K2. apply in_seq. lia.
    - unfold attained in *. cbn [fst] in *. destruct K3 as [->|(G & HI & ->)]; [exact AT|]. apply in_seq in HI. right. exists v, a, c, G. split; [lia|auto].
  Qed.
  (** maxDiff is the largest difference to group 0, maxEntry bounds group 0. *)
  Lemma diff_max : let s := diffLoops Rops nG nA nC psi in 0 <= fst s /\ attained s /\
    forall c a v, (c < nC)%nat -> (a < nA)%nat -> (v < 4)%nat -> Rabs (psi 0%nat v a c) <= snd s /\ forall G, (G < nG)%nat -> Rabs (psi 0%nat v a c - psi G v a c) <= fst s.
  Proof.
    intros s. unfold s, diffLoops. set (l := list_prod (list_prod (seq 0 nC) (seq 0 nA)) (seq 0 4)).
    destruct (entries_fold [] l (azero Rops, azero Rops)) as (K1 & K2 & K3).
    - cbn. lra.
    - intros c a v [].
    - left. reflexivity.
    - split; [exact K3|]. split; [exact K2|]. intros c a v Hc Ha Hv. apply K1. cbn [app]. unfold l. rewrite !in_prod_iff, !in_seq. lia.
  Qed.
End Diff.
