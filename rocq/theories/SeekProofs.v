(** neighborPriorities computes the dependent-seeking priorities. *)
From Coq Require Import Permutation.
From Verif Require Import Prelude MeshModel TraverseModel TraverseSpec TraverseInv TraverseProofs TraverseTerm TychoProofs ScheduleModel ScheduleSpec ScheduleProofs ScheduleLevels SeekSpec.

Lemma w64_twice x y : w64 (w64 x + y) = w64 (x + y).
Proof. unfold w64. apply N.add_mod_idemp_l. discriminate. Qed.

Section Seek.
  Variables (nRanks : nat) (M : nat -> rmesh) (angles : list nat) (over under : nat -> nat -> nat -> nat -> bool) (mate : site -> option site).
  Hypothesis OK : sys_ok nRanks 0 M mate.
  Hypothesis ND : NoDup angles.
  Hypothesis SY : in_sync angles over under mate.
  Notation nAng := (nAng angles). Notation ang a := (nth a angles 0).
  Notation need := (hasChild M angles over). Notation give := (hasParent M angles over under).
  Let Hgn := dep_sync' nRanks M angles over under mate OK SY.
  Let HA : forall r c f a, need r a c f = true -> _ := child_adj M angles over.
  Let HB : forall r c f a, give r a c f = true -> _ := parent_adj M angles over under.
  Notation vld := (vld M angles). Notation satF := (satF mate). Notation unsat := (unsat need). Notation LI := (LI M angles need).
  Notation in_turn := (in_turn M angles mate need). Notation closed := (closed M angles mate need). Notation wvld := (wvld angles).
  Variables (lev : nat -> nat -> N) (sc sh ps mx : N) (r : nat).
  Hypothesis Hr : r < nRanks.
  Notation nC := (rm_nCells (M r)).

  (** What the other ranks would have to do counts as done. *)
  Definition others (q : nat) : list (nat * nat) := list_prod (seq 0 (rm_nCells (M q))) (seq 0 nAng).
  Definition value (a c f : nat) : N := w64 (w64 (lev a (rm_side (M r) c f) * sc) + sh).

  (** ** Faces *)
  Lemma across_iff a c f : c < nC -> f < 4 -> acrossBoundary M angles over r a c f = true <-> exists x, leaves over mate r (ang a) c f x.
  Proof.
    intros Hc Hf. unfold acrossBoundary, hasChild. rewrite !andb_true_iff, negb_true_iff, (so_cell _ _ _ _ OK), (so_rank _ _ _ _ OK) by auto. split.
    - intros (((Ho & _) & Hn) & Hs). destruct (mate (r, c, f)) as [[[q c'] f']|] eqn:Em; [|easy]. exists (q, c'), f'. cbn [fst snd]. split; [exact Em|]. split; [|exact Ho].
      intros ->. rewrite Nat.eqb_refl in Hn. discriminate.
    - intros ([q c'] & f' & Em & Hq & Ho). cbn [fst snd] in *. rewrite Em. destruct (Nat.eqb_spec q r); [easy|]. repeat split; auto.
  Qed.
  Lemma leaves_range g c f x : leaves over mate r g c f x -> c < nC /\ f < 4.
  Proof. intros (f' & Em & _). apply (mrange _ _ _ OK) in Em. tauto. Qed.
  Lemma need_split a c f : c < nC -> f < 4 -> a < nAng ->
    need r a c f = acrossBoundary M angles over r a c f || unsat r (satF r [] others) c a f /\ acrossBoundary M angles over r a c f && unsat r (satF r [] others) c a f = false.
  Proof.
    intros Hc Hf Ha. unfold acrossBoundary, ScheduleProofs.unsat. destruct (need r a c f) eqn:En; [|split; reflexivity]. cbn [andb].
    destruct (adjRank_mate nRanks M mate OK r c f Hr Hc Hf (HA _ _ _ _ En)) as (q & c' & f' & Em). rewrite (so_cell _ _ _ _ OK), (so_rank _ _ _ _ OK), Em by auto. cbn [ScheduleProofs.satF]. rewrite Em.
    destruct (Nat.eqb_spec q r) as [->|Hq]; [split; reflexivity|]. cbn [isSome negb andb].
    assert (I : mem2 (c', a) (others q) = true). { apply mem2_In. apply in_prod_iff. apply (mrange _ _ _ OK) in Em. split; apply in_seq; lia. } rewrite I. split; reflexivity.
  Qed.
  Lemma localChildren_eq a c : c < nC -> a < nAng -> localChildren M angles over r a c = N.of_nat (length (filter (unsat r (satF r [] others) c a) (seq 0 4))).
  Proof.
    intros Hc Ha. unfold localChildren, numDependents. pose proof (fun f Hf => need_split a c f Hc Hf Ha) as K. set (u := unsat r (satF r [] others) c a) in *. set (b := acrossBoundary M angles over r a c) in *. set (h := hasChild M angles over r a c) in *. clearbody u b h.
    destruct (K 0 ltac:(lia)) as (E0 & D0), (K 1 ltac:(lia)) as (E1 & D1), (K 2 ltac:(lia)) as (E2 & D2), (K 3 ltac:(lia)) as (E3 & D3). clear K. cbn [seq fold_left filter]. rewrite E0, E1, E2, E3. clear - D0 D1 D2 D3.
    destruct (b 0), (u 0); try discriminate D0; destruct (b 1), (u 1); try discriminate D1; destruct (b 2), (u 2); try discriminate D2; destruct (b 3), (u 3); try discriminate D3; vm_compute; reflexivity.
  Qed.
  Lemma init_LI : LI r (satF r [] others) [] (localChildren M angles over r, npQueue M angles over r).
  Proof.
    constructor; cbn [fst snd].
    - intros x [H1 H2]. now apply localChildren_eq.
    - unfold npQueue. rewrite (fold_cond (fun ac => N.eqb (localChildren M angles over r (fst ac) (snd ac)) 0) (fun ac => (snd ac, fst ac))), app_nil_r. apply NoDup_rev. apply FinFun.Injective_map_NoDup.
      + intros [x1 x2] [y1 y2]; cbn; congruence.
      + apply NoDup_filter, NoDup_list_prod; apply seq_NoDup.
    - intros [c a]. unfold npQueue. rewrite (fold_cond (fun ac => N.eqb (localChildren M angles over r (fst ac) (snd ac)) 0) (fun ac => (snd ac, fst ac))), app_nil_r, <- in_rev, in_map_iff. split.
      + intros ([a' c'] & K & Hin). cbn in K. injection K as <- <-. apply filter_In in Hin. destruct Hin as [Hin Hz]. apply in_prod_iff in Hin.
        destruct Hin as [H1 H2]. apply in_seq in H1, H2. cbn [fst snd] in *. split; [split; cbn [fst snd]; lia|]. split; [easy|]. intros f Hf.
        apply N.eqb_eq in Hz. rewrite localChildren_eq in Hz by lia. apply filter_nil_inv with (l := seq 0 4); [lia|apply in_seq; lia].
      + intros ((V1 & V2) & _ & K). cbn [fst snd] in *. exists (a, c). split; auto. apply filter_In. split; [apply in_prod_iff; split; apply in_seq; lia|]. cbn [fst snd].
        apply N.eqb_eq. rewrite localChildren_eq, filter_nil; auto. intros f Hf. apply in_seq in Hf. apply K. lia.
  Qed.

  (** ** One pair done *)
  Definition isPar (a c : nat) (fs : list nat) (d : nat) : bool :=
    existsb (fun f => give r a c f && match rm_adjCell (M r) c f with Some c' => c' =? d | None => false end) fs.
  Lemma adj_irr c f : c < nC -> f < 4 -> rm_adjCell (M r) c f <> Some c.
  Proof. intros Hc Hf. rewrite (so_cell _ _ _ _ OK) by auto. destruct (mate (r, c, f)) as [[[q c'] f']|] eqn:Em; [|easy]. destruct (Nat.eqb_spec q r) as [->|]; [|easy]. intros E. injection E as ->. exact (so_irr _ _ _ _ OK _ _ _ _ Em). Qed.
  Lemma priorityFaces a c : c < nC -> forall fs p, (forall f, In f fs -> f < 4) -> forall b d,
    fold_left (priorityFace M angles over under ps r c a) fs p b d = if (b =? a) && isPar a c fs d then N.max (p b d) (w64 (p a c + ps)) else p b d.
  Proof.
    intros Hc. induction fs as [|f fs IH]; intros p Hfs b d; cbn [fold_left isPar existsb]; [now rewrite andb_false_r|].
    rewrite IH by (intros; apply Hfs; now right). fold (isPar a c fs d). unfold priorityFace. pose proof (adj_irr c f Hc (Hfs f (or_introl eq_refl))) as I.
    destruct (give r a c f) eqn:Eg; cbn [andb orb]; [|reflexivity]. destruct (rm_adjCell (M r) c f) as [c'|] eqn:Ec; cbn [orb]; [|reflexivity].
    assert (Ncc : c <> c') by congruence. rewrite (fupd2_other p a c' _ a c) by congruence.
    destruct (Nat.eqb_spec b a) as [->|Nb]; cbn [andb].
    - destruct (Nat.eqb_spec c' d) as [->|Nd]; cbn [orb].
      + rewrite fupd2_same. destruct (isPar a c fs d); [lia|reflexivity].
      + rewrite fupd2_other by congruence. reflexivity.
    - rewrite fupd2_other by congruence. reflexivity.
  Qed.
  Lemma isPar_iff a c d : c < nC -> a < nAng -> isPar a c (seq 0 4) d = true <-> flows over mate (ang a) (r, d) (r, c).
  Proof.
    intros Hc Ha. unfold isPar. rewrite existsb_exists. split.
    - intros (f & If & H). apply in_seq in If. apply andb_true_iff in H as (Hg & H). rewrite (so_cell _ _ _ _ OK) in H by (auto; lia). destruct (mate (r, c, f)) as [[[q c'] f']|] eqn:Em; [|easy].
      destruct (Nat.eqb_spec q r) as [->|]; [|easy]. apply Nat.eqb_eq in H. subst c'. exists f', f. cbn [fst snd]. pose proof (so_sym _ _ _ _ OK _ _ Em) as Em'. split; [exact Em'|].
      rewrite (Hgn _ _ _ _ _ _ _ Em Ha) in Hg. now rewrite (child_over nRanks M angles over mate OK _ _ _ _ _ _ _ Em') in Hg.
    - intros (f' & f & Em' & Ho). cbn [fst snd] in *. pose proof (so_sym _ _ _ _ OK _ _ Em') as Em. destruct (mrange _ _ _ OK _ _ _ _ _ _ Em) as ((_ & _ & Hf) & _). exists f. split; [apply in_seq; lia|].
      rewrite (Hgn _ _ _ _ _ _ _ Em Ha), (child_over nRanks M angles over mate OK _ _ _ _ _ _ _ Em'), Ho, (so_cell _ _ _ _ OK), Em, !Nat.eqb_refl by auto. reflexivity.
  Qed.
  (** The table after the pairs [dl]. *)
  Record PV (dl : list (nat * nat)) (p : nat -> nat -> N) : Prop := {
    pv_out : forall a c f x, a < nAng -> leaves over mate r (ang a) c f x -> (value a c f <= p a c)%N;
    pv_in : forall a c c', a < nAng -> flows over mate (ang a) (r, c) (r, c') -> In (c', a) dl -> (w64 (p a c' + ps) <= p a c)%N;
    pv_least : forall a c, a < nAng -> c < nC -> p a c = 0%N \/ (exists f x, leaves over mate r (ang a) c f x /\ p a c = value a c f) \/
      exists c', flows over mate (ang a) (r, c) (r, c') /\ In (c', a) dl /\ p a c = w64 (p a c' + ps)
  }.
  Lemma closed_up dl a c c' : a < nAng -> closed r dl others dl -> In (c, a) dl -> flows over mate (ang a) (r, c) (r, c') -> In (c', a) dl.
  Proof.
    intros Ha C I (f & f' & Em & Ho). cbn [fst snd] in *. destruct (mrange _ _ _ OK _ _ _ _ _ _ Em) as ((_ & _ & Hf) & _). destruct (C _ I) as (_ & K). specialize (K f Hf). cbn [fst snd] in K. unfold ScheduleProofs.unsat in K.
    rewrite (child_over nRanks M angles over mate OK _ _ _ _ _ _ _ Em), Ho in K. cbn [andb] in K. apply negb_false_iff in K. unfold ScheduleProofs.satF in K. rewrite Em, Nat.eqb_refl in K. now apply mem2_In.
  Qed.
  Lemma one_PV dl p a c : closed r dl others dl -> vld r (c, a) -> ~ In (c, a) dl -> PV dl p -> PV (dl ++ [(c, a)]) (fold_left (priorityFace M angles over under ps r c a) (seq 0 4) p).
  Proof.
    intros C [Hc Ha] Nin [P1 P2 P3]. cbn [fst snd] in *.
    set (p1 := fold_left _ _ _). assert (E : forall b d, p1 b d = if (b =? a) && isPar a c (seq 0 4) d then N.max (p b d) (w64 (p a c + ps)) else p b d). { apply priorityFaces; auto. intros f If. apply in_seq in If. lia. }
    clearbody p1. assert (Irr : ~ flows over mate (ang a) (r, c) (r, c)). { intros (f & f' & Em & _). exact (so_irr _ _ _ _ OK _ _ _ _ Em). }
    assert (Q : forall b d, In (d, b) (dl ++ [(c, a)]) -> p1 b d = p b d).
    { intros b d I. rewrite E. destruct (Nat.eqb_spec b a) as [->|]; [|reflexivity]. cbn [andb]. destruct (isPar a c (seq 0 4) d) eqn:Ep; [|reflexivity]. exfalso. apply isPar_iff in Ep; auto. apply in_app_or in I as [I|[I|[]]].
      - apply Nin. eapply closed_up; eauto.
      - injection I as ->. auto. }
    assert (Up : forall b d, (p b d <= p1 b d)%N) by (intros b d; rewrite E; destruct ((b =? a) && isPar a c (seq 0 4) d); lia).
    constructor.
    - intros b d f x Hb L. eapply N.le_trans; [eapply P1; eauto|apply Up].
    - intros b d d' Hb F I. rewrite (Q b d' I). apply in_app_or in I as [I|[I|[]]]; [eapply N.le_trans; [eapply P2; eauto|apply Up]|]. injection I as <- <-. rewrite E, Nat.eqb_refl, (proj2 (isPar_iff a c d Hc Ha) F). cbn [andb]. lia.
    - intros b d Hb Hd.
      assert (Old : p1 b d = p b d -> p1 b d = 0%N \/ (exists f x, leaves over mate r (ang b) d f x /\ p1 b d = value b d f) \/ exists c', flows over mate (ang b) (r, d) (r, c') /\ In (c', b) (dl ++ [(c, a)]) /\ p1 b d = w64 (p1 b c' + ps)).
      { intros Eo. rewrite Eo. destruct (P3 b d Hb Hd) as [K|[K|(c' & F & I & K)]]; [auto|auto|]. right. right. exists c'. assert (I' : In (c', b) (dl ++ [(c, a)])) by (apply in_or_app; auto). rewrite (Q b c' I'). auto. }
      specialize (E b d). destruct (Nat.eqb_spec b a) as [->|]; [|now apply Old]. cbn [andb] in E. destruct (isPar a c (seq 0 4) d) eqn:Ep; [|now apply Old].
      destruct (N.max_spec (p a d) (w64 (p a c + ps))) as [(_ & Em)|(_ & Em)]; rewrite Em in E; [|now apply Old]. right. right. exists c. apply isPar_iff in Ep; auto. split; [exact Ep|].
      assert (I' : In (c, a) (dl ++ [(c, a)])) by (apply in_or_app; right; now left). split; [exact I'|]. now rewrite (Q a c I').
  Qed.
  Lemma update_PV dl : closed r dl others dl -> forall w p, in_turn r dl others (wvld r w) -> PV dl p -> PV (dl ++ wvld r w) (updatePriorities M angles over under ps r w p).
  Proof.
    intros C w p. induction w as [|u w IH] using rev_ind; intros HT HV.
    - cbn. rewrite app_nil_r. auto.
    - unfold updatePriorities. rewrite fold_left_app. cbn [fold_left]. unfold ScheduleProofs.wvld in *. rewrite map_app in *. cbn [map] in *. set (c := fst u) in *. set (a := glAngle angles (snd u)) in *.
      assert (HT' : in_turn r dl others (map (fun u => (fst u, glAngle angles (snd u))) w)). { intros w1 y w2 E. apply (HT w1 y (w2 ++ [(c, a)])). now rewrite E, <- app_assoc. }
      specialize (IH HT' HV). destruct (HT _ (c, a) [] eq_refl) as (V & Nin & U). rewrite app_assoc. apply one_PV; auto. now apply in_turn_closed.
  Qed.
  Lemma boundary_PV : PV [] (boundaryPriority M angles over lev sc sh r).
  Proof.
    assert (K : forall a c fs z, let v := fold_left (fun p f => if acrossBoundary M angles over r a c f then N.max p (value a c f) else p) fs z in
      (z <= v)%N /\ (forall f, In f fs -> acrossBoundary M angles over r a c f = true -> (value a c f <= v)%N) /\ (v = z \/ exists f, In f fs /\ acrossBoundary M angles over r a c f = true /\ v = value a c f)).
    { intros a c. induction fs as [|f fs IH]; intros z; cbn [fold_left]; [split; [lia|]; split; [intros f []|auto]|].
      specialize (IH (if acrossBoundary M angles over r a c f then N.max z (value a c f) else z)). cbv zeta in IH. set (v := fold_left _ _ _) in *. clearbody v. destruct IH as (I1 & I2 & I3). destruct (acrossBoundary M angles over r a c f) eqn:Ea.
      - split; [lia|]. split; [intros h [<-|I] Eh; [lia|now apply I2]|]. destruct I3 as [->|(h & Ih & Eh & Ev)]; [|right; exists h; split; [now right|auto]]. destruct (N.max_spec z (value a c f)) as [(_ & ->)|(_ & ->)]; [right; exists f; split; [now left|auto]|auto].
      - split; [lia|]. split; [intros h [<-|I] Eh; [congruence|now apply I2]|]. destruct I3 as [->|(h & Ih & Eh & Ev)]; [auto|right; exists h; split; [now right|auto]]. }
    constructor.
    - intros a c f x Ha L. destruct (leaves_range _ _ _ _ L) as (Hc & Hf). destruct (K a c (seq 0 4) 0%N) as (_ & K2 & _). apply K2; [apply in_seq; lia|]. apply across_iff; eauto.
    - intros a c c' _ _ [].
    - intros a c Ha Hc. destruct (K a c (seq 0 4) 0%N) as (_ & _ & [E|(f & If & Ea & E)]); [left; exact E|]. right. left. apply in_seq in If. apply across_iff in Ea as (x & L); [|auto|lia]. exists f, x. split; [exact L|exact E].
  Qed.

  (** ** The loop *)
  Hypothesis Hsize : (N.of_nat nAng * N.of_nat nC < two64)%N.
  Lemma dl_all dl : closed r dl others dl -> NoDup dl -> length dl <= nC * nAng.
  Proof.
    intros C D. rewrite <- (seq_length nC 0), <- (seq_length nAng 0), <- prod_length. apply NoDup_incl_length; auto.
    intros [c a] Hx. destruct (C _ Hx) as [[V1 V2] _]. cbn in *. apply in_prod_iff. split; apply in_seq; lia.
  Qed.
  Lemma dl_full dl x : closed r dl others dl -> NoDup dl -> length dl = nC * nAng -> vld r x -> In x dl.
  Proof.
    intros C D E [V1 V2]. destruct x as [c a]. cbn [fst snd] in *. apply (NoDup_length_incl D (l' := list_prod (seq 0 nC) (seq 0 nAng))).
    - rewrite prod_length, !seq_length. lia.
    - intros [d b] Hx. destruct (C _ Hx) as [[W1 W2] _]. cbn in *. apply in_prod_iff. split; apply in_seq; lia.
    - apply in_prod_iff. split; apply in_seq; lia.
  Qed.
  Lemma topo_step dl s s' w : closed r dl others dl -> LI r (satF r dl others) dl s -> topo M angles give (fun _ _ _ => 0%N) mx r s [] s' w ->
    LI r (satF r (dl ++ wvld r w) others) (dl ++ wvld r w) s' /\ in_turn r dl others (wvld r w) /\ (snd s' = [] \/ (limit mx <= N.of_nat (length w))%N).
  Proof.
    intros C L T. destruct (topo_ok nRanks M angles mate need give OK ND Hgn HA HB (fun _ _ _ => 0%N) mx r dl others _ _ _ _ Hr T) as (K1 & K2 & _ & K4 & _); auto.
    - cbn. rewrite app_nil_r. auto.
    - intros w1 x w2 E. cbn in E. destruct w1; discriminate.
    - intros u [].
  Qed.
  Lemma loop_PV s n p p' : npLoop M angles over under ps mx r s n p p' -> forall dl, closed r dl others dl -> NoDup dl -> n = N.of_nat (length dl) -> LI r (satF r dl others) dl s -> PV dl p ->
    exists dl', (forall x, vld r x -> In x dl') /\ PV dl' p'.
  Proof.
    induction 1 as [s n p E|s n p s' w p' E HT H IH]; intros dl C D En L V.
    - exists dl. split; [|exact V]. intros x Hx. apply dl_full; auto. rewrite En, w64_small in E by exact Hsize. lia.
    - destruct (topo_step dl s s' w C L HT) as (L' & T & _). pose proof (in_turn_closed M angles mate need r dl others _ T C) as C'. pose proof (in_turn_nodup M angles mate need r dl others _ D T) as D'.
      pose proof (dl_all _ C' D') as B. apply (IH (dl ++ wvld r w)); auto; [|now apply update_PV].
      rewrite app_length in *. unfold ScheduleProofs.wvld in *. rewrite map_length in *. rewrite En, w64_small; [lia|]. lia.
  Qed.
  Lemma seek_final p' : neighborPriorities M angles over under lev sc sh ps mx r p' -> forall a, a < nAng -> seeking over mate r (ang a) nC (value a) (fun x => w64 (x + ps)) (p' a).
  Proof.
    intros H a Ha. destruct (loop_PV _ _ _ _ H []) as (dl & F & [P1 P2 P3]); [intros x []|constructor|reflexivity|apply init_LI|apply boundary_PV|].
    constructor.
    - intros c f x L. eapply P1; eauto.
    - intros c c' Fl. apply P2; auto. apply F. destruct Fl as (f & f' & Em & _). cbn [fst snd] in Em. apply (mrange _ _ _ OK) in Em. split; cbn; tauto.
    - intros c Hc. destruct (P3 a c Ha Hc) as [K|[K|(c' & Fl & _ & K)]]; eauto.
  Qed.
  (** It ends without cyclic dependencies. *)
  Lemma loop_total : no_cycle over mate angles -> (0 < limit mx)%N -> forall k dl s p, nC * nAng - length dl <= k -> closed r dl others dl -> NoDup dl -> LI r (satF r dl others) dl s ->
    exists p', npLoop M angles over under ps mx r s (N.of_nat (length dl)) p p'.
  Proof.
    intros AC Hl. destruct (acyc_down nRanks M angles over mate OK AC) as [lvl Hlvl].
    assert (FULL : forall dl s, closed r dl others dl -> NoDup dl -> LI r (satF r dl others) dl s -> snd s = [] -> forall n c a, lvl r c a < n -> vld r (c, a) -> In (c, a) dl).
    { intros dl s C D [_ _ Q] Es. induction n; intros c a Hn V; [lia|]. destruct (mem2 (c, a) dl) eqn:Em; [now apply mem2_In|]. assert (Nin : ~ In (c, a) dl) by (rewrite <- mem2_In; congruence).
      specialize (Q (c, a)). rewrite Es in Q. exfalso. apply Q. split; auto. split; auto. intros f Hf. cbn [fst snd]. unfold ScheduleProofs.unsat. destruct (need r a c f) eqn:En; auto. cbn. apply negb_false_iff. unfold ScheduleProofs.satF.
      destruct V as [V1 V2]; cbn in V1, V2. destruct (adjRank_mate nRanks M mate OK r c f Hr V1 Hf) as (q & c' & f' & E); [eapply HA; eauto|]. rewrite E. destruct (mrange _ _ _ OK _ _ _ _ _ _ E) as (_ & (Hq & Hc' & _)).
      destruct (Nat.eqb_spec q r) as [->|]; apply mem2_In.
      - apply IHn; [pose proof (Hlvl _ _ _ _ _ _ _ V2 En E); lia|split; auto].
      - apply in_prod_iff. split; apply in_seq; lia. }
    induction k; intros dl s p Hk C D L; pose proof (dl_all dl C D) as B.
    - exists p. apply np_done. rewrite w64_small by exact Hsize. lia.
    - destruct (N.eq_dec (N.of_nat (length dl)) (w64 (N.of_nat nAng * N.of_nat nC))) as [E|E]; [exists p; now apply np_done|].
      destruct (topo_total M angles mate need give Hgn HA HB (X:=unit) (D:=unit) (fun _ _ _ _ => tt) (fun _ x _ _ _ => x) (fun _ _ _ => 0%N) mx (fun _ x _ => x) r Hl (N.to_nat (limit mx)) s []) as (s' & w & T); [cbn; lia|]. destruct (topo_step dl s s' w C L T) as (L' & IT & St).
      pose proof (in_turn_closed M angles mate need r dl others _ IT C) as C'. pose proof (in_turn_nodup M angles mate need r dl others _ D IT) as D'. pose proof (dl_all _ C' D') as B'.
      assert (Len : length (dl ++ wvld r w) = length dl + length w) by (unfold ScheduleProofs.wvld; now rewrite app_length, map_length).
      assert (W : 0 < length w).
      { destruct w as [|u w]; [|cbn; lia]. exfalso. destruct St as [St|St]; [|cbn in St; lia]. cbn in L', C', D'. rewrite app_nil_r in *. apply E. rewrite w64_small by exact Hsize.
        assert (I : incl (list_prod (seq 0 nC) (seq 0 nAng)) dl). { intros [c a] I. apply in_prod_iff in I as (I1 & I2). apply in_seq in I1, I2. apply (FULL dl s' C D L' St (S (lvl r c a))); [lia|split; cbn; lia]. }
        apply NoDup_incl_length in I; [|apply NoDup_list_prod; apply seq_NoDup]. rewrite prod_length, !seq_length in I. lia. }
      destruct (IHk (dl ++ wvld r w) s' (updatePriorities M angles over under ps r w p)) as (p' & H); auto; [lia|]. exists p'. eapply np_step; [exact E|exact T|]. rewrite w64_small by lia. rewrite Len in H. replace (N.of_nat (length dl) + N.of_nat (length w))%N with (N.of_nat (length dl + length w)) by lia. exact H.
  Qed.
End Seek.
