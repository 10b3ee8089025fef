(** calcLevels computes longest downwind distances in the whole graph. *)
From Coq Require Import Permutation.
From Verif Require Import Prelude MeshModel TraverseModel TraverseSpec TraverseInv TraverseProofs ScheduleModel ScheduleSpec ScheduleProofs.

Section Dep.
  Variables (nRanks : nat) (M : nat -> rmesh) (angles : list nat) (over under : nat -> nat -> nat -> nat -> bool) (mate : site -> option site).
  Hypothesis OK : sys_ok nRanks 0 M mate.
  Hypothesis SY : in_sync angles over under mate.
  Notation nAng := (nAng angles). Notation ang a := (nth a angles 0).
  Lemma ang_In a : a < nAng -> In (ang a) angles.
  Proof. intros. apply nth_In. auto. Qed.
  Lemma mate_adj r c f q c' f' : mate (r, c, f) = Some (q, c', f') -> rm_adjRank (M r) c f = Some q.
  Proof. intros H. destruct (so_range _ _ _ _ OK _ _ _ _ H) as (H1 & H2 & H3). now rewrite (so_rank _ _ _ _ OK), H. Qed.
  Lemma child_over r c f q c' f' a : mate (r, c, f) = Some (q, c', f') -> hasChild M angles over r a c f = over r (ang a) c f.
  Proof. intros H. unfold hasChild. rewrite (mate_adj _ _ _ _ _ _ H). apply andb_true_r. Qed.
  Lemma dep_sync r c f q c' f' a : mate (r, c, f) = Some (q, c', f') -> a < nAng -> hasChild M angles over r a c f = hasParent M angles over under q a c' f'.
  Proof.
    intros H Ha. rewrite (child_over _ _ _ _ _ _ _ H). pose proof (so_sym _ _ _ _ OK _ _ H) as H'. unfold hasParent. rewrite (mate_adj _ _ _ _ _ _ H'). cbn [isSome]. rewrite andb_true_r.
    destruct (SY _ _ _ _ _ _ _ (ang_In a Ha) H) as [E1 E2]. destruct (SY _ _ _ _ _ _ _ (ang_In a Ha) H') as [E3 E4]. rewrite E1, <- E3.
    destruct (over r (ang a) c f), (under r (ang a) c f); cbn in *; congruence.
  Qed.
  Lemma dep_sync' r c f q c' f' a : mate (r, c, f) = Some (q, c', f') -> a < nAng -> hasParent M angles over under r a c f = hasChild M angles over q a c' f'.
  Proof. intros H Ha. symmetry. apply dep_sync; auto. now apply (so_sym _ _ _ _ OK). Qed.
  Lemma child_adj r c f a : hasChild M angles over r a c f = true -> rm_adjRank (M r) c f <> None.
  Proof. unfold hasChild. intros H. apply andb_true_iff in H. destruct H as [_ H]. destruct (rm_adjRank (M r) c f); easy. Qed.
  Lemma parent_adj r c f a : hasParent M angles over under r a c f = true -> rm_adjRank (M r) c f <> None.
  Proof. unfold hasParent. intros H. apply andb_true_iff in H. destruct H as [_ H]. destruct (rm_adjRank (M r) c f); easy. Qed.
  Lemma child_flows r c f q c' f' a : mate (r, c, f) = Some (q, c', f') -> hasChild M angles over r a c f = true -> flows over mate (ang a) (r, c) (q, c').
  Proof. intros H K. rewrite (child_over _ _ _ _ _ _ _ H) in K. exists f, f'. auto. Qed.
  Lemma flows_child a y x : flows over mate (ang a) y x -> exists f f', mate (fst y, snd y, f) = Some (fst x, snd x, f') /\ hasChild M angles over (fst y) a (snd y) f = true.
  Proof. intros (f & f' & H & K). exists f, f'. split; auto. now rewrite (child_over _ _ _ _ _ _ _ H). Qed.
  Lemma acyc_up : no_cycle over mate angles -> acyc angles mate (hasParent M angles over under).
  Proof.
    intros [lvl Hl]. exists (fun r c a => lvl (ang a) (r, c)). intros r c f a q c' f' Ha Hn Hm. apply Hl; [now apply ang_In|].
    eapply child_flows; [apply (so_sym _ _ _ _ OK); exact Hm|]. rewrite <- (dep_sync' _ _ _ _ _ _ _ Hm); auto.
  Qed.
  Lemma acyc_down : no_cycle over mate angles -> acyc angles mate (hasChild M angles over).
  Proof.
    intros [lvl Hl].
    set (all := flat_map (fun r => map (fun c => (r, c)) (seq 0 (rm_nCells (M r)))) (seq 0 nRanks)).
    set (B := fun g => list_max (map (lvl g) all)).
    assert (HB : forall g r c, r < nRanks -> c < rm_nCells (M r) -> lvl g (r, c) <= B g).
    { intros g r c Hr Hc. pose proof (proj1 (list_max_le (map (lvl g) all) (B g)) (le_n _)) as F. rewrite Forall_forall in F. apply F. apply in_map.
      apply in_flat_map. exists r. split; [apply in_seq; lia|]. apply in_map. apply in_seq; lia. }
    exists (fun r c a => B (ang a) - lvl (ang a) (r, c)). intros r c f a q c' f' Ha Hn Hm.
    pose proof (Hl (ang a) (r, c) (q, c') (ang_In a Ha) (child_flows _ _ _ _ _ _ _ Hm Hn)).
    destruct (mrange _ _ _ OK _ _ _ _ _ _ Hm) as ((H1 & H2 & _) & (H3 & H4 & _)). pose proof (HB (ang a) q c' H3 H4). lia.
  Qed.
End Dep.

Section Levels.
  Variables (nRanks : nat) (M : nat -> rmesh) (angles : list nat) (over under : nat -> nat -> nat -> nat -> bool) (mate : site -> option site).
  Hypothesis OK : sys_ok nRanks 0 M mate.
  Hypothesis ND : NoDup angles.
  Hypothesis SY : in_sync angles over under mate.
  Notation nAng := (nAng angles). Notation ang a := (nth a angles 0).
  Notation need := (hasChild M angles over). Notation give := (hasParent M angles over under).
  Variable lvl : nat -> nat -> nat -> nat.
  Hypothesis Hlvl : forall r c f a q c' f', a < nAng -> need r a c f = true -> mate (r, c, f) = Some (q, c', f') -> lvl q c' a < lvl r c a.
  Let Hgn := dep_sync' nRanks M angles over under mate OK SY.
  Let HA : forall r c f a, need r a c f = true -> _ := child_adj M angles over.
  Let HB : forall r c f a, give r a c f = true -> _ := parent_adj M angles over under.
  Let LEI := localEdges_In M angles mate need give Hgn HA HB.
  Let REI := remoteEdges_In M angles mate need give Hgn HA HB.
  Let AEI := allEdges_In nRanks M angles mate need give OK Hgn HA HB.
  Notation vld := (vld M angles). Notation satF := (satF mate).

  (** The recursion of longest distances. *)
  Fixpoint depth (n r a c : nat) : nat :=
    match n with
    | 0 => 0
    | S n => list_max (map (fun f => if need r a c f then match mate (r, c, f) with Some (q, c', _) => S (depth n q a c') | None => 0 end else 0) (seq 0 4))
    end.
  Lemma depth_stable : forall n m r a c, a < nAng -> lvl r c a < n -> lvl r c a < m -> depth n r a c = depth m r a c.
  Proof.
    induction n; intros m r a c Ha Hn Hm; [lia|]. destruct m; [lia|]. cbn [depth]. f_equal. apply map_ext_in. intros f _.
    destruct (need r a c f) eqn:E; auto. destruct (mate (r, c, f)) as [[[q c'] f']|] eqn:Em; auto. f_equal. pose proof (Hlvl _ _ _ _ _ _ _ Ha E Em). apply IHn; lia.
  Qed.
  Definition LV (r a c : nat) : nat := depth (S (lvl r c a)) r a c.
  Definition LM (r c f a : nat) : nat := match mate (r, c, f) with Some (q, c', _) => LV q a c' | None => 0 end.
  Definition part (r : nat) (sat : edge -> bool) (a c : nat) : nat :=
    list_max (map (fun f => if need r a c f && sat (c, f, a) then S (LM r c f a) else 0) (seq 0 4)).
  Lemma need_mate r c f a : r < nRanks -> c < rm_nCells (M r) -> f < 4 -> need r a c f = true -> exists q c' f', mate (r, c, f) = Some (q, c', f').
  Proof. intros. eapply adjRank_mate; eauto. Qed.
  Lemma LV_part r a c : r < nRanks -> c < rm_nCells (M r) -> a < nAng -> LV r a c = part r (fun _ => true) a c.
  Proof.
    intros Hr Hc Ha. unfold LV, part. cbn [depth]. f_equal. apply map_ext_in. intros f Hf. apply in_seq in Hf. rewrite andb_true_r.
    destruct (need r a c f) eqn:E; auto. destruct (need_mate r c f a) as (q & c' & f' & Em); auto; [lia|]. unfold LM. rewrite Em. f_equal.
    pose proof (Hlvl _ _ _ _ _ _ _ Ha E Em). unfold LV. apply depth_stable; auto; lia.
  Qed.
  Lemma part_full r sat a c : r < nRanks -> c < rm_nCells (M r) -> a < nAng -> (forall f, f < 4 -> unsat need r sat c a f = false) -> part r sat a c = LV r a c.
  Proof.
    intros Hr Hc Ha H. rewrite LV_part by auto. unfold part. f_equal. apply map_ext_in. intros f Hf. apply in_seq in Hf. specialize (H f ltac:(lia)).
    unfold unsat in H. destruct (need r a c f); auto. cbn in *. now destruct (sat (c, f, a)).
  Qed.
  (** It is the longest path. *)
  Lemma LV_path : forall n r a c, lvl r c a < n -> r < nRanks -> c < rm_nCells (M r) -> a < nAng -> downwind over mate (ang a) (r, c) (LV r a c).
  Proof.
    induction n; intros r a c Hn Hr Hc Ha; [lia|]. rewrite LV_part by auto. unfold part.
    set (F := fun f => if need r a c f && true then S (LM r c f a) else 0).
    assert (K : forall fs, (forall f, In f fs -> f < 4) -> downwind over mate (ang a) (r, c) (list_max (map F fs))).
    { induction fs as [|f fs IH]; intros Hfs; [constructor|]. cbn [map]. change (list_max (F f :: map F fs)) with (Nat.max (F f) (list_max (map F fs))).
      destruct (Nat.max_spec (F f) (list_max (map F fs))) as [[_ ->]|[_ ->]]; [apply IH; intros; apply Hfs; now right|].
      unfold F. destruct (need r a c f) eqn:E; cbn; [|constructor]. destruct (need_mate r c f a) as (q & c' & f' & Em); auto; [apply Hfs; now left|].
      unfold LM. rewrite Em. destruct (mrange _ _ _ OK _ _ _ _ _ _ Em) as (_ & (Hq & Hc' & _)). apply (dw_step over mate (ang a) (r, c) (q, c')).
      - eapply child_flows; eauto.
      - pose proof (Hlvl _ _ _ _ _ _ _ Ha E Em). apply IHn; auto; lia. }
    apply K. intros f Hf. apply in_seq in Hf. lia.
  Qed.
  Lemma LV_max r a c m : r < nRanks -> c < rm_nCells (M r) -> a < nAng -> downwind over mate (ang a) (r, c) m -> m <= LV r a c.
  Proof.
    intros Hr Hc Ha H. remember (r, c) as x. revert r c Heqx Hr Hc. induction H as [x|x y m Hfl Hd IH]; intros r c -> Hr Hc; [lia|].
    destruct (flows_child _ _ angles _ _ OK _ _ _ Hfl) as (f & f' & Em & Hn). cbn [fst snd] in *. destruct y as [q c']. cbn [fst snd] in *.
    destruct (mrange _ _ _ OK _ _ _ _ _ _ Em) as ((_ & _ & Hf) & (Hq & Hc' & _)). specialize (IH q c' eq_refl Hq Hc').
    rewrite LV_part by auto. unfold part.
    set (F := fun f => if need r a c f && true then S (LM r c f a) else 0).
    assert (E : F f = S (LV q a c')) by (unfold F, LM; rewrite Hn, Em; reflexivity).
    pose proof (proj1 (list_max_le (map F (seq 0 4)) _) (le_n _)) as K. rewrite Forall_forall in K. specialize (K (F f)). rewrite in_map_iff in K.
    assert (F f <= list_max (map F (seq 0 4))) by (apply K; exists f; split; auto; apply in_seq; lia). lia.
  Qed.
  Lemma LV_longest r a c : r < nRanks -> c < rm_nCells (M r) -> a < nAng -> longest_downwind over mate (ang a) (r, c) (LV r a c).
  Proof. intros. split; [eapply LV_path; eauto|]. intros. apply LV_max; auto. Qed.

  (** ** The tables *)
  Definition VI (r : nat) (sat : edge -> bool) (lev : nat -> nat -> nat) : Prop :=
    forall c a, c < rm_nCells (M r) -> a < nAng -> lev a c = part r sat a c.
  Lemma VI_ext r sat sat' lev : (forall c f a, c < rm_nCells (M r) -> a < nAng -> f < 4 -> need r a c f = true -> sat (c, f, a) = sat' (c, f, a)) -> VI r sat lev -> VI r sat' lev.
  Proof.
    intros E H c a Hc Ha. rewrite H by auto. unfold part. f_equal. apply map_ext_in. intros f Hf. apply in_seq in Hf. destruct (need r a c f) eqn:En; auto. now rewrite E by (auto; lia).
  Qed.
  Definition raise (r : nat) (lev : nat -> nat -> nat) (e : edge) : nat -> nat -> nat :=
    let '(c, f, a) := e in fupd2 lev a c (Nat.max (lev a c) (LM r c f a + 1)).
  Lemma raise_edge r sat lev c f a : VI r sat lev -> f < 4 -> need r a c f = true -> VI r (fun e => sat e || eqe e (c, f, a)) (raise r lev (c, f, a)).
  Proof.
    intros H Hf Hn d b Hd Hb. unfold raise. destruct (Nat.eq_dec d c) as [->|Ne]; [destruct (Nat.eq_dec b a) as [->|Ne]|].
    - rewrite fupd2_same, H by auto. unfold part.
      assert (X : forall g, eqe (c, g, a) (c, f, a) = (g =? f)).
      { intros g. destruct (eqe_spec (c, g, a) (c, f, a)) as [e|e], (Nat.eqb_spec g f); congruence. }
      replace (map (fun g => if need r a c g && (sat (c, g, a) || eqe (c, g, a) (c, f, a)) then S (LM r c g a) else 0) (seq 0 4))
        with (map (fun g => if g =? f then S (LM r c f a) else if need r a c g && sat (c, g, a) then S (LM r c g a) else 0) (seq 0 4)).
      2:{ apply map_ext. intros g. rewrite X. destruct (Nat.eqb_spec g f) as [->|]; [now rewrite Hn, orb_true_r|]. now rewrite orb_false_r. }
      set (F := fun g => if need r a c g && sat (c, g, a) then S (LM r c g a) else 0).
      assert (Ff : F f = 0 \/ F f = S (LM r c f a)) by (unfold F; destruct (need r a c f && sat (c, f, a)); auto).
      change (fun g => if g =? f then S (LM r c f a) else if need r a c g && sat (c, g, a) then S (LM r c g a) else 0) with (fun g => if g =? f then S (LM r c f a) else F g).
      generalize dependent (LM r c f a). generalize F. clear -Hf. intros F z Ff.
      destruct f as [|[|[|[|]]]]; [..|lia]; cbn [seq map list_max fold_right Nat.eqb]; lia.
    - rewrite fupd2_other by congruence. rewrite H by auto. unfold part. f_equal. apply map_ext. intros g. destruct (eqe_spec (c, g, b) (c, f, a)); [congruence|]. now rewrite orb_false_r.
    - rewrite fupd2_other by congruence. rewrite H by auto. unfold part. f_equal. apply map_ext. intros g. destruct (eqe_spec (d, g, b) (c, f, a)); [congruence|]. now rewrite orb_false_r.
  Qed.
  Lemma raise_edges r E : forall sat lev, VI r sat lev -> (forall c f a, In (c, f, a) E -> f < 4 /\ need r a c f = true) -> VI r (fun e => sat e || memE e E) (fold_left (raise r) E lev).
  Proof.
    induction E as [|[[c f] a] E IH]; intros sat lev H HE; cbn [fold_left].
    - eapply VI_ext; [|exact H]. intros; cbn [memE existsb]. now rewrite orb_false_r.
    - destruct (HE c f a (or_introl eq_refl)). eapply VI_ext; [|apply (IH (fun e => sat e || eqe e (c, f, a)))].
      + intros. cbn [memE existsb]. now rewrite orb_assoc.
      + apply raise_edge; auto.
      + intros; apply HE; now right.
  Qed.
  (** updateLevels is raising along the local edges. *)
  Lemma levelFaces r c a lev0 : r < nRanks -> c < rm_nCells (M r) -> a < nAng -> lev0 a c = LV r a c -> forall fs lev, (forall f, In f fs -> f < 4) -> lev a c = lev0 a c ->
    fold_left (levelFace M angles over under r c a) fs lev =
    fold_left (raise r) (flat_map (fun f => if give r a c f then match mate (r, c, f) with Some (q, c', f') => if q =? r then [(c', f', a)] else [] | None => [] end else []) fs) lev.
  Proof.
    intros Hr Hc Ha H0. induction fs as [|f fs IH]; intros lev Hfs El; cbn [fold_left flat_map]; auto. rewrite fold_left_app.
    unfold levelFace at 2. destruct (give r a c f) eqn:Eg; [|cbn [fold_left]; apply IH; auto; intros; apply Hfs; now right].
    rewrite (so_cell _ _ _ _ OK) by (auto; apply Hfs; now left). destruct (mate (r, c, f)) as [[[q c'] f']|] eqn:Em; [|cbn [fold_left]; apply IH; auto; intros; apply Hfs; now right].
    destruct (Nat.eqb_spec q r) as [->|]; [|cbn [fold_left]; apply IH; auto; intros; apply Hfs; now right].
    assert (Ncc : c' <> c) by (intros ->; exact (so_irr _ _ _ _ OK _ _ _ _ Em)).
    cbn [fold_left]. unfold raise at 2. unfold LM. rewrite (so_sym _ _ _ _ OK _ _ Em), <- H0, <- El. apply IH; [intros; apply Hfs; now right|].
    rewrite fupd2_other by congruence. auto.
  Qed.
  Lemma update_VI r dl dr : r < nRanks -> forall w lev, in_turn M angles mate need r dl dr (wvld angles r w) ->
    VI r (satF r dl dr) lev -> VI r (satF r (dl ++ wvld angles r w) dr) (fst (updateLevels M angles over under r (lev, fun _ _ => 0) w)).
  Proof.
    intros Hr w lev. cbn [updateLevels fst]. revert lev. induction w as [|u w IH] using rev_ind; intros lev HT HV.
    - cbn. rewrite app_nil_r. auto.
    - rewrite fold_left_app. cbn [fold_left]. unfold wvld in *. rewrite map_app in *. cbn [map] in *. set (c := fst u) in *. set (a := glAngle angles (snd u)) in *.
      assert (HT' : in_turn M angles mate need r dl dr (map (fun u => (fst u, glAngle angles (snd u))) w)).
      { intros w1 y w2 E. apply (HT w1 y (w2 ++ [(c, a)])). now rewrite E, <- app_assoc. }
      specialize (IH lev HT' HV). set (lev1 := fold_left _ w lev) in *. set (dw := map _ w) in *. destruct (HT dw (c, a) [] eq_refl) as ([Vc Va] & Nin & U). cbn [fst snd] in *.
      assert (E0 : lev1 a c = LV r a c) by (rewrite IH by auto; apply part_full; auto).
      rewrite (levelFaces r c a lev1) by (auto; intros f Hf; apply in_seq in Hf; lia). fold (localEdges mate give r c a). rewrite app_assoc.
      eapply VI_ext; [|apply raise_edges; [exact IH|]].
      + intros d g b Hd Hb Hg Hn. unfold ScheduleProofs.satF. destruct (mate (r, d, g)) as [[[q c'] f']|] eqn:Em.
        * destruct (Nat.eqb_spec q r) as [->|Hq].
          -- rewrite (mem2_app _ (dl ++ dw) [(c, a)]). f_equal. unfold mem2, existsb. rewrite orb_false_r. unfold eq2; cbn [fst snd].
             apply eq_true_iff_eq. rewrite memE_In, LEI. rewrite andb_true_iff, !Nat.eqb_eq. split.
             ++ intros (f & Hf & Hgv & c2 & f2 & Hm & E). injection E as -> -> ->. apply (so_sym _ _ _ _ OK) in Hm. assert (E : (r, c', f') = (r, c, f)) by congruence. injection E as -> ->. auto.
             ++ intros (-> & ->). apply (so_sym _ _ _ _ OK) in Em. exists f'. pose proof (mrange _ _ _ OK _ _ _ _ _ _ Em) as ((_ & _ & Hf') & _). repeat split; auto.
                2: exists d, g; auto. rewrite (Hgn _ _ _ _ _ _ _ Em); auto.
          -- replace (memE (d, g, b) (localEdges mate give r c a)) with false; [now rewrite orb_false_r|]. symmetry. apply not_true_iff_false. rewrite memE_In, LEI. intros (f & Hf & Hgv & c2 & f2 & Hm & E).
             injection E as -> -> ->. apply (so_sym _ _ _ _ OK) in Hm. congruence.
        * cbn [orb]. apply not_true_iff_false. rewrite memE_In, LEI. intros (f & Hf & Hgv & c2 & f2 & Hm & E). injection E as -> -> ->. apply (so_sym _ _ _ _ OK) in Hm. congruence.
      + intros d g b Hin. apply LEI in Hin. destruct Hin as (f & Hf & Hgv & c2 & f2 & Hm & E). injection E as -> -> ->.
        destruct (mrange _ _ _ OK _ _ _ _ _ _ Hm) as (_ & (_ & _ & Hf2)). split; auto. rewrite <- (Hgn _ _ _ _ _ _ _ Hm); auto.
  Qed.
  (** ** The exchange of levels *)
  Definition SI (r : nat) (sat : edge -> bool) (sl : nat -> nat -> nat) : Prop :=
    forall c f a q c' f', a < nAng -> mate (r, c, f) = Some (q, c', f') -> q <> r -> need r a c f = true -> sat (c, f, a) = true -> sl a (rm_side (M r) c f) = LV q a c'.
  Notation acceptEdges := (acceptEdges M mate (fun _ (x : levels) a c => fst x a c) (acceptLevel M)).
  Notation acceptAll := (acceptAll nRanks M angles mate give (fun _ (x : levels) a c => fst x a c) (acceptLevel M)).
  Lemma accept_edges r p xp : forall E x sat, (forall c f a, In (c, f, a) E -> exists c' f', mate (r, c, f) = Some (p, c', f') /\ p <> r /\ a < nAng /\ need r a c f = true /\ fst xp a c' = LV p a c') ->
    SI r sat (snd x) -> fst (acceptEdges r p xp E x) = fold_left (raise r) E (fst x) /\ SI r (fun e => sat e || memE e E) (snd (acceptEdges r p xp E x)).
  Proof.
    unfold ScheduleProofs.acceptEdges. induction E as [|[[c f] a] E IH]; intros x sat HE HS; cbn [fold_left].
    - split; auto. intros c f a q c' f' Ha Hm Hq Hn Hs. cbn [memE existsb] in Hs. rewrite orb_false_r in Hs. eapply HS; eauto.
    - destruct (HE c f a (or_introl eq_refl)) as (c' & f' & Hm & Hp & Ha & Hn & Hx).
      destruct (so_side _ _ _ _ OK _ _ _ _ _ _ (so_sym _ _ _ _ OK _ _ Hm) (not_eq_sym Hp)) as [_ Hsc].
      cbn [edgeMsg]. rewrite Hm, Hx.
      destruct (IH (acceptLevel M r x a (rm_side (M r) c f) (LV p a c')) (fun e => sat e || eqe e (c, f, a))) as [I1 I2].
      + intros; apply HE; now right.
      + intros c1 f1 a1 q1 c1' f1' Ha1 Hm1 Hq1 Hn1 Hs1. cbn [acceptLevel snd].
        destruct (eqe_spec (c1, f1, a1) (c, f, a)) as [e|e].
        * injection e as -> -> ->. rewrite fupd2_same. congruence.
        * rewrite orb_false_r in Hs1. rewrite fupd2_other; [eapply HS; eauto|]. intros K. injection K as -> K.
          destruct (so_inj _ _ _ _ OK _ _ _ _ _ _ _ _ _ _ _ Hm1 Hq1 Hm Hp K) as [-> ->]. congruence.
      + split.
        * rewrite I1. f_equal. cbn [acceptLevel fst raise]. rewrite Hsc. unfold LM. now rewrite Hm.
        * intros c1 f1 a1 q1 c1' f1' Ha1 Hm1 Hq1 Hn1 Hs1. eapply I2; eauto. cbn [memE existsb] in Hs1. now rewrite <- orb_assoc.
  Qed.
  Lemma accept_all r xs w x sat : r < nRanks ->
    (forall p c f a c' f', In (c, a) (wvld angles p (w p)) -> give p a c f = true -> mate (p, c, f) = Some (r, c', f') -> p <> r -> a < nAng /\ fst (xs p) a c = LV p a c) ->
    SI r sat (snd x) -> fst (acceptAll r xs w x) = fold_left (raise r) (allEdges nRanks M angles mate give r w) (fst x) /\
    SI r (fun e => sat e || memE e (allEdges nRanks M angles mate give r w)) (snd (acceptAll r xs w x)).
  Proof.
    intros Hr HW. unfold ScheduleProofs.acceptAll, allEdges. revert x sat. generalize (neighborProcs nRanks M r) as ps. induction ps as [|p ps IH]; intros x sat HS; cbn [fold_left flat_map].
    - split; auto. intros c f a q c' f' Ha Hm Hq Hn Hs. cbn [memE existsb] in Hs. rewrite orb_false_r in Hs. eapply HS; eauto.
    - destruct (accept_edges r p (xs p) (remoteEdges mate give r p (wvld angles p (w p))) x sat) as [A1 A2]; auto.
      + intros c f a Hin. apply REI in Hin. destruct Hin as (c2 & f2 & a2 & c3 & f3 & Hw & Hf & Hg & Hm & Hp & E). injection E as -> -> ->.
        destruct (HW _ _ _ _ _ _ Hw Hg Hm Hp) as [Ha Hx]. exists c2, f2. split; [now apply (so_sym _ _ _ _ OK)|]. repeat split; auto. rewrite <- (Hgn _ _ _ _ _ _ _ Hm); auto.
      + destruct (IH (acceptEdges r p (xs p) (remoteEdges mate give r p (wvld angles p (w p))) x) _ A2) as [I1 I2]. split.
        * rewrite fold_left_app, <- A1. exact I1.
        * intros c1 f1 a1 q1 c1' f1' Ha1 Hm1 Hq1 Hn1 Hs1. eapply I2; eauto. unfold memE in *. rewrite existsb_app in Hs1. now rewrite <- orb_assoc.
  Qed.

  (** ** Runs *)
  Variable mx : N.
  Notation sround := (sround nRanks M angles give (fun _ _ _ => 0%N) mx (updateLevels M angles over under) (fun _ x a c => fst x a c) (acceptLevel M)).
  Notation srun := (srun nRanks M angles give (fun _ _ _ => 0%N) mx (updateLevels M angles over under) (fun _ x a c => fst x a c) (acceptLevel M)).
  Definition XI (S : nat -> srank (X:=levels)) (dn : nat -> list (nat * nat)) : Prop :=
    forall r, r < nRanks -> VI r (satF r (dn r) dn) (fst (s_x (S r))) /\ SI r (satF r (dn r) dn) (snd (s_x (S r))).
  Lemma round_XI S S' w dn : GI nRanks M angles mate need S dn -> XI S dn -> sround S S' w -> XI S' (fun r => dn r ++ wv angles w r).
  Proof.
    intros G HX Hs. pose proof Hs as (Nd & mid & Ht & Hrv).
    pose proof (round_inv nRanks M angles mate need give OK ND Hgn HA HB _ _ _ _ _ _ _ _ _ G Hs) as [_ RO].
    set (xs := fun p => updateLevels M angles over under p (s_x (S p)) (w p)) in *.
    assert (UP : forall p, p < nRanks -> VI p (satF p (dn p ++ wv angles w p) dn) (fst (xs p)) /\ snd (xs p) = snd (s_x (S p))).
    { intros p Hp. split; [|reflexivity]. destruct (HX p Hp) as [V _]. destruct (RO p Hp) as (T & _). unfold xs. exact (update_VI p (dn p) dn Hp (w p) (fst (s_x (S p))) T V). }
    intros r Hr. specialize (Hrv r Hr).
    rewrite (recv_phase nRanks M angles mate need give OK ND Hgn HA HB _ _ _ _ (updateLevels M angles over under) S dn w mid r _ G Hr Ht xs) in Hrv.
    apply Some_inj in Hrv. apply (f_equal snd) in Hrv. cbn [snd] in Hrv. rewrite <- Hrv. clear Hrv.
    destruct (UP r Hr) as [UV US].
    destruct (accept_all r xs w (xs r) (satF r (dn r) dn) Hr) as [A1 A2].
    { intros p c f a c' f' Hin Hg Hm Hp. destruct (mrange _ _ _ OK _ _ _ _ _ _ Hm) as ((Hp' & Hc & _) & _). destruct (RO p Hp') as (T & _). pose proof T as T'.
      apply in_split in Hin. destruct Hin as (w1 & w2 & E). destruct (T w1 _ w2 E) as ([_ Ha] & _ & U). cbn [fst snd] in Ha, U. split; auto.
      destruct (UP p Hp') as [V _]. rewrite V by auto. apply part_full; auto. intros g Hg'.
      pose proof (in_turn_closed M angles mate need p (dn p) dn (wv angles w p) T (gi_closed _ _ _ _ _ _ _ G p Hp')) as Cl.
      apply (Cl (c, a)); auto. apply in_or_app. right. unfold wv. rewrite E. apply in_elt. }
    { rewrite US. apply HX; auto. }
    assert (SE : forall c f a, c < rm_nCells (M r) -> a < nAng -> f < 4 -> need r a c f = true -> satF r (dn r ++ wv angles w r) dn (c, f, a) || memE (c, f, a) (allEdges nRanks M angles mate give r w) =
                 satF r (dn r ++ wv angles w r) (fun r => dn r ++ wv angles w r) (c, f, a)).
    { intros c f a Hc Ha Hf Hn. unfold ScheduleProofs.satF. destruct (mate (r, c, f)) as [[[q c'] f']|] eqn:Em.
      - destruct (Nat.eqb_spec q r) as [->|Hq].
        + replace (memE (c, f, a) (allEdges nRanks M angles mate give r w)) with false; [now rewrite orb_false_r|]. symmetry. apply not_true_iff_false. rewrite memE_In. rewrite AEI by auto.
          intros (p & d & g & b & d' & g' & _ & _ & _ & E & Hp & K). injection K as -> -> ->. apply (so_sym _ _ _ _ OK) in E. congruence.
        + rewrite mem2_app. f_equal. apply eq_true_iff_eq. rewrite memE_In, mem2_In. rewrite AEI by auto. split.
          * intros (p & d & g & b & d' & g' & Hin & _ & _ & E & Hp & K). injection K as -> -> ->. apply (so_sym _ _ _ _ OK) in E. assert (K : (q, c', f') = (p, d, g)) by congruence. injection K as -> -> ->. auto.
          * intros Hin. pose proof (so_sym _ _ _ _ OK _ _ Em) as Em'. destruct (mrange _ _ _ OK _ _ _ _ _ _ Em') as ((_ & _ & Hf') & _). exists q, c', f', a, c, f. repeat split; auto. rewrite (Hgn _ _ _ _ _ _ _ Em'); auto.
      - cbn [orb]. apply not_true_iff_false. rewrite memE_In. rewrite AEI by auto. intros (p & d & g & b & d' & g' & _ & _ & _ & E & Hp & K). injection K as -> -> ->. apply (so_sym _ _ _ _ OK) in E. congruence. }
    change (updateLevels M angles over under r (s_x (S r)) (w r)) with (xs r). split.
    - rewrite A1. eapply VI_ext; [|apply raise_edges; [exact UV|]]; [exact SE|].
      intros c f a Hin. apply AEI in Hin; auto. destruct Hin as (p & c2 & f2 & a2 & c3 & f3 & Hw & Hf & Hg & Hm & Hp & E). injection E as -> -> ->.
      destruct (mrange _ _ _ OK _ _ _ _ _ _ Hm) as ((Hp' & _) & (_ & _ & Hf3)). split; auto. rewrite <- (Hgn _ _ _ _ _ _ _ Hm); auto.
      destruct (RO p Hp') as (T & _). apply (in_turn_vld _ _ _ _ _ _ _ _ T _ Hw).
    - intros c f a q c' f' Ha Hm Hq Hn Hs'. destruct (mrange _ _ _ OK _ _ _ _ _ _ Hm) as ((_ & Hc & Hf) & _). eapply A2; eauto.
      rewrite <- SE in Hs' by auto. destruct (memE (c, f, a) (allEdges nRanks M angles mate give r w)); [now rewrite orb_true_r|]. rewrite orb_false_r in *.
      revert Hs'. unfold ScheduleProofs.satF. rewrite Hm. destruct (Nat.eqb_spec q r); [congruence|auto].
  Qed.
  Lemma run_XI L S : srun (initS M angles need (fun _ => (fun _ _ => 0, fun _ _ => 0))) L S -> XI S (dnL angles L).
  Proof.
    induction 1 as [|L S1 w S2 Hr IH Hs].
    - intros r Hr. assert (Z : forall e, satF r (dnL angles [] r) (dnL angles []) e = false).
      { intros [[c f] a]. unfold ScheduleProofs.satF. destruct (mate (r, c, f)) as [[[q c'] f']|]; [destruct (q =? r)|]; reflexivity. }
      split.
      + intros c a Hc Ha. cbn [initS s_x fst]. unfold part. transitivity (list_max (map (fun _ => 0) (seq 0 4))); [reflexivity|]. f_equal. apply map_ext. intros f. now rewrite Z, andb_false_r.
      + intros c f a q c' f' _ _ _ _ K. rewrite Z in K. discriminate.
    - destruct (run_GI nRanks M angles mate need give OK ND Hgn HA HB _ _ _ _ _ _ _ _ Hr) as [G _].
      pose proof (round_XI _ _ _ _ G IH Hs) as R. intros r Hr'. destruct (R r Hr') as [R1 R2].
      assert (E : forall e, satF r (dnL angles (L ++ [w]) r) (dnL angles (L ++ [w])) e = satF r (dnL angles L r ++ wv angles w r) (fun r => dnL angles L r ++ wv angles w r) e).
      { intros [[c f] a]. unfold ScheduleProofs.satF. destruct (mate (r, c, f)) as [[[q c'] f']|]; auto. now rewrite !dnL_snoc. }
      split.
      + eapply VI_ext; [|exact R1]. intros. symmetry. apply E.
      + intros c f a q c' f' H1 H2 H3 H4 H5. rewrite E in H5. eapply R2; eauto.
  Qed.
  (** When the loop ends all levels are there. *)
  Lemma levels_final S : levelled nRanks M angles over under mx S -> forall r a c, r < nRanks -> c < rm_nCells (M r) -> a < nAng ->
    longest_downwind over mate (ang a) (r, c) (fst (s_x (S r)) a c) /\
    forall f q c' f', mate (r, c, f) = Some (q, c', f') -> q <> r -> need r a c f = true -> longest_downwind over mate (ang a) (q, c') (snd (s_x (S r)) a (rm_side (M r) c f)).
  Proof.
    intros (L & Hr & HD) r a c Hr' Hc Ha. pose proof (run_XI _ _ Hr) as HX. destruct (HX r Hr') as [V SL].
    destruct (run_GI nRanks M angles mate need give OK ND Hgn HA HB _ _ _ _ _ _ _ _ Hr) as [G _].
    assert (All : forall r x, r < nRanks -> vld r x -> In x (dnL angles L r)).
    { eapply (done_all nRanks M angles mate need give OK Hgn HA HB
         (fun _ (x : levels) a c => fst x a c) (acceptLevel M) (fun _ _ _ => 0%N) (updateLevels M angles over under)); eauto. exists lvl. exact Hlvl. }
    assert (Sat : forall d f b, d < rm_nCells (M r) -> b < nAng -> f < 4 -> need r b d f = true -> satF r (dnL angles L r) (dnL angles L) (d, f, b) = true).
    { intros d f b Hd Hb Hf Hn. destruct (need_mate r d f b) as (q & c' & f' & Em); auto. unfold ScheduleProofs.satF. rewrite Em. destruct (mrange _ _ _ OK _ _ _ _ _ _ Em) as (_ & (Hq & Hc' & _)).
      destruct (Nat.eqb_spec q r) as [->|]; apply mem2_In; apply All; auto; split; auto. }
    split.
    - rewrite V by auto. rewrite part_full; auto; [apply LV_longest; auto|]. intros f Hf. unfold unsat. destruct (need r a c f) eqn:E; auto. rewrite Sat; auto.
    - intros f q c' f' Hm Hq Hn. destruct (mrange _ _ _ OK _ _ _ _ _ _ Hm) as ((_ & _ & Hf) & (Hq' & Hc' & _)). rewrite (SL c f a q c' f'); auto. apply LV_longest; auto.
  Qed.
End Levels.
