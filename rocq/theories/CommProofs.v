From Coq Require Import Permutation.
From Verif Require Import Prelude TraverseModel TraverseSpec TraverseInv TraverseProofs TraverseSafe TychoProofs CommModel.

Section P.
  Context {V D : Type}.
  Variables (nRanks nAngles : nat) (M : nat -> rmesh) (mate : site -> option site) (getData : nat -> nat -> nat -> nat -> V -> D) (zeroD : D).
  Hypothesis OK : sys_ok nRanks nAngles M mate.
  Notation meta := (meta nAngles M). Notation numRecv := (numRecvPackets nAngles M). Notation numSend := (numSendPackets nAngles M).

  Lemma meta_In r p c f a b : r < nRanks -> p <> r -> (In (c, f, a, b) (meta r p) <-> a < nAngles /\ b = rm_out (M r) a c f /\ exists c' f', mate (r, c, f) = Some (p, c', f')).
  Proof.
    intros Hr Hp. unfold CommModel.meta. rewrite in_flat_map. split.
    - intros ([c1 f1] & Hcf & Hin). apply in_prod_iff in Hcf. destruct Hcf as [Hc Hf]. apply in_seq in Hc, Hf. unfold metaOf in Hin. cbn [fst snd] in Hin.
      destruct (rm_adjRank (M r) c1 f1) as [q|] eqn:E; [|easy]. destruct (Nat.eqb_spec q p) as [->|]; [|easy].
      apply in_map_iff in Hin. destruct Hin as (a1 & E1 & Ha). apply in_seq in Ha. injection E1 as -> -> -> <-. repeat split; try lia.
      rewrite (so_rank _ _ _ _ OK) in E by lia. destruct (mate (r, c, f)) as [[[q c'] f']|]; [|easy]. apply Some_inj in E. subst. eauto.
    - intros (Ha & -> & c' & f' & Hm). destruct (so_range _ _ _ _ OK _ _ _ _ Hm) as (_ & Hc & Hf). exists (c, f). split; [apply in_prod_iff; rewrite !in_seq; lia|].
      unfold metaOf. cbn [fst snd]. rewrite (so_rank _ _ _ _ OK), Hm, Nat.eqb_refl by auto. apply in_map_iff. exists a. split; auto. apply in_seq. lia.
  Qed.
  Lemma meta_nodup r p : NoDup (meta r p).
  Proof.
    unfold CommModel.meta.
    assert (K : forall l, NoDup l -> NoDup (flat_map (metaOf nAngles M r p) l)).
    { induction l as [|[c f] l IH]; intros Hl; [constructor|]. inversion Hl; subst. cbn [flat_map]. apply NoDup_app_intro'; auto.
      - unfold metaOf. cbn [fst snd]. destruct (rm_adjRank (M r) c f) as [q|]; [|constructor]. destruct (q =? p); [|constructor]. apply FinFun.Injective_map_NoDup; [intros x y E; congruence|apply seq_NoDup].
      - intros [[[c1 f1] a1] b1] H3 H4. apply in_flat_map in H4. destruct H4 as ([c2 f2] & H4 & H5). unfold metaOf in H3, H5. cbn [fst snd] in *.
        destruct (rm_adjRank (M r) c f) as [q|]; [|easy]. destruct (q =? p); [|easy]. destruct (rm_adjRank (M r) c2 f2) as [q'|]; [|easy]. destruct (q' =? p); [|easy].
        apply in_map_iff in H3, H5. destruct H3 as (x & E & _), H5 as (y & E' & _). injection E as -> -> -> _. injection E' as -> -> -> _. auto. }
    apply K. apply NoDup_list_prod; apply seq_NoDup.
  Qed.

  Definition swap (r : nat) (m : nat * nat * nat * bool) : nat * nat * nat * bool :=
    let '(c, f, a, b) := m in match mate (r, c, f) with Some (_, c', f') => (c', f', a, negb b) | None => m end.
  Lemma count_le r q b : r < nRanks -> q < nRanks -> q <> r ->
    length (filter (fun m => Bool.eqb (snd m) b) (meta r q)) <= length (filter (fun m => Bool.eqb (snd m) (negb b)) (meta q r)).
  Proof.
    intros Hr Hq Hne. apply (inj_length (fun x y => In x (filter (fun m => Bool.eqb (snd m) b) (meta r q)) /\ y = swap r x)).
    - apply NoDup_filter, meta_nodup.
    - intros x Hx. exists (swap r x). split; [|auto]. revert x Hx. intros [[[c f] a] b1] H. apply filter_In in H. destruct H as [H E]. cbn [snd] in E. apply eqb_prop in E. subst b1. apply meta_In in H; auto. destruct H as (Ha & -> & c' & f' & Hm).
      unfold swap. rewrite Hm. apply filter_In. split; [|cbn [snd]; now rewrite eqb_reflx]. apply meta_In; auto. split; [exact Ha|]. split; [|exists c, f; now apply (so_sym _ _ _ _ OK)].
      rewrite (so_flow _ _ _ _ OK _ _ _ _ _ _ _ Hm Ha). now rewrite negb_involutive.
    - intros [[[c f] a] b1] [[[d g] a2] b2] y [H1 ->] [H2 E]. revert E. apply filter_In in H1, H2. destruct H1 as [H1 _], H2 as [H2 _]. apply meta_In in H1, H2; auto.
      destruct H1 as (_ & -> & c' & f' & Hm), H2 as (_ & -> & d' & g' & Hm2). unfold swap. rewrite Hm, Hm2. intros E. injection E as -> -> -> _.
      apply (so_sym _ _ _ _ OK) in Hm, Hm2. rewrite Hm in Hm2. apply Some_inj in Hm2. injection Hm2 as -> ->. reflexivity.
  Qed.
  Lemma counts r q : r < nRanks -> q < nRanks -> q <> r -> numRecv r q = numSend q r.
  Proof.
    intros Hr Hq Hne. unfold CommModel.numRecvPackets, CommModel.numSendPackets, sendMetaData.
    pose proof (count_le r q false Hr Hq Hne) as A. pose proof (count_le q r true Hq Hr ltac:(congruence)) as B. cbn [negb] in A, B.
    rewrite (filter_ext (fun m => negb (snd m)) (fun m : nat * nat * nat * bool => Bool.eqb (snd m) false)) by (intros [x []]; reflexivity).
    rewrite (filter_ext (fun m => snd m) (fun m : nat * nat * nat * bool => Bool.eqb (snd m) true)) by (intros [x []]; reflexivity). lia.
  Qed.

  Variable psi : nat -> nat -> nat -> V.
  Notation message := (message nAngles M getData psi). Notation arrives := (arrives nAngles M getData zeroD psi).
  Lemma message_In q r g a d : q < nRanks -> r < nRanks -> q <> r -> (In (g, a, d) (message q r) <->
    exists c' f' c f, mate (r, c, f) = Some (q, c', f') /\ a < nAngles /\ rm_out (M r) a c f = false /\ g = rm_lgSide (M q) (rm_side (M q) c' f') /\ d = getData q c' f' a (psi q c' a)).
  Proof.
    intros Hq Hr Hne. unfold CommModel.message, commAdjRanks. split.
    - destruct (existsb (Nat.eqb r) (adjRanks M q)); [|easy]. intros H. apply in_map_iff in H. destruct H as ([[[c' f'] a1] b] & E & H). apply filter_In in H. destruct H as [H Hb]. cbn in Hb. subst b.
      apply meta_In in H; auto. destruct H as (Ha & Ho & c & f & Hm). cbn in E. injection E as <- <- <-. exists c', f', c, f. rewrite (so_sym _ _ _ _ OK _ _ Hm). split; [reflexivity|]. split; [exact Ha|]. split; auto.
      rewrite (so_flow _ _ _ _ OK _ _ _ _ _ _ _ Hm Ha) in Ho. symmetry in Ho. now apply negb_true_iff in Ho.
    - intros (c' & f' & c & f & Hm & Ha & Ho & -> & ->). pose proof (so_sym _ _ _ _ OK _ _ Hm) as Hm'.
      assert (E : existsb (Nat.eqb r) (adjRanks M q) = true). { apply existsb_exists. exists r. split; [|apply Nat.eqb_refl]. apply (adjRanks_In Forward nRanks nAngles M mate (ok_fit _ _ _ _ _ OK)); auto. exists c', f', c, f. auto. }
      rewrite E. apply in_map_iff. exists (c', f', a, true). split; [reflexivity|]. apply filter_In. split; [|reflexivity]. apply meta_In; auto. split; [exact Ha|]. split; [|eauto].
      rewrite (so_flow _ _ _ _ OK _ _ _ _ _ _ _ Hm' Ha), Ho. reflexivity.
  Qed.
  Lemma message_length q r : q < nRanks -> In r (adjRanks M q) -> length (message q r) = numSend q r.
  Proof.
    intros Hq Hin. unfold CommModel.message, commAdjRanks. assert (E : existsb (Nat.eqb r) (adjRanks M q) = true) by (apply existsb_exists; exists r; split; [auto|apply Nat.eqb_refl]).
    rewrite E, map_length. reflexivity.
  Qed.
  Lemma arrives_all r q : r < nRanks -> In q (adjRanks M r) -> arrives r q = if numRecv r q =? 0 then Nothing else Packets (message q r).
  Proof.
    intros Hr Hin. destruct (adjRanks_lt Forward nRanks nAngles M mate (ok_fit _ _ _ _ _ OK) r q Hr Hin) as [Hq Hne]. pose proof (adjRanks_sym Forward nRanks nAngles M mate (ok_fit _ _ _ _ _ OK) r q Hr Hq Hin) as Hin'.
    pose proof (message_length q r Hq Hin') as L. rewrite <- (counts r q Hr Hq Hne) in L. unfold CommModel.arrives.
    destruct (numRecv r q) as [|n]; [destruct (message q r); [reflexivity|discriminate]|]. cbn [Nat.eqb]. destruct (message q r) as [|x l]; [discriminate|].
    rewrite L, Nat.leb_refl, Nat.sub_diag. cbn [repeat]. now rewrite app_nil_r.
  Qed.

  (** Storing packets. *)
  Lemma store_all r (l : list (packet D)) : forall b, (forall g a d, In (g, a, d) l -> rm_glSide (M r) g <> None) ->
    exists b', fold_left (storePacket M r) l (Some b) = Some b' /\
      forall s a, (forall d0, (exists g, In (g, a, d0) l /\ rm_glSide (M r) g = Some s) -> (forall g d, In (g, a, d) l -> rm_glSide (M r) g = Some s -> d = d0) -> b' s a = d0) /\
                  ((forall g d, In (g, a, d) l -> rm_glSide (M r) g <> Some s) -> b' s a = b s a).
  Proof.
    induction l as [|[[g1 a1] d1] l IH]; intros b H.
    - exists b. split; [reflexivity|]. intros s a. split; [intros d0 (g & [] & _)|reflexivity].
    - destruct (rm_glSide (M r) g1) as [s1|] eqn:E1; [|exfalso; eapply H; [now left|exact E1]].
      destruct (IH (fupd2 b s1 a1 d1)) as (b' & F & K); [intros g a d Hi; eapply H; right; exact Hi|]. exists b'. split.
      + cbn [fold_left]. unfold storePacket at 2. cbn. rewrite E1. exact F.
      + intros s a. destruct (K s a) as [K1 K2].
        assert (DEC : (exists g d, In (g, a, d) l /\ rm_glSide (M r) g = Some s) \/ (forall g d, In (g, a, d) l -> rm_glSide (M r) g <> Some s)).
        { clear. induction l as [|[[g2 a2] d2] l IH]; [right; intros g d []|]. destruct IH as [(g & d & H1 & H2)|IH]; [left; exists g, d; split; auto; now right|].
          destruct (Nat.eq_dec a2 a) as [->|Na].
          - destruct (rm_glSide (M r) g2) as [s2|] eqn:E2; [destruct (Nat.eq_dec s2 s) as [->|Ns]|].
            + left. exists g2, d2. split; auto. now left.
            + right. intros g d [E|H]; [injection E as <- <-; congruence|eauto].
            + right. intros g d [E|H]; [injection E as <- <-; congruence|eauto].
          - right. intros g d [E|H]; [congruence|eauto]. }
        split.
        * intros d0 (g & Hg & Eg) Hu. destruct DEC as [(g2 & d2 & H2 & E2)|DEC].
          -- apply K1; [|intros g3 d3 H3 E3; eapply Hu; [right; exact H3|exact E3]]. exists g2. rewrite <- (Hu g2 d2) by (auto; right; auto). auto.
          -- rewrite (K2 DEC). destruct Hg as [Eq|Hg]; [|exfalso; eapply DEC; eauto]. injection Eq as -> -> ->. rewrite E1 in Eg. apply Some_inj in Eg. subst. apply fupd2_same.
        * intros HN. rewrite K2; [|intros g d Hi; eapply HN; right; exact Hi]. apply fupd2_other. intros E. injection E as -> ->. eapply HN; [now left|exact E1].
  Qed.
  Lemma store_from r order : forall b, r < nRanks -> incl order (posted nAngles M r) ->
    fold_left (storeFrom nAngles M getData zeroD psi r) order b = fold_left (storePacket M r) (flat_map (fun q => message q r) order) b.
  Proof.
    induction order as [|q l IH]; intros b Hr Hi; [reflexivity|]. cbn [fold_left flat_map]. rewrite fold_left_app, <- IH by (auto; intros x Hx; apply Hi; now right).
    f_equal. unfold storeFrom. assert (Hq : In q (posted nAngles M r)) by (apply Hi; now left). apply filter_In in Hq. destruct Hq as [Hq Hn]. unfold commAdjRanks in Hq. rewrite (arrives_all r q Hr Hq).
    apply negb_true_iff in Hn. rewrite Hn. reflexivity.
  Qed.
  Lemma comm_sides r order b : r < nRanks -> Permutation order (posted nAngles M r) ->
    exists b', commSides nAngles M getData zeroD psi r order b = Some b' /\
      (forall c f a q c' f', mate (r, c, f) = Some (q, c', f') -> q <> r -> a < nAngles -> rm_out (M r) a c f = false -> b' (rm_side (M r) c f) a = getData q c' f' a (psi q c' a)) /\
      (forall s a, (forall c f q c' f', mate (r, c, f) = Some (q, c', f') -> q <> r -> a < nAngles -> rm_out (M r) a c f = false -> rm_side (M r) c f <> s) -> b' s a = b s a).
  Proof.
    intros Hr HP. unfold CommModel.commSides. rewrite store_from by (auto; intros x Hx; eapply Permutation_in; eauto).
    assert (IN : forall g a d, In (g, a, d) (flat_map (fun q => message q r) order) <-> exists q c' f' c f, q <> r /\ mate (r, c, f) = Some (q, c', f') /\ a < nAngles /\ rm_out (M r) a c f = false /\ g = rm_lgSide (M q) (rm_side (M q) c' f') /\ d = getData q c' f' a (psi q c' a)).
    { intros g a d. rewrite in_flat_map. split.
      - intros (q & Hq & Hin). eapply Permutation_in in Hq; [|exact HP]. apply filter_In in Hq. destruct Hq as [Hq _]. destruct (adjRanks_lt Forward nRanks nAngles M mate (ok_fit _ _ _ _ _ OK) r q Hr Hq) as [Hq' Hne].
        apply message_In in Hin; auto. destruct Hin as (c' & f' & c & f & K). exists q, c', f', c, f. tauto.
      - intros (q & c' & f' & c & f & Hne & Hm & Ha & Ho & Eg & Ed). exists q.
        assert (Hin : In q (adjRanks M r)) by (apply (adjRanks_In Forward nRanks nAngles M mate (ok_fit _ _ _ _ _ OK)); eauto 8). destruct (adjRanks_lt Forward nRanks nAngles M mate (ok_fit _ _ _ _ _ OK) r q Hr Hin) as [Hq _].
        assert (Hmsg : In (g, a, d) (message q r)) by (apply message_In; auto; exists c', f', c, f; auto). split; [|exact Hmsg].
        eapply Permutation_in; [apply Permutation_sym; exact HP|]. apply filter_In. split; [exact Hin|]. apply negb_true_iff, Nat.eqb_neq. rewrite (counts r q Hr Hq Hne).
        rewrite <- (message_length q r Hq (adjRanks_sym Forward nRanks nAngles M mate (ok_fit _ _ _ _ _ OK) r q Hr Hq Hin)). destruct (message q r); [easy|discriminate]. }
    assert (GS : forall q c' f' c f, q <> r -> mate (r, c, f) = Some (q, c', f') -> rm_glSide (M r) (rm_lgSide (M q) (rm_side (M q) c' f')) = Some (rm_side (M r) c f)).
    { intros q c' f' c f Hne Hm. apply (so_sym _ _ _ _ OK) in Hm. apply (so_side _ _ _ _ OK _ _ _ _ _ _ Hm). congruence. }
    destruct (store_all r (flat_map (fun q => message q r) order) b) as (b' & F & K).
    { intros g a d H. apply IN in H. destruct H as (q & c' & f' & c & f & Hne & Hm & _ & _ & -> & _). rewrite (GS _ _ _ _ _ Hne Hm). discriminate. }
    exists b'. split; [exact F|]. split.
    - intros c f a q c' f' Hm Hne Ha Ho. apply (K (rm_side (M r) c f) a).
      + exists (rm_lgSide (M q) (rm_side (M q) c' f')). split; [apply IN; exists q, c', f', c, f; auto 8|apply GS; auto].
      + intros g d H Eg. apply IN in H. destruct H as (q2 & c2' & f2' & c2 & f2 & Hne2 & Hm2 & _ & _ & -> & ->). rewrite (GS _ _ _ _ _ Hne2 Hm2) in Eg. apply Some_inj in Eg.
        destruct (so_inj _ _ _ _ OK _ _ _ _ _ _ _ _ _ _ _ Hm2 Hne2 Hm Hne Eg) as [-> ->]. rewrite Hm in Hm2. apply Some_inj in Hm2. injection Hm2 as -> -> ->. reflexivity.
    - intros s a HN. apply (K s a). intros g d H Eg. apply IN in H. destruct H as (q & c' & f' & c & f & Hne & Hm & Ha & Ho & -> & _). rewrite (GS _ _ _ _ _ Hne Hm) in Eg. apply Some_inj in Eg. eapply HN; eauto.
  Qed.
End P.
