(** The traversal machine keeps the invariant of TraverseInv. *)
From Coq Require Import Permutation.
From Verif Require Import Prelude Bytes MeshModel AngleModel AngleProofs TraverseModel TraverseSpec TraverseInv.

(** ** Lists *)
Lemma flat_map_upd {X Y} (F F' : X -> list Y) l i x : NoDup l -> In i l -> Permutation (F' i) (x ++ F i) -> (forall j, j <> i -> F' j = F j) ->
  Permutation (flat_map F' l) (x ++ flat_map F l).
Proof.
  intros ND HI HP E. induction l as [|j l IH]; [easy|]. inversion ND; subst. cbn. destruct HI as [->|HI].
  - rewrite app_assoc. apply Permutation_app; auto. rewrite !flat_map_concat_map. erewrite map_ext_in; [apply Permutation_refl|]. intros k Hk. apply E. intros ->. easy.
  - rewrite E by (intros ->; easy). etransitivity; [apply Permutation_app_head, IH; auto|]. rewrite !app_assoc. apply Permutation_app_tail, Permutation_app_comm.
Qed.
Lemma flat_map_perm {X Y} (F G : X -> list Y) l : (forall i, In i l -> Permutation (F i) (G i)) -> Permutation (flat_map F l) (flat_map G l).
Proof. induction l; intros H; cbn; auto. apply Permutation_app; [apply H; now left|apply IHl; intros; apply H; now right]. Qed.
Lemma flat_map_nil {X Y} (F : X -> list Y) l : (forall i, In i l -> F i = []) -> flat_map F l = [].
Proof. induction l; intros H; cbn; auto. rewrite H by (now left). apply IHl. intros; apply H; now right. Qed.
Lemma flat_map_nil_inv {X Y} (F : X -> list Y) l i : flat_map F l = [] -> In i l -> F i = [].
Proof. induction l as [|j l IH]; intros H HI; [easy|]. cbn in H. apply app_eq_nil in H. destruct H, HI as [->|HI]; auto. Qed.
Lemma fupd2_same {X} (t : nat -> nat -> X) i j v : fupd2 t i j v i j = v.
Proof. unfold fupd2. now rewrite !Nat.eqb_refl. Qed.
Lemma fupd2_other {X} (t : nat -> nat -> X) i j v i' j' : (i', j') <> (i, j) -> fupd2 t i j v i' j' = t i' j'.
Proof. intros N. unfold fupd2. destruct (Nat.eqb_spec i' i), (Nat.eqb_spec j' j); cbn; auto. subst. now destruct N. Qed.

Section Adj.
  Variables (dir : direction) (nRanks nAngles : nat) (M : nat -> rmesh) (mate : site -> option site).
  Hypothesis OK : sys_fit dir nRanks nAngles M mate.
  Notation adjRanks := (adjRanks M).
  (** ** Neighbouring ranks *)
  Lemma adjRanks_gen r l : forall acc, NoDup acc -> NoDup (fold_left (adjRankStep M r) l acc) /\
    (forall q, In q (fold_left (adjRankStep M r) l acc) <-> In q acc \/ exists c f, In (c, f) l /\ rm_adjCell (M r) c f = None /\ rm_adjRank (M r) c f = Some q).
  Proof.
    induction l as [|[c f] l IH]; intros acc ND; [split; auto; intros q; cbn; split; auto; intros [H|(c & f & [] & _)]; auto|].
    cbn [fold_left]. assert (A : NoDup (adjRankStep M r acc (c, f)) /\ forall q, In q (adjRankStep M r acc (c, f)) <-> In q acc \/ (rm_adjCell (M r) c f = None /\ rm_adjRank (M r) c f = Some q)).
    { unfold adjRankStep. cbn [fst snd]. destruct (rm_adjCell (M r) c f) eqn:E1.
      - split; auto. intros q. split; auto. intros [H|(H & _)]; [auto|discriminate].
      - destruct (rm_adjRank (M r) c f) as [q0|] eqn:E2.
        + destruct (existsb (Nat.eqb q0) acc) eqn:E3.
          * split; auto. apply existsb_exists in E3. destruct E3 as (x & Hx & E3). apply Nat.eqb_eq in E3. subst x.
            intros q. split; auto. intros [H|(_ & H)]; auto. injection H as <-. auto.
          * assert (NI : ~ In q0 acc). { intros HI. assert (existsb (Nat.eqb q0) acc = true); [|congruence]. apply existsb_exists. exists q0. split; auto. apply Nat.eqb_refl. }
            split. { eapply Permutation_NoDup; [apply Permutation_cons_append|]. now constructor. }
            intros q. rewrite in_app_iff. cbn [In]. split; [intros [H|[->|[]]]; auto|intros [H|(_ & H)]; auto]. injection H as <-. auto.
        + split; auto. intros q. split; auto. intros [H|(_ & H)]; [auto|discriminate]. }
    destruct A as (A1 & A2). destruct (IH _ A1) as (B1 & B2). split; auto. intros q. rewrite B2, A2. split.
    - intros [[H|(H & H')]|(c' & f' & H & H')]; auto; right; [exists c, f|exists c', f']; split; auto; [now left|now right].
    - intros [H|(c' & f' & [H|H] & H')]; auto. + injection H as <- <-. auto. + right. eauto.
  Qed.
  Lemma adjRanks_nodup r : NoDup (adjRanks r).
  Proof. apply adjRanks_gen. constructor. Qed.
  Lemma adjRanks_In r q : r < nRanks -> (In q (adjRanks r) <-> exists c f c' f', mate (r, c, f) = Some (q, c', f') /\ q <> r).
  Proof.
    intros Hr. unfold TraverseModel.adjRanks. rewrite (proj2 (adjRanks_gen r _ [] (NoDup_nil _)) q). split.
    - intros [[]|(c & f & H & H1 & H2)]. apply in_prod_iff in H. destruct H as (Hc & Hf). apply in_seq in Hc, Hf.
      rewrite (sf_cell _ _ _ _ _ OK) in H1 by (auto; lia). rewrite (sf_rank _ _ _ _ _ OK) in H2 by (auto; lia).
      destruct (mate (r, c, f)) as [[[q' c'] f']|] eqn:E; [|discriminate]. injection H2 as ->. destruct (Nat.eqb_spec q r); [discriminate|]. eauto 6.
    - intros (c & f & c' & f' & H & N). right. destruct (sf_range _ _ _ _ _ OK _ _ _ _ H) as (_ & Hc & Hf). exists c, f. split; [apply in_prod_iff; split; apply in_seq; lia|].
      rewrite (sf_cell _ _ _ _ _ OK), (sf_rank _ _ _ _ _ OK), H by auto. destruct (Nat.eqb_spec q r); [congruence|auto].
  Qed.
  Lemma adjRanks_lt r q : r < nRanks -> In q (adjRanks r) -> q < nRanks /\ q <> r.
  Proof. intros Hr H. apply adjRanks_In in H; auto. destruct H as (c & f & c' & f' & H & N). split; auto. eapply (mate_back dir nRanks nAngles M mate OK); eauto. Qed.
  Lemma adjRanks_sym r q : r < nRanks -> q < nRanks -> In q (adjRanks r) -> In r (adjRanks q).
  Proof.
    intros Hr Hq H. apply adjRanks_In in H; auto. destruct H as (c & f & c' & f' & H & N). apply adjRanks_In; auto.
    exists c', f', c, f. split; auto. apply (sf_sym _ _ _ _ _ OK); auto.
  Qed.

End Adj.

Section Safe.
  Context {V D : Type}.
  Variables (dir : direction) (doComm : bool) (mpi : mpiType) (nRanks nAngles nThreads maxCompute : nat) (psize : N).
  Variables (M : nat -> rmesh) (T : tdata V D) (mate : site -> option site).
  Variables (val0 : nat -> nat -> nat -> V) (bnd0 : nat -> nat -> nat -> D).
  Hypothesis OK : sys_fit dir nRanks nAngles M mate.
  Hypothesis TH : nThreads > 0.
  Notation dep := (isDep dir doComm M).
  Notation valid := (valid nRanks nAngles M).
  Notation Inv := (Inv dir doComm nRanks nAngles M T mate val0 bnd0).
  Notation adjRanks := (adjRanks M).
  Notation view := (view V D).

  (** ** Queues *)
  Definition qflat (q : nat -> list tuple) : list (nat * nat) := flat_map (fun t => map fst (q t)) (seq 0 nThreads).
  Definition bflat (buf : nat -> nat -> list (packet D)) (q : nat) : list (packet D) := flat_map (fun t => buf t q) (seq 0 nThreads).
  Definition qok (r : nat) (q : nat -> list tuple) : Prop :=
    forall t c a p, In (c, a, p) (q t) -> angleGroupIndex nAngles nThreads a = Some t /\ p = td_priority T r c a.
  Definition bok (r : nat) (buf : nat -> nat -> list (packet D)) : Prop :=
    forall t q, buf t q <> [] -> doComm = true /\ In q (adjRanks r).
  Lemma qflat_push r q t c a : t < nThreads -> Permutation (qflat (push T r q t c a)) ((c, a) :: qflat q).
  Proof.
    intros Ht. unfold qflat. apply (flat_map_upd _ _ _ t [(c, a)]); [apply seq_NoDup|apply in_seq; lia| |].
    - unfold push. now rewrite fupd_same.
    - intros j Hj. unfold push. now rewrite fupd_other.
  Qed.
  Lemma qok_push r q t c a : qok r q -> angleGroupIndex nAngles nThreads a = Some t -> qok r (push T r q t c a).
  Proof.
    intros Q E t' c' a' p'. unfold push, fupd. destruct (Nat.eqb_spec t' t) as [->|]; [|apply Q]. intros [H|H]; [|now apply Q]. injection H as <- <- <-. auto.
  Qed.
  Lemma release_view r t (w : view) nd q c a nd' q' : (forall a c, nd a c = w_nd w r a c) -> Permutation (w_ready w r) (qflat q) -> t < nThreads ->
    qok r q -> angleGroupIndex nAngles nThreads a = Some t ->
    release T r t (nd, q) c a = (nd', q') ->
    (forall a' c', nd' a' c' = release_nd w r c a r a' c') /\ Permutation (release_ready w r c a r) (qflat q') /\ qok r q'.
  Proof.
    intros E HP Ht Q EA H. unfold release in H. rewrite fupd2_same in H.
    assert (A : forall a' c', fupd2 nd a c (dec64 (nd a c)) a' c' = release_nd w r c a r a' c').
    { intros a' c'. unfold fupd2, release_nd. rewrite Nat.eqb_refl. cbn [andb]. rewrite !E. now destruct (_ && _). }
    unfold release_ready. rewrite <- E. destruct (N.eqb (dec64 (nd a c)) 0); injection H as <- <-.
    - rewrite fupd_same. split; auto. split; [|now apply qok_push]. rewrite qflat_push by auto. now constructor.
    - auto.
  Qed.
  Lemma release_nd_other (w : view) r c a r' a' c' : r' <> r -> release_nd w r c a r' a' c' = w_nd w r' a' c'.
  Proof. intros N. unfold release_nd. destruct (Nat.eqb_spec r' r); [congruence|reflexivity]. Qed.
  Lemma release_ready_other (w : view) r c a r' : r' <> r -> release_ready w r c a r' = w_ready w r'.
  Proof. intros N. unfold release_ready. destruct (N.eqb _ _); auto. now rewrite fupd_other. Qed.

  (** ** The faces of an updated pair *)
  Lemma children_ok r t c a v : t < nThreads -> angleGroupIndex nAngles nThreads a = Some t -> forall fs w nd q buf, NoDup fs -> (forall f, In f fs -> f < 4 /\ w_em w r c f a = false) ->
    Inv w -> w_dn w r c a = true -> w_val w r c a = v -> (forall a c, nd a c = w_nd w r a c) -> Permutation (w_ready w r) (qflat q) -> qok r q -> bok r buf ->
    exists nd' q' buf' w' dl, fold_left (childStep dir doComm M T r t c a v) fs (Some (nd, q, buf)) = Some (nd', q', buf') /\ Inv w' /\
      (forall a c, nd' a c = w_nd w' r a c) /\ (forall r' a c, r' <> r -> w_nd w' r' a c = w_nd w r' a c) /\
      Permutation (w_ready w' r) (qflat q') /\ (forall r', r' <> r -> w_ready w' r' = w_ready w r') /\
      w_val w' = w_val w /\ w_bnd w' = w_bnd w /\ w_dn w' = w_dn w /\
      (forall p, Permutation (w_fl w' p) (dl p ++ w_fl w p) /\ Permutation (bflat buf' p) (dl p ++ bflat buf p)) /\
      (forall f, In f fs -> w_em w' r c f a = true) /\ (forall r' c' f' a', w_em w r' c' f' a' = true -> w_em w' r' c' f' a' = true) /\
      qok r q' /\ bok r buf'.
  Proof.
    intros Ht HA. induction fs as [|f fs IH]; intros w nd q buf ND HF I Hdn Hv End HP Q B.
    - exists nd, q, buf, w, (fun _ => []). cbn. repeat (split; [solve [auto | intros; easy]|]). auto.
    - inversion ND as [|? ? NI ND']; subst. destruct (HF f (or_introl eq_refl)) as (Hf & Hem).
      pose proof (i_dnv _ _ _ _ _ _ _ _ _ w I _ _ _ Hdn) as (Hr & Hc & Ha).
      assert (ST : exists nd1 q1 buf1 w1 dl1, childStep dir doComm M T r t c a (w_val w r c a) (Some (nd, q, buf)) f = Some (nd1, q1, buf1) /\ Inv w1 /\
        (forall a c, nd1 a c = w_nd w1 r a c) /\ (forall r' a c, r' <> r -> w_nd w1 r' a c = w_nd w r' a c) /\
        Permutation (w_ready w1 r) (qflat q1) /\ (forall r', r' <> r -> w_ready w1 r' = w_ready w r') /\
        w_val w1 = w_val w /\ w_bnd w1 = w_bnd w /\ w_dn w1 = w_dn w /\
        (forall p, Permutation (w_fl w1 p) (dl1 p ++ w_fl w p) /\ Permutation (bflat buf1 p) (dl1 p ++ bflat buf p)) /\
        w_em w1 = e_set (w_em w) r c f a /\ qok r q1 /\ bok r buf1).
      { unfold childStep. cbn [obind]. rewrite (sf_cell _ _ _ _ _ OK r c f Hr Hc Hf), (sf_rank _ _ _ _ _ OK r c f Hr Hc Hf).
        destruct (isOutgoingWrt dir (M r) a c f) eqn:Eo.
        2: { exists nd, q, buf, (setEm w r c f a), (fun _ => []). split; auto. split; [apply emit_none; auto|]. cbn. repeat (split; [solve [auto]|]). auto. }
        destruct (mate (r, c, f)) as [[[q' c'] f']|] eqn:Em.
        2: { exists nd, q, buf, (setEm w r c f a), (fun _ => []). split; auto. split; [apply emit_none; auto|]. cbn. repeat (split; [solve [auto]|]). auto. }
        destruct (Nat.eqb_spec q' r) as [->|N].
        - destruct (release T r t (nd, q) c' a) as [nd1 q1] eqn:ER.
          destruct (release_view r t w nd q c' a nd1 q1 End HP Ht Q HA ER) as (R1 & R2 & R3).
          exists nd1, q1, buf. eexists. exists (fun _ => []). split; [reflexivity|]. split; [apply (emit_local dir doComm nRanks nAngles M T mate val0 bnd0 OK w r c f a c' f'); auto|].
          cbn [w_nd w_ready w_val w_bnd w_fl w_sat w_em w_dn]. split; auto. split; [intros; now apply release_nd_other|]. split; auto. split; [intros; now apply release_ready_other|].
          cbn [app]. repeat (split; [solve [auto]|]). auto.
        - destruct doComm eqn:DC.
          + assert (HI : In q' (adjRanks r)). { apply (adjRanks_In dir nRanks nAngles M mate OK); auto. eauto 6. }
            assert (EX : existsb (Nat.eqb q') (adjRanks r) = true). { apply existsb_exists. exists q'. split; auto. apply Nat.eqb_refl. }
            rewrite EX. eexists _, _, _, _. exists (fun p => if p =? q' then [(rm_lgSide (M r) (rm_side (M r) c f), a, td_getData T r c f a (w_val w r c a))] else []).
            split; [reflexivity|]. split; [rewrite <- DC in I |- *; apply (emit_remote dir doComm nRanks nAngles M T mate val0 bnd0 OK w r c f a q' c' f'); auto|].
            cbn [w_nd w_ready w_val w_bnd w_fl w_sat w_em w_dn]. split; auto. split; auto. split; auto. split; auto. split; auto. split; auto. split; auto.
            split; [|split; [auto|split; [auto|]]].
            * intros p. unfold fupd. destruct (Nat.eqb_spec p q') as [->|N'].
              -- split; [apply Permutation_refl|]. unfold bflat. apply (flat_map_upd _ _ _ t); [apply seq_NoDup|apply in_seq; lia| |].
                 ++ rewrite fupd2_same. apply Permutation_sym. apply (Permutation_cons_append (buf t q')).
                 ++ intros j Hj. apply fupd2_other. congruence.
              -- split; [apply Permutation_refl|]. cbn [app]. unfold bflat. apply flat_map_perm. intros j _. rewrite fupd2_other by congruence. apply Permutation_refl.
            * intros t' p. unfold fupd2. destruct (Nat.eqb_spec t' t), (Nat.eqb_spec p q'); cbn [andb]; subst; auto; apply B.
          + exists nd, q, buf, (setEm w r c f a), (fun _ => []). split; auto.
            split; [rewrite <- DC in I |- *; apply emit_none; auto; right; right; split; auto; exists q', c', f'; auto|]. cbn. repeat (split; [solve [auto]|]). auto. }
      destruct ST as (nd1 & q1 & buf1 & w1 & dl1 & E1 & I1 & A1 & A2 & A3 & A4 & A5 & A6 & A7 & A8 & A9 & A10 & A11).
      destruct (IH w1 nd1 q1 buf1 ND') as (nd2 & q2 & buf2 & w2 & dl2 & E2 & I2 & B1 & B2 & B3 & B4 & B5 & B6 & B7 & B8 & B9 & B10 & B11 & B12); auto.
      { intros f' Hf'. destruct (HF f' (or_intror Hf')) as (Hf4 & He). split; auto. rewrite A9, e_set_other; auto. intros E. injection E as ->. easy. }
      { congruence. } { congruence. }
      exists nd2, q2, buf2, w2, (fun p => dl2 p ++ dl1 p). cbn [fold_left]. rewrite E1. split; auto. split; auto. split; auto.
      split; [intros; rewrite B2, A2; auto|]. split; auto. split; [intros; rewrite B4, A4; auto|]. split; [congruence|]. split; [congruence|]. split; [congruence|].
      split; [|split; [|split]].
      + intros p. destruct (A8 p) as (X1 & X2), (B8 p) as (Y1 & Y2). split.
        * rewrite Y1, X1. now rewrite app_assoc. * rewrite Y2, X2. now rewrite app_assoc.
      + intros f' [<-|Hf']; auto. apply B10. rewrite A9. apply e_set_same.
      + intros r' c' f' a' H. apply B10. rewrite A9. destruct (e_set_case (w_em w) r c f a r' c' f' a') as [(_ & _ & _ & _ & ->)|(_ & ->)]; auto.
      + auto.
  Qed.

  (** ** Unpacking *)
  Lemma unpack_ok r : r < nRanks -> forall pk base w nd q bnd, Inv w -> Permutation (w_fl w r) (pk ++ base) -> (forall a c, nd a c = w_nd w r a c) ->
    Permutation (w_ready w r) (qflat q) -> (forall s a, bnd s a = w_bnd w r s a) -> qok r q ->
    exists nd' q' bnd' w', fold_left (unpackStep nAngles nThreads M T r) pk (Some (nd, q, bnd)) = Some (nd', q', bnd') /\ Inv w' /\
      (forall a c, nd' a c = w_nd w' r a c) /\ (forall r' a c, r' <> r -> w_nd w' r' a c = w_nd w r' a c) /\
      Permutation (w_ready w' r) (qflat q') /\ (forall r', r' <> r -> w_ready w' r' = w_ready w r') /\
      w_val w' = w_val w /\ (forall s a, bnd' s a = w_bnd w' r s a) /\ (forall r' s a, r' <> r -> w_bnd w' r' s a = w_bnd w r' s a) /\ w_dn w' = w_dn w /\ w_em w' = w_em w /\
      Permutation (w_fl w' r) base /\ (forall r', r' <> r -> w_fl w' r' = w_fl w r') /\ qok r q'.
  Proof.
    intros Hr. induction pk as [|[[g a] d] pk IH]; intros base w nd q bnd I HF End HP Eb Q.
    - exists nd, q, bnd, w. cbn. auto 20.
    - cbn [app] in HF. destruct (deliver_inv dir doComm nRanks nAngles M T mate val0 bnd0 OK w r g a d (pk ++ base) I HF) as (c' & f' & G1 & G2 & Ha & _ & Hc' & I1).
      destruct (angleGroup_total nAngles nThreads a TH Ha) as (t & Et & Ht).
      cbn [fold_left]. unfold unpackStep at 2. cbn [obind]. rewrite G1. cbn [obind]. rewrite Et. cbn [obind]. rewrite G2.
      destruct (release T r t (nd, q) c' a) as [nd1 q1] eqn:ER.
      destruct (release_view r t w nd q c' a nd1 q1 End HP Ht Q Et ER) as (R1 & R2 & R3).
      edestruct (IH base _ nd1 q1 (fupd2 bnd (rm_side (M r) c' f') a d) I1) as (nd2 & q2 & bnd2 & w2 & E2 & I2 & B1 & B2 & B3 & B4 & B5 & B6 & B7 & B8 & B9 & B10 & B11 & B12);
        cbn [w_nd w_ready w_val w_bnd w_fl w_sat w_em w_dn] in *; auto.
      { now rewrite fupd_same. }
      { intros s a'. unfold fupd2. rewrite Nat.eqb_refl. cbn [andb]. now rewrite Eb. }
      exists nd2, q2, bnd2, w2. split; auto. split; auto. split; auto. split; [intros; rewrite B2 by auto; now apply release_nd_other|]. split; auto.
      split; [intros; rewrite B4 by auto; now apply release_ready_other|]. split; auto. split; auto.
      split; [intros r' s a' N; rewrite B7 by auto; destruct (Nat.eqb_spec r' r); [congruence|reflexivity]|]. split; auto. split; auto. split; auto.
      split; [|auto]. intros r' N. rewrite B11 by auto. now rewrite fupd_other.
  Qed.
End Safe.
