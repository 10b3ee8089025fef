(** Rounds of the size-then-data exchange: how far neighbouring ranks can be apart. *)
From Coq Require Import Permutation.
From Verif Require Import Prelude Bytes MeshModel AngleModel AngleProofs TraverseModel TraverseSpec TraverseInv TraverseProofs TraverseSafe.

Section Lock.
  Context {V D : Type}.
  Variables (dir : direction) (nRanks nAngles nThreads maxCompute : nat) (psize : N).
  Variables (M : nat -> rmesh) (T : tdata V D) (mate : site -> option site).
  Variables (val0 : nat -> nat -> nat -> V) (bnd0 : nat -> nat -> nat -> D).
  Hypothesis OK : sys_fit dir nRanks nAngles M mate.
  Hypothesis TH : nThreads > 0.
  Hypothesis PS : (0 < psize)%N.
  Hypothesis FIT : forall r, r < nRanks -> (N.of_nat (nAngles * rm_nCells (M r) * 4) * psize < INT_MAX)%N.
  Notation adjRanks := (adjRanks M).
  Notation gst := (gst V D). Notation rst := (rst V D).
  Notation step := (step dir true TychoTwoSided nAngles nThreads maxCompute psize M T).
  Notation CInv := (CInv dir true TychoTwoSided nRanks nAngles nThreads psize M T mate val0 bnd0).
  Notation initial := (initial dir true TychoTwoSided nAngles nThreads M T nRanks val0 bnd0).
  Notation reach := (reach dir true TychoTwoSided nAngles nThreads maxCompute psize M T nRanks).
  Notation bytesOf := (bytesOf (D := D) psize).

  (** [r] has posted its last message to [q] (or needs none). *)
  Definition killedTo (st : rst) (q : nat) : Prop :=
    match r_ph st with Send true todo => mem q todo = false | Recv true _ _ _ => True | WaitSends true _ => True | Done => True | _ => False end.
  (** Exchanges posted and received in the current round, for a neighbour not known to have finished. *)
  Definition pos (st : rst) (q : nat) : nat * nat :=
    match r_ph st with
    | Work _ => (0, 0)
    | Send _ todo => (if mem q todo then 0 else 1, 0)
    | Recv _ pend _ _ => (1, if mem q pend then 0 else 1)
    | _ => (1, 1)
    end.
  Definition fresh (r : nat) (st : rst) : Prop :=
    match r_ph st with
    | Send _ todo => forall q, In q todo -> r_dark st q = false
    | Recv _ pend _ _ => forall q, In q pend -> r_dark st q = false
    | _ => True
    end.
  Record LInv (S : gst) : Prop := {
    k_len : forall q r, q < nRanks -> length (ch0 S q r) + g_rcvd S q r = g_sent S q r;
    k_adj : forall q r, q < nRanks -> r_dark (g_r S q) r = true -> In r (adjRanks q);
    k_fresh : forall r, r < nRanks -> fresh r (g_r S r);
    k_pos : forall r q, r < nRanks -> In q (adjRanks r) -> r_dark (g_r S r) q = false ->
      g_sent S r q = g_round (g_r S r) + fst (pos (g_r S r) q) /\ g_rcvd S q r = g_round (g_r S r) + snd (pos (g_r S r) q);
    k_dark : forall r q, r < nRanks -> r_dark (g_r S r) q = true ->
      killedTo (g_r S q) r /\ g_sent S q r = Datatypes.S (g_round (g_r S q)) /\ g_rcvd S q r = g_sent S q r /\ g_sent S r q = g_rcvd S q r;
    k_told : forall q r, q < nRanks -> In r (adjRanks q) -> killedTo (g_r S q) r -> r_dark (g_r S q) r = false ->
      r_dark (g_r S r) q = true \/ In UINT64_MAX (ch0 S q r);
    k_last : forall q r, In UINT64_MAX (ch0 S q r) ->
      killedTo (g_r S q) r /\ g_sent S q r = Datatypes.S (g_round (g_r S q)) /\ exists l, ch0 S q r = l ++ [UINT64_MAX] /\ ~ In UINT64_MAX l
  }.

  (** A step of [r] that touches no channel and only moves its phase. *)
  Lemma lock_local S r st' : LInv S -> r < nRanks -> r_dark st' = r_dark (g_r S r) -> g_round st' = g_round (g_r S r) ->
    (forall q, In q (adjRanks r) -> r_dark st' q = false -> pos st' q = pos (g_r S r) q) -> fresh r st' ->
    (forall q, killedTo (g_r S r) q -> killedTo st' q) ->
    (forall q, In q (adjRanks r) -> r_dark st' q = false -> killedTo st' q -> killedTo (g_r S r) q) -> LInv (setR S r st').
  Proof.
    intros L Hr Dk Rd Ps Fr K1 K2. 
    assert (DKE : forall x, r_dark (g_r (setR S r st') x) = r_dark (g_r S x)). { intros x. rewrite g_setR. destruct (Nat.eqb_spec x r) as [->|]; auto. }
    assert (RDE : forall x, g_round (g_r (setR S r st') x) = g_round (g_r S x)). { intros x. rewrite g_setR. destruct (Nat.eqb_spec x r) as [->|]; auto. }
    assert (KE : forall x q, killedTo (g_r S x) q -> killedTo (g_r (setR S r st') x) q). { intros x q. rewrite g_setR. destruct (Nat.eqb_spec x r) as [->|]; auto. }
    constructor.
    - apply (k_len S L).
    - intros q x Hq. rewrite DKE. now apply (k_adj S L).
    - intros x Hx. rewrite g_setR. destruct (Nat.eqb_spec x r) as [->|]; auto. now apply (k_fresh S L).
    - intros x q Hx Hq Hd. rewrite DKE in Hd. rewrite RDE. cbn [setR g_sent g_rcvd]. destruct (k_pos S L x q Hx Hq Hd) as (E1 & E2). rewrite E1, E2.
      rewrite g_setR. destruct (Nat.eqb_spec x r) as [->|]; auto. rewrite Ps; auto. now rewrite Dk.
    - intros x q Hx Hd. rewrite DKE in Hd. rewrite RDE. destruct (k_dark S L x q Hx Hd) as (A & B). split; auto.
    - intros q x Hq Hx Hk Hd. rewrite DKE in *. apply (k_told S L q x); auto. rewrite g_setR in Hk. destruct (Nat.eqb_spec q r) as [->|]; auto. apply K2; auto. now rewrite Dk.
    - intros q x H. rewrite RDE. destruct (k_last S L q x H) as (A & B). split; auto.
  Qed.

  Lemma mem_filter_nondark r (st : rst) q : In q (adjRanks r) -> r_dark st q = false -> mem q (nondark M r (r_dark st)) = true.
  Proof. intros A B. apply mem_In. apply filter_In. split; auto. now rewrite B. Qed.
  Lemma nondark_fresh r dark q : In q (nondark M r dark) -> dark q = false.
  Proof. intros H. apply filter_In in H. destruct H as (_ & H). now apply negb_true_iff in H. Qed.

  Lemma lock_initial S : initial S -> LInv S.
  Proof.
    intros (IR & IC).
    assert (ST : forall r, r < nRanks -> r_dark (g_r S r) = (fun _ => false) /\ g_round (g_r S r) = 0 /\ r_ph (g_r S r) = loopTest true TychoTwoSided M r (r_left (g_r S r)) (r_dark (g_r S r))).
    { intros r Hr. specialize (IR r Hr). unfold initRank in IR. destruct (initQueue _ _ _ _ _ _ _); [|discriminate]. cbn [obind] in IR. apply Some_inj in IR. rewrite <- IR. auto. }
    constructor.
    - intros q r _. destruct (IC q r) as (-> & _ & -> & ->). reflexivity.
    - intros q r Hq H. destruct (ST q Hq) as (E & _). rewrite E in H. discriminate.
    - intros r Hr. unfold fresh. destruct (ST r Hr) as (E1 & E2 & ->). unfold loopTest. destruct (N.eqb _ 0); auto. intros q. apply nondark_fresh.
    - intros r q Hr Hq Hd. destruct (IC r q) as (_ & _ & -> & _). destruct (IC q r) as (_ & _ & _ & ->). unfold pos. destruct (ST r Hr) as (E1 & -> & ->).
      unfold loopTest. destruct (N.eqb _ 0); auto. rewrite mem_filter_nondark by auto. auto.
    - intros r q Hr H. destruct (ST r Hr) as (E & _). rewrite E in H. discriminate.
    - intros q r Hq Hr Hk Hd. exfalso. unfold killedTo in Hk. destruct (ST q Hq) as (E1 & E2 & E3). rewrite E3 in Hk. unfold loopTest in Hk. destruct (N.eqb _ 0); auto.
      rewrite mem_filter_nondark in Hk by auto. discriminate.
    - intros q r H. destruct (IC q r) as (E & _). rewrite E in H. easy.
  Qed.

  Lemma lock_send S r kill q todo st' size c1 : CInv S -> LInv S -> r < nRanks -> r_ph (g_r S r) = Send kill (q :: todo) ->
    st' = setPh (g_r S r) (Send kill todo) -> (size = UINT64_MAX <-> kill = true) -> (kill = true -> NoDup (q :: todo)) ->
    LInv (mkGst (fupd (g_r S) r st') (fupd2 (ch0 S) r q (ch0 S r q ++ [size])) c1 (fupd2 (g_sent S) r q (Datatypes.S (g_sent S r q))) (g_rcvd S)).
  Proof.
    intros C L Hr Ph -> SZ _. set (st' := setPh _ _).
    pose proof (l_ph _ _ _ _ _ _ _ _ _ (c_loc _ _ _ _ _ _ _ _ _ _ _ _ S C r Hr)) as P6. unfold phOK in P6. rewrite Ph in P6. destruct P6 as (_ & _ & ND & IC & _).
    assert (Hq : In q (adjRanks r)) by (apply IC; now left). destruct (adjRanks_lt dir nRanks nAngles M mate OK r q Hr Hq) as (Hqn & Nq).
    assert (Hdq : r_dark (g_r S r) q = false). { pose proof (k_fresh S L r Hr) as F. unfold fresh in F. rewrite Ph in F. apply F. now left. }
    assert (NM : mem q todo = false). { inversion ND; subst. destruct (mem q todo) eqn:E; auto. apply mem_In in E. easy. }
    destruct (k_pos S L r q Hr Hq Hdq) as (PS1 & PS2). unfold pos in PS1, PS2. rewrite Ph in PS1, PS2. rewrite not_mem_cons in PS1 by auto. rewrite Nat.eqb_refl in PS1. cbn [fst snd] in PS1, PS2.
    assert (NK : ~ killedTo (g_r S r) q). { unfold killedTo. rewrite Ph. destruct kill; auto. rewrite not_mem_cons, Nat.eqb_refl by auto. discriminate. }
    assert (NX : ~ In UINT64_MAX (ch0 S r q)). { intros H. destruct (k_last S L r q H). easy. }
    set (S' := mkGst _ _ _ _ _).
    assert (GR : forall x, g_r S' x = if x =? r then st' else g_r S x) by reflexivity.
    assert (DKE : forall x, r_dark (g_r S' x) = r_dark (g_r S x)). { intros x. rewrite GR. destruct (Nat.eqb_spec x r) as [->|]; auto. }
    assert (RDE : forall x, g_round (g_r S' x) = g_round (g_r S x)). { intros x. rewrite GR. destruct (Nat.eqb_spec x r) as [->|]; auto. }
    assert (SO : forall x y, (x, y) <> (r, q) -> g_sent S' x y = g_sent S x y) by (intros; apply fupd2_other; auto).
    assert (CO : forall x y, (x, y) <> (r, q) -> ch0 S' x y = ch0 S x y) by (intros; apply fupd2_other; auto).
    assert (SS : g_sent S' r q = Datatypes.S (g_sent S r q)) by apply fupd2_same.
    assert (CS : ch0 S' r q = ch0 S r q ++ [size]) by apply fupd2_same.
    assert (KE : forall x y, killedTo (g_r S x) y -> killedTo (g_r S' x) y).
    { intros x y H. rewrite GR. destruct (Nat.eqb_spec x r) as [->|]; auto. unfold killedTo in *. cbn [st' setPh r_ph]. rewrite Ph in H. destruct kill; auto. rewrite not_mem_cons in H by auto.
      destruct (y =? q); [discriminate|auto]. }
    assert (KEi : forall x y, (x, y) <> (r, q) -> killedTo (g_r S' x) y -> killedTo (g_r S x) y).
    { intros x y N H. rewrite GR in H. destruct (Nat.eqb_spec x r) as [->|]; auto. unfold killedTo in *. cbn [st' setPh r_ph] in H. rewrite Ph. destruct kill; auto. rewrite not_mem_cons by auto.
      destruct (Nat.eqb_spec y q) as [->|]; [congruence|auto]. }
    assert (DEC : forall x y : nat, (x, y) = (r, q) \/ (x, y) <> (r, q)).
    { intros x y. destruct (Nat.eq_dec x r), (Nat.eq_dec y q); subst; auto; right; congruence. }
    assert (RV : g_rcvd S' = g_rcvd S) by reflexivity.
    clearbody S'. constructor; rewrite ?RV.
    - intros x y Hx. pose proof (k_len S L x y Hx) as E. destruct (DEC x y) as [X|N].
      + injection X as -> ->. rewrite SS, CS, app_length. cbn [length]. lia.
      + rewrite SO, CO by auto. auto.
    - intros x y Hx. rewrite DKE. now apply (k_adj S L).
    - intros x Hx. rewrite GR. destruct (Nat.eqb_spec x r) as [->|]; [|now apply (k_fresh S L)]. unfold fresh. cbn [st' setPh r_ph r_dark]. pose proof (k_fresh S L r Hr) as F. unfold fresh in F. rewrite Ph in F.
      intros y Hy. apply F. now right.
    - intros x y Hx Hy Hd. rewrite DKE in Hd. rewrite RDE. destruct (k_pos S L x y Hx Hy Hd) as (E1 & E2). destruct (DEC x y) as [X|N].
      + injection X as -> ->. rewrite SS, GR, Nat.eqb_refl. unfold pos. cbn [st' setPh r_ph]. rewrite NM. cbn [fst snd]. lia.
      + rewrite SO by auto. rewrite E1, E2. rewrite GR. destruct (Nat.eqb_spec x r) as [->|]; auto. unfold pos. rewrite Ph. cbn [st' setPh r_ph]. rewrite not_mem_cons by auto.
        destruct (Nat.eqb_spec y q) as [->|]; [congruence|auto].
    - intros x y Hx Hd. rewrite DKE in Hd. rewrite RDE. destruct (k_dark S L x y Hx Hd) as (A & B1 & B2 & B3).
      assert (N1 : (y, x) <> (r, q)) by (intros X; injection X as -> ->; easy). assert (N2 : (x, y) <> (r, q)) by (intros X; injection X as -> ->; congruence).
      rewrite !SO by auto. auto.
    - intros x y Hx Hy Hk Hd. rewrite DKE in *. destruct (DEC x y) as [X|N].
      + injection X as -> ->. rewrite GR, Nat.eqb_refl in Hk. unfold killedTo in Hk. cbn [st' setPh r_ph] in Hk. destruct kill; [|easy]. right. rewrite CS. apply in_app_iff. right. left. now apply SZ.
      + rewrite CO by auto. apply (k_told S L x y); auto.
    - intros x y H. rewrite RDE. destruct (DEC x y) as [X|N].
      + injection X as -> ->. rewrite SS, CS. rewrite CS in H. apply in_app_iff in H. destruct H as [H|[H|[]]]; [easy|]. apply SZ in H. subst kill.
        split; [rewrite GR, Nat.eqb_refl; unfold killedTo; cbn [st' setPh r_ph]; exact NM|]. split; [lia|]. exists (ch0 S r q). split; auto. f_equal. f_equal. now apply SZ.
      + rewrite CO in * by auto. destruct (k_last S L x y H) as (A & B & Z). rewrite SO by auto. auto.
  Qed.

  Lemma lock_size S r kill q p1 p2 pk n sizes st' : CInv S -> LInv S -> r < nRanks -> r_ph (g_r S r) = Recv kill (p1 ++ q :: p2) None pk -> ch0 S q r = n :: sizes ->
    (exists cu, r_ph st' = Recv kill (p1 ++ p2) cu pk) -> g_round st' = g_round (g_r S r) -> r_dark st' = (if N.eqb n UINT64_MAX then fupd (r_dark (g_r S r)) q true else r_dark (g_r S r)) ->
    LInv (mkGst (fupd (g_r S) r st') (fupd2 (ch0 S) q r sizes) (ch1 S) (g_sent S) (fupd2 (g_rcvd S) q r (Datatypes.S (g_rcvd S q r)))).
  Proof.
    intros C L Hr Ph E (cu & Ph') Rd Dk.
    pose proof (l_ph _ _ _ _ _ _ _ _ _ (c_loc _ _ _ _ _ _ _ _ _ _ _ _ S C r Hr)) as P6. unfold phOK in P6. rewrite Ph in P6. destruct P6 as (_ & _ & ND & IC & _).
    assert (Hq : In q (adjRanks r)) by (apply IC; apply in_elt). destruct (adjRanks_lt dir nRanks nAngles M mate OK r q Hr Hq) as (Hqn & Nq).
    assert (Hdq : r_dark (g_r S r) q = false). { pose proof (k_fresh S L r Hr) as F. unfold fresh in F. rewrite Ph in F. apply F. apply in_elt. }
    assert (ND' : NoDup (p1 ++ p2)) by (eapply NoDup_remove_1; eauto). assert (NI : ~ In q (p1 ++ p2)) by (eapply NoDup_remove_2; eauto).
    assert (NM : mem q (p1 ++ p2) = false). { destruct (mem q (p1 ++ p2)) eqn:X; auto. apply mem_In in X. easy. }
    assert (MM : mem q (p1 ++ q :: p2) = true) by (apply mem_In, in_elt).
    assert (MO : forall y, y <> q -> mem y (p1 ++ p2) = mem y (p1 ++ q :: p2)).
    { intros y N. unfold mem. rewrite !existsb_app. cbn [existsb]. destruct (Nat.eqb_spec y q); [congruence|reflexivity]. }
    destruct (k_pos S L r q Hr Hq Hdq) as (PS1 & PS2). unfold pos in PS1, PS2. rewrite Ph in PS1, PS2. rewrite MM in PS2. cbn [fst snd] in PS1, PS2.
    set (S' := mkGst _ _ _ _ _).
    assert (GR : forall x, g_r S' x = if x =? r then st' else g_r S x) by reflexivity.
    assert (RDE : forall x, g_round (g_r S' x) = g_round (g_r S x)). { intros x. rewrite GR. destruct (Nat.eqb_spec x r) as [->|]; auto. }
    assert (KE : forall x y, killedTo (g_r S' x) y <-> killedTo (g_r S x) y).
    { intros x y. rewrite GR. destruct (Nat.eqb_spec x r) as [->|]; [|tauto]. unfold killedTo. rewrite Ph, Ph'. tauto. }
    assert (DKO : forall x y, (x, y) <> (r, q) -> r_dark (g_r S' x) y = r_dark (g_r S x) y).
    { intros x y N. rewrite GR. destruct (Nat.eqb_spec x r) as [->|]; auto. rewrite Dk. destruct (N.eqb n UINT64_MAX); auto. apply fupd_other. congruence. }
    assert (DKS : r_dark (g_r S' r) q = N.eqb n UINT64_MAX).
    { rewrite GR, Nat.eqb_refl, Dk. destruct (N.eqb n UINT64_MAX); [apply fupd_same|auto]. }
    assert (RO : forall x y, (x, y) <> (q, r) -> g_rcvd S' x y = g_rcvd S x y) by (intros; apply fupd2_other; auto).
    assert (CO : forall x y, (x, y) <> (q, r) -> ch0 S' x y = ch0 S x y) by (intros; apply fupd2_other; auto).
    assert (RS : g_rcvd S' q r = Datatypes.S (g_rcvd S q r)) by apply fupd2_same.
    assert (CS : ch0 S' q r = sizes) by apply fupd2_same.
    assert (SE : g_sent S' = g_sent S) by reflexivity.
    assert (DEC : forall x y u v : nat, (x, y) = (u, v) \/ (x, y) <> (u, v)).
    { clear. intros x y u v. destruct (Nat.eq_dec x u), (Nat.eq_dec y v); subst; auto; right; congruence. }
    assert (LAST : n = UINT64_MAX -> sizes = [] /\ killedTo (g_r S q) r /\ g_sent S q r = Datatypes.S (g_round (g_r S q))).
    { intros ->. destruct (k_last S L q r) as (A & B & l & Z & NL); [rewrite E; now left|]. split; auto. rewrite E in Z. destruct l as [|x l]; [injection Z as ->; auto|].
      injection Z as <- _. exfalso. apply NL. now left. }
    clearbody S'. constructor; rewrite ?SE.
    - intros x y Hx. pose proof (k_len S L x y Hx) as X. destruct (DEC x y q r) as [Y|N].
      + injection Y as -> ->. rewrite RS, CS. rewrite E in X. cbn [length] in X. lia.
      + rewrite RO, CO by auto. auto.
    - intros x y Hx Hd. destruct (DEC x y r q) as [Y|N]; [injection Y as -> ->; auto|]. rewrite DKO in Hd by auto. now apply (k_adj S L).
    - intros x Hx. rewrite GR. destruct (Nat.eqb_spec x r) as [->|]; [|now apply (k_fresh S L)]. unfold fresh. rewrite Ph'. intros y Hy.
      pose proof (k_fresh S L r Hr) as F. unfold fresh in F. rewrite Ph in F.
      assert (y <> q) by (intros ->; easy). rewrite Dk. assert (r_dark (g_r S r) y = false) by (apply F; apply in_app_iff in Hy; apply in_app_iff; cbn; tauto).
      destruct (N.eqb n UINT64_MAX); auto. rewrite fupd_other; auto.
    - intros x y Hx Hy Hd. rewrite RDE. destruct (DEC x y r q) as [Y|N].
      + injection Y as -> ->. rewrite RS. rewrite GR, Nat.eqb_refl. unfold pos. rewrite Ph', NM. cbn [fst snd]. lia.
      + rewrite DKO in Hd by auto. destruct (k_pos S L x y Hx Hy Hd) as (E1 & E2). rewrite RO by (intros X; injection X as -> ->; easy). rewrite E1, E2. rewrite GR.
        destruct (Nat.eqb_spec x r) as [->|]; auto. unfold pos. rewrite Ph, Ph'. rewrite MO by congruence. auto.
    - intros x y Hx Hd. rewrite RDE, KE. destruct (DEC x y r q) as [Y|N].
      + injection Y as -> ->. rewrite DKS in Hd. apply N.eqb_eq in Hd. destruct (LAST Hd) as (Z & A & B). rewrite RS. split; auto. split; auto.
        pose proof (k_len S L q r Hqn) as X. rewrite E, Z in X. cbn [length] in X. split; lia.
      + rewrite DKO in Hd by auto. destruct (k_dark S L x y Hx Hd) as (A & B1 & B2 & B3). rewrite RO by (intros X; injection X as -> ->; easy). auto.
    - intros x y Hx Hy Hk Hd. rewrite KE in Hk. destruct (DEC x y r q) as [Y|N].
      + injection Y as -> ->. rewrite DKS in Hd. rewrite DKO by congruence. rewrite CO by congruence. apply (k_told S L r q); auto.
      + rewrite DKO in Hd by auto. destruct (k_told S L x y Hx Hy Hk Hd) as [X|X].
        * left. destruct (DEC y x r q) as [Y|N']; [injection Y as -> ->; congruence|]. now rewrite DKO by auto.
        * destruct (DEC x y q r) as [Y|N'].
          -- injection Y as -> ->. rewrite E in X. destruct X as [X|X]; [left; rewrite DKS; now apply N.eqb_eq|right; now rewrite CS].
          -- right. now rewrite CO.
    - intros x y H. rewrite RDE, KE. destruct (DEC x y q r) as [Y|N].
      + injection Y as -> ->. rewrite CS in *. destruct (k_last S L q r) as (A & B & l & Z & NL); [rewrite E; now right|]. split; auto. split; auto.
        rewrite E in Z. destruct l as [|u l]; [injection Z as _ ->; easy|]. injection Z as -> ->. exists l. split; auto. intros X. apply NL. now right.
      + rewrite CO in * by auto. apply (k_last S L x y H).
  Qed.

  Lemma lock_exchange S r st' pk : CInv S -> LInv S -> r < nRanks -> r_ph (g_r S r) = WaitSends false pk -> r_dark st' = r_dark (g_r S r) -> g_round st' = Datatypes.S (g_round (g_r S r)) ->
    r_ph st' = loopTest true TychoTwoSided M r (r_left st') (r_dark (g_r S r)) -> LInv (setR S r st').
  Proof.
    intros C L Hr Ph Dk Rd Ph'.
    assert (NK : forall q, ~ killedTo (g_r S r) q) by (intros q; unfold killedTo; rewrite Ph; auto).
    assert (DKE : forall x, r_dark (g_r (setR S r st') x) = r_dark (g_r S x)). { intros x. rewrite g_setR. destruct (Nat.eqb_spec x r) as [->|]; auto. }
    constructor.
    - apply (k_len S L).
    - intros q x Hq. rewrite DKE. now apply (k_adj S L).
    - intros x Hx. rewrite g_setR. destruct (Nat.eqb_spec x r) as [->|]; [|now apply (k_fresh S L)]. unfold fresh. rewrite Ph'. unfold loopTest. destruct (N.eqb _ 0); auto. rewrite Dk. intros q. apply nondark_fresh.
    - intros x q Hx Hq Hd. rewrite DKE in Hd. cbn [setR g_sent g_rcvd]. destruct (k_pos S L x q Hx Hq Hd) as (E1 & E2). rewrite E1, E2.
      rewrite g_setR. destruct (Nat.eqb_spec x r) as [->|]; auto. unfold pos. rewrite Ph, Ph', Rd. unfold loopTest. destruct (N.eqb _ 0); cbn [fst snd]; [|lia].
      rewrite mem_filter_nondark by auto. lia.
    - intros x q Hx Hd. rewrite DKE in Hd. destruct (k_dark S L x q Hx Hd) as (A & B). rewrite g_setR. destruct (Nat.eqb_spec q r) as [->|]; [destruct (NK _ A)|auto].
    - intros q x Hq Hx Hk Hd. rewrite DKE in *. rewrite g_setR in Hk. destruct (Nat.eqb_spec q r) as [->|]; [|apply (k_told S L q x); auto].
      exfalso. unfold killedTo in Hk. rewrite Ph' in Hk. unfold loopTest in Hk. destruct (N.eqb _ 0); auto. rewrite mem_filter_nondark in Hk by auto. discriminate.
    - intros q x H. destruct (k_last S L q x H) as (A & B). rewrite g_setR. destruct (Nat.eqb_spec q r) as [->|]; [destruct (NK _ A)|auto].
  Qed.

  Lemma lock_free (S : gst) g c1 : LInv (mkGst g (ch0 S) (ch1 S) (g_sent S) (g_rcvd S)) -> LInv (mkGst g (ch0 S) c1 (g_sent S) (g_rcvd S)).
  Proof. intros [A1 A2 A3 A4 A5 A6 A7]. constructor; auto. Qed.

  Theorem lock_step S r l S' : CInv S -> LInv S -> r < nRanks -> step r S l S' -> LInv S'.
  Proof.
    intros C L Hr H. pose proof (step_ok dir true TychoTwoSided nRanks nAngles nThreads maxCompute psize M T mate val0 bnd0 OK TH PS FIT S r l S' C Hr H) as C'.
    pose proof (l_ph _ _ _ _ _ _ _ _ _ (c_loc _ _ _ _ _ _ _ _ _ _ _ _ S C r Hr)) as P6. unfold phOK in P6.
    pose proof (k_fresh S L r Hr) as FR. unfold fresh in FR.
    destruct H.
    - rewrite H in *. destruct (step_work_ok dir true TychoTwoSided nRanks nAngles nThreads psize M T mate val0 bnd0 OK TH PS FIT S r t steps c a p rest1 rest2 C Hr H H0 H2) as (_ & _ & _ & _ & NF).
      revert NF. unfold compute. destruct (fold_left _ _ _) as [[[nd q] buf]|]; [intros _|cbn; congruence].
      apply lock_local; auto; unfold fresh, pos, killedTo; cbn [r_ph]; rewrite ?H; auto.
    - apply lock_local; auto; unfold endWork, fresh, pos, killedTo; cbn [r_ph setPh r_dark g_round]; rewrite ?H; auto; try easy.
      + intros q Hq Hd. rewrite mem_filter_nondark by auto. auto.
      + intros q. apply nondark_fresh.
    - destruct (data && negb (N.ltb (bytesOf (r_buf1 st q)) INT_MAX)) eqn:EF.
      + exfalso. pose proof (l_ph _ _ _ _ _ _ _ _ _ (c_loc _ _ _ _ _ _ _ _ _ _ _ _ _ C' r Hr)) as P7. rewrite g_setR, Nat.eqb_refl in P7. exact P7.
      + apply (lock_send S r kill q todo _ size); auto.
        * unfold size. destruct kill; [tauto|]. split; [|discriminate]. intros X. exfalso.
          assert (B : (bytesOf (r_buf1 st q) < INT_MAX)%N).
          { rewrite H in P6. destruct P6 as (_ & _ & ND & IC & _).
            apply (flS_small dir true TychoTwoSided nRanks nAngles nThreads psize M T mate val0 bnd0 OK TH PS FIT S q); auto.
            - apply (adjRanks_lt dir nRanks nAngles M mate OK r q Hr). apply IC. now left.
            - pose proof (unsent_len nRanks nAngles nThreads maxCompute psize M val0 bnd0 TH PS FIT S r q Hr) as Y. unfold unsent in Y. rewrite H in Y. rewrite not_mem_cons, Nat.eqb_refl in Y by auto. exact Y. }
          rewrite X in B. vm_compute in B. discriminate.
        * rewrite H in P6. tauto.
    - rewrite H in *. apply lock_local; auto; unfold fresh, pos, killedTo; cbn [r_ph setPh r_dark]; rewrite ?H; auto.
      + intros q Hq Hd. rewrite mem_filter_nondark by auto. reflexivity.
      + intros q. apply nondark_fresh.
      + destruct kill; auto.
      + destruct kill; auto.
    - apply (lock_size S r kill q p1 p2 pk n sizes); auto. cbn. eauto.
    - destruct (N.eqb (bytesOf l) n) eqn:EN.
      + apply lock_free. apply (lock_local S r (setPh (g_r S r) (Recv kill pend None (pk ++ l)))); auto; unfold fresh, pos, killedTo; cbn [r_ph setPh r_dark]; rewrite ?H; auto.
        rewrite H in FR. auto.
      + exfalso. pose proof (l_ph _ _ _ _ _ _ _ _ _ (c_loc _ _ _ _ _ _ _ _ _ _ _ _ _ C' r Hr)) as P7. rewrite g_setR, Nat.eqb_refl in P7. exact P7.
    - apply lock_local; auto; unfold fresh, pos, killedTo; cbn [r_ph setPh r_dark]; rewrite ?H; auto.
    - destruct kill.
      + apply lock_local; auto; unfold fresh, pos, killedTo; cbn [r_ph setPh r_dark]; rewrite ?H; auto.
      + pose proof (l_ph _ _ _ _ _ _ _ _ _ (c_loc _ _ _ _ _ _ _ _ _ _ _ _ _ C' r Hr)) as P7. rewrite g_setR, Nat.eqb_refl in P7. revert P7.
        unfold endExchange. destruct (fold_left _ _ _) as [[[nd q] bnd]|]; [intros _|intros []]. eapply lock_exchange; eauto.
    - rewrite H in P6. destruct P6. discriminate.
    - rewrite H in P6. destruct P6. discriminate.
    - rewrite H in P6. destruct P6. discriminate.
    - rewrite H in P6. destruct P6. discriminate.
    - rewrite H in P6. destruct P6. discriminate.
    - rewrite H in P6. destruct P6. discriminate.
  Qed.
  Theorem lock_reach S0 S : initial S0 -> reach S0 S -> CInv S /\ LInv S.
  Proof.
    intros I R. induction R as [|S r l S' R (C & L) Hr H].
    - split; [apply initial_ok; auto|now apply lock_initial].
    - split; [eapply step_ok; eauto|eapply lock_step; eauto].
  Qed.
End Lock.
