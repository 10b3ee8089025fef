(** No deadlock, and termination, of the size-then-data exchange. *)
From Coq Require Import Permutation.
From Verif Require Import Prelude Bytes MeshModel AngleModel AngleProofs TraverseModel TraverseSpec TraverseInv TraverseProofs TraverseSafe TraverseLock.

Lemma max_split {X} (f : X -> N) (l : list X) : l <> [] -> exists l1 x l2, l = l1 ++ x :: l2 /\ forall y, In y l -> (f y <= f x)%N.
Proof.
  induction l as [|y l IH]; [easy|]. intros _. destruct l as [|z l].
  - exists [], y, []. split; auto. intros w [<-|[]]. lia.
  - destruct IH as (l1 & x & l2 & E & H); [easy|]. destruct (N.leb_spec (f y) (f x)).
    + exists (y :: l1), x, l2. split; [now rewrite E|]. intros w [<-|Hw]; auto.
    + exists [], y, (z :: l). split; auto. intros w [<-|Hw]; [lia|]. specialize (H w Hw). lia.
Qed.

Section Live.
  Context {V D : Type}.
  Variables (dir : direction) (nRanks nAngles nThreads maxCompute : nat) (psize : N).
  Variables (M : nat -> rmesh) (T : tdata V D) (mate : site -> option site).
  Variables (val0 : nat -> nat -> nat -> V) (bnd0 : nat -> nat -> nat -> D).
  Hypothesis OK : sys_fit dir nRanks nAngles M mate.
  Hypothesis TH : nThreads > 0.
  Hypothesis PS : (0 < psize)%N.
  Hypothesis FIT : forall r, r < nRanks -> (N.of_nat (nAngles * rm_nCells (M r) * 4) * psize < INT_MAX)%N.
  Notation adjRanks := (adjRanks M).
  Notation gst := (gst V D). Notation rst := (rst V D).
  Notation step := (step dir true TychoTwoSided nAngles nThreads maxCompute psize M T).
  Notation CInv := (CInv dir true TychoTwoSided nRanks nAngles nThreads psize M T mate val0 bnd0).
  Notation LInv := (LInv nRanks M).
  Notation initial := (initial dir true TychoTwoSided nAngles nThreads M T nRanks val0 bnd0).
  Notation reach := (reach dir true TychoTwoSided nAngles nThreads maxCompute psize M T nRanks).
  Notation bytesOf := (bytesOf (D := D) psize).

  (** Messages only travel between neighbours. *)
  Definition ChInv (S : gst) : Prop := forall q r, ch0 S q r <> [] \/ ch1 S q r <> [] -> In r (adjRanks q).
  Lemma ch_step S r l S' : CInv S -> ChInv S -> r < nRanks -> step r S l S' -> ChInv S'.
  Proof.
    intros C I Hr H. pose proof (l_ph _ _ _ _ _ _ _ _ _ (c_loc _ _ _ _ _ _ _ _ _ _ _ _ S C r Hr)) as P6. unfold phOK in P6.
    destruct H; auto.
    - destruct (data && negb (N.ltb (bytesOf (r_buf1 st q)) INT_MAX)); auto. rewrite H in P6. destruct P6 as (_ & _ & _ & IC & _). intros x y. cbn [ch0 ch1]. clearbody data size.
      destruct data; unfold fupd2; destruct (Nat.eqb_spec x r) as [Ex|], (Nat.eqb_spec y q) as [Ey|]; cbn [andb]; try (intros X; apply I; exact X);
        intros _; rewrite Ex, Ey; apply IC; now left.
    - intros x y. cbn [ch0 ch1]. unfold fupd2. destruct (Nat.eqb_spec x q) as [->|], (Nat.eqb_spec y r) as [->|]; cbn [andb]; try apply I. intros _. apply I. left. rewrite H0. easy.
    - destruct (N.eqb (bytesOf l) n); auto. intros x y. cbn [ch0 ch1]. unfold fupd2. destruct (Nat.eqb_spec x q) as [->|], (Nat.eqb_spec y r) as [->|]; cbn [andb]; try apply I. intros _. apply I. right. rewrite H0. easy.
    - rewrite H in P6. destruct P6. discriminate.
    - rewrite H in P6. destruct P6. discriminate.
  Qed.
  Definition enabled (S : gst) (r : nat) : Prop := exists l S', step r S l S' /\ l <> LEager.

  Lemma classify S r : CInv S -> LInv S -> ChInv S -> r < nRanks ->
    enabled S r \/ r_ph (g_r S r) = Done \/
    (exists kill q p2 pk, r_ph (g_r S r) = Recv kill (q :: p2) None pk /\ forall x, In x (q :: p2) -> ch0 S x r = []) \/
    (exists kill pk q, r_ph (g_r S r) = WaitSends kill pk /\ In q (adjRanks r) /\ (ch0 S r q <> [] \/ ch1 S r q <> [])).
  Proof.
    intros C L I Hr. pose proof (l_ph _ _ _ _ _ _ _ _ _ (c_loc _ _ _ _ _ _ _ _ _ _ _ _ S C r Hr)) as P6. unfold phOK in P6.
    destruct (r_ph (g_r S r)) as [steps|kill todo|kill pend cu pk|kill pk|todo| |todo pk| |] eqn:Ph; auto.
    - (* Work *)
      left. destruct (Forall_Exists_dec (fun t => r_queue (g_r S r) t = [] \/ maxCompute <= steps t)) with (l := seq 0 nThreads) as [F|F].
      + intros t. destruct (r_queue (g_r S r) t); [left; auto|]. destruct (le_lt_dec maxCompute (steps t)); [left; auto|right; intros [X|X]; [discriminate|lia]].
      + exists LComm. eexists. split; [|discriminate]. eapply step_end; eauto. intros t Ht. rewrite Forall_forall in F. apply F. apply in_seq. lia.
      + apply Exists_exists in F. destruct F as (t & Ht & F). apply in_seq in Ht.
        assert (NQ : r_queue (g_r S r) t <> []) by tauto.
        destruct (max_split (fun x : tuple => snd x) _ NQ) as (l1 & [[c a] p] & l2 & E & Mx).
        exists LWork. eexists. split; [|discriminate]. eapply (step_work _ _ _ _ _ _ _ _ _ r S t steps c a p l1 l2); eauto; [lia|lia|]. intros c' a' p' H. exact (Mx _ H).
    - (* Send *)
      left. destruct todo as [|q todo]; exists LComm; eexists; (split; [|intros X; discriminate X]); [eapply step_sent; eauto|eapply step_send; eauto].
    - (* Recv *)
      destruct cu as [[q n]|].
      + left. destruct P6 as (_ & _ & _ & _ & _ & CK). destruct (CK q n eq_refl) as (Hn & Hq).
        pose proof (c_msg _ _ _ _ _ _ _ _ _ _ _ _ S C eq_refl q r Hq Hr) as X. unfold cur in X. rewrite Ph, Nat.eqb_refl in X. cbn [app filter] in X. rewrite Hn in X.
        destruct (ch1 S q r) as [|l ls] eqn:E; [discriminate|]. exists LComm; eexists. split; [eapply step_data; eauto|intros Y; discriminate Y].
      + destruct pend as [|q p2].
        * left. exists LComm; eexists. split; [eapply step_recvd; eauto|intros Y; discriminate Y].
        * destruct (Forall_Exists_dec (fun x => ch0 S x r = [])) with (l := q :: p2) as [F|F].
          -- intros x. destruct (ch0 S x r); [left|right]; easy.
          -- right. right. left. exists kill, q, p2, pk. split; auto. rewrite Forall_forall in F. exact F.
          -- apply Exists_exists in F. destruct F as (x & Hx & F). destruct (ch0 S x r) as [|n ns] eqn:E; [easy|]. apply in_split in Hx. destruct Hx as (u1 & u2 & Eu). rewrite Eu in Ph.
             left. exists LComm; eexists. split; [eapply (step_size _ _ _ _ _ _ _ _ _ r S kill x u1 u2); eauto|intros Y; discriminate Y].
    - (* WaitSends *)
      destruct (Forall_Exists_dec (fun q => ch0 S r q = [] /\ ch1 S r q = [])) with (l := adjRanks r) as [F|F].
      + intros q. destruct (ch0 S r q), (ch1 S r q); [left; auto|right|right|right]; intros (A & B); discriminate.
      + left. exists LComm; eexists. split; [eapply (step_wait _ _ _ _ _ _ _ _ _ r S kill pk false); eauto|intros Y; discriminate Y].
        intros _ q. rewrite Forall_forall in F. destruct (ch0 S r q) eqn:E0.
        * split; auto. destruct (ch1 S r q) eqn:E1; auto. assert (HI : In q (adjRanks r)) by (apply I; right; rewrite E1; easy). destruct (F q HI). congruence.
        * assert (HI : In q (adjRanks r)) by (apply I; left; rewrite E0; easy). destruct (F q HI). congruence.
      + apply Exists_exists in F. destruct F as (q & Hq & F). right. right. right. exists kill, pk, q. split; auto. split; auto.
        destruct (ch0 S r q), (ch1 S r q); auto; left; easy || (right; easy).
    - destruct P6. discriminate.
    - destruct P6. discriminate.
    - destruct P6. discriminate.
    - destruct P6.
  Qed.

  Theorem no_deadlock S : CInv S -> LInv S -> ChInv S -> ~ finished nRanks S -> exists r, r < nRanks /\ enabled S r.
  Proof.
    intros C L I NF.
    (* classical reasoning on a finite set *)
    assert (DEC : forall n, n <= nRanks -> (exists r, r < n /\ enabled S r) \/ (forall r, r < n -> r_ph (g_r S r) = Done \/
      (exists kill q p2 pk, r_ph (g_r S r) = Recv kill (q :: p2) None pk /\ forall x, In x (q :: p2) -> ch0 S x r = []) \/
      (exists kill pk q, r_ph (g_r S r) = WaitSends kill pk /\ In q (adjRanks r) /\ (ch0 S r q <> [] \/ ch1 S r q <> [])))).
    { induction n as [|n IH]; intros Hn; [right; intros; lia|]. destruct (IH ltac:(lia)) as [(r & A & B)|F]; [left; exists r; split; auto; lia|].
      destruct (classify S n C L I ltac:(lia)) as [E|E]; [left; eauto|]. right. intros r Hr. destruct (Nat.eq_dec r n) as [->|]; auto. apply F. lia. }
    destruct (DEC nRanks (le_n _)) as [E|BL]; auto. exfalso.
    assert (KEY : forall k r, r < nRanks -> g_round (g_r S r) = k -> r_ph (g_r S r) = Done).
    { induction k as [k IH] using lt_wf_ind. intros r Hr Ek. destruct (BL r Hr) as [E|[(kill & q & p2 & pk & Ph & E0)|(kill & pk & q & Ph & Hq & HC)]]; auto; exfalso.
      - (* waits for a size of q *)
        pose proof (l_ph _ _ _ _ _ _ _ _ _ (c_loc _ _ _ _ _ _ _ _ _ _ _ _ S C r Hr)) as P6. unfold phOK in P6. rewrite Ph in P6. destruct P6 as (_ & _ & _ & IC & _). specialize (E0 q (or_introl eq_refl)).
        assert (Hq : In q (adjRanks r)) by (apply IC; now left). destruct (adjRanks_lt dir nRanks nAngles M mate OK r q Hr Hq) as (Hqn & Nq).
        assert (Hrq : In r (adjRanks q)) by (apply (adjRanks_sym dir nRanks nAngles M mate OK r q); auto).
        assert (Hd : r_dark (g_r S r) q = false). { pose proof (k_fresh _ _ S L r Hr) as F. unfold fresh in F. rewrite Ph in F. apply F. now left. }
        destruct (k_pos _ _ S L r q Hr Hq Hd) as (P1 & P2). unfold pos in P1, P2. rewrite Ph in P1, P2. assert (Mq : mem q (q :: p2) = true) by (apply mem_In; now left). rewrite Mq in P2. cbn [fst snd] in P1, P2.
        pose proof (k_len _ _ S L q r Hqn) as LN. rewrite E0 in LN. cbn [length] in LN.
        destruct (r_dark (g_r S q) r) eqn:Hdq.
        + destruct (k_dark _ _ S L q r Hqn Hdq) as (K1 & K2 & K3 & K4). lia.
        + destruct (k_pos _ _ S L q r Hqn Hrq Hdq) as (Q1 & Q2).
          assert (DQ : r_ph (g_r S q) = Done).
          { apply (IH (g_round (g_r S q))); auto. unfold pos in Q1. destruct (BL q Hqn) as [E|[(kill' & q' & p2' & pk' & Ph' & _)|(kill' & pk' & q' & Ph' & _)]]; [rewrite E in Q1|rewrite Ph' in Q1|rewrite Ph' in Q1]; cbn [fst] in Q1; lia. }
          destruct (k_told _ _ S L q r Hqn Hrq) as [X|X]; auto; [unfold killedTo; now rewrite DQ|congruence|rewrite E0 in X; easy].
      - (* waits for its sends to q *)
        destruct (adjRanks_lt dir nRanks nAngles M mate OK r q Hr Hq) as (Hqn & Nq). assert (Hrq : In r (adjRanks q)) by (apply (adjRanks_sym dir nRanks nAngles M mate OK r q); auto).
        assert (C0 : ch0 S r q <> []).
        { destruct HC as [X|X]; auto. intros Z. pose proof (c_msg _ _ _ _ _ _ _ _ _ _ _ _ S C eq_refl r q Hr Hqn) as Y. rewrite Z, app_nil_r in Y.
          assert (CU : cur (g_r S q) r = []).
          { unfold cur. destruct (BL q Hqn) as [E|[(kill' & q' & p2' & pk' & Ph' & _)|(kill' & pk' & q' & Ph' & _)]]; [rewrite E|rewrite Ph'|rewrite Ph']; auto. }
          rewrite CU in Y. destruct (ch1 S r q); [easy|discriminate]. }
        pose proof (k_len _ _ S L r q Hr) as LN. destruct (ch0 S r q) as [|n ns] eqn:E0; [easy|]. cbn [length] in LN.
        destruct (r_dark (g_r S q) r) eqn:Hdq.
        { destruct (k_dark _ _ S L q r Hqn Hdq) as (K1 & K2 & K3 & K4). lia. }
        destruct (k_pos _ _ S L q r Hqn Hrq Hdq) as (Q1 & Q2).
        assert (SQ : g_rcvd S r q = g_round (g_r S q) + 1).
        { unfold pos in Q2. destruct (BL q Hqn) as [E|[(kill' & q' & p2' & pk' & Ph' & E1)|(kill' & pk' & q' & Ph' & _)]]; [rewrite E in Q2; exact Q2| |rewrite Ph' in Q2; exact Q2].
          rewrite Ph' in Q2. cbn [snd] in Q2. destruct (mem r (q' :: p2')) eqn:Em; auto. apply mem_In in Em. specialize (E1 r Em). congruence. }
        destruct (r_dark (g_r S r) q) eqn:Hdr.
        + destruct (k_dark _ _ S L r q Hr Hdr) as (K1 & K2 & K3 & K4). lia.
        + destruct (k_pos _ _ S L r q Hr Hq Hdr) as (P1 & P2). unfold pos in P1, P2. rewrite Ph in P1, P2. cbn [fst snd] in P1, P2.
          assert (DQ : r_ph (g_r S q) = Done) by (apply (IH (g_round (g_r S q))); auto; lia).
          destruct (k_told _ _ S L q r Hqn Hrq) as [X|X]; auto; [unfold killedTo; now rewrite DQ|congruence|].
          unfold pos in Q1. rewrite DQ in Q1. cbn [fst] in Q1. pose proof (k_len _ _ S L q r Hqn). destruct (ch0 S q r); [destruct X|]. cbn [length] in *. lia. }
    apply NF. intros r Hr. eapply KEY; eauto.
  Qed.
End Live.
