(** The traversal ends: no execution is infinite when the dependencies have no cycle. *)
From Coq Require Import Permutation.
From Verif Require TychoProofs.
From Verif Require Import Prelude Bytes MeshModel AngleModel AngleProofs TraverseModel TraverseSpec TraverseInv TraverseProofs TraverseSafe TraverseLock TraverseLive.

(** ** Sums over ranks *)
Definition sumr (n : nat) (f : nat -> nat) : nat := list_sum (map f (seq 0 n)).
Lemma sumr_S n f : sumr (S n) f = sumr n f + f n.
Proof. unfold sumr. rewrite seq_S, map_app, list_sum_app. cbn. lia. Qed.
Lemma sumr_le n f g : (forall r, r < n -> f r <= g r) -> sumr n f <= sumr n g.
Proof. induction n; intros H; [easy|]. rewrite !sumr_S. pose proof (H n ltac:(lia)). specialize (IHn ltac:(intros; apply H; lia)). lia. Qed.
Lemma sumr_lt n f g r : (forall r, r < n -> f r <= g r) -> r < n -> f r < g r -> sumr n f < sumr n g.
Proof.
  induction n; intros H Hr L; [easy|]. rewrite !sumr_S. destruct (Nat.eq_dec r n) as [->|N].
  - pose proof (sumr_le n f g ltac:(intros; apply H; lia)). lia.
  - pose proof (H n ltac:(lia)). specialize (IHn ltac:(intros; apply H; lia) ltac:(lia) L). lia.
Qed.
Lemma bounded_on n (f : nat -> nat) : exists L, forall i, i < n -> f i <= L.
Proof.
  induction n as [|n (L & H)]; [exists 0; intros; lia|]. exists (Nat.max L (f n)). intros i Hi.
  destruct (Nat.eq_dec i n) as [->|]; [lia|]. specialize (H i ltac:(lia)). lia.
Qed.

Lemma finished_dec {V D} nRanks (S : gst V D) : finished nRanks S \/ ~ finished nRanks S.
Proof.
  destruct (Forall_Exists_dec (fun r => r_ph (g_r S r) = Done)) with (l := seq 0 nRanks) as [F|F].
  - intros r. destruct (r_ph (g_r S r)); ((left; reflexivity) || (right; discriminate)).
  - left. intros r Hr. rewrite Forall_forall in F. apply F. apply in_seq. lia.
  - right. intros G. apply Exists_exists in F. destruct F as (r & Hr & F). apply in_seq in Hr. apply F. apply G. lia.
Qed.

Section Term.
  Context {V D : Type}.
  Variables (dir : direction) (nRanks nAngles nThreads maxCompute : nat) (psize : N).
  Variables (M : nat -> rmesh) (T : tdata V D) (mate : site -> option site).
  Variables (val0 : nat -> nat -> nat -> V) (bnd0 : nat -> nat -> nat -> D).
  Hypothesis OK : sys_fit dir nRanks nAngles M mate.
  Hypothesis TH : nThreads > 0.
  Hypothesis PS : (0 < psize)%N.
  Hypothesis FIT : forall r, r < nRanks -> (N.of_nat (nAngles * rm_nCells (M r) * 4) * psize < INT_MAX)%N.
  Hypothesis MC : maxCompute > 0.
  Notation adjRanks := (adjRanks M).
  Notation gst := (gst V D). Notation rst := (rst V D).
  Notation step := (step dir true TychoTwoSided nAngles nThreads maxCompute psize M T).
  Notation CInv := (CInv dir true TychoTwoSided nRanks nAngles nThreads psize M T mate val0 bnd0).
  Notation LInv := (LInv nRanks M).
  Notation ChInv := (ChInv M).
  Notation initial := (initial dir true TychoTwoSided nAngles nThreads M T nRanks val0 bnd0).
  Notation reach := (reach dir true TychoTwoSided nAngles nThreads maxCompute psize M T nRanks).
  Notation bytesOf := (bytesOf (D := D) psize).
  Notation unsent := (unsent nThreads).
  Notation valid := (valid nRanks nAngles M).

  Definition isWork (p : phase D) : bool := match p with Work _ => true | _ => false end.
  Definition killPh (p : phase D) : bool := match p with Send true _ | Recv true _ _ _ | WaitSends true _ | Done => true | _ => false end.
  Definition hasCur (p : phase D) : bool := match p with Recv _ _ (Some _) _ => true | _ => false end.
  (** [b] bounds the rounds in which pairs have been updated. *)
  Record tloc (b : nat) (st : rst) : Prop := {
    u_unsent : forall q, unsent st q <> [] -> g_round st <= b;
    u_cur : hasCur (r_ph st) = true -> g_round st <= b;
    u_pk : pkOf st <> [] -> g_round st <= b;
    u_steps : forall steps t, r_ph st = Work steps -> steps t > 0 -> g_round st <= b;
    u_queue : b + 2 <= g_round st \/ (b + 1 <= g_round st /\ isWork (r_ph st) = false) -> forall t, t < nThreads -> r_queue st t = [];
    u_left : r_left st = 0%N -> g_round st <= b + 1;
    u_kill : r_left st = 0%N -> killPh (r_ph st) = false -> g_round st <= b
  }.
  Record TInv (S : gst) (b : nat) : Prop := {
    t_loc : forall r, r < nRanks -> tloc b (g_r S r);
    t_ch : forall q r i n, q < nRanks -> nth_error (ch0 S q r) i = Some n -> isData n = true -> g_rcvd S q r + i <= b
  }.
  Lemma tloc_mono b b' st : b <= b' -> tloc b st -> tloc b' st.
  Proof.
    intros Hb [A1 A2 A3 A4 A5 A6 A7]. constructor.
    - intros q H. specialize (A1 q H). lia.
    - intros H. specialize (A2 H). lia.
    - intros H. specialize (A3 H). lia.
    - intros s t H K. specialize (A4 s t H K). lia.
    - intros H. apply A5. destruct H as [H|(H & K)]; [left; lia|]. right. split; auto. lia.
    - intros H. specialize (A6 H). lia.
    - intros H K. specialize (A7 H K). lia.
  Qed.
  Lemma tinv_mono b b' S : b <= b' -> TInv S b -> TInv S b'.
  Proof. intros Hb [A B]. constructor; [intros; eapply tloc_mono; eauto|]. intros q r i n Hq H K. specialize (B q r i n Hq H K). lia. Qed.
  Lemma tloc_small b st : g_round st <= b -> tloc b st.
  Proof. intros H. constructor; intros; try lia. Qed.
  Lemma tinv_set S b r st' : TInv S b -> tloc b st' -> TInv (setR S r st') b.
  Proof.
    intros [A B] H. constructor; [|exact B]. intros x Hx. rewrite g_setR. destruct (Nat.eqb_spec x r); auto.
  Qed.
  (** A change of phase that keeps what is unsent and received. *)
  Lemma tloc_ph b (st : rst) ph : tloc b st -> (forall q, unsent (setPh st ph) q <> [] -> unsent st q <> []) -> pkOf (setPh st ph) = pkOf st ->
    (hasCur ph = true -> hasCur (r_ph st) = true) -> isWork ph = false -> isWork (r_ph st) = false ->
    (killPh ph = killPh (r_ph st)) -> tloc b (setPh st ph).
  Proof.
    intros [A1 A2 A3 A4 A5 A6 A7] U P C W W' K. constructor; cbn [setPh r_ph g_round r_queue r_left]; auto.
    - intros q H. apply (A1 q). auto.
    - rewrite P. auto.
    - intros steps t E. rewrite E in W. discriminate.
    - intros H. apply A5. rewrite W'. tauto.
    - intros H. rewrite K. auto.
  Qed.

  Lemma merge_unsent r (st : rst) q : (forall q, r_buf1 st q = []) -> bok true M r (r_buf st) -> merge nThreads M r st q <> [] -> bflat nThreads (r_buf st) q <> [].
  Proof. intros B1 _. rewrite merge_spec, B1. cbn [app]. destruct (mem q (adjRanks r)); auto. Qed.

  Lemma left0_queue S r : CInv S -> r < nRanks -> r_left (g_r S r) = 0%N -> forall t, t < nThreads -> r_queue (g_r S r) t = [].
  Proof.
    intros C Hr E t Ht. pose proof (c_loc _ _ _ _ _ _ _ _ _ _ _ _ S C r Hr) as LO. destruct (c_inv _ _ _ _ _ _ _ _ _ _ _ _ S C) as (sat & em & I & _).
    destruct (r_queue (g_r S r) t) as [|[[c a] p] l] eqn:EQ; auto. exfalso.
    assert (HI : In (c, a) (w_ready (viewS nRanks nThreads val0 bnd0 S sat em) r)).
    { cbn [viewS w_ready]. unfold qflat. apply in_flat_map. exists t. split; [apply in_seq; lia|]. rewrite EQ. now left. }
    apply (proj1 (i_ready _ _ _ _ _ _ _ _ _ _ I r c a Hr)) in HI. destruct HI as ((_ & Hc & Ha) & _ & HD). cbn [viewS w_dn] in HD. unfold dnS in HD.
    assert (In (c, a) (g_log (g_r S r))) as K by (exact (left0_all true TychoTwoSided nRanks nAngles nThreads psize M T val0 bnd0 TH PS FIT r (g_r S r) LO E c a Hc Ha)). apply inlog_In in K. rewrite K in HD. apply Nat.ltb_lt in Hr. rewrite Hr in HD. discriminate.
  Qed.

  Theorem t_step S b r l S' : CInv S -> LInv S -> TInv S b -> r < nRanks -> step r S l S' -> exists b', TInv S' b' /\ (l <> LWork -> b' = b).
  Proof.
    intros C L I Hr H. pose proof (l_ph _ _ _ _ _ _ _ _ _ (c_loc _ _ _ _ _ _ _ _ _ _ _ _ S C r Hr)) as P6. unfold phOK in P6.
    pose proof (t_loc S b I r Hr) as TL. pose proof (step_ok dir true TychoTwoSided nRanks nAngles nThreads maxCompute psize M T mate val0 bnd0 OK TH PS FIT S r l S' C Hr H) as C'.
    destruct H.
    - (* work *)
      exists (Nat.max b (g_round (g_r S r))). split; [|congruence]. apply tinv_set; [apply (tinv_mono b); auto; lia|]. apply tloc_small.
      unfold compute. destruct (fold_left _ _ _) as [[[nd q] buf]|]; cbn [g_round]; lia.
    - (* end of the loop *)
      exists b. split; auto. apply tinv_set; auto. destruct TL as [A1 A2 A3 A4 A5 A6 A7]. unfold endWork. rewrite H in *. constructor; cbn [setPh r_ph g_round r_queue r_left r_buf1].
      + intros q. unfold unsent. cbn [setPh r_ph r_buf1]. destruct (mem q _); [|easy]. intros K. apply (A1 q). unfold unsent. rewrite H.
        apply (merge_unsent r); auto. apply (l_buf _ _ _ _ _ _ _ _ _ (c_loc _ _ _ _ _ _ _ _ _ _ _ _ S C r Hr)).
      + discriminate.
      + easy.
      + discriminate.
      + intros K t Ht. destruct (H0 t Ht) as [E|E]; auto. assert (g_round (g_r S r) <= b) by (apply (A4 steps t); auto; lia). lia.
      + auto.
      + intros K _. apply A7; auto.
    - (* send *)
      exists b. split; auto. rewrite H in P6. destruct P6 as (_ & _ & ND & IC & K0).
      assert (TL' : tloc b (setPh (g_r S r) (Send kill todo))).
      { apply tloc_ph; auto; try (now rewrite H).
        - intros x. unfold unsent. cbn [setPh r_ph r_buf1]. rewrite H. destruct kill; auto. rewrite not_mem_cons by auto. destruct (Nat.eqb_spec x q) as [->|]; auto.
          destruct (mem q todo) eqn:E; auto.
        - unfold pkOf. now rewrite H. }
      destruct (data && negb (N.ltb (bytesOf (r_buf1 st q)) INT_MAX)) eqn:EF.
      { exfalso. pose proof (l_ph _ _ _ _ _ _ _ _ _ (c_loc _ _ _ _ _ _ _ _ _ _ _ _ _ C' r Hr)) as P7. rewrite g_setR, Nat.eqb_refl in P7. exact P7. }
      constructor; cbn [g_r ch0 g_rcvd].
      + intros x Hx. unfold fupd. destruct (Nat.eqb_spec x r); auto. now apply (t_loc S b I).
      + intros x y i n Hx. unfold fupd2. destruct (Nat.eqb_spec x r) as [Ex|], (Nat.eqb_spec y q) as [Ey|]; cbn [andb]; try now apply (t_ch S b I).
        rewrite Ex, Ey. intros Hn Hd. destruct (lt_dec i (length (ch0 S r q))) as [Hi|Hi].
        * rewrite nth_error_app1 in Hn by auto. apply (t_ch S b I r q i n); auto.
        * rewrite nth_error_app2 in Hn by lia. destruct (i - length (ch0 S r q)) eqn:Ei; [|destruct n0; discriminate]. cbn in Hn. apply Some_inj in Hn.
          pose proof (k_len _ _ S L r q Hr) as LN. pose proof (k_fresh _ _ S L r Hr) as F. unfold fresh in F. rewrite H in F.
          destruct (k_pos _ _ S L r q Hr (IC q (or_introl eq_refl)) (F q (or_introl eq_refl))) as (P1 & _). unfold pos in P1. rewrite H in P1.
          assert (Mq : mem q (q :: todo) = true) by (apply mem_In; now left). rewrite Mq in P1. cbn [fst] in P1.
          assert (g_round (g_r S r) <= b); [|lia]. apply (u_unsent _ _ TL q). unfold unsent. rewrite H. subst n. unfold size in Hd. destruct kill; [discriminate|]. rewrite Mq.
          intros Z. subst st. rewrite Z in Hd. discriminate.
    - (* all sent *)
      exists b. split; auto. apply tinv_set; auto. apply tloc_ph; auto; try (now rewrite H); try easy.
      unfold pkOf. now rewrite H.
    - (* size *)
      exists b. split; auto. rewrite H in P6. destruct P6 as (_ & _ & ND & IC & _).
      assert (Hqi : In q (p1 ++ q :: p2)) by (apply in_or_app; right; now left).
      assert (Hq : In q (adjRanks r)) by (apply IC; auto). destruct (adjRanks_lt dir nRanks nAngles M mate OK r q Hr Hq) as (Hqn & Nq).
      assert (RQ : g_rcvd S q r = g_round (g_r S r)).
      { pose proof (k_fresh _ _ S L r Hr) as F. unfold fresh in F. rewrite H in F. destruct (k_pos _ _ S L r q Hr Hq (F q Hqi)) as (_ & P2). unfold pos in P2. rewrite H in P2.
        assert (Mq : mem q (p1 ++ q :: p2) = true) by (apply mem_In; auto). rewrite Mq in P2. cbn [snd] in P2. lia. }
      constructor; cbn [g_r ch0 g_rcvd].
      + intros x Hx. unfold fupd. destruct (Nat.eqb_spec x r); [|now apply (t_loc S b I)]. destruct TL as [A1 A2 A3 A4 A5 A6 A7]. rewrite H in *.
        constructor; cbn [r_ph g_round r_queue r_left]; auto; try easy.
        * intros HC. change (g_round (g_r S r) <= b). rewrite <- RQ. replace (g_rcvd S q r) with (g_rcvd S q r + 0) by lia. apply (t_ch S b I q r 0 n); auto; [now rewrite H0|].
          change (hasCur (Recv kill (p1 ++ p2) (if isData n then Some (q, n) else None) pk) = true) in HC. destruct (isData n) eqn:E; [reflexivity|discriminate HC].
        * unfold pkOf in *. rewrite H in A3. exact A3.
      + intros x y i n' Hx. unfold fupd2. destruct (Nat.eqb_spec x q) as [Ex|], (Nat.eqb_spec y r) as [Ey|]; cbn [andb]; try now apply (t_ch S b I).
        intros Hn Hd. pose proof (t_ch S b I q r (Datatypes.S i) n' Hqn) as X. rewrite H0 in X. specialize (X Hn Hd). lia.
    - (* data *)
      exists b. split; auto. destruct (N.eqb (bytesOf l) n).
      + constructor; cbn [g_r ch0 g_rcvd]; [|apply (t_ch S b I)]. intros x Hx. unfold fupd. destruct (Nat.eqb_spec x r); [|now apply (t_loc S b I)].
        destruct TL as [A1 A2 A3 A4 A5 A6 A7]. rewrite H in *. constructor; cbn [setPh r_ph g_round r_queue r_left]; auto; easy.
      + apply tinv_set; auto. destruct TL as [A1 A2 A3 A4 A5 A6 A7]. rewrite H in *. constructor; cbn [setPh r_ph g_round r_queue r_left]; auto; easy.
    - (* all received *)
      exists b. split; auto. apply tinv_set; auto. apply tloc_ph; auto; try (now rewrite H); try easy.
      unfold pkOf. now rewrite H.
    - (* end of the exchange *)
      exists b. split; auto. apply tinv_set; auto. rewrite H in P6. destruct P6 as (_ & _ & K0). destruct TL as [A1 A2 A3 A4 A5 A6 A7]. rewrite H in *. destruct kill.
      + constructor; cbn [setPh r_ph g_round r_queue r_left]; auto; try easy.
      + unfold pkOf in A3. rewrite H in A3.
        unfold endExchange. destruct (fold_left (unpackStep nAngles nThreads M T r) pk _) as [[[nd q] bnd]|] eqn:EU.
        * constructor; cbn [r_ph g_round r_queue r_left].
          -- intros x Hx. exfalso. apply Hx. apply (loopTest_unsent true TychoTwoSided nThreads M r). auto.
          -- unfold loopTest. destruct (N.eqb _ _); discriminate.
          -- intros Hx. exfalso. apply Hx. apply (loopTest_pk true TychoTwoSided M r).
          -- unfold loopTest. destruct (N.eqb _ _); [discriminate|]. intros s t E. injection E as <-. lia.
          -- intros HQ t Ht.
             assert (KB : b + 1 <= g_round (g_r S r) \/ g_round (g_r S r) = b) by (destruct HQ as [?|(? & ?)]; lia). destruct KB as [KB|KB].
             ++ destruct pk as [|p pk]; [|exfalso; assert (g_round (g_r S r) <= b) by (apply A3; easy); lia]. cbn in EU. injection EU as <- <- <-. apply A5; auto.
             ++ destruct HQ as [?|(Q1 & Q2)]; [lia|]. (* left = 0 : nothing can be queued *)
                unfold loopTest in Q2. destruct (N.eqb_spec (r_left (g_r S r)) 0) as [E0|]; [|discriminate].
                pose proof (left0_queue _ r C' Hr) as Q. rewrite g_setR, Nat.eqb_refl in Q. unfold endExchange in Q. rewrite EU in Q. now apply Q.
          -- intros K. assert (g_round (g_r S r) <= b) by (apply A7; auto). lia.
          -- intros K. unfold loopTest. rewrite K. discriminate.
        * constructor; cbn [setPh r_ph g_round r_queue r_left]; auto; try easy.
    - rewrite H in P6. destruct P6. discriminate.
    - rewrite H in P6. destruct P6. discriminate.
    - rewrite H in P6. destruct P6. discriminate.
    - rewrite H in P6. destruct P6. discriminate.
    - rewrite H in P6. destruct P6. discriminate.
    - rewrite H in P6. destruct P6. discriminate.
  Qed.

  (** ** Rounds stay close *)
  Lemma round_close S r q : CInv S -> LInv S -> r < nRanks -> In q (adjRanks r) -> r_dark (g_r S r) q = false -> r_left (g_r S r) <> 0%N ->
    g_round (g_r S r) <= g_round (g_r S q) + 1.
  Proof.
    intros C L Hr Hq Hd Hl. destruct (adjRanks_lt dir nRanks nAngles M mate OK r q Hr Hq) as (Hqn & Nq). assert (Hrq : In r (adjRanks q)) by (apply (adjRanks_sym dir nRanks nAngles M mate OK r q); auto).
    destruct (k_pos _ _ S L r q Hr Hq Hd) as (_ & P2). pose proof (k_len _ _ S L q r Hqn) as LN.
    destruct (r_dark (g_r S q) r) eqn:Hdq; [destruct (c_dark _ _ _ _ _ _ _ _ _ _ _ _ S C q r Hqn Hdq); congruence|].
    destruct (k_pos _ _ S L q r Hqn Hrq Hdq) as (Q1 & _). assert (fst (pos (g_r S q) r) <= 1) by (unfold pos; destruct (r_ph (g_r S q)); cbn [fst]; try destruct (mem r todo); lia). lia.
  Qed.
  Lemma undone_left S r c a : CInv S -> valid r c a -> dnS nRanks S r c a = false -> r_left (g_r S r) <> 0%N.
  Proof.
    intros C (Hr & Hc & Ha) H E. pose proof (c_loc _ _ _ _ _ _ _ _ _ _ _ _ S C r Hr) as LO.
    pose proof (left0_all true TychoTwoSided nRanks nAngles nThreads psize M T val0 bnd0 TH PS FIT r (g_r S r) LO E c a Hc Ha) as K.
    unfold dnS in H. apply inlog_In in K. rewrite K in H. apply Nat.ltb_lt in Hr. rewrite Hr in H. discriminate.
  Qed.
  Lemma flight_round S b r : CInv S -> LInv S -> ChInv S -> TInv S b -> r < nRanks -> r_left (g_r S r) <> 0%N -> flS nRanks nThreads S r <> [] -> g_round (g_r S r) <= b + 1.
  Proof.
    intros C L CH I Hr Hl HF. unfold flS in HF. pose proof Hr as HrB. apply Nat.ltb_lt in HrB. rewrite HrB in HF.
    destruct (pkOf (g_r S r)) as [|p pk] eqn:EP; [|assert (g_round (g_r S r) <= b); [apply (u_pk _ _ (t_loc S b I r Hr)); rewrite EP; easy|lia]].
    rewrite app_nil_r in HF. destruct (srcs nRanks nThreads S r) as [|p l] eqn:ES; [easy|]. assert (HI : In p (srcs nRanks nThreads S r)) by (rewrite ES; now left). clear HF ES.
    unfold srcs in HI. apply in_flat_map in HI. destruct HI as (x & Hx & HI). apply in_seq in Hx. assert (Hxn : x < nRanks) by lia. apply in_app_or in HI. destruct HI as [HI|HI].
    - (* not yet sent *)
      assert (UN : unsent (g_r S x) r <> []) by (intros E; now rewrite E in HI). pose proof (u_unsent _ _ (t_loc S b I x Hxn) r UN) as KX.
      assert (Hrx : In r (adjRanks x)).
      { unfold TraverseSafe.unsent in UN. pose proof (c_loc _ _ _ _ _ _ _ _ _ _ _ _ S C x Hxn) as [_ _ _ _ LB LP]. unfold phOK in LP.
        destruct (r_ph (g_r S x)) as [steps|[] todo| | |todo| | | |]; try easy.
        - unfold bflat in UN. destruct (flat_map (fun t => r_buf (g_r S x) t r) (seq 0 nThreads)) as [|y ys] eqn:E; [easy|].
          assert (HY : In y (flat_map (fun t => r_buf (g_r S x) t r) (seq 0 nThreads))) by (rewrite E; now left). apply in_flat_map in HY. destruct HY as (t & _ & HY).
          apply (LB t r). intros Z. now rewrite Z in HY.
        - destruct (mem r todo) eqn:E; [|easy]. apply mem_In in E. apply LP. exact E. }
      destruct (adjRanks_lt dir nRanks nAngles M mate OK x r Hxn Hrx) as (_ & Nxr). assert (Hxr : In x (adjRanks r)) by (apply (adjRanks_sym dir nRanks nAngles M mate OK x r); auto).
      destruct (r_dark (g_r S r) x) eqn:Hd; [|pose proof (round_close S r x C L Hr Hxr Hd Hl); lia].
      exfalso. destruct (k_dark _ _ S L r x Hr Hd) as (K1 & _). apply UN. unfold TraverseSafe.unsent. unfold killedTo in K1. destruct (r_ph (g_r S x)) as [|[] ?|[] ?| | | | | |]; easy.
    - (* on its way *)
      pose proof (c_msg _ _ _ _ _ _ _ _ _ _ _ _ S C eq_refl x r Hxn Hr) as E.
      destruct (cur (g_r S r) x) as [|n ns] eqn:EC.
      2: { assert (g_round (g_r S r) <= b); [|lia]. apply (u_cur _ _ (t_loc S b I r Hr)). unfold cur in EC. unfold hasCur. destruct (r_ph (g_r S r)) as [| |? ? [[? ?]|] ?| | | | | |]; easy. }
      cbn [app] in E. destruct (ch1 S x r) as [|d ds] eqn:E1; [destruct HI|]. cbn [map] in E.
      assert (HN : In (bytesOf d) (filter isData (ch0 S x r))) by (rewrite E; now left). apply filter_In in HN. destruct HN as (HN & HD). apply In_nth_error in HN. destruct HN as (i & HN).
      pose proof (t_ch S b I x r i _ Hxn HN HD) as K.
      assert (Hrx : In r (adjRanks x)). { apply CH. right. rewrite E1. easy. }
      destruct (adjRanks_lt dir nRanks nAngles M mate OK x r Hxn Hrx) as (_ & Nxr). assert (Hxr : In x (adjRanks r)) by (apply (adjRanks_sym dir nRanks nAngles M mate OK x r); auto).
      destruct (r_dark (g_r S r) x) eqn:Hd.
      + destruct (k_dark _ _ S L r x Hr Hd) as (_ & K2 & K3 & _). pose proof (k_len _ _ S L x r Hxn) as LN. destruct (ch0 S x r); [destruct i; discriminate|]. cbn [length] in LN. lia.
      + destruct (k_pos _ _ S L r x Hr Hxr Hd) as (_ & P2). lia.
  Qed.

  Section Levels.
    Variable lvl : nat -> nat -> nat -> nat.
    Hypothesis LV : forall a r c q c', a < nAngles -> upwind dir true nRanks M mate a (q, c') (r, c) -> lvl q c' a < lvl r c a.
    (** A rank with a pair to do has seen at most as many rounds without work as the level of the pair. *)
    Lemma round_bound S b : CInv S -> LInv S -> ChInv S -> TInv S b -> forall n r c a, valid r c a -> dnS nRanks S r c a = false -> lvl r c a = n ->
      g_round (g_r S r) <= b + 1 + n.
    Proof.
      intros C L CH I. induction n as [n IH] using lt_wf_ind. intros r c a Hv Hd En. pose proof Hv as (Hr & Hc & Ha). pose proof (undone_left S r c a C Hv Hd) as Hl.
      destruct (le_lt_dec (b + 2) (g_round (g_r S r))) as [HB|]; [|lia].
      pose proof (u_queue _ _ (t_loc S b I r Hr) (or_introl HB)) as QE.
      destruct (c_inv _ _ _ _ _ _ _ _ _ _ _ _ S C) as (sat & em & IV & ST). set (w := viewS nRanks nThreads val0 bnd0 S sat em) in *.
      destruct (w_nd w r a c) eqn:E0.
      - exfalso. assert (HI : In (c, a) (w_ready w r)) by (apply (i_ready _ _ _ _ _ _ _ _ _ _ IV r c a Hr); auto).
        cbn [w viewS w_ready] in HI. unfold qflat in HI. apply in_flat_map in HI. destruct HI as (t & Ht & HI). apply in_seq in Ht. rewrite QE in HI by lia. destruct HI.
      - rewrite (i_nd _ _ _ _ _ _ _ _ _ _ IV) in E0 by auto. unfold cnt in E0.
        destruct (filter (fun f => isDep dir true M r a c f && negb (w_sat w r c f a)) (seq 0 4)) as [|f l] eqn:EF; [discriminate|].
        assert (HF : In f (filter (fun f => isDep dir true M r a c f && negb (w_sat w r c f a)) (seq 0 4))) by (rewrite EF; now left).
        apply filter_In in HF. destruct HF as (Hf & HF). apply in_seq in Hf. apply andb_prop in HF. destruct HF as (Hdep & Hs). apply negb_true_iff in Hs.
        destruct (dep_mate dir true nRanks nAngles M mate OK r c f a Hr Hc ltac:(lia) Hdep) as (Hi & q & c' & f' & Hm & K).
        destruct (mate_back dir nRanks nAngles M mate OK _ _ _ _ _ _ Hm) as (Hq & Hc' & Hf'). pose proof (sf_sym _ _ _ _ _ OK _ _ Hm) as Hb.
        assert (UP : lvl q c' a < n). { subst n. apply LV; auto. split; auto. split; auto. exists f, f'. split; [lia|]. auto. }
        destruct (w_dn w q c' a) eqn:Ed.
        + pose proof (ST q c' f' a Ed Hf') as Em. destruct (Nat.eq_dec q r) as [->|N].
          * rewrite (i_loc _ _ _ _ _ _ _ _ _ _ IV r c' f' c f a), given_out in Hs; auto; [congruence|]. exact (level_out dir true nRanks nAngles M mate val0 bnd0 OK lvl r c f r c' f' a LV Ha Hm Hi K).
          * assert (g_round (g_r S r) <= b + 1); [|lia]. apply (flight_round S b r); auto. intros E.
            destruct (i_rem _ _ _ _ _ _ _ _ _ _ IV q c' f' r c f a) as (CK & _); auto. unfold ckey in CK. rewrite given_out, Em, Hs in CK by (exact (level_out dir true nRanks nAngles M mate val0 bnd0 OK lvl r c f q c' f' a LV Ha Hm Hi K)). cbn [w viewS w_fl] in CK. rewrite E in CK. discriminate.
        + assert (KQ : g_round (g_r S q) <= b + 1 + lvl q c' a). { apply (IH (lvl q c' a) UP q c' a); auto. split; auto. }
          destruct (Nat.eq_dec q r) as [->|N]; [lia|].
          assert (Hqr : In q (adjRanks r)) by (apply (adjRanks_In dir nRanks nAngles M mate OK r q Hr); eauto 6).
          destruct (r_dark (g_r S r) q) eqn:Hdk.
          * exfalso. destruct (c_dark _ _ _ _ _ _ _ _ _ _ _ _ S C r q Hr Hdk) as (_ & Z). apply (undone_left S q c' a C); auto. split; auto.
          * pose proof (round_close S r q C L Hr Hqr Hdk Hl). lia.
    Qed.
    Lemma left_undone S r : CInv S -> r < nRanks -> r_left (g_r S r) <> 0%N -> exists c a, valid r c a /\ dnS nRanks S r c a = false.
    Proof.
      intros C Hr Hl. pose proof (c_loc _ _ _ _ _ _ _ _ _ _ _ _ S C r Hr) as [L1 L2 L3 _ _ _]. pose proof Hr as HrB. apply Nat.ltb_lt in HrB.
      destruct (Forall_Exists_dec (fun x => inlog (fst x) (snd x) (g_log (g_r S r)) = true)) with (l := list_prod (seq 0 (rm_nCells (M r))) (seq 0 nAngles)) as [F|F].
      - intros x. destruct (inlog _ _ _); [left|right]; easy.
      - exfalso. apply Hl. rewrite L3. rewrite Forall_forall in F.
        assert (K : length (list_prod (seq 0 (rm_nCells (M r))) (seq 0 nAngles)) <= length (g_log (g_r S r))).
        { apply NoDup_incl_length.
          - apply TychoProofs.NoDup_list_prod; apply seq_NoDup.
          - intros [c a] H. apply inlog_In. apply (F (c, a)); auto. }
        rewrite prod_length, !seq_length in K. unfold total. replace (nAngles * rm_nCells (M r) - length (g_log (g_r S r))) with 0 by lia. reflexivity.
      - apply Exists_exists in F. destruct F as ([c a] & HI & F). apply in_prod_iff in HI. destruct HI as (H1 & H2). apply in_seq in H1, H2. exists c, a. split; [split; auto; lia|].
        unfold dnS. rewrite HrB. cbn [fst snd] in F. destruct (inlog c a (g_log (g_r S r))); auto. now destruct F.
    Qed.

    (** ** The measure *)
    Variable L : nat.
    Hypothesis LB : forall r c a, valid r c a -> lvl r c a <= L.
    Variable A : nat.
    Hypothesis AB : forall r, r < nRanks -> length (adjRanks r) <= A.
    Lemma all_rounds S b r : CInv S -> LInv S -> ChInv S -> TInv S b -> r < nRanks -> g_round (g_r S r) <= b + 1 + L.
    Proof.
      intros C K CH I Hr. destruct (N.eq_dec (r_left (g_r S r)) 0) as [E|E].
      - pose proof (u_left _ _ (t_loc S b I r Hr) E). lia.
      - destruct (left_undone S r C Hr E) as (c & a & Hv & Hd). pose proof (round_bound S b C K CH I (lvl r c a) r c a Hv Hd eq_refl). pose proof (LB r c a Hv). lia.
    Qed.
    Definition posV (p : phase D) : nat :=
      match p with
      | Work _ => 3 * A + 5
      | Send _ todo => 2 * A + 4 + length todo
      | Recv _ pend c _ => 2 + 2 * length pend + match c with Some _ => 1 | None => 0 end
      | WaitSends _ _ => 1
      | _ => 0
      end.
    Definition meas (b : nat) (st : rst) : nat := (b + 2 + L - g_round st) * (3 * A + 6) + posV (r_ph st).
    Definition toDo (S : gst) (r : nat) : nat := total nAngles M r - length (g_log (g_r S r)).
    Lemma nondark_le r dark : r < nRanks -> length (nondark M r dark) <= A.
    Proof. intros Hr. specialize (AB r Hr). unfold nondark. pose proof (TraverseInv.filter_len (fun q => negb (dark q)) (adjRanks r)). lia. Qed.
    (** Every step that updates no pair lowers the measure of its rank. *)
    Lemma step_meas S b r l S' : CInv S -> LInv S -> TInv S b -> r < nRanks -> step r S l S' -> l <> LWork -> CInv S' -> g_round (g_r S' r) <= b + 1 + L ->
      (forall x, x <> r -> g_r S' x = g_r S x) /\ g_log (g_r S' r) = g_log (g_r S r) /\ meas b (g_r S' r) < meas b (g_r S r).
    Proof.
      intros C K I Hr H HL C' HB. pose proof (l_ph _ _ _ _ _ _ _ _ _ (c_loc _ _ _ _ _ _ _ _ _ _ _ _ S C r Hr)) as P6. unfold phOK in P6.
      pose proof (l_ph _ _ _ _ _ _ _ _ _ (c_loc _ _ _ _ _ _ _ _ _ _ _ _ S' C' r Hr)) as P7. unfold phOK in P7.
      pose proof (fun dark => nondark_le r dark Hr) as ND.
      assert (SO : forall st' x, x <> r -> g_r (setR S r st') x = g_r S x). { intros st' x N. rewrite g_setR. destruct (Nat.eqb_spec x r); [congruence|auto]. }
      assert (FO : forall st' x, x <> r -> fupd (g_r S) r st' x = g_r S x). { intros st' x N. apply fupd_other. auto. }
      assert (SR : forall st', g_r (setR S r st') r = st') by (intros st'; now rewrite g_setR, Nat.eqb_refl).
      assert (FR : forall st', fupd (g_r S) r st' r = st') by (intros st'; apply fupd_same).
      destruct H; try congruence; try (rewrite H in P6; destruct P6; discriminate).
      - split; [auto|]. rewrite SR. split; [reflexivity|]. unfold meas, endWork. cbn [setPh r_ph g_round r_dark]. rewrite H. cbn [posV]. specialize (ND (r_dark (g_r S r))). lia.
      - destruct (data && negb (N.ltb (bytesOf (r_buf1 st q)) INT_MAX)); [rewrite SR in P7; destruct P7|]. cbn [g_r] in *. split; [auto|]. rewrite FR. split; [reflexivity|].
        unfold meas. subst st. cbn [setPh r_ph g_round]. rewrite H. cbn [posV length]. lia.
      - split; [auto|]. rewrite SR. split; [reflexivity|]. unfold meas. cbn [setPh r_ph g_round]. rewrite H. cbn [posV length]. specialize (ND (r_dark (g_r S r))). lia.
      - cbn [g_r] in *. split; [auto|]. rewrite FR. split; [reflexivity|]. unfold meas. subst st0. cbn [r_ph g_round]. subst st. rewrite H. cbn [posV]. rewrite !app_length. cbn [length]. destruct (_ && _); lia.
      - destruct (N.eqb (bytesOf l) n); [|rewrite SR in P7; destruct P7]. cbn [g_r] in *. split; [auto|]. rewrite FR. split; [reflexivity|]. unfold meas. cbn [setPh r_ph g_round]. rewrite H. cbn [posV]. lia.
      - split; [auto|]. rewrite SR. split; [reflexivity|]. unfold meas. cbn [setPh r_ph g_round]. rewrite H. cbn [posV length]. lia.
      - split; [auto|]. rewrite SR in *. destruct kill; [split; [reflexivity|]; unfold meas; cbn [setPh r_ph g_round]; rewrite H; cbn [posV]; lia|].
        unfold endExchange in *. destruct (fold_left _ _ _) as [[[nd q] bnd]|]; [|cbn [setPh r_ph] in P7; destruct P7]. split; [reflexivity|].
        unfold meas. cbn [r_ph g_round] in *. rewrite H. cbn [posV]. specialize (ND (r_dark (g_r S r))).
        assert (posV (loopTest true TychoTwoSided M r (r_left (g_r S r)) (r_dark (g_r S r))) <= 3 * A + 5). { unfold loopTest. destruct (N.eqb _ _); cbn [posV]; lia. }
        replace (b + 2 + L - g_round (g_r S r)) with (Datatypes.S (b + 2 + L - Datatypes.S (g_round (g_r S r)))) by lia. cbn [Nat.mul]. lia.
    Qed.
    Definition next (S' S : gst) : Prop := exists r l, r < nRanks /\ step r S l S'.
    Lemma work_log S r l S' : CInv S -> r < nRanks -> step r S l S' -> l = LWork ->
      (forall x, x <> r -> g_r S' x = g_r S x) /\ exists y, g_log (g_r S' r) = y :: g_log (g_r S r).
    Proof.
      intros C Hr H E. destruct H; try discriminate; try (destruct eager; discriminate). clear E.
      split; [intros x N; rewrite g_setR; destruct (Nat.eqb_spec x r); [congruence|auto]|]. rewrite g_setR, Nat.eqb_refl.
      destruct (step_work_ok dir true TychoTwoSided nRanks nAngles nThreads psize M T mate val0 bnd0 OK TH PS FIT S r t steps c a p rest1 rest2 C Hr H H0 H2) as (_ & _ & _ & _ & NF).
      unfold compute in *. destruct (fold_left _ _ _) as [[[nd q] buf]|]; [exists (c, a); reflexivity|now destruct NF].
    Qed.
    Lemma term_acc : forall W X S b, CInv S -> LInv S -> ChInv S -> TInv S b -> sumr nRanks (toDo S) = W -> sumr nRanks (fun r => meas b (g_r S r)) = X -> Acc next S.
    Proof.
      induction W as [W IHW] using lt_wf_ind. induction X as [X IHX] using lt_wf_ind. intros S b C K CH I EW EX. constructor. intros S' (r & l & Hr & H).
      pose proof (step_ok dir true TychoTwoSided nRanks nAngles nThreads maxCompute psize M T mate val0 bnd0 OK TH PS FIT S r l S' C Hr H) as C'.
      pose proof (lock_step dir nRanks nAngles nThreads maxCompute psize M T mate val0 bnd0 OK TH PS FIT S r l S' C K Hr H) as K'.
      pose proof (ch_step dir nRanks nAngles nThreads maxCompute psize M T mate val0 bnd0 S r l S' C CH Hr H) as CH'.
      destruct (t_step S b r l S' C K I Hr H) as (b' & I' & EB).
      assert (LD : l = LWork \/ l <> LWork) by (destruct l; auto; right; discriminate). destruct LD as [->|NL].
      - eapply (IHW (sumr nRanks (toDo S'))); eauto. subst W.
        assert (LG : (forall x, x <> r -> g_r S' x = g_r S x) /\ exists y, g_log (g_r S' r) = y :: g_log (g_r S r)).
        { exact (work_log S r LWork S' C Hr H eq_refl). }
        destruct LG as (OT & y & EL).
        pose proof (log_len true TychoTwoSided nRanks nAngles nThreads psize M T val0 bnd0 TH PS FIT r (g_r S' r) (c_loc _ _ _ _ _ _ _ _ _ _ _ _ S' C' r Hr)) as LL. rewrite EL in LL. cbn [length] in LL.
        apply (sumr_lt _ _ _ r); auto.
        + intros x Hx. destruct (Nat.eq_dec x r) as [->|N]; unfold toDo; [rewrite EL; cbn [length]; lia|rewrite OT by auto; lia].
        + unfold toDo. rewrite EL. cbn [length]. lia.
      - rewrite (EB NL) in I'. clear EB. pose proof (all_rounds S' b r C' K' CH' I' Hr) as HB.
        destruct (step_meas S b r l S' C K I Hr H NL C' HB) as (OT & EL & LT).
        eapply (IHX (sumr nRanks (fun r => meas b (g_r S' r)))); eauto.
        + subst X. apply (sumr_lt _ _ _ r); auto. intros x Hx. destruct (Nat.eq_dec x r) as [->|N]; [lia|]. rewrite OT by auto. lia.
        + rewrite <- EW. unfold sumr. f_equal. apply map_ext. intros x. unfold toDo. destruct (Nat.eq_dec x r) as [->|N]; [now rewrite EL|now rewrite OT].
    Qed.
  End Levels.

  Lemma ch_initial S : initial S -> ChInv S.
  Proof. intros (_ & H) q r. destruct (H q r) as (E0 & E1 & _). rewrite E0, E1. tauto. Qed.
  Lemma live_reach S0 S : initial S0 -> reach S0 S -> CInv S /\ LInv S /\ ChInv S /\ exists b, TInv S b.
  Proof.
    intros I R. induction R as [|S r l S' R (C & K & CH & b & TI) Hr H].
    - split; [apply initial_ok; auto|]. split; [eapply lock_initial; eauto|]. split; [now apply ch_initial|]. exists 0. destruct I as (I1 & I2). constructor.
      + intros r Hr. apply tloc_small. specialize (I1 r Hr). unfold initRank in I1. destruct (initQueue _ _ _ _ _ _ r); [|discriminate]. cbn [obind] in I1. apply Some_inj in I1. rewrite <- I1. cbn [g_round]. lia.
      + intros q r i n _ HN. destruct (I2 q r) as (E & _). rewrite E in HN. destruct i; discriminate.
    - split; [exact (step_ok dir true TychoTwoSided nRanks nAngles nThreads maxCompute psize M T mate val0 bnd0 OK TH PS FIT S r l S' C Hr H)|].
      split; [exact (lock_step dir nRanks nAngles nThreads maxCompute psize M T mate val0 bnd0 OK TH PS FIT S r l S' C K Hr H)|].
      split; [exact (ch_step dir nRanks nAngles nThreads maxCompute psize M T mate val0 bnd0 S r l S' C CH Hr H)|]. destruct (t_step S b r l S' C K TI Hr H) as (b' & X & _). eauto.
  Qed.
  Lemma level_bound (lvl : nat -> nat -> nat -> nat) : exists L, forall r c a, valid r c a -> lvl r c a <= L.
  Proof.
    assert (H : exists L, forall r, r < nRanks -> forall c, c < rm_nCells (M r) -> forall a, a < nAngles -> lvl r c a <= L).
    { clear. induction nRanks as [|n (L1 & H1)]; [exists 0; intros; lia|].
      assert (HC : exists L, forall c, c < rm_nCells (M n) -> forall a, a < nAngles -> lvl n c a <= L).
      { induction (rm_nCells (M n)) as [|k (L2 & H2)]; [exists 0; intros; lia|]. destruct (bounded_on nAngles (lvl n k)) as (L3 & H3). exists (Nat.max L2 L3). intros c Hc a Ha.
        destruct (Nat.eq_dec c k) as [->|]; [specialize (H3 a Ha); lia|]. specialize (H2 c ltac:(lia) a Ha). lia. }
      destruct HC as (L2 & H2). exists (Nat.max L1 L2). intros r Hr c Hc a Ha. destruct (Nat.eq_dec r n) as [->|]; [specialize (H2 c Hc a Ha); lia|]. specialize (H1 r ltac:(lia) c Hc a Ha). lia. }
    destruct H as (L & H). exists L. intros r c a (A & B & E). auto.
  Qed.
  Theorem terminates S0 S : acyclic dir true nRanks nAngles M mate -> initial S0 -> reach S0 S -> Acc next S.
  Proof.
    intros (lvl & LV) I R. destruct (live_reach S0 S I R) as (C & K & CH & b & TI). destruct (level_bound lvl) as (L & LB).
    destruct (bounded_on nRanks (fun r => length (adjRanks r))) as (A & AB). eapply (term_acc lvl LV L LB A AB); eauto.
  Qed.
  (** Steps that never complete a send before its message has been received. *)
  Inductive sreach (S0 : gst) : gst -> Prop :=
  | sreach_refl : sreach S0 S0
  | sreach_step S r l S' : r < nRanks -> step r S0 l S -> l <> LEager -> sreach S S' -> sreach S0 S'.
  Theorem can_finish S0 S : acyclic dir true nRanks nAngles M mate -> initial S0 -> reach S0 S -> exists S', sreach S S' /\ finished nRanks S'.
  Proof.
    intros AC I R. pose proof (terminates S0 S AC I R) as HA. induction HA as [S _ IH].
    destruct (live_reach S0 S I R) as (C & K & CH & _). destruct (finished_dec nRanks S) as [F|F]; [exists S; split; [constructor|auto]|].
    destruct (no_deadlock dir nRanks nAngles nThreads maxCompute psize M T mate val0 bnd0 OK TH PS FIT S C K CH F) as (r & Hr & l & S' & H & NE).
    destruct (IH S') as (S'' & G & FN); [exists r, l; auto|eapply reach_step; eauto|]. exists S''. split; auto. eapply sreach_step; eauto.
  Qed.
  (** Nothing is left in flight at the end. *)
  Lemma finished_clean S : CInv S -> LInv S -> ChInv S -> finished nRanks S -> forall q r, ch0 S q r = [] /\ ch1 S q r = [].
  Proof.
    intros C K CH F q r. destruct (lt_dec q nRanks) as [Hq|Hq]; [|apply (c_ch _ _ _ _ _ _ _ _ _ _ _ _ S C); lia].
    assert (DE : (ch0 S q r = [] /\ ch1 S q r = []) \/ (ch0 S q r <> [] \/ ch1 S q r <> [])) by (destruct (ch0 S q r), (ch1 S q r); auto; right; (left; easy) || (right; easy)).
    destruct DE as [E|E]; auto. exfalso. pose proof (CH q r E) as Hr. destruct (adjRanks_lt dir nRanks nAngles M mate OK q r Hq Hr) as (Hrn & Nrq).
    assert (Hqr : In q (adjRanks r)) by (apply (adjRanks_sym dir nRanks nAngles M mate OK q r); auto).
    assert (E0 : ch0 S q r <> []).
    { destruct E as [E|E]; auto. intros Z. pose proof (c_msg _ _ _ _ _ _ _ _ _ _ _ _ S C eq_refl q r Hq Hrn) as Y. rewrite Z, app_nil_r in Y. unfold cur in Y. rewrite (F r Hrn) in Y.
      destruct (ch1 S q r); [easy|discriminate]. }
    assert (KQ : forall x y, x < nRanks -> killedTo (g_r S x) y) by (intros x y Hx; unfold killedTo; now rewrite (F x Hx)).
    assert (PX : forall x y, x < nRanks -> pos (g_r S x) y = (1, 1)) by (intros x y Hx; unfold pos; now rewrite (F x Hx)).
    pose proof (k_len _ _ S K q r Hq) as LQ. pose proof (k_len _ _ S K r q Hrn) as LR. assert (length (ch0 S q r) > 0) by (destruct (ch0 S q r); [easy|cbn; lia]).
    destruct (r_dark (g_r S r) q) eqn:D1.
    - destruct (k_dark _ _ S K r q Hrn D1) as (_ & _ & K3 & _). lia.
    - destruct (k_pos _ _ S K r q Hrn Hqr D1) as (P1 & P2). rewrite PX in P1, P2 by auto. cbn [fst snd] in P1, P2.
      destruct (r_dark (g_r S q) r) eqn:D2.
      + destruct (k_dark _ _ S K q r Hq D2) as (_ & K2 & K3 & K4). lia.
      + destruct (k_pos _ _ S K q r Hq Hr D2) as (Q1 & Q2). rewrite PX in Q1, Q2 by auto. cbn [fst snd] in Q1, Q2.
        destruct (k_told _ _ S K r q Hrn Hqr) as [X|X]; auto; [congruence|]. assert (length (ch0 S r q) > 0) by (destruct (ch0 S r q); [destruct X|cbn; lia]). lia.
  Qed.
End Term.

(** ** Without communication every rank runs on its own *)
Section Serial.
  Context {V D : Type}.
  Variables (dir : direction) (mpi : mpiType) (nRanks nAngles nThreads maxCompute : nat) (psize : N).
  Variables (M : nat -> rmesh) (T : tdata V D) (mate : site -> option site).
  Variables (val0 : nat -> nat -> nat -> V) (bnd0 : nat -> nat -> nat -> D).
  Hypothesis OK : sys_fit dir nRanks nAngles M mate.
  Hypothesis TH : nThreads > 0.
  Hypothesis PS : (0 < psize)%N.
  Hypothesis FIT : forall r, r < nRanks -> (N.of_nat (nAngles * rm_nCells (M r) * 4) * psize < INT_MAX)%N.
  Hypothesis MC : maxCompute > 0.
  Hypothesis AC : acyclic dir false nRanks nAngles M mate.
  Notation gst := (gst V D). Notation rst := (rst V D).
  Notation step := (step dir false mpi nAngles nThreads maxCompute psize M T).
  Notation CInv := (CInv dir false mpi nRanks nAngles nThreads psize M T mate val0 bnd0).
  Notation initial := (initial dir false mpi nAngles nThreads M T nRanks val0 bnd0).
  Notation reach := (reach dir false mpi nAngles nThreads maxCompute psize M T nRanks).
  Notation valid := (valid nRanks nAngles M).

  Lemma serial_ready S r : CInv S -> r < nRanks -> r_left (g_r S r) <> 0%N -> exists t, t < nThreads /\ r_queue (g_r S r) t <> [].
  Proof.
    intros C Hr Hl. pose proof Hr as HrB. apply Nat.ltb_lt in HrB.
    assert (UD : exists c a, valid r c a /\ dnS nRanks S r c a = false).
    { pose proof (c_loc _ _ _ _ _ _ _ _ _ _ _ _ S C r Hr) as [L1 L2 L3 _ _ _].
      destruct (Forall_Exists_dec (fun x => inlog (fst x) (snd x) (g_log (g_r S r)) = true)) with (l := list_prod (seq 0 (rm_nCells (M r))) (seq 0 nAngles)) as [F|F].
      - intros x. destruct (inlog _ _ _); [left|right]; easy.
      - exfalso. apply Hl. rewrite L3. rewrite Forall_forall in F.
        assert (K : length (list_prod (seq 0 (rm_nCells (M r))) (seq 0 nAngles)) <= length (g_log (g_r S r))).
        { apply NoDup_incl_length.
          - apply TychoProofs.NoDup_list_prod; apply seq_NoDup.
          - intros [c a] H. apply inlog_In. apply (F (c, a)); auto. }
        rewrite prod_length, !seq_length in K. unfold total. replace (nAngles * rm_nCells (M r) - length (g_log (g_r S r))) with 0 by lia. reflexivity.
      - apply Exists_exists in F. destruct F as ([c a] & HI & F). apply in_prod_iff in HI. destruct HI as (H1 & H2). apply in_seq in H1, H2. exists c, a. split; [split; auto; lia|].
        unfold dnS. rewrite HrB. cbn [fst snd] in F. destruct (inlog c a (g_log (g_r S r))); auto. now destruct F. }
    destruct (c_inv _ _ _ _ _ _ _ _ _ _ _ _ S C) as (sat & em & IV & ST). set (w := viewS nRanks nThreads val0 bnd0 S sat em) in *.
    assert (RD : w_ready w r <> []).
    { destruct AC as (lvl & LV). destruct UD as (c & a & Hv & Hd). remember (lvl r c a) as n eqn:En. revert c Hv Hd En. induction n as [n IH] using lt_wf_ind. intros c Hv Hd En. pose proof Hv as (_ & Hc & Ha).
      destruct (w_nd w r a c) eqn:E0.
      - intros E. assert (HI : In (c, a) (w_ready w r)) by (apply (i_ready _ _ _ _ _ _ _ _ _ _ IV r c a Hr); auto). now rewrite E in HI.
      - rewrite (i_nd _ _ _ _ _ _ _ _ _ _ IV) in E0 by auto. unfold cnt in E0.
        destruct (filter (fun f => isDep dir false M r a c f && negb (w_sat w r c f a)) (seq 0 4)) as [|f l] eqn:EF; [discriminate|].
        assert (HF : In f (filter (fun f => isDep dir false M r a c f && negb (w_sat w r c f a)) (seq 0 4))) by (rewrite EF; now left).
        apply filter_In in HF. destruct HF as (Hf & HF). apply in_seq in Hf. apply andb_prop in HF. destruct HF as (Hdep & Hs). apply negb_true_iff in Hs.
        destruct (dep_mate dir false nRanks nAngles M mate OK r c f a Hr Hc ltac:(lia) Hdep) as (Hi & q & c' & f' & Hm & K).
        destruct K as [K|K]; [discriminate|]. subst q. pose proof (level_out dir false nRanks nAngles M mate val0 bnd0 OK lvl r c f r c' f' a LV Ha Hm Hi (or_intror eq_refl)) as HO. destruct (mate_back dir nRanks nAngles M mate OK _ _ _ _ _ _ Hm) as (Hq & Hc' & Hf'). pose proof (sf_sym _ _ _ _ _ OK _ _ Hm) as Hb.
        destruct (w_dn w r c' a) eqn:Ed.
        + pose proof (ST r c' f' a Ed Hf') as Em. rewrite (i_loc _ _ _ _ _ _ _ _ _ _ IV r c' f' c f a), given_out in Hs; auto. congruence.
        + apply (IH (lvl r c' a)) with (c := c'); auto; [|split; auto]. subst n. apply LV; auto. split; auto. split; auto. exists f, f'. split; [lia|]. auto. }
    cbn [w viewS w_ready] in RD. unfold qflat in RD. destruct (flat_map _ (seq 0 nThreads)) as [|x l] eqn:E; [easy|].
    assert (HI : In x (flat_map (fun t => map fst (r_queue (g_r S r) t)) (seq 0 nThreads))) by (rewrite E; now left). apply in_flat_map in HI. destruct HI as (t & Ht & HI).
    apply in_seq in Ht. exists t. split; [lia|]. intros Z. now rewrite Z in HI.
  Qed.

  (** All steps of a rank are zero after the loop test. *)
  Definition idle (st : rst) : bool := match r_ph st with Work steps => forallb (fun t => steps t =? 0) (seq 0 nThreads) | _ => true end.
  Definition smeas (st : rst) : nat := match r_ph st with Work _ => if idle st then 1 else 2 | _ => 0 end.
  Lemma serial_phase S r : CInv S -> r < nRanks -> (exists steps, r_ph (g_r S r) = Work steps) \/ r_ph (g_r S r) = Done.
  Proof.
    intros C Hr. pose proof (l_ph _ _ _ _ _ _ _ _ _ (c_loc _ _ _ _ _ _ _ _ _ _ _ _ S C r Hr)) as P6. unfold phOK in P6.
    destruct (r_ph (g_r S r)); eauto; try (destruct P6 as (_ & P6 & _) || destruct P6 as (_ & P6); discriminate). destruct P6.
  Qed.
  Definition stoDo (S : gst) (r : nat) : nat := total nAngles M r - length (g_log (g_r S r)).
  Definition snext (S' S : gst) : Prop := exists r l, r < nRanks /\ step r S l S'.
  Lemma serial_acc : forall W X S, CInv S -> sumr nRanks (stoDo S) = W -> sumr nRanks (fun r => smeas (g_r S r)) = X -> Acc snext S.
  Proof.
    induction W as [W IHW] using lt_wf_ind. induction X as [X IHX] using lt_wf_ind. intros S C EW EX. constructor. intros S' (r & l & Hr & H).
    pose proof (step_ok dir false mpi nRanks nAngles nThreads maxCompute psize M T mate val0 bnd0 OK TH PS FIT S r l S' C Hr H) as C'.
    destruct (serial_phase S r C Hr) as [(steps0 & PH)|PH]; destruct H; try (rewrite H in PH; discriminate).
    - eapply (IHW (sumr nRanks (stoDo (setR S r (compute dir false M T r t (g_r S r) steps c a (rest1 ++ rest2)))))); eauto. subst W.
      destruct (step_work_ok dir false mpi nRanks nAngles nThreads psize M T mate val0 bnd0 OK TH PS FIT S r t steps c a p rest1 rest2 C Hr H H0 H2) as (_ & _ & _ & _ & NF).
      pose proof (log_len false mpi nRanks nAngles nThreads psize M T val0 bnd0 TH PS FIT r _ (c_loc _ _ _ _ _ _ _ _ _ _ _ _ _ C' r Hr)) as LL. rewrite g_setR, Nat.eqb_refl in LL.
      set (st' := compute dir false M T r t (g_r S r) steps c a (rest1 ++ rest2)) in *.
      assert (EL : g_log st' = (c, a) :: g_log (g_r S r)). { unfold st', compute in *. destruct (fold_left _ _ _) as [[[nd q] buf]|]; [reflexivity|now destruct NF]. }
      rewrite EL in LL. cbn [length] in LL. apply (sumr_lt _ _ _ r); auto.
      + intros x Hx. unfold stoDo. rewrite g_setR. destruct (Nat.eqb_spec x r) as [->|N]; [rewrite EL; cbn [length]; lia|lia].
      + unfold stoDo. rewrite g_setR, Nat.eqb_refl, EL. cbn [length]. lia.
    - eapply (IHX (sumr nRanks (fun x => smeas (g_r (setR S r (endWork false mpi nThreads M r (g_r S r))) x)))); eauto.
      + subst X. assert (LT : smeas (endWork false mpi nThreads M r (g_r S r)) < smeas (g_r S r)).
        { unfold smeas at 2, idle. rewrite H. unfold smeas, idle, endWork. cbn [r_ph r_left r_dark]. unfold loopTest. destruct (N.eqb_spec (r_left (g_r S r)) 0) as [E0|E0].
          - destruct mpi; destruct (forallb _ _); lia.
          - assert (F1 : forallb (fun _ : nat => 0 =? 0) (seq 0 nThreads) = true) by (apply forallb_forall; auto). rewrite F1.
            destruct (forallb (fun t => steps t =? 0) (seq 0 nThreads)) eqn:F; [|lia]. exfalso. destruct (serial_ready S r C Hr E0) as (t & Ht & Q).
            rewrite forallb_forall in F. specialize (F t ltac:(apply in_seq; lia)). apply Nat.eqb_eq in F. destruct (H0 t Ht) as [Z|Z]; [easy|lia]. }
        apply (sumr_lt _ _ _ r); auto; [|now rewrite g_setR, Nat.eqb_refl]. intros x Hx. rewrite g_setR. destruct (Nat.eqb_spec x r) as [->|]; lia.
      + rewrite <- EW. unfold sumr. f_equal. apply map_ext. intros x. unfold stoDo. rewrite g_setR. destruct (Nat.eqb_spec x r) as [->|]; auto.
  Qed.
  Theorem serial_terminates S0 S : initial S0 -> reach S0 S -> Acc snext S.
  Proof. intros I R. eapply serial_acc; eauto. eapply reach_ok; eauto. Qed.
  Lemma serial_enabled S r : CInv S -> r < nRanks -> r_ph (g_r S r) <> Done -> exists l S', step r S l S' /\ l <> LEager.
  Proof.
    intros C Hr ND. destruct (serial_phase S r C Hr) as [(steps & Ph)|]; [|easy].
    destruct (Forall_Exists_dec (fun t => r_queue (g_r S r) t = [] \/ maxCompute <= steps t)) with (l := seq 0 nThreads) as [F|F].
    - intros t. destruct (r_queue (g_r S r) t); [left; auto|]. destruct (le_lt_dec maxCompute (steps t)); [left; auto|right; intros [X|X]; [discriminate|lia]].
    - exists LComm. eexists. split; [|discriminate]. eapply step_end; eauto. intros t Ht. rewrite Forall_forall in F. apply F. apply in_seq. lia.
    - apply Exists_exists in F. destruct F as (t & Ht & F). apply in_seq in Ht.
      assert (NQ : r_queue (g_r S r) t <> []) by tauto.
      destruct (max_split (fun x : tuple => snd x) _ NQ) as (l1 & [[c a] p] & l2 & E & Mx).
      exists LWork. eexists. split; [|discriminate]. eapply (step_work _ _ _ _ _ _ _ _ _ r S t steps c a p l1 l2); eauto; [lia|lia|]. intros c' a' p' H. exact (Mx _ H).
  Qed.
End Serial.
