(** The invariant of the machine's states, kept by every step. *)
From Coq Require Import Permutation.
From Verif Require Import Prelude Bytes MeshModel AngleModel AngleProofs TraverseModel TraverseSpec TraverseInv TraverseProofs.

Lemma inj_length {X Y} (R : X -> Y -> Prop) (l : list X) : forall (m : list Y), NoDup l -> (forall x, In x l -> exists y, In y m /\ R x y) ->
  (forall x x' y, R x y -> R x' y -> x = x') -> length l <= length m.
Proof.
  induction l as [|x l IH]; intros m ND H I; [cbn; lia|]. inversion ND; subst. destruct (H x (or_introl eq_refl)) as (y & Hy & Rxy).
  apply in_split in Hy. destruct Hy as (m1 & m2 & ->). rewrite app_length. cbn [length]. enough (length l <= length (m1 ++ m2)) by (rewrite app_length in *; lia).
  apply IH; auto. intros x' Hx'. destruct (H x' (or_intror Hx')) as (y' & Hy' & R'). exists y'. split; auto.
  rewrite in_app_iff in *. cbn [In] in Hy'. destruct Hy' as [?|[<-|?]]; auto. exfalso. assert (x = x') by eauto. subst. easy.
Qed.

Section Machine.
  Context {V D : Type}.
  Variables (dir : direction) (doComm : bool) (mpi : mpiType) (nRanks nAngles nThreads maxCompute : nat) (psize : N).
  Variables (M : nat -> rmesh) (T : tdata V D) (mate : site -> option site).
  Variables (val0 : nat -> nat -> nat -> V) (bnd0 : nat -> nat -> nat -> D).
  Hypothesis OK : sys_fit dir nRanks nAngles M mate.
  Hypothesis TH : nThreads > 0.
  Hypothesis PS : (0 < psize)%N.
  Hypothesis FIT : forall r, r < nRanks -> (N.of_nat (nAngles * rm_nCells (M r) * 4) * psize < INT_MAX)%N.
  Notation dep := (isDep dir doComm M).
  Notation valid := (valid nRanks nAngles M).
  Notation Inv := (Inv dir doComm nRanks nAngles M T mate val0 bnd0).
  Notation adjRanks := (adjRanks M).
  Notation view := (view V D).
  Notation qflat := (qflat nThreads). Notation bflat := (bflat nThreads).
  Notation gst := (gst V D). Notation rst := (rst V D).
  Notation qok := (qok nAngles nThreads T). Notation bok := (bok doComm M).
  Notation step := (step dir doComm mpi nAngles nThreads maxCompute psize M T).
  Notation bytesOf := (bytesOf (D := D) psize).

  Definition inlog (c a : nat) (l : list (nat * nat)) : bool := existsb (fun x => (fst x =? c) && (snd x =? a)) l.
  Lemma inlog_In c a l : inlog c a l = true <-> In (c, a) l.
  Proof.
    unfold inlog. rewrite existsb_exists. split.
    - intros ([c' a'] & H & E). cbn in E. apply andb_prop in E. destruct E as (E1 & E2). apply Nat.eqb_eq in E1, E2. now subst.
    - intros H. exists (c, a). split; auto. cbn. now rewrite !Nat.eqb_refl.
  Qed.
  Definition isData (n : N) : bool := N.ltb 0 n && negb (N.eqb n UINT64_MAX).
  Definition mem (q : nat) (l : list nat) : bool := existsb (Nat.eqb q) l.
  Lemma mem_In q l : mem q l = true <-> In q l.
  Proof. unfold mem. rewrite existsb_exists. split; [intros (x & H & E); apply Nat.eqb_eq in E; now subst|intros H; exists q; split; auto; apply Nat.eqb_refl]. Qed.
  Definition unsent (st : rst) (q : nat) : list (packet D) :=
    match r_ph st with
    | Work _ => bflat (r_buf st) q
    | Send false todo => if mem q todo then r_buf1 st q else []
    | CSend todo => if mem q todo then r_buf1 st q else []
    | _ => []
    end.
  Definition pkOf (st : rst) : list (packet D) := match r_ph st with Recv _ _ _ pk => pk | WaitSends _ pk => pk | CProbe _ pk => pk | _ => [] end.
  Definition cur (st : rst) (q : nat) : list N := match r_ph st with Recv _ _ (Some (q', n)) _ => if q' =? q then [n] else [] | _ => [] end.
  Definition srcs (S : gst) (q : nat) : list (packet D) := flat_map (fun r => unsent (g_r S r) q ++ concat (ch1 S r q)) (seq 0 nRanks).
  Definition flS (S : gst) (q : nat) : list (packet D) := srcs S q ++ (if q <? nRanks then pkOf (g_r S q) else []).
  Definition dnS (S : gst) (r c a : nat) : bool := (r <? nRanks) && inlog c a (g_log (g_r S r)).
  Definition viewS (S : gst) (sat em : nat -> nat -> nat -> nat -> bool) : view :=
    mkView (fun r => r_nd (g_r S r)) (fun r => qflat (r_queue (g_r S r))) (fun r => if r <? nRanks then r_val (g_r S r) else val0 r)
           (fun r => if r <? nRanks then r_bnd (g_r S r) else bnd0 r) (flS S) sat em (dnS S).

  Definition total (r : nat) : nat := nAngles * rm_nCells (M r).
  Definition phOK (r : nat) (st : rst) : Prop :=
    match r_ph st with
    | Work _ => forall q, r_buf1 st q = []
    | Send k todo => mpi = TychoTwoSided /\ doComm = true /\ NoDup todo /\ incl todo (adjRanks r) /\ (k = true -> r_left st = 0%N)
    | Recv k pend c pk => mpi = TychoTwoSided /\ doComm = true /\ NoDup pend /\ incl pend (adjRanks r) /\ (k = true -> r_left st = 0%N) /\
        (forall q n, c = Some (q, n) -> isData n = true /\ q < nRanks)
    | WaitSends k pk => mpi = TychoTwoSided /\ doComm = true /\ (k = true -> r_left st = 0%N)
    | CSend todo => mpi = CapsaicinTwoSided /\ doComm = true /\ NoDup todo /\ incl todo (adjRanks r)
    | CWait => mpi = CapsaicinTwoSided /\ doComm = true
    | CProbe todo pk => mpi = CapsaicinTwoSided /\ doComm = true /\ incl todo (adjRanks r)
    | Failed => False
    | Done => r_left st = 0%N
    end.
  Record locOK (r : nat) (st : rst) : Prop := {
    l_log : NoDup (g_log st);
    l_incl : forall c a, In (c, a) (g_log st) -> c < rm_nCells (M r) /\ a < nAngles;
    l_left : r_left st = N.of_nat (total r - length (g_log st));
    l_q : qok r (r_queue st);
    l_buf : bok r (r_buf st);
    l_ph : phOK r st
  }.
  Record CInv (S : gst) : Prop := {
    c_inv : exists sat em, Inv (viewS S sat em) /\ settled (viewS S sat em);
    c_loc : forall r, r < nRanks -> locOK r (g_r S r);
    c_dark : forall r q, r < nRanks -> r_dark (g_r S r) q = true -> q < nRanks /\ r_left (g_r S q) = 0%N;
    c_kill : forall q r, In UINT64_MAX (ch0 S q r) -> q < nRanks /\ r_left (g_r S q) = 0%N;
    c_ch : forall q r, nRanks <= q -> ch0 S q r = [] /\ ch1 S q r = [];
    c_msg : mpi = TychoTwoSided -> forall q r, q < nRanks -> r < nRanks -> filter isData (cur (g_r S r) q ++ ch0 S q r) = map bytesOf (ch1 S q r)
  }.

  (** ** Done ranks *)
  Lemma log_len r st : locOK r st -> length (g_log st) <= total r.
  Proof.
    intros L. transitivity (length (list_prod (seq 0 (rm_nCells (M r))) (seq 0 nAngles))).
    - apply NoDup_incl_length; [apply (l_log r st L)|]. intros [c a] H. apply (l_incl r st L) in H. apply in_prod_iff. split; apply in_seq; lia.
    - rewrite prod_length, !seq_length. unfold total. lia.
  Qed.
  Lemma left0_all r st : locOK r st -> r_left st = 0%N -> forall c a, c < rm_nCells (M r) -> a < nAngles -> In (c, a) (g_log st).
  Proof.
    intros L H c a Hc Ha. rewrite (l_left r st L) in H. pose proof (log_len r st L).
    assert (K : incl (list_prod (seq 0 (rm_nCells (M r))) (seq 0 nAngles)) (g_log st)).
    { apply NoDup_length_incl; [apply (l_log r st L)| |].
      - rewrite prod_length, !seq_length. unfold total in *. lia.
      - intros [c' a'] H'. apply (l_incl r st L) in H'. apply in_prod_iff. split; apply in_seq; lia. }
    apply K. apply in_prod_iff. split; apply in_seq; lia.
  Qed.
  Lemma left0_no_flight S q : CInv S -> q < nRanks -> r_left (g_r S q) = 0%N -> flS S q = [].
  Proof.
    intros C Hq H. destruct (c_inv S C) as (sat & em & I & ST).
    apply (done_no_flight dir doComm nRanks nAngles M T mate val0 bnd0 OK (viewS S sat em) q I ST).
    intros c a (_ & Hc & Ha). cbn. unfold dnS. apply Nat.ltb_lt in Hq. rewrite Hq. cbn. apply inlog_In. apply Nat.ltb_lt in Hq. eapply left0_all; eauto. apply (c_loc S C); auto.
  Qed.
  Lemma flight_bound (w : view) q : Inv w -> q < nRanks -> length (w_fl w q) <= nAngles * rm_nCells (M q) * 4.
  Proof.
    intros I Hq. replace (length (w_fl w q)) with (length (map fst (w_fl w q))) by apply map_length.
    transitivity (length (list_prod (list_prod (seq 0 nAngles) (seq 0 (rm_nCells (M q)))) (seq 0 4))); [|rewrite !prod_length, !seq_length; lia].
    apply (inj_length (fun k s => exists r c f, mate (r, c, f) = Some (q, snd (fst s), snd s) /\ q <> r /\ fst k = key M r c f /\ snd k = fst (fst s))).
    - apply (flight_nodup dir doComm nRanks nAngles M T mate val0 bnd0 w q I).
    - intros [g a] H. apply in_map_iff in H. destruct H as ([[g' a'] d] & E & H). cbn in E. injection E as -> ->.
      destruct (i_pk _ _ _ _ _ _ _ _ _ w I q g a d H) as (DC & Ha & r & c & f & c' & f' & Hm & Nq & _ & Eg & _).
      destruct (mate_back dir nRanks nAngles M mate OK _ _ _ _ _ _ Hm) as (_ & Hc' & Hf').
      exists (a, c', f'). split; [repeat (apply in_prod_iff; split); apply in_seq; lia|]. exists r, c, f. auto.
    - intros [g a] [g' a'] [[a1 c1] f1] (r & c & f & Hm & N & E & E') (r2 & c2 & f2 & Hm2 & N2 & E2 & E2'). cbn in *. subst a a'.
      pose proof (mate_inj dir nRanks nAngles M mate OK _ _ _ Hm Hm2) as X. injection X as <- <- <-. congruence.
  Qed.
  Lemma flS_small S q (l : list (packet D)) : CInv S -> q < nRanks -> length l <= length (flS S q) -> (bytesOf l < INT_MAX)%N.
  Proof.
    intros C Hq H. destruct (c_inv S C) as (sat & em & I & _). pose proof (flight_bound _ q I Hq) as B. cbn in B. specialize (FIT q Hq).
    unfold TraverseModel.bytesOf. eapply N.le_lt_trans; [|exact FIT]. apply N.mul_le_mono_r. lia.
  Qed.
  Lemma flat_map_in_length {X Y} (F : X -> list Y) l i : In i l -> length (F i) <= length (flat_map F l).
  Proof. induction l as [|j l IH]; intros H; [easy|]. cbn. rewrite app_length. destruct H as [->|H]; [lia|]. specialize (IH H). lia. Qed.
  Lemma unsent_len S r q : r < nRanks -> length (unsent (g_r S r) q) <= length (flS S q).
  Proof.
    intros Hr. unfold flS, srcs. rewrite app_length. pose proof (flat_map_in_length (fun r => unsent (g_r S r) q ++ concat (ch1 S r q)) (seq 0 nRanks) r ltac:(apply in_seq; lia)).
    cbn beta in H. rewrite app_length in H. lia.
  Qed.

  (** ** Changes of the packets on their way *)
  Lemma srcs_perm (S S' : gst) q : (forall r, r < nRanks -> Permutation (unsent (g_r S r) q ++ concat (ch1 S r q)) (unsent (g_r S' r) q ++ concat (ch1 S' r q))) ->
    Permutation (srcs S q) (srcs S' q).
  Proof. intros H. unfold srcs. apply flat_map_perm. intros r Hr. apply in_seq in Hr. apply H. lia. Qed.
  Lemma quiet_inv S S' sat em :
    (forall r, r < nRanks -> r_nd (g_r S' r) = r_nd (g_r S r) /\ r_queue (g_r S' r) = r_queue (g_r S r) /\ r_val (g_r S' r) = r_val (g_r S r) /\
       r_bnd (g_r S' r) = r_bnd (g_r S r) /\ g_log (g_r S' r) = g_log (g_r S r)) ->
    (forall r, nRanks <= r -> g_r S' r = g_r S r) ->
    (forall q, Permutation (flS S q) (flS S' q)) -> Inv (viewS S sat em) /\ settled (viewS S sat em) -> Inv (viewS S' sat em) /\ settled (viewS S' sat em).
  Proof.
    intros H H' F (I & ST).
    assert (EQ : forall r, r_nd (g_r S' r) = r_nd (g_r S r) /\ r_queue (g_r S' r) = r_queue (g_r S r) /\ r_val (g_r S' r) = r_val (g_r S r) /\
       r_bnd (g_r S' r) = r_bnd (g_r S r) /\ g_log (g_r S' r) = g_log (g_r S r)).
    { intros r. destruct (Nat.lt_ge_cases r nRanks) as [L|L]; [auto|]. rewrite H' by auto. auto. }
    split.
    - eapply inv_ext; [|exact I]. unfold veq. cbn [viewS w_nd w_ready w_val w_bnd w_fl w_sat w_em w_dn]. unfold dnS.
      repeat split; auto; intros; destruct (EQ r) as (E1 & E2 & E3 & E4 & E5); try rewrite E1; try rewrite E2; try rewrite E3; try rewrite E4; try rewrite E5; auto.
    - intros r c f a Hd Hf. apply (ST r c f a); auto. cbn in *. unfold dnS in *. destruct (EQ r) as (_ & _ & _ & _ & E5). now rewrite <- E5.
  Qed.

  (** ** Quiet steps: only phase, buffers, channels, marks of finished neighbours *)
  Definition core (st st' : rst) : Prop :=
    r_nd st' = r_nd st /\ r_queue st' = r_queue st /\ r_val st' = r_val st /\ r_bnd st' = r_bnd st /\ g_log st' = g_log st /\ r_left st' = r_left st.
  Lemma quiet S r st' c0 c1 g1 g2 : CInv S -> r < nRanks -> core (g_r S r) st' ->
    let S' := mkGst (fupd (g_r S) r st') c0 c1 g1 g2 in
    (forall q, Permutation (flS S q) (flS S' q)) -> bok r (r_buf st') -> phOK r st' ->
    (forall q, r_dark st' q = true -> q < nRanks /\ r_left (g_r S q) = 0%N) ->
    (forall q p, In UINT64_MAX (c0 q p) -> q < nRanks /\ r_left (g_r S q) = 0%N) ->
    (forall q p, nRanks <= q -> c0 q p = [] /\ c1 q p = []) ->
    (mpi = TychoTwoSided -> forall q p, q < nRanks -> p < nRanks -> filter isData (cur (g_r S' p) q ++ c0 q p) = map bytesOf (c1 q p)) ->
    CInv S'.
  Proof.
    intros C Hr (E1 & E2 & E3 & E4 & E5 & E6) S' F B P Dk K Ch Ms.
    assert (LE : forall q, r_left (g_r S' q) = r_left (g_r S q)).
    { intros q. unfold S'. cbn. unfold fupd. destruct (Nat.eqb_spec q r) as [->|]; auto. }
    constructor.
    - destruct (c_inv S C) as (sat & em & I). exists sat, em. apply (quiet_inv S S' sat em); auto.
      + intros r' _. unfold S'. cbn. unfold fupd. destruct (Nat.eqb_spec r' r) as [->|]; auto.
      + intros r' H. unfold S'. cbn. apply fupd_other. lia.
    - intros r' Hr'. unfold S'. cbn. unfold fupd. destruct (Nat.eqb_spec r' r) as [->|]; [|now apply (c_loc S C)].
      destruct (c_loc S C r Hr) as [L1 L2 L3 L4 L5 L6]. constructor; rewrite ?E1, ?E2, ?E5, ?E6; auto.
    - intros r' q Hr' H. rewrite LE. unfold S' in H. cbn in H. unfold fupd in H. destruct (Nat.eqb_spec r' r) as [->|]; [auto|]. eapply (c_dark S C); eauto.
    - intros q p H. rewrite LE. apply (K q p); auto.
    - auto.
    - auto.
  Qed.
  Lemma fl_source S r st' c0 c1 g1 g2 : r < nRanks -> let S' := mkGst (fupd (g_r S) r st') c0 c1 g1 g2 in
    pkOf st' = pkOf (g_r S r) -> (forall q p, q <> r -> c1 q p = ch1 S q p) ->
    (forall q, Permutation (unsent (g_r S r) q ++ concat (ch1 S r q)) (unsent st' q ++ concat (c1 r q))) -> forall q, Permutation (flS S q) (flS S' q).
  Proof.
    intros Hr S' E C H q. unfold flS. apply Permutation_app.
    - apply srcs_perm. intros r' Hr'. unfold S'. cbn. unfold fupd. destruct (Nat.eqb_spec r' r) as [->|N]; [auto|]. now rewrite C.
    - unfold S'. cbn. unfold fupd. destruct (Nat.eqb_spec q r) as [->|]; [|auto]. rewrite E. auto.
  Qed.
  Lemma fl_receive S r q0 l ls st' c0 g1 g2 : r < nRanks -> q0 < nRanks -> ch1 S q0 r = l :: ls ->
    let S' := mkGst (fupd (g_r S) r st') c0 (fupd2 (ch1 S) q0 r ls) g1 g2 in
    (forall q, unsent st' q = unsent (g_r S r) q) -> pkOf st' = pkOf (g_r S r) ++ l -> forall q, Permutation (flS S q) (flS S' q).
  Proof.
    intros Hr Hq0 E S' U P q. unfold flS.
    assert (US : forall r', unsent (g_r S' r') q = unsent (g_r S r') q).
    { intros r'. unfold S'. cbn. unfold fupd. destruct (Nat.eqb_spec r' r) as [->|]; auto. }
    destruct (Nat.eq_dec q r) as [->|N].
    - apply Nat.ltb_lt in Hr. rewrite Hr. unfold S' at 2. cbn [g_r]. rewrite fupd_same, P.
      assert (X : Permutation (srcs S r) (l ++ srcs S' r)).
      { unfold srcs. apply (flat_map_upd _ _ _ q0); [apply seq_NoDup|apply in_seq; lia| |].
        - cbn beta. rewrite US. unfold S'. cbn [ch1]. rewrite fupd2_same, E. cbn [concat]. rewrite !app_assoc. apply Permutation_app_tail, Permutation_app_comm.
        - intros j Hj. rewrite US. unfold S'. cbn [ch1]. rewrite fupd2_other by congruence. reflexivity. }
      rewrite X. rewrite <- app_assoc. etransitivity; [apply Permutation_app_comm|]. now rewrite <- app_assoc.
    - unfold S' at 2. cbn [g_r]. rewrite fupd_other by auto. apply Permutation_app_tail. apply srcs_perm. intros r' Hr'.
      rewrite US. unfold S'. cbn [ch1]. rewrite fupd2_other by congruence. auto.
  Qed.

  (** ** Entering the loop *)
  Lemma nondark_nodup r dark : NoDup (nondark M r dark).
  Proof. unfold nondark. apply NoDup_filter. apply (adjRanks_nodup M r). Qed.
  Lemma nondark_incl r dark : incl (nondark M r dark) (adjRanks r).
  Proof. unfold nondark. intros q H. apply filter_In in H. tauto. Qed.
  Lemma loopTest_ok r nd q left buf buf1 dark val bnd rd log : (forall q, buf1 q = []) ->
    phOK r (mkRst nd q left buf buf1 dark val bnd (loopTest doComm mpi M r left dark) rd log).
  Proof.
    intros B. unfold phOK, loopTest. cbn [r_ph r_left r_buf1]. destruct (N.eqb_spec left 0) as [->|]; [|auto].
    destruct mpi eqn:EM; auto. destruct doComm eqn:EC; auto. split; auto. split; auto. split; [apply nondark_nodup|]. split; [apply nondark_incl|auto].
  Qed.
  Lemma loopTest_unsent r nd q left buf buf1 dark val bnd rd log p : (forall t q, buf t q = []) ->
    unsent (mkRst nd q left buf buf1 dark val bnd (loopTest doComm mpi M r left dark) rd log) p = [].
  Proof.
    intros B. unfold unsent, loopTest. cbn [r_ph r_buf]. destruct (N.eqb_spec left 0) as [->|].
    - destruct mpi; auto. destruct doComm; auto.
    - unfold TraverseProofs.bflat. apply flat_map_nil. auto.
  Qed.
  Lemma loopTest_pk r nd q left buf buf1 dark val bnd rd log : pkOf (mkRst nd q left buf buf1 dark val bnd (loopTest doComm mpi M r left dark) rd log) = [].
  Proof. unfold pkOf, loopTest. cbn [r_ph]. destruct (N.eqb left 0); auto. destruct mpi; auto. destruct doComm; auto. Qed.
  Lemma loopTest_cur r nd q left buf buf1 dark val bnd rd log p : cur (mkRst nd q left buf buf1 dark val bnd (loopTest doComm mpi M r left dark) rd log) p = [].
  Proof. unfold cur, loopTest. cbn [r_ph]. destruct (N.eqb left 0); auto. destruct mpi; auto. destruct doComm; auto. Qed.
  Lemma loopTest_not r left dark : loopTest (D := D) doComm mpi M r left dark <> Failed.
  Proof. unfold loopTest. destruct (N.eqb left 0); [|discriminate]. destruct mpi; [destruct doComm|]; discriminate. Qed.

  (** ** Merging the buffers of the threads *)
  Lemma merge_inner (buf : nat -> nat -> list (packet D)) t adj : NoDup adj -> forall b q,
    fold_left (fun b tq => fupd b (snd tq) (b (snd tq) ++ buf (fst tq) (snd tq))) (map (fun q => (t, q)) adj) b q = b q ++ (if mem q adj then buf t q else []).
  Proof.
    induction adj as [|x adj IH]; intros ND b q; [cbn; now rewrite app_nil_r|]. inversion ND; subst. cbn [map fold_left fst snd]. rewrite IH by auto.
    unfold mem. cbn [existsb]. fold (mem q adj). unfold fupd. destruct (Nat.eqb_spec q x) as [->|N]; cbn [orb]; auto.
    destruct (mem x adj) eqn:E; [apply mem_In in E; easy|]. now rewrite app_nil_r.
  Qed.
  Lemma merge_spec r (st : rst) q : merge nThreads M r st q = r_buf1 st q ++ (if mem q (adjRanks r) then bflat (r_buf st) q else []).
  Proof.
    unfold merge, TraverseProofs.bflat. generalize (r_buf1 st) as b. generalize (seq 0 nThreads) as ts.
    induction ts as [|t ts IH]; intros b; [cbn; destruct (mem q _); now rewrite app_nil_r|].
    cbn [list_prod]. rewrite fold_left_app, IH, merge_inner by apply adjRanks_nodup. rewrite <- app_assoc. f_equal. cbn [flat_map]. destruct (mem q _); auto.
  Qed.

  (** ** The steps *)
  Lemma g_setR (S : gst) r st r' : g_r (setR S r st) r' = if r' =? r then st else g_r S r'.
  Proof. reflexivity. Qed.
  Lemma cur_other S r st' (c0 : nat -> nat -> list N) c1 g1 g2 : CInv S -> r < nRanks -> (forall q, cur st' q = cur (g_r S r) q) ->
    let S' := mkGst (fupd (g_r S) r st') (ch0 S) (ch1 S) g1 g2 in c0 = ch0 S -> c1 = ch1 S ->
    mpi = TychoTwoSided -> forall q p, q < nRanks -> p < nRanks -> filter isData (cur (g_r S' p) q ++ ch0 S q p) = map bytesOf (ch1 S q p).
  Proof.
    intros C Hr E S' _ _ HM q p Hq Hp. rewrite <- (c_msg S C HM q p Hq Hp). unfold S'. cbn [g_r]. unfold fupd. destruct (Nat.eqb_spec p r) as [->|]; auto. now rewrite E.
  Qed.
  (** Steps that change only the phase and the local buffers. *)
  Lemma quiet_local S r st' : CInv S -> r < nRanks -> core (g_r S r) st' -> r_dark st' = r_dark (g_r S r) -> pkOf st' = pkOf (g_r S r) -> (forall q, cur st' q = cur (g_r S r) q) ->
    (forall q, Permutation (unsent (g_r S r) q) (unsent st' q)) -> bok r (r_buf st') -> phOK r st' -> CInv (setR S r st').
  Proof.
    intros C Hr K Dk P Cu U B Ph. apply (quiet S r st' (ch0 S) (ch1 S) (g_sent S) (g_rcvd S)); auto.
    - apply fl_source; auto. intros q. now apply Permutation_app_tail.
    - rewrite Dk. intros q. apply (c_dark S C); auto.
    - apply (c_kill S C).
    - apply (c_ch S C).
    - apply (cur_other S r st' (ch0 S) (ch1 S)); auto.
  Qed.
  Lemma core_setPh (st : rst) ph : core st (setPh st ph).
  Proof. unfold core. auto 10. Qed.

  Lemma step_end_ok S r steps : CInv S -> r < nRanks -> r_ph (g_r S r) = Work steps -> CInv (setR S r (endWork doComm mpi nThreads M r (g_r S r))).
  Proof.
    intros C Hr Ph. destruct (c_loc S C r Hr) as [L1 L2 L3 L4 L5 L6]. pose proof L6 as P6. unfold phOK in P6. rewrite Ph in P6.
    assert (MG : forall q, merge nThreads M r (g_r S r) q = bflat (r_buf (g_r S r)) q).
    { intros q. rewrite merge_spec, P6. cbn. destruct (mem q (adjRanks r)) eqn:E; auto. symmetry. unfold TraverseProofs.bflat. apply flat_map_nil. intros t _.
      destruct (r_buf (g_r S r) t q) eqn:EB; auto. assert (HI : In q (adjRanks r)) by (apply (L5 t q); congruence). apply mem_In in HI. congruence. }
    assert (DK : forall q, r_dark (g_r S r) q = true -> bflat (r_buf (g_r S r)) q = []).
    { intros q Hd. destruct (c_dark S C r q Hr Hd) as (Hq & HL). pose proof (left0_no_flight S q C Hq HL) as F.
      assert (length (unsent (g_r S r) q) <= 0). { pose proof (unsent_len S r q Hr). rewrite F in H. exact H. }
      unfold unsent in H. rewrite Ph in H. destruct (bflat _ q); [auto|cbn in H; lia]. }
    apply quiet_local; auto; unfold endWork.
    - destruct doComm; [destruct mpi|]; unfold core; auto 10.
    - destruct doComm; [destruct mpi|]; auto.
    - destruct doComm eqn:EC; [destruct mpi eqn:EM|]; unfold pkOf at 2; rewrite Ph; auto. rewrite <- EC. apply loopTest_pk.
    - intros q. destruct doComm eqn:EC; [destruct mpi eqn:EM|]; unfold cur at 2; rewrite Ph; auto. rewrite <- EC. apply loopTest_cur.
    - intros q. unfold unsent at 1. rewrite Ph.
      assert (NI : mem q (adjRanks r) = false -> bflat (r_buf (g_r S r)) q = []) by (intros E; rewrite <- MG, merge_spec, P6, E; reflexivity).
      destruct doComm eqn:EC; [destruct mpi eqn:EM|].
      + unfold unsent. cbn [r_ph setPh r_buf1]. rewrite MG. destruct (mem q (nondark M r _)) eqn:E; auto. cbn [r_dark] in E.
        destruct (r_dark (g_r S r) q) eqn:Ed; [rewrite DK; auto|]. rewrite NI; auto. destruct (mem q (adjRanks r)) eqn:E'; auto.
        apply mem_In in E'. assert (K : In q (nondark M r (r_dark (g_r S r)))) by (apply filter_In; split; auto; now rewrite Ed). apply mem_In in K. congruence.
      + unfold unsent. cbn [r_ph setPh r_buf1]. rewrite MG. destruct (mem q (adjRanks r)) eqn:E; auto. rewrite NI; auto.
      + rewrite <- EC. rewrite loopTest_unsent.
        * unfold TraverseProofs.bflat. rewrite flat_map_nil; auto. intros t _. destruct (r_buf (g_r S r) t q) eqn:EB; auto. destruct (L5 t q); congruence.
        * intros t p. cbn [r_buf]. destruct (r_buf (g_r S r) t p) eqn:EB; auto. destruct (L5 t p); congruence.
    - destruct doComm; [destruct mpi|]; exact L5.
    - destruct doComm eqn:EC; [destruct mpi eqn:EM|].
      + unfold phOK. cbn. rewrite EM, EC. split; auto. split; auto. split; [apply nondark_nodup|]. split; [apply nondark_incl|discriminate].
      + unfold phOK. cbn. rewrite EM, EC. split; auto. split; auto. split; [apply adjRanks_nodup|apply incl_refl].
      + rewrite <- EC. apply loopTest_ok. cbn [r_buf1]. intros q. rewrite MG. unfold TraverseProofs.bflat. apply flat_map_nil. intros t _.
        destruct (r_buf (g_r S r) t q) eqn:EB; auto. destruct (L5 t q); congruence.
  Qed.

  Lemma not_mem_cons q x todo : NoDup (x :: todo) -> mem q (x :: todo) = if q =? x then true else mem q todo.
  Proof. intros _. unfold mem. cbn [existsb]. now destruct (q =? x). Qed.
  Lemma step_send_ok S r kill q todo : CInv S -> r < nRanks -> r_ph (g_r S r) = Send kill (q :: todo) ->
    let st := g_r S r in
    let size := if kill then UINT64_MAX else bytesOf (r_buf1 st q) in
    let data := N.ltb 0 size && negb (N.eqb size UINT64_MAX) in
    CInv (if data && negb (N.ltb (bytesOf (r_buf1 st q)) INT_MAX) then setR S r (setPh st Failed) else
         mkGst (fupd (g_r S) r (setPh st (Send kill todo))) (fupd2 (ch0 S) r q (ch0 S r q ++ [size]))
               (if data then fupd2 (ch1 S) r q (ch1 S r q ++ [r_buf1 st q]) else ch1 S)
               (fupd2 (g_sent S) r q (Datatypes.S (g_sent S r q))) (g_rcvd S)).
  Proof.
    intros C Hr Ph st size data. destruct (c_loc S C r Hr) as [L1 L2 L3 L4 L5 L6]. pose proof L6 as P6. unfold phOK in P6. rewrite Ph in P6.
    destruct P6 as (HM & DC & ND & IC & KL). inversion ND as [|? ? NI ND']; subst.
    assert (Hq : q < nRanks) by (apply (adjRanks_lt dir nRanks nAngles M mate OK r q Hr); apply IC; now left).
    assert (NM : mem q todo = false). { destruct (mem q todo) eqn:E; auto. apply mem_In in E. easy. }
    assert (SM : kill = false -> (bytesOf (r_buf1 st q) < INT_MAX)%N).
    { intros ->. apply (flS_small S q); auto. pose proof (unsent_len S r q Hr) as H. unfold unsent in H. rewrite Ph in H. rewrite not_mem_cons in H by auto. rewrite Nat.eqb_refl in H. exact H. }
    assert (FA : data && negb (N.ltb (bytesOf (r_buf1 st q)) INT_MAX) = false).
    { unfold data, size. destruct kill; [reflexivity|]. specialize (SM eq_refl). apply N.ltb_lt in SM. rewrite SM. apply andb_false_r. }
    rewrite FA. 
    assert (EM : kill = false -> data = false -> r_buf1 st q = []).
    { intros -> Hd. specialize (SM eq_refl). unfold data, size in Hd. destruct (r_buf1 st q) as [|x l] eqn:E; auto. exfalso.
      unfold TraverseModel.bytesOf in *. cbn [length] in *. apply andb_false_iff in Hd. destruct Hd as [Hd|Hd].
      - apply N.ltb_ge in Hd. assert (0 < N.of_nat (Datatypes.S (length l)) * psize)%N; [|lia]. apply N.mul_pos_pos; lia.
      - apply negb_false_iff, N.eqb_eq in Hd. rewrite Hd in SM. vm_compute in SM. discriminate. }
    apply quiet; auto.
    - apply core_setPh.
    - apply fl_source; auto.
      + unfold pkOf. cbn [r_ph setPh]. now rewrite Ph.
      + intros q' p N. destruct data; auto. apply fupd2_other. congruence.
      + intros p. unfold unsent. rewrite Ph. cbn [r_ph setPh r_buf1]. destruct kill.
        { unfold data, size. cbn. auto. }
        rewrite not_mem_cons by auto. destruct (Nat.eqb_spec p q) as [->|N].
        * rewrite NM. destruct data eqn:Ed.
          -- rewrite fupd2_same, concat_app. cbn [concat]. rewrite app_nil_r. cbn [app]. apply Permutation_app_comm.
          -- fold st. rewrite EM by auto. auto.
        * destruct data; [rewrite fupd2_other by congruence|]; auto.
    - unfold phOK. cbn [r_ph setPh r_left]. split; auto. split; auto. split; auto. split; auto. intros x Hx. apply IC. now right.
    - intros p' Hd'. apply (c_dark S C r p' Hr Hd').
    - intros q' p HI. unfold fupd2 in HI. destruct (Nat.eqb_spec q' r) as [->|N]; cbn [andb] in HI; [|apply (c_kill S C q' p); auto].
      destruct (Nat.eqb_spec p q) as [Ep|N]; [|apply (c_kill S C r p); auto]. apply in_app_iff in HI. destruct HI as [HI|[HI|[]]]; [apply (c_kill S C r q); auto|].
      unfold size in HI. destruct kill; [auto|]. specialize (SM eq_refl). rewrite HI in SM. vm_compute in SM. discriminate.
    - intros q' p HG. destruct (c_ch S C q' p HG) as (E0 & E1). split; [rewrite fupd2_other by (intros E; injection E as -> ->; lia); auto|].
      destruct data; auto. rewrite fupd2_other by (intros E; injection E as -> ->; lia). auto.
    - intros _ q' p Hq' Hp. cbn [g_r].
      assert (CU : cur (fupd (g_r S) r (setPh st (Send kill todo)) p) q' = cur (g_r S p) q').
      { unfold fupd. destruct (Nat.eqb_spec p r) as [->|]; auto. unfold cur. cbn [r_ph setPh]. now rewrite Ph. }
      rewrite CU. pose proof (c_msg S C HM q' p Hq' Hp) as X. destruct (Nat.eq_dec q' r) as [->|N].
      2: { rewrite fupd2_other by congruence. destruct data; [rewrite fupd2_other by congruence|]; auto. }
      destruct (Nat.eq_dec p q) as [->|N].
      2: { rewrite fupd2_other by congruence. destruct data; [rewrite fupd2_other by congruence|]; auto. }
      rewrite fupd2_same, app_assoc, filter_app, X. cbn [filter]. change (isData size) with data. destruct data eqn:Ed.
      + rewrite fupd2_same, map_app. cbn [map]. unfold size. destruct kill; [unfold data, size in Ed; discriminate|]. reflexivity.
      + now rewrite app_nil_r.
  Qed.

  Lemma step_size_ok S r kill q p1 p2 pk n sizes : CInv S -> r < nRanks -> r_ph (g_r S r) = Recv kill (p1 ++ q :: p2) None pk -> ch0 S q r = n :: sizes ->
      let st := g_r S r in
      let st := mkRst (r_nd st) (r_queue st) (r_left st) (r_buf st) (r_buf1 st) (if N.eqb n UINT64_MAX then fupd (r_dark st) q true else r_dark st)
                  (r_val st) (r_bnd st)
                  (Recv kill (p1 ++ p2) (if N.ltb 0 n && negb (N.eqb n UINT64_MAX) then Some (q, n) else None) pk) (g_round st) (g_log st) in
      CInv (mkGst (fupd (g_r S) r st) (fupd2 (ch0 S) q r sizes) (ch1 S) (g_sent S) (fupd2 (g_rcvd S) q r (Datatypes.S (g_rcvd S q r)))).
  Proof.
    intros C Hr Ph E st st'. destruct (c_loc S C r Hr) as [L1 L2 L3 L4 L5 L6]. pose proof L6 as P6. unfold phOK in P6. rewrite Ph in P6.
    destruct P6 as (HM & DC & ND & IC & KL & CK).
    assert (Hq : q < nRanks) by (apply (adjRanks_lt dir nRanks nAngles M mate OK r q Hr); apply IC; apply in_elt).
    apply quiet; auto.
    - unfold core. auto 10.
    - apply fl_source; auto.
      + unfold pkOf. now rewrite Ph.
      + intros p. unfold unsent. rewrite Ph. auto.
    - unfold phOK. cbn [r_ph st' r_left]. split; auto. split; auto. split; [eapply NoDup_remove_1; eauto|]. split; [intros x Hx; apply IC; apply in_app_iff in Hx; apply in_app_iff; cbn; tauto|].
      split; auto. intros q' n'. change (N.ltb 0 n && negb (N.eqb n UINT64_MAX)) with (isData n). destruct (isData n) eqn:Ed; [|discriminate]. intros X. injection X as <- <-. auto.
    - intros p. cbn [r_dark st']. destruct (N.eqb_spec n UINT64_MAX) as [->|]; [|apply (c_dark S C r); auto]. unfold fupd. destruct (Nat.eqb_spec p q) as [Ep|]; [|apply (c_dark S C r); auto].
      intros _. rewrite Ep. apply (c_kill S C q r). rewrite E. now left.
    - intros q' p HI. apply (c_kill S C q' p). unfold fupd2 in HI. destruct (Nat.eqb_spec q' q) as [Eq'|]; auto. destruct (Nat.eqb_spec p r) as [Ep|]; auto. rewrite Eq', Ep, E. now right.
    - intros q' p HG. destruct (c_ch S C q' p HG) as (E0 & E1). split; auto. rewrite fupd2_other by (intros X; injection X as -> ->; lia). auto.
    - intros _ q' p Hq' Hp. cbn [g_r]. pose proof (c_msg S C HM q' p Hq' Hp) as X. unfold fupd. destruct (Nat.eqb_spec p r) as [->|N].
      2: { rewrite fupd2_other by congruence. exact X. }
      rewrite <- X. unfold cur. rewrite Ph. cbn [r_ph st' app].
      change (N.ltb 0 n && negb (N.eqb n UINT64_MAX)) with (isData n). destruct (Nat.eqb_spec q q') as [<-|N'].
      + rewrite fupd2_same, E. cbn [filter]. destruct (isData n) eqn:Ed; auto. rewrite Nat.eqb_refl. cbn [app filter]. now rewrite Ed.
      + rewrite fupd2_other by congruence. destruct (isData n); auto. destruct (Nat.eqb_spec q q'); [congruence|]. reflexivity.
  Qed.

  Lemma step_data_ok S r kill pend q n pk l ls : CInv S -> r < nRanks -> r_ph (g_r S r) = Recv kill pend (Some (q, n)) pk -> ch1 S q r = l :: ls ->
      CInv (if N.eqb (bytesOf l) n then
           mkGst (fupd (g_r S) r (setPh (g_r S r) (Recv kill pend None (pk ++ l)))) (ch0 S) (fupd2 (ch1 S) q r ls) (g_sent S) (g_rcvd S)
         else setR S r (setPh (g_r S r) Failed)).
  Proof.
    intros C Hr Ph E. destruct (c_loc S C r Hr) as [L1 L2 L3 L4 L5 L6]. pose proof L6 as P6. unfold phOK in P6. rewrite Ph in P6.
    destruct P6 as (HM & DC & ND & IC & KL & CK). destruct (CK q n eq_refl) as (Hn & Hq).
    assert (X : n :: filter isData (ch0 S q r) = bytesOf l :: map bytesOf ls).
    { pose proof (c_msg S C HM q r Hq Hr) as X. rewrite E in X. unfold cur in X. rewrite Ph, Nat.eqb_refl in X. cbn [app filter map] in X. now rewrite Hn in X. }
    injection X as X1 X2. rewrite <- X1, N.eqb_refl. apply quiet; auto.
    - apply core_setPh.
    - apply (fl_receive S r q l ls); auto.
      + intros p. unfold unsent. rewrite Ph. reflexivity.
      + unfold pkOf. rewrite Ph. reflexivity.
    - unfold phOK. cbn [r_ph setPh r_left]. split; auto. split; auto. split; auto. split; auto. split; auto. discriminate.
    - intros p' Hd'. apply (c_dark S C r p' Hr Hd').
    - apply (c_kill S C).
    - intros q' p HG. destruct (c_ch S C q' p HG) as (E0 & E1). split; auto. rewrite fupd2_other by (intros Y; injection Y as -> ->; lia). auto.
    - intros _ q' p Hq' Hp. cbn [g_r]. pose proof (c_msg S C HM q' p Hq' Hp) as X. unfold fupd. destruct (Nat.eqb_spec p r) as [->|N].
      2: { rewrite fupd2_other by congruence. exact X. }
      unfold cur in *. cbn [r_ph setPh app]. rewrite Ph in X. destruct (Nat.eqb_spec q q') as [<-|N'].
      + rewrite fupd2_same. auto.
      + rewrite fupd2_other by congruence. auto.
  Qed.

  Lemma step_csend_ok S r q todo : CInv S -> r < nRanks -> r_ph (g_r S r) = CSend (q :: todo) ->
    CInv (mkGst (fupd (g_r S) r (setPh (g_r S r) (CSend todo))) (ch0 S) (fupd2 (ch1 S) r q (ch1 S r q ++ payload (r_buf1 (g_r S r) q))) (g_sent S) (g_rcvd S)).
  Proof.
    intros C Hr Ph. destruct (c_loc S C r Hr) as [L1 L2 L3 L4 L5 L6]. pose proof L6 as P6. unfold phOK in P6. rewrite Ph in P6.
    destruct P6 as (HM & DC & ND & IC). inversion ND as [|? ? NI ND']; subst.
    assert (NM : mem q todo = false). { destruct (mem q todo) eqn:E; auto. apply mem_In in E. easy. }
    apply quiet; auto.
    - apply core_setPh.
    - apply fl_source; auto.
      + unfold pkOf. cbn [r_ph setPh]. now rewrite Ph.
      + intros q' p N. apply fupd2_other. congruence.
      + intros p. unfold unsent. rewrite Ph. cbn [r_ph setPh r_buf1]. rewrite not_mem_cons by auto. destruct (Nat.eqb_spec p q) as [->|N].
        * rewrite NM, fupd2_same, concat_app. cbn [app]. unfold payload. destruct (r_buf1 (g_r S r) q); cbn [concat]; rewrite ?app_nil_r; [auto|apply Permutation_app_comm].
        * rewrite fupd2_other by congruence. auto.
    - unfold phOK. cbn [r_ph setPh r_left]. split; auto. split; auto. split; auto. intros x Hx. apply IC. now right.
    - intros p' Hd'. apply (c_dark S C r p' Hr Hd').
    - apply (c_kill S C).
    - intros q' p HG. destruct (c_ch S C q' p HG) as (E0 & E1). split; auto. rewrite fupd2_other by (intros Y; injection Y as -> ->; lia). auto.
    - congruence.
  Qed.
  Lemma step_crecv_ok S r q todo pk l ls : CInv S -> r < nRanks -> r_ph (g_r S r) = CProbe (q :: todo) pk -> ch1 S q r = l :: ls ->
    CInv (mkGst (fupd (g_r S) r (setPh (g_r S r) (CProbe todo (pk ++ l)))) (ch0 S) (fupd2 (ch1 S) q r ls) (g_sent S) (g_rcvd S)).
  Proof.
    intros C Hr Ph E. destruct (c_loc S C r Hr) as [L1 L2 L3 L4 L5 L6]. pose proof L6 as P6. unfold phOK in P6. rewrite Ph in P6.
    destruct P6 as (HM & DC & IC). assert (Hq : q < nRanks) by (apply (adjRanks_lt dir nRanks nAngles M mate OK r q Hr); apply IC; now left).
    apply quiet; auto.
    - apply core_setPh.
    - apply (fl_receive S r q l ls); auto.
      + intros p. unfold unsent. rewrite Ph. reflexivity.
      + unfold pkOf. rewrite Ph. reflexivity.
    - unfold phOK. cbn [r_ph setPh r_left]. split; auto. split; auto. intros x Hx. apply IC. now right.
    - intros p' Hd'. apply (c_dark S C r p' Hr Hd').
    - apply (c_kill S C).
    - intros q' p HG. destruct (c_ch S C q' p HG) as (E0 & E1). split; auto. rewrite fupd2_other by (intros Y; injection Y as -> ->; lia). auto.
    - congruence.
  Qed.

  (** End of an exchange: the received packets are unpacked. *)
  Lemma exchange_ok S r pk : CInv S -> r < nRanks -> pkOf (g_r S r) = pk -> (forall q, unsent (g_r S r) q = []) -> (forall q, cur (g_r S r) q = []) ->
    CInv (setR S r (endExchange doComm mpi nAngles nThreads M T r (g_r S r) pk)).
  Proof.
    intros C Hr Pk U Cu. destruct (c_loc S C r Hr) as [L1 L2 L3 L4 L5 L6]. destruct (c_inv S C) as (sat & em & I & ST).
    assert (HrB : (r <? nRanks) = true) by (now apply Nat.ltb_lt).
    destruct (unpack_ok dir doComm nRanks nAngles nThreads M T mate val0 bnd0 OK TH r Hr pk (srcs S r) (viewS S sat em) (r_nd (g_r S r)) (r_queue (g_r S r)) (r_bnd (g_r S r)) I)
      as (nd' & q' & bnd' & w' & E & I' & B1 & B2 & B3 & B4 & B5 & B6 & B7 & B8 & B9 & B10 & B11 & B12); auto.
    { cbn [viewS w_fl]. unfold flS. rewrite HrB, Pk. apply Permutation_app_comm. }
    { cbn [viewS w_bnd]. now rewrite HrB. }
    cbn [viewS w_nd w_ready w_val w_bnd w_fl w_sat w_em w_dn] in B2, B4, B5, B7, B8, B9, B11.
    unfold endExchange. rewrite E. set (st' := mkRst _ _ _ _ _ _ _ _ _ _ _).
    assert (LE : forall q, r_left (g_r (setR S r st') q) = r_left (g_r S q)).
    { intros q. rewrite g_setR. destruct (Nat.eqb_spec q r) as [->|]; auto. }
    assert (US : forall q, unsent st' q = []) by (intros q; apply loopTest_unsent; auto).
    assert (SR : forall q, Permutation (srcs S q) (srcs (setR S r st') q)).
    { intros q. apply srcs_perm. intros r' Hr'. rewrite g_setR. cbn [setR ch1]. destruct (Nat.eqb_spec r' r) as [->|]; auto. rewrite US, U. auto. }
    constructor.
    - exists (w_sat w'), (w_em w'). split.
      + eapply inv_ext; [|exact I']. unfold veq, viewS. cbn [w_nd w_ready w_val w_bnd w_fl w_sat w_em w_dn].
        split; [|split; [|split; [|split; [|split; [|split; [|split]]]]]]; auto.
        * intros r' a c. rewrite g_setR. destruct (Nat.eqb_spec r' r) as [->|N]; [|auto]. cbn [st' r_nd]. now rewrite B1.
        * intros r' Hr'. rewrite g_setR. destruct (Nat.eqb_spec r' r) as [->|N]; [auto|]. now rewrite B4.
        * intros r' c a. rewrite B5. rewrite g_setR. destruct (Nat.eqb_spec r' r) as [->|N]; auto.
        * intros r' s a. rewrite g_setR. destruct (Nat.eqb_spec r' r) as [->|N]; [rewrite HrB; cbn [st' r_bnd]; now rewrite B6|]. now rewrite B7.
        * intros r'. destruct (Nat.eq_dec r' r) as [->|N].
          -- rewrite B10. unfold flS. rewrite HrB, g_setR, Nat.eqb_refl. unfold st'. rewrite loopTest_pk, app_nil_r. apply SR.
          -- rewrite B11 by auto. unfold flS. rewrite g_setR. destruct (Nat.eqb_spec r' r); [congruence|]. apply Permutation_app_tail. apply SR.
        * intros r' c a. rewrite B8. unfold dnS. rewrite g_setR. destruct (Nat.eqb_spec r' r) as [->|]; auto.
      + intros r' c f a Hd Hf. cbn [viewS w_em w_dn] in *. rewrite B9. apply (ST r' c f a); auto. cbn. unfold dnS in *. rewrite g_setR in Hd. destruct (Nat.eqb_spec r' r) as [->|]; auto.
    - intros r' Hr'. rewrite g_setR. destruct (Nat.eqb_spec r' r) as [->|]; [|now apply (c_loc S C)]. constructor; auto.
      + intros t q. cbn. congruence.
      + apply loopTest_ok. auto.
    - intros r' q Hr' H. rewrite LE. rewrite g_setR in H. destruct (Nat.eqb_spec r' r) as [->|]; apply (c_dark S C _ q Hr'); auto.
    - intros q p H. rewrite LE. apply (c_kill S C q p); auto.
    - apply (c_ch S C).
    - intros HM q p Hq Hp. rewrite g_setR. cbn [setR ch0 ch1]. rewrite <- (c_msg S C HM q p Hq Hp). destruct (Nat.eqb_spec p r) as [->|]; auto.
      rewrite Cu. unfold st'. now rewrite loopTest_cur.
  Qed.

  (** One pair updated. *)
  Lemma step_work_ok S r t steps c a p rest1 rest2 : CInv S -> r < nRanks -> r_ph (g_r S r) = Work steps -> t < nThreads ->
    r_queue (g_r S r) t = rest1 ++ (c, a, p) :: rest2 ->
    CInv (setR S r (compute dir doComm M T r t (g_r S r) steps c a (rest1 ++ rest2))) /\
    ~ In (c, a) (g_log (g_r S r)) /\ c < rm_nCells (M r) /\ a < nAngles /\ r_ph (compute dir doComm M T r t (g_r S r) steps c a (rest1 ++ rest2)) <> Failed.
  Proof.
    intros C Hr Ph Ht Eq. destruct (c_loc S C r Hr) as [L1 L2 L3 L4 L5 L6]. destruct (c_inv S C) as (sat & em & I & ST).
    assert (HrB : (r <? nRanks) = true) by (now apply Nat.ltb_lt). pose proof L6 as P6. unfold phOK in P6. rewrite Ph in P6.
    assert (HA : angleGroupIndex nAngles nThreads a = Some t). { apply (L4 t c a p). rewrite Eq. apply in_elt. }
    assert (HP : Permutation (qflat (r_queue (g_r S r))) ((c, a) :: qflat (fupd (r_queue (g_r S r)) t (rest1 ++ rest2)))).
    { unfold TraverseProofs.qflat. apply (flat_map_upd _ _ _ t [(c, a)]); [apply seq_NoDup|apply in_seq; lia| |].
      - rewrite fupd_same, Eq, !map_app. cbn [map fst app]. apply Permutation_sym, Permutation_middle.
      - intros j Hj. now rewrite fupd_other. }
    set (v := td_update T r c a (map (readFace dir M T r (r_val (g_r S r)) (r_bnd (g_r S r)) c a) (seq 0 4))).
    assert (HIr : In (c, a) (w_ready (viewS S sat em) r)) by (cbn; eapply Permutation_in; [apply Permutation_sym; exact HP|now left]).
    pose proof (proj1 (i_ready _ _ _ _ _ _ _ _ _ _ I r c a Hr) HIr) as ((_ & Hc & Ha) & _ & Hdn). cbn in Hdn. unfold dnS in Hdn. rewrite HrB in Hdn. cbn in Hdn.
    assert (NL : ~ In (c, a) (g_log (g_r S r))) by (rewrite <- inlog_In; congruence).
    assert (I1 := begin_inv dir doComm nRanks nAngles M T mate val0 bnd0 OK (viewS S sat em) r c a _ v I Hr HP).
    cbn [viewS w_nd w_ready w_val w_bnd w_fl w_sat w_em w_dn] in I1. rewrite HrB in I1. specialize (I1 eq_refl).
    match type of I1 with TraverseInv.Inv _ _ _ _ _ _ _ _ _ ?w => set (w1 := w) in * end.
    destruct (children_ok dir doComm nRanks nAngles nThreads M T mate val0 bnd0 OK TH r t c a v Ht HA (seq 0 4) w1 (r_nd (g_r S r)) (fupd (r_queue (g_r S r)) t (rest1 ++ rest2)) (r_buf (g_r S r)))
      as (nd' & q' & buf' & w' & dl & E & I' & B1 & B2 & B3 & B4 & B5 & B6 & B7 & B8 & B9 & B10 & B11 & B12); auto.
    { apply seq_NoDup. }
    { intros f Hf. apply in_seq in Hf. split; [lia|]. unfold w1. cbn [w_em]. destruct (em r c f a) eqn:Eem; auto.
      destruct (i_em _ _ _ _ _ _ _ _ _ _ I r c f a Eem) as (_ & X). cbn in X. unfold dnS in X. rewrite HrB in X. cbn in X. congruence. }
    { unfold w1. cbn [w_dn]. apply dn_set_same. }
    { unfold w1. cbn [w_val]. unfold val_set. now rewrite !Nat.eqb_refl. }
    { unfold w1. cbn [w_ready]. now rewrite fupd_same. }
    { intros t' c' a' p' H. unfold fupd in H. destruct (Nat.eqb_spec t' t) as [->|]; [|apply (L4 t' c' a' p'); auto]. apply (L4 t c' a' p'). rewrite Eq.
      apply in_app_iff in H. apply in_app_iff. cbn. tauto. }
    unfold compute. fold v. rewrite E. set (st' := mkRst _ _ _ _ _ _ _ _ _ _ _).
    split; [|split; [auto|split; [auto|split; [auto|discriminate]]]].
    pose proof (log_len r (g_r S r) (c_loc S C r Hr)) as LL.
    assert (LL' : Datatypes.S (length (g_log (g_r S r))) <= total r).
    { transitivity (length (list_prod (seq 0 (rm_nCells (M r))) (seq 0 nAngles))); [|rewrite prod_length, !seq_length; unfold total; lia].
      change (Datatypes.S (length (g_log (g_r S r)))) with (length ((c, a) :: g_log (g_r S r))). apply NoDup_incl_length; [now constructor|].
      intros [c' a'] [H|H]; apply in_prod_iff; [injection H as <- <-|apply L2 in H]; split; apply in_seq; lia. }
    assert (SZ := sf_size _ _ _ _ _ OK r Hr).
    assert (LE : r_left st' = N.of_nat (total r - Datatypes.S (length (g_log (g_r S r))))).
    { cbn [st' r_left]. rewrite L3. unfold total in *. unfold dec64, w64, two64, UINT64_MAX in *. 
      replace (N.of_nat (nAngles * rm_nCells (M r) - length (g_log (g_r S r)))) with (N.of_nat (nAngles * rm_nCells (M r) - Datatypes.S (length (g_log (g_r S r)))) + 1)%N by lia.
      replace (N.of_nat (nAngles * rm_nCells (M r) - Datatypes.S (length (g_log (g_r S r)))) + 1 + 18446744073709551615)%N with
        (N.of_nat (nAngles * rm_nCells (M r) - Datatypes.S (length (g_log (g_r S r)))) + 1 * 18446744073709551616)%N by lia.
      rewrite N.mod_add by lia. apply N.mod_small. 
      assert (N.of_nat (nAngles * rm_nCells (M r) - Datatypes.S (length (g_log (g_r S r)))) <= N.of_nat (nAngles * rm_nCells (M r)))%N by lia.
      rewrite Nat2N.inj_mul in H. lia. }
    assert (NZ : forall q, q < nRanks -> r_left (g_r S q) = 0%N -> r_left (g_r (setR S r st') q) = 0%N).
    { intros q Hq H. rewrite g_setR. destruct (Nat.eqb_spec q r) as [->|]; auto. rewrite LE. rewrite L3 in H. lia. }
    constructor.
    - exists (w_sat w'), (w_em w'). split.
      + eapply inv_ext; [|exact I']. unfold veq, viewS. cbn [w_nd w_ready w_val w_bnd w_fl w_sat w_em w_dn].
        split; [|split; [|split; [|split; [|split; [|split; [|split]]]]]]; auto.
        * intros r' a' c'. rewrite g_setR. destruct (Nat.eqb_spec r' r) as [->|N]; [|rewrite B2 by auto; auto]. cbn [st' r_nd]. now rewrite B1.
        * intros r' Hr'. rewrite g_setR. destruct (Nat.eqb_spec r' r) as [->|N]; [auto|]. rewrite B4 by auto. unfold w1. cbn [w_ready]. now rewrite fupd_other.
        * intros r' c' a'. rewrite B5. rewrite g_setR. unfold w1. cbn [w_val]. unfold val_set. destruct (Nat.eqb_spec r' r) as [->|N]; cbn [andb]; auto.
          rewrite HrB. cbn [st' r_val]. unfold fupd2. reflexivity.
        * intros r' s a'. rewrite B6. unfold w1. cbn [w_bnd]. rewrite g_setR. destruct (Nat.eqb_spec r' r) as [->|N]; auto.
        * intros q. destruct (B8 q) as (X1 & X2). rewrite X1. unfold w1. cbn [w_fl]. unfold flS. rewrite app_assoc. apply Permutation_app.
          -- apply Permutation_sym. unfold srcs. apply (flat_map_upd _ _ _ r); [apply seq_NoDup|apply in_seq; lia| |].
             ++ rewrite g_setR, Nat.eqb_refl. unfold unsent at 1 2. rewrite Ph. cbn [st' r_ph r_buf setR ch1]. rewrite app_assoc. apply Permutation_app_tail. exact X2.
             ++ intros j Hj. rewrite g_setR. destruct (Nat.eqb_spec j r); [congruence|reflexivity].
          -- rewrite g_setR. destruct (Nat.eqb_spec q r) as [->|]; auto. unfold pkOf. rewrite Ph. auto.
        * intros r' c' a'. rewrite B7. unfold w1. cbn [w_dn]. unfold dn_set, dnS. rewrite g_setR. destruct (Nat.eqb_spec r' r) as [->|]; cbn [andb]; auto.
          rewrite HrB. cbn [andb st' g_log]. unfold inlog. cbn [existsb fst snd]. rewrite (Nat.eqb_sym c c'), (Nat.eqb_sym a a'). now destruct (_ && _).
      + intros r' c' f a' Hd Hf. cbn [viewS w_em w_dn] in *. unfold dnS in Hd. rewrite g_setR in Hd. destruct (Nat.eqb_spec r' r) as [->|N].
        * rewrite HrB in Hd. cbn [andb st' g_log] in Hd. apply inlog_In in Hd. destruct Hd as [Hd|Hd].
          -- injection Hd as <- <-. apply B9. apply in_seq. lia.
          -- apply B10. unfold w1. cbn [w_em]. apply (ST r c' f a'); auto. cbn. unfold dnS. rewrite HrB. cbn. now apply inlog_In.
        * apply B10. unfold w1. cbn [w_em]. apply (ST r' c' f a'); auto.
    - intros r' Hr'. rewrite g_setR. destruct (Nat.eqb_spec r' r) as [->|]; [|now apply (c_loc S C)]. constructor; auto.
      + cbn [st' g_log]. now constructor.
      + intros c' a' [H|H]; [injection H as <- <-|]; auto.
    - intros r' q Hr' H. rewrite g_setR in H. assert (q < nRanks /\ r_left (g_r S q) = 0%N) as (Hq & X).
      { destruct (Nat.eqb_spec r' r) as [->|]; apply (c_dark S C _ q Hr'); auto. } auto.
    - intros q p' H. destruct (c_kill S C q p' H) as (Hq & X). auto.
    - apply (c_ch S C).
    - intros HM q p' Hq Hp. rewrite g_setR. cbn [setR ch0 ch1]. rewrite <- (c_msg S C HM q p' Hq Hp). destruct (Nat.eqb_spec p' r) as [->|]; auto.
      unfold cur. now rewrite Ph.
  Qed.

  Theorem step_ok S r l S' : CInv S -> r < nRanks -> step r S l S' -> CInv S'.
  Proof.
    intros C Hr H. pose proof (l_ph _ _ (c_loc S C r Hr)) as P6. unfold phOK in P6. pose proof (l_buf _ _ (c_loc S C r Hr)) as LB. destruct H.
    - eapply step_work_ok; eauto.
    - eapply step_end_ok; eauto.
    - apply step_send_ok; auto.
    - rewrite H in P6. apply quiet_local; auto.
      + apply core_setPh.
      + unfold pkOf. now rewrite H.
      + intros q. unfold cur. now rewrite H.
      + intros q. unfold unsent. rewrite H. destruct kill; auto.
      + unfold phOK. cbn [setPh r_ph r_left]. destruct P6 as (A1 & A2 & A3 & A4 & A5). split; auto. split; auto. split; [apply nondark_nodup|]. split; [apply nondark_incl|]. split; auto. discriminate.
    - eapply step_size_ok; eauto.
    - eapply step_data_ok; eauto.
    - rewrite H in P6. apply quiet_local; auto.
      + apply core_setPh.
      + unfold pkOf. now rewrite H.
      + intros q. unfold cur. now rewrite H.
      + intros q. unfold unsent. rewrite H. auto.
      + unfold phOK. cbn [setPh r_ph r_left]. tauto.
    - rewrite H in P6. destruct P6 as (A1 & A2 & A3). destruct kill.
      + assert (pk = []).
        { pose proof (left0_no_flight S r C Hr (A3 eq_refl)) as F. unfold flS in F. apply app_eq_nil in F. destruct F as (_ & F).
          apply Nat.ltb_lt in Hr. rewrite Hr in F. unfold pkOf in F. now rewrite H in F. }
        subst pk. apply quiet_local; auto.
        * apply core_setPh.
        * unfold pkOf. now rewrite H.
        * intros q. unfold cur. now rewrite H.
        * intros q. unfold unsent. rewrite H. auto.
        * unfold phOK. cbn [setPh r_ph r_left]. auto.
      + apply exchange_ok; auto.
        * unfold pkOf. now rewrite H.
        * intros q. unfold unsent. now rewrite H.
        * intros q. unfold cur. now rewrite H.
    - apply step_csend_ok; auto.
    - rewrite H in P6. apply quiet_local; auto.
      + apply core_setPh.
      + unfold pkOf. now rewrite H.
      + intros q. unfold cur. now rewrite H.
      + intros q. unfold unsent. rewrite H. auto.
      + unfold phOK. cbn [setPh r_ph r_left]. tauto.
    - rewrite H in P6. apply quiet_local; auto.
      + apply core_setPh.
      + unfold pkOf. now rewrite H.
      + intros q. unfold cur. now rewrite H.
      + intros q. unfold unsent. rewrite H. auto.
      + unfold phOK. cbn [setPh r_ph r_left]. destruct P6. split; auto. split; auto. apply incl_refl.
    - rewrite H in P6. apply quiet_local; auto.
      + apply core_setPh.
      + unfold pkOf. now rewrite H.
      + intros q'. unfold cur. now rewrite H.
      + intros q'. unfold unsent. rewrite H. auto.
      + unfold phOK. cbn [setPh r_ph r_left]. destruct P6 as (A1 & A2 & A3). split; auto. split; auto. intros x Hx. apply A3. now right.
    - eapply step_crecv_ok; eauto.
    - apply exchange_ok; auto.
      + unfold pkOf. now rewrite H.
      + intros q. unfold unsent. now rewrite H.
      + intros q. unfold cur. now rewrite H.
  Qed.

  (** ** The start *)
  Lemma initNum_cnt r a c : initNumDependencies dir doComm M r a c = N.of_nat (cnt dir doComm M (fun _ _ _ _ => false) r c a).
  Proof.
    unfold initNumDependencies, cnt. cbn [negb].
    assert (G : forall l n, fold_left (fun n f => if dep r a c f then N.succ n else n) l n = (n + N.of_nat (length (filter (fun f => dep r a c f && true) l)))%N).
    { induction l as [|f l IH]; intros n; cbn [fold_left filter]; [cbn; lia|]. rewrite IH. destruct (dep r a c f); cbn [andb length]; lia. }
    rewrite G. lia.
  Qed.
  Lemma initQueue_gen r l : forall q, (forall c a, In (c, a) l -> a < nAngles) -> qok r q -> exists q',
    fold_left (initQueueStep dir doComm nAngles nThreads M T r) l (Some q) = Some q' /\ qok r q' /\
    Permutation (qflat q') (filter (fun ca => N.eqb (initNumDependencies dir doComm M r (snd ca) (fst ca)) 0) l ++ qflat q).
  Proof.
    induction l as [|[c a] l IH]; intros q H Q; [exists q; auto|]. cbn [fold_left filter fst snd]. unfold initQueueStep at 2. cbn [obind fst snd].
    destruct (N.eqb _ 0).
    - destruct (angleGroup_total nAngles nThreads a TH) as (t & E & Ht); [apply (H c); now left|]. rewrite E. cbn [obind].
      destruct (IH (push T r q t c a)) as (q' & E' & Q' & P); [intros; apply (H c0); now right|now apply qok_push|]. exists q'. split; auto. split; auto.
      rewrite P, qflat_push by auto. cbn [app]. apply Permutation_sym, Permutation_middle.
    - apply IH; auto. intros; apply (H c0); now right.
  Qed.
  Lemma initRank_total r : exists st, initRank dir doComm mpi nAngles nThreads M T r (val0 r) (bnd0 r) = Some st.
  Proof.
    unfold initRank, initQueue. destruct (initQueue_gen r (list_prod (seq 0 (rm_nCells (M r))) (seq 0 nAngles)) (fun _ => [])) as (q' & -> & _).
    - intros c a H. apply in_prod_iff in H. destruct H as (_ & H). apply in_seq in H. lia.
    - easy.
    - cbn [obind]. eauto.
  Qed.
  Lemma initial_total : exists S, initial dir doComm mpi nAngles nThreads M T nRanks val0 bnd0 S.
  Proof.
    exists (mkGst (fun r => match initRank dir doComm mpi nAngles nThreads M T r (val0 r) (bnd0 r) with Some st => st | None =>
      mkRst (fun _ _ => 0%N) (fun _ => []) 0%N (fun _ _ => []) (fun _ => []) (fun _ => false) (val0 r) (bnd0 r) Failed 0 [] end)
      (fun _ _ => []) (fun _ _ => []) (fun _ _ => 0) (fun _ _ => 0)). split; [|auto].
    intros r _. cbn [g_r]. destruct (initRank_total r) as (st & ->). reflexivity.
  Qed.
  Lemma initial_ok S : initial dir doComm mpi nAngles nThreads M T nRanks val0 bnd0 S -> CInv S.
  Proof.
    intros (IR & IC).
    assert (ST : forall r, r < nRanks -> exists q, g_r S r = mkRst (initNumDependencies dir doComm M r) q (w64 (N.of_nat nAngles * N.of_nat (rm_nCells (M r)))) (fun _ _ => []) (fun _ => []) (fun _ => false)
        (val0 r) (bnd0 r) (loopTest doComm mpi M r (w64 (N.of_nat nAngles * N.of_nat (rm_nCells (M r)))) (fun _ => false)) 0 [] /\ qok r q /\
        Permutation (qflat q) (filter (fun ca => N.eqb (initNumDependencies dir doComm M r (snd ca) (fst ca)) 0) (list_prod (seq 0 (rm_nCells (M r))) (seq 0 nAngles)))).
    { intros r Hr. specialize (IR r Hr). unfold initRank, initQueue in IR.
      destruct (initQueue_gen r (list_prod (seq 0 (rm_nCells (M r))) (seq 0 nAngles)) (fun _ => [])) as (q' & E & Q & P); [|easy|].
      - intros c a H. apply in_prod_iff in H. destruct H as (_ & H). apply in_seq in H. lia.
      - rewrite E in IR. cbn [obind] in IR. apply Some_inj in IR. exists q'. split; auto. split; auto. rewrite P.
        assert (X : qflat (fun _ => []) = []) by (unfold TraverseProofs.qflat; apply flat_map_nil; auto). rewrite X, app_nil_r. auto. }
    assert (FL : forall q, flS S q = []).
    { intros q. unfold flS, srcs. rewrite flat_map_nil.
      - cbn [app]. destruct (q <? nRanks) eqn:E; auto. apply Nat.ltb_lt in E. destruct (ST q E) as (q' & -> & _). apply loopTest_pk.
      - intros r Hr. apply in_seq in Hr. destruct (ST r ltac:(lia)) as (q' & -> & _). rewrite loopTest_unsent by auto. destruct (IC r q) as (_ & -> & _). reflexivity. }
    constructor.
    - exists (fun _ _ _ _ => false), (fun _ _ _ _ => false). 
      assert (DN : forall r c a, dnS S r c a = false).
      { intros r c a. unfold dnS. destruct (r <? nRanks) eqn:E; auto. apply Nat.ltb_lt in E. destruct (ST r E) as (q' & -> & _). reflexivity. }
      split; [|intros r c f a H; cbn [viewS w_dn] in H; rewrite DN in H; discriminate].
      constructor; cbn [viewS w_nd w_ready w_val w_bnd w_fl w_sat w_em w_dn].
      + intros r c a (Hr & _). destruct (ST r Hr) as (q' & -> & _). cbn [r_nd]. apply initNum_cnt.
      + intros r c a Hr. rewrite DN. destruct (ST r Hr) as (q' & -> & _ & P). cbn [r_queue r_nd].
        assert (X : In (c, a) (qflat q') <-> In (c, a) (filter (fun ca => N.eqb (initNumDependencies dir doComm M r (snd ca) (fst ca)) 0) (list_prod (seq 0 (rm_nCells (M r))) (seq 0 nAngles)))).
        { split; apply Permutation_in; [exact P|now apply Permutation_sym]. }
        rewrite X, filter_In, in_prod_iff, !in_seq. cbn [fst snd]. rewrite N.eqb_eq. unfold TraverseSpec.valid. intuition lia.
      + intros r Hr. destruct (ST r Hr) as (q' & -> & _ & P). cbn [r_queue]. eapply Permutation_NoDup; [apply Permutation_sym; exact P|]. apply NoDup_filter.
        assert (NP : forall l1 l2 : list nat, NoDup l1 -> NoDup l2 -> NoDup (list_prod l1 l2)).
        { induction l1 as [|x l1 IH]; intros l2 N1 N2; [constructor|]. inversion N1; subst. cbn [list_prod].
          assert (NA : forall (u v : list (nat * nat)), NoDup u -> NoDup v -> (forall z, In z u -> ~ In z v) -> NoDup (u ++ v)).
          { induction u as [|z u IHu]; intros v Nu Nv Dj; auto. inversion Nu; subst. cbn. constructor; [|apply IHu; auto; intros; apply Dj; now right].
            rewrite in_app_iff. intros [?|?]; auto. apply (Dj z); auto. now left. }
          apply NA; auto.
          - apply FinFun.Injective_map_NoDup; auto. intros u v E. congruence.
          - intros [u v] HI HJ. apply in_map_iff in HI. destruct HI as (y & E & _). injection E as -> ->. apply in_prod_iff in HJ. tauto. }
        apply NP; apply seq_NoDup.
      + intros r c a f _ H. rewrite DN in H. discriminate.
      + intros r c a H. rewrite DN in H. discriminate.
      + discriminate.
      + intros. unfold given. cbn [viewS w_em]. now rewrite andb_false_r.
      + intros r c f q c' f' a _ _ _ _ _. unfold ckey, given. cbn [viewS w_fl w_em]. rewrite FL, andb_false_r. split; [reflexivity|discriminate].
      + intros q g a d H. rewrite FL in H. easy.
      + intros r c a H. rewrite DN in H. discriminate.
      + intros r c a _. destruct (r <? nRanks) eqn:E; auto. apply Nat.ltb_lt in E. destruct (ST r E) as (q' & -> & _). reflexivity.
      + discriminate.
      + intros q s a _. destruct (q <? nRanks) eqn:E; auto. apply Nat.ltb_lt in E. destruct (ST q E) as (q' & -> & _). reflexivity.
    - intros r Hr. destruct (ST r Hr) as (q' & -> & Q & P). constructor; auto.
      + constructor.
      + easy.
      + cbn [r_left g_log length]. unfold total. rewrite w64_small by (apply (sf_size _ _ _ _ _ OK); auto). lia.
      + intros t q. cbn. congruence.
      + apply loopTest_ok. auto.
    - intros r q Hr H. destruct (ST r Hr) as (q' & E & _). rewrite E in H. discriminate.
    - intros q r H. destruct (IC q r) as (E & _). rewrite E in H. easy.
    - intros q r _. destruct (IC q r) as (E & E' & _). auto.
    - intros _ q r Hq Hr. destruct (IC q r) as (-> & -> & _). destruct (ST r Hr) as (q' & -> & _). rewrite loopTest_cur. reflexivity.
  Qed.
  Theorem reach_ok S0 S : initial dir doComm mpi nAngles nThreads M T nRanks val0 bnd0 S0 ->
    reach dir doComm mpi nAngles nThreads maxCompute psize M T nRanks S0 S -> CInv S.
  Proof. intros I R. induction R; [now apply initial_ok|]. eapply step_ok; eauto. Qed.
End Machine.
