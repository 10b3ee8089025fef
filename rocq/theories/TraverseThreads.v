(** Threads of a rank work on disjoint data. *)
From Coq Require Import Permutation.
From Verif Require Import Prelude Bytes MeshModel AngleModel AngleProofs TraverseModel TraverseSpec TraverseProofs TraverseSafe TraverseRun.

(** Two states of a rank that differ only in the order in which updates are logged. *)
Definition same_rank {V D} (st st' : rst V D) : Prop :=
  (forall a c, r_nd st a c = r_nd st' a c) /\ (forall t, r_queue st t = r_queue st' t) /\ r_left st = r_left st' /\
  (forall t q, r_buf st t q = r_buf st' t q) /\ (forall q, r_buf1 st q = r_buf1 st' q) /\ (forall q, r_dark st q = r_dark st' q) /\
  (forall c a, r_val st c a = r_val st' c a) /\ (forall s a, r_bnd st s a = r_bnd st' s a) /\
  (exists s s', r_ph st = Work s /\ r_ph st' = Work s' /\ forall t, s t = s' t) /\ g_round st = g_round st' /\ Permutation (g_log st) (g_log st').

Section Threads.
  Context {V D : Type}.
  Variables (dir : direction) (doComm : bool) (M : nat -> rmesh) (T : tdata V D).
  Notation cstate := ((nat -> nat -> N) * (nat -> list tuple) * (nat -> nat -> list (packet D)))%type.
  (** Agreement on what thread [t] at angle [a] uses. *)
  Definition agree (t a : nat) (s s' : cstate) : Prop :=
    let '(nd, q, buf) := s in let '(nd', q', buf') := s' in
    (forall c, nd a c = nd' a c) /\ q t = q' t /\ (forall r, buf t r = buf' t r).
  Definition apart (t a : nat) (s s' : cstate) : Prop :=
    let '(nd, q, buf) := s in let '(nd', q', buf') := s' in
    (forall a' c, a' <> a -> nd' a' c = nd a' c) /\ (forall t', t' <> t -> q' t' = q t') /\ (forall t' r, t' <> t -> buf' t' r = buf t' r).
  Lemma agree_refl t a s : agree t a s s.
  Proof. destruct s as [[? ?] ?]. repeat split; auto. Qed.
  Lemma release_agree r t c a nd q nd' q' : (forall c, nd a c = nd' a c) -> q t = q' t ->
    (forall c', fst (release T r t (nd, q) c a) a c' = fst (release T r t (nd', q') c a) a c') /\
    snd (release T r t (nd, q) c a) t = snd (release T r t (nd', q') c a) t.
  Proof.
    intros E1 E2. unfold release. rewrite <- E1.
    assert (EE : forall c', fupd2 nd a c (dec64 (nd a c)) a c' = fupd2 nd' a c (dec64 (nd a c)) a c').
    { intros c'. unfold fupd2. destruct (_ && _); auto. }
    rewrite <- EE. destruct (N.eqb _ 0); cbn [fst snd]; split; auto. unfold push. rewrite !fupd_same. now rewrite E2.
  Qed.
  Lemma release_apart r t c a nd q : (forall a' c', a' <> a -> fst (release T r t (nd, q) c a) a' c' = nd a' c') /\
    (forall t', t' <> t -> snd (release T r t (nd, q) c a) t' = q t').
  Proof.
    unfold release. destruct (N.eqb _ 0); cbn [fst snd]; (split; [intros a' c' N; unfold fupd2; destruct (Nat.eqb_spec a' a); [easy|auto]|]); auto.
    intros t' N. unfold push. now rewrite fupd_other.
  Qed.
  Lemma child_agree r t c a v f s s' x : agree t a s s' -> childStep dir doComm M T r t c a v (Some s) f = Some x ->
    exists x', childStep dir doComm M T r t c a v (Some s') f = Some x' /\ agree t a x x' /\ apart t a s x /\ apart t a s' x'.
  Proof.
    destruct s as [[nd q] buf], s' as [[nd' q'] buf']. intros (E1 & E2 & E3). cbn [childStep obind].
    assert (AP : forall s : cstate, apart t a s s) by (intros [[? ?] ?]; repeat split; auto).
    destruct (isOutgoingWrt dir (M r) a c f); [|intros H; apply Some_inj in H; subst x; exists (nd', q', buf'); repeat split; auto].
    destruct (rm_adjCell (M r) c f) as [c'|].
    - destruct (release_agree r t c' a nd q nd' q' E1 E2) as (A1 & A2). destruct (release_apart r t c' a nd q) as (B1 & B2). destruct (release_apart r t c' a nd' q') as (B1' & B2').
      intros H. apply Some_inj in H. subst x. eexists. split; [reflexivity|].
      destruct (release T r t (nd, q) c' a) as [n1 q1], (release T r t (nd', q') c' a) as [n1' q1']. cbn [fst snd] in *. repeat split; auto.
    - destruct (rm_adjRank (M r) c f) as [p|]; [|intros H; apply Some_inj in H; subst x; exists (nd', q', buf'); repeat split; auto].
      destruct doComm; [|intros H; apply Some_inj in H; subst x; exists (nd', q', buf'); repeat split; auto].
      destruct (existsb (Nat.eqb p) (adjRanks M r)); [|discriminate]. intros H. apply Some_inj in H. subst x. eexists. split; [reflexivity|].
      split; [|split]; (split; [|split]); auto.
      + intros y. unfold fupd2. rewrite <- E3. destruct (_ && _); auto.
      + intros t' y N. unfold fupd2. destruct (Nat.eqb_spec t' t); [easy|auto].
      + intros t' y N. unfold fupd2. destruct (Nat.eqb_spec t' t); [easy|auto].
  Qed.
  Lemma apart_trans t a s1 s2 s3 : apart t a s1 s2 -> apart t a s2 s3 -> apart t a s1 s3.
  Proof.
    destruct s1 as [[n1 q1] b1], s2 as [[n2 q2] b2], s3 as [[n3 q3] b3]. intros (A1 & A2 & A3) (B1 & B2 & B3). split; [|split].
    - intros. rewrite B1, A1; auto.
    - intros. rewrite B2, A2; auto.
    - intros. rewrite B3, A3; auto.
  Qed.
  Lemma children_none r t c a v fs : fold_left (childStep dir doComm M T r t c a v) fs None = None.
  Proof. induction fs; auto. Qed.
  Lemma children_agree r t c a v fs : forall s s' x, agree t a s s' -> fold_left (childStep dir doComm M T r t c a v) fs (Some s) = Some x ->
    exists x', fold_left (childStep dir doComm M T r t c a v) fs (Some s') = Some x' /\ agree t a x x' /\ apart t a s x /\ apart t a s' x'.
  Proof.
    induction fs as [|f fs IH]; intros s s' x A H; cbn [fold_left] in *.
    - apply Some_inj in H. subst x. exists s'. split; auto. split; auto. destruct s as [[? ?] ?], s' as [[? ?] ?]. repeat split; auto.
    - destruct (childStep dir doComm M T r t c a v (Some s) f) as [y|] eqn:E; [|rewrite children_none in H; discriminate].
      destruct (child_agree r t c a v f s s' y A E) as (y' & E' & A' & P & P'). rewrite E'.
      destruct (IH y y' x A' H) as (x' & F & B & Q & Q'). exists x'. split; auto. split; auto. split; eapply apart_trans; eauto.
  Qed.
  Lemma read_other r val bnd c a f c1 a1 v : a <> a1 -> readFace dir M T r (fupd2 val c1 a1 v) bnd c a f = readFace dir M T r val bnd c a f.
  Proof.
    intros N. unfold readFace. destruct (isIncoming dir (M r) a c f); auto. destruct (rm_adjCell (M r) c f) as [c'|]; auto. unfold fupd2. destruct (Nat.eqb_spec a a1); [easy|]. now rewrite andb_false_r.
  Qed.

  (** Two iterations of different threads give the same state in either order. *)
  Theorem threads_commute r st steps t1 c1 a1 l1 t2 c2 a2 l2 : t1 <> t2 -> a1 <> a2 ->
    let one := compute dir doComm M T r t1 st steps c1 a1 l1 in
    let two := compute dir doComm M T r t2 st steps c2 a2 l2 in
    r_ph one <> Failed -> r_ph two <> Failed ->
    r_queue one t2 = r_queue st t2 /\ r_queue two t1 = r_queue st t1 /\
    exists s1 s2, r_ph one = Work s1 /\ r_ph two = Work s2 /\ s1 t2 = steps t2 /\ s2 t1 = steps t1 /\
      same_rank (compute dir doComm M T r t2 one s1 c2 a2 l2) (compute dir doComm M T r t1 two s2 c1 a1 l1).
  Proof.
    intros NT NA one two N1 N2. unfold one, two, compute in *. clear one two.
    set (v1 := td_update T r c1 a1 (map (readFace dir M T r (r_val st) (r_bnd st) c1 a1) (seq 0 4))) in *.
    set (v2 := td_update T r c2 a2 (map (readFace dir M T r (r_val st) (r_bnd st) c2 a2) (seq 0 4))) in *.
    destruct (fold_left (childStep dir doComm M T r t1 c1 a1 v1) (seq 0 4) (Some (r_nd st, fupd (r_queue st) t1 l1, r_buf st))) as [[[nd1 q1] b1]|] eqn:F1; [|now destruct N1].
    destruct (fold_left (childStep dir doComm M T r t2 c2 a2 v2) (seq 0 4) (Some (r_nd st, fupd (r_queue st) t2 l2, r_buf st))) as [[[nd2 q2] b2]|] eqn:F2; [|now destruct N2].
    clear N1 N2. cbn [r_ph r_queue r_val r_bnd r_nd r_buf r_left r_buf1 r_dark g_round g_log].
    assert (V2 : td_update T r c2 a2 (map (readFace dir M T r (fupd2 (r_val st) c1 a1 v1) (r_bnd st) c2 a2) (seq 0 4)) = v2).
    { unfold v2. f_equal. apply map_ext. intros f. apply read_other. auto. }
    assert (V1 : td_update T r c1 a1 (map (readFace dir M T r (fupd2 (r_val st) c2 a2 v2) (r_bnd st) c1 a1) (seq 0 4)) = v1).
    { unfold v1. f_equal. apply map_ext. intros f. apply read_other. auto. }
    rewrite V1, V2. clear V1 V2.
    destruct (children_agree r t1 c1 a1 v1 (seq 0 4) _ _ _ (agree_refl t1 a1 _) F1) as (x & F1' & _ & (P1 & P2 & P3) & _). rewrite F1' in F1. apply Some_inj in F1. subst x.
    destruct (children_agree r t2 c2 a2 v2 (seq 0 4) _ _ _ (agree_refl t2 a2 _) F2) as (x & F2' & _ & (Q1 & Q2 & Q3) & _). rewrite F2' in F2. apply Some_inj in F2. subst x.
    assert (E1 : q1 t2 = r_queue st t2) by (rewrite P2 by auto; apply fupd_other; auto).
    assert (E2 : q2 t1 = r_queue st t1) by (rewrite Q2 by auto; apply fupd_other; auto).
    split; auto. split; auto. eexists _, _. split; [reflexivity|]. split; [reflexivity|]. split; [apply fupd_other; auto|]. split; [apply fupd_other; auto|].
    assert (A2 : agree t2 a2 (r_nd st, fupd (r_queue st) t2 l2, r_buf st) (nd1, fupd q1 t2 l2, b1)).
    { split; [|split]; [intros c; symmetry; apply P1; auto|now rewrite !fupd_same|intros q; symmetry; apply P3; auto]. }
    assert (A1 : agree t1 a1 (r_nd st, fupd (r_queue st) t1 l1, r_buf st) (nd2, fupd q2 t1 l1, b2)).
    { split; [|split]; [intros c; symmetry; apply Q1; auto|now rewrite !fupd_same|intros q; symmetry; apply Q3; auto]. }
    destruct (children_agree _ _ _ _ v2 (seq 0 4) _ _ _ A2 F2') as ([[nd12 q12] b12] & F12 & (B1 & B2 & B3) & _ & (C1 & C2 & C3)).
    destruct (children_agree _ _ _ _ v1 (seq 0 4) _ _ _ A1 F1') as ([[nd21 q21] b21] & F21 & (D1 & D2 & D3) & _ & (G1 & G2 & G3)).
    rewrite F12, F21. unfold same_rank. cbn [r_ph r_queue r_val r_bnd r_nd r_buf r_left r_buf1 r_dark g_round g_log].
    split; [|split; [|split; [|split; [|split; [|split; [|split; [|split; [|split; [|split]]]]]]]]]; auto.
    - intros a c. destruct (Nat.eq_dec a a2) as [->|Na2].
      + rewrite <- B1. symmetry. apply G1. auto.
      + rewrite C1 by auto. destruct (Nat.eq_dec a a1) as [->|Na1]; [apply D1|]. rewrite G1 by auto. rewrite P1, Q1 by auto. reflexivity.
    - intros t. destruct (Nat.eq_dec t t2) as [->|Nt2].
      + rewrite <- B2. rewrite G2 by auto. rewrite fupd_other by auto. reflexivity.
      + rewrite C2 by auto. rewrite fupd_other by auto. destruct (Nat.eq_dec t t1) as [->|Nt1]; [apply D2|]. rewrite G2 by auto. rewrite fupd_other by auto. rewrite P2, Q2 by auto. now rewrite !fupd_other by auto.
    - intros t q. destruct (Nat.eq_dec t t2) as [->|Nt2].
      + rewrite <- B3. symmetry. apply G3. auto.
      + rewrite C3 by auto. destruct (Nat.eq_dec t t1) as [->|Nt1]; [apply D3|]. rewrite G3 by auto. rewrite P3, Q3 by auto. reflexivity.
    - intros c a. unfold fupd2. destruct (Nat.eqb_spec a a2), (Nat.eqb_spec a a1); try congruence; rewrite ?andb_true_r, ?andb_false_r; auto.
    - eexists _, _. split; [reflexivity|]. split; [reflexivity|]. intros t. unfold fupd. destruct (Nat.eqb_spec t t2), (Nat.eqb_spec t t1), (Nat.eqb_spec t2 t1), (Nat.eqb_spec t1 t2); congruence.
    - apply perm_swap.
  Qed.
End Threads.
