(** The invariant of the traversal, over a view of the global state, and the elementary changes. *)
From Coq Require Import Permutation.
From Verif Require Import Prelude TraverseModel TraverseSpec.

(** ** Lists *)
Lemma filter_flip {X} (P P' : X -> bool) (x : X) l : NoDup l -> In x l -> P x = true -> P' x = false ->
  (forall y, y <> x -> P' y = P y) -> length (filter P l) = S (length (filter P' l)).
Proof.
  intros ND HI Px P'x E. induction l as [|y l IH]; [easy|]. inversion ND; subst. cbn. destruct HI as [->|HI].
  - rewrite Px, P'x. cbn. f_equal. f_equal. apply filter_ext_in. intros z Hz. rewrite E; auto. intros ->. auto.
  - assert (y <> x) by (intros ->; auto). rewrite E by auto. destruct (P y); cbn; auto.
Qed.
Lemma filter_nil {X} (P : X -> bool) l : (forall x, In x l -> P x = false) -> filter P l = [].
Proof. induction l; intros H; cbn; auto. rewrite H by (now left). apply IHl. intros; apply H; now right. Qed.
Lemma filter_nil_inv {X} (P : X -> bool) l x : length (filter P l) = 0 -> In x l -> P x = false.
Proof.
  intros H HI. destruct (P x) eqn:E; auto. assert (K : In x (filter P l)) by (apply filter_In; auto). destruct (filter P l); [easy|discriminate].
Qed.
Lemma perm_filter {X} (P : X -> bool) l m : Permutation l m -> length (filter P l) = length (filter P m).
Proof.
  induction 1; cbn; auto; try congruence. - destruct (P x); cbn; auto. - destruct (P x), (P y); cbn; auto.
Qed.
Lemma filter_len {X} (P : X -> bool) l : length (filter P l) <= length l.
Proof. induction l; cbn; [lia|]. destruct (P a); cbn; lia. Qed.
Lemma dec64_S n : (n < 1000) -> dec64 (N.of_nat (S n)) = N.of_nat n.
Proof. intros H. unfold dec64, w64, two64, UINT64_MAX. lia. Qed.

Section Inv.
  Context {V D : Type}.
  Variables (dir : direction) (doComm : bool) (nRanks nAngles : nat) (M : nat -> rmesh) (T : tdata V D) (mate : site -> option site).
  Variables (val0 : nat -> nat -> nat -> V) (bnd0 : nat -> nat -> nat -> D).
  Hypothesis OK : sys_fit dir nRanks nAngles M mate.
  Notation dep := (isDep dir doComm M).
  Notation valid := (valid nRanks nAngles M).
  Notation seen := (seen dir doComm M T mate).

  Record view := mkView {
    w_nd : nat -> nat -> nat -> N;                 (* rank angle cell *)
    w_ready : nat -> list (nat * nat);             (* rank: (cell, angle) *)
    w_val : nat -> nat -> nat -> V;
    w_bnd : nat -> nat -> nat -> D;
    w_fl : nat -> list (packet D);                 (* packets on their way to a rank *)
    w_sat : nat -> nat -> nat -> nat -> bool;      (* rank cell face angle: the data of this face is there *)
    w_em : nat -> nat -> nat -> nat -> bool;       (* rank cell face angle: this face has been handed on *)
    w_dn : nat -> nat -> nat -> bool               (* rank cell angle: updated *)
  }.
  Definition cnt (sat : nat -> nat -> nat -> nat -> bool) (r c a : nat) : nat :=
    length (filter (fun f => dep r a c f && negb (sat r c f a)) (seq 0 4)).
  Definition key (r c f : nat) : N := rm_lgSide (M r) (rm_side (M r) c f).
  Definition keyed (g : N) (a : nat) (p : packet D) : bool := N.eqb (fst (fst p)) g && Nat.eqb (snd (fst p)) a.
  Definition ckey (w : view) (q : nat) (g : N) (a : nat) : nat := length (filter (keyed g a) (w_fl w q)).

  (** Data went out through this face. *)
  Definition given (w : view) (r c f a : nat) : bool := isOutgoingWrt dir (M r) a c f && w_em w r c f a.
  Lemma given_em w r c f a : given w r c f a = true -> w_em w r c f a = true.
  Proof. unfold given. intros H. now apply andb_prop in H. Qed.
  Lemma given_out w r c f a : isOutgoingWrt dir (M r) a c f = true -> given w r c f a = w_em w r c f a.
  Proof. unfold given. intros ->. reflexivity. Qed.

  Record Inv (w : view) : Prop := {
    i_nd : forall r c a, valid r c a -> w_nd w r a c = N.of_nat (cnt (w_sat w) r c a);
    i_ready : forall r c a, r < nRanks -> (In (c, a) (w_ready w r) <-> valid r c a /\ w_nd w r a c = 0%N /\ w_dn w r c a = false);
    i_nodup : forall r, r < nRanks -> NoDup (w_ready w r);
    i_done : forall r c a f, valid r c a -> w_dn w r c a = true -> f < 4 -> dep r a c f = true -> w_sat w r c f a = true;
    i_dnv : forall r c a, w_dn w r c a = true -> valid r c a;
    i_em : forall r c f a, w_em w r c f a = true -> f < 4 /\ w_dn w r c a = true;
    i_loc : forall r c f c' f' a, a < nAngles -> mate (r, c, f) = Some (r, c', f') -> dep r a c' f' = true -> w_sat w r c' f' a = given w r c f a;
    i_rem : forall r c f q c' f' a, a < nAngles -> doComm = true -> mate (r, c, f) = Some (q, c', f') -> q <> r -> dep q a c' f' = true ->
      ckey w q (key r c f) a = (if given w r c f a && negb (w_sat w q c' f' a) then 1 else 0) /\
      (w_sat w q c' f' a = true -> given w r c f a = true);
    i_pk : forall q g a d, In (g, a, d) (w_fl w q) -> doComm = true /\ a < nAngles /\ exists r c f c' f',
      mate (r, c, f) = Some (q, c', f') /\ q <> r /\ dep q a c' f' = true /\ g = key r c f /\ given w r c f a = true /\ d = td_getData T r c f a (w_val w r c a);
    i_val : forall r c a, w_dn w r c a = true -> w_val w r c a = td_update T r c a (map (seen (w_val w) bnd0 r c a) (seq 0 4));
    i_val0 : forall r c a, w_dn w r c a = false -> w_val w r c a = val0 r c a;
    i_bnd : forall r c f q c' f' a, a < nAngles -> doComm = true -> mate (r, c, f) = Some (q, c', f') -> q <> r -> dep q a c' f' = true ->
      w_sat w q c' f' a = true -> w_bnd w q (rm_side (M q) c' f') a = td_getData T r c f a (w_val w r c a);
    i_bnd0 : forall q s a, (forall r c f c' f', mate (r, c, f) = Some (q, c', f') -> q <> r -> a < nAngles -> dep q a c' f' = true ->
        s = rm_side (M q) c' f' -> doComm = true -> w_sat w q c' f' a = false) -> w_bnd w q s a = bnd0 q s a
  }.

  Lemma mate_back r c f q c' f' : mate (r, c, f) = Some (q, c', f') -> q < nRanks /\ c' < rm_nCells (M q) /\ f' < 4.
  Proof. intros H. apply (sf_sym _ _ _ _ _ OK) in H. exact (sf_range _ _ _ _ _ OK _ _ _ _ H). Qed.
  Lemma mate_inj x y z : mate x = Some z -> mate y = Some z -> x = y.
  Proof. intros H K. apply (sf_sym _ _ _ _ _ OK) in H. apply (sf_sym _ _ _ _ _ OK) in K. congruence. Qed.
  Lemma flow_out r c f q c' f' a : a < nAngles -> mate (r, c, f) = Some (q, c', f') -> isOutgoingWrt dir (M r) a c f = true -> isIncoming dir (M q) a c' f' = true.
  Proof. intros Ha H. exact (sf_flow _ _ _ _ _ OK _ _ _ _ _ _ a H Ha). Qed.
  Lemma adj_rank r c f q c' f' : mate (r, c, f) = Some (q, c', f') -> rm_adjRank (M r) c f = Some q /\ rm_adjCell (M r) c f = if q =? r then Some c' else None.
  Proof.
    intros H. destruct (sf_range _ _ _ _ _ OK _ _ _ _ H) as (A & B & C).
    rewrite (sf_rank _ _ _ _ _ OK r c f A B C), (sf_cell _ _ _ _ _ OK r c f A B C), H. auto.
  Qed.
  Lemma dep_mate r c f a : r < nRanks -> c < rm_nCells (M r) -> f < 4 -> dep r a c f = true ->
    isIncoming dir (M r) a c f = true /\ exists q c' f', mate (r, c, f) = Some (q, c', f') /\ (doComm = true \/ q = r).
  Proof.
    intros A B C H. unfold isDep in H. rewrite (sf_rank _ _ _ _ _ OK r c f A B C), (sf_cell _ _ _ _ _ OK r c f A B C) in H.
    destruct doComm; apply andb_prop in H; destruct H as (H1 & H2); split; auto.
    - destruct (mate (r, c, f)) as [[[q c'] f']|]; [eauto 6|discriminate].
    - destruct (mate (r, c, f)) as [[[q c'] f']|]; [|discriminate]. destruct (Nat.eqb_spec q r); [eauto 6|discriminate].
  Qed.
  Lemma mate_dep r c f q c' f' a : mate (r, c, f) = Some (q, c', f') -> isIncoming dir (M r) a c f = true -> doComm = true \/ q = r -> dep r a c f = true.
  Proof.
    intros H I K. destruct (adj_rank r c f q c' f' H) as (E1 & E2). unfold isDep. rewrite E1, E2, I. destruct doComm; auto.
    destruct K as [K|K]; [discriminate|]. subst. now rewrite Nat.eqb_refl.
  Qed.
  Lemma key_inj r c f q c' f' r2 c2 f2 c2' f2' : mate (r, c, f) = Some (q, c', f') -> q <> r -> mate (r2, c2, f2) = Some (q, c2', f2') -> q <> r2 ->
    key r c f = key r2 c2 f2 -> r = r2 /\ c = c2 /\ f = f2 /\ c' = c2' /\ f' = f2'.
  Proof.
    intros H N H2 N2 E. destruct (sf_side _ _ _ _ _ OK _ _ _ _ _ _ H N) as (G & _). destruct (sf_side _ _ _ _ _ OK _ _ _ _ _ _ H2 N2) as (G2 & _).
    unfold key in E. rewrite E, G2 in G. apply Some_inj in G.
    pose proof (sf_sym _ _ _ _ _ OK _ _ H) as B. pose proof (sf_sym _ _ _ _ _ OK _ _ H2) as B2.
    assert (r <> q) by auto. assert (r2 <> q) by auto.
    destruct (sf_inj _ _ _ _ _ OK _ _ _ _ _ _ _ _ _ _ _ B H0 B2 H1 (eq_sym G)) as (-> & ->). rewrite B in B2. injection B2 as -> -> ->. auto.
  Qed.

  (** Pointwise equal views, up to the order of lists. *)
  Definition veq (w w' : view) : Prop :=
    (forall r a c, w_nd w r a c = w_nd w' r a c) /\ (forall r, r < nRanks -> Permutation (w_ready w r) (w_ready w' r)) /\ (forall r c a, w_val w r c a = w_val w' r c a) /\
    (forall r s a, w_bnd w r s a = w_bnd w' r s a) /\ (forall r, Permutation (w_fl w r) (w_fl w' r)) /\ w_sat w = w_sat w' /\ w_em w = w_em w' /\ (forall r c a, w_dn w r c a = w_dn w' r c a).
  Lemma seen_ext val val' bnd bnd' r c a f : (forall r c a, val r c a = val' r c a) -> (forall r s a, bnd r s a = bnd' r s a) -> seen val bnd r c a f = seen val' bnd' r c a f.
  Proof.
    intros E B. unfold TraverseSpec.seen. destruct isIncoming; auto. destruct (mate (r, c, f)) as [[[q c'] f']|]; auto. f_equal.
    rewrite E. destruct (q =? r); auto. now rewrite E, B.
  Qed.
  Lemma inv_ext w w' : veq w w' -> Inv w -> Inv w'.
  Proof.
    intros (E1 & E2 & E3 & E4 & E5 & E6 & E7 & E8) [I1 I2 I3 I4 I5 I6 I7 I8 I9 I10 I11 I12 I13].
    assert (EG : forall r c f a, given w' r c f a = given w r c f a) by (intros; unfold given; now rewrite E7).
    constructor; try rewrite <- ?E6, <- ?E7; auto.
    - intros. rewrite <- E1. auto.
    - intros r c a H. rewrite <- E1, <- E8. split.
      + intros K. apply I2; auto. eapply Permutation_in; [apply Permutation_sym; apply E2; auto|auto].
      + intros K. eapply Permutation_in; [apply E2; auto|]. now apply I2.
    - intros r H. eapply Permutation_NoDup; [apply E2; auto|auto].
    - intros r c a f H K. rewrite <- E8 in K. eauto.
    - intros r c a K. rewrite <- E8 in K. eauto.
    - intros r c f a K. rewrite <- E8. eauto.
    - intros. rewrite EG. eauto.
    - intros r c f q c' f' a H1 H2 H3 H4 H5. rewrite EG. destruct (I8 r c f q c' f' a H1 H2 H3 H4 H5) as (K & K'). split; auto.
      rewrite <- K. unfold ckey. symmetry. apply perm_filter, E5.
    - intros q g a d H. assert (H' : In (g, a, d) (w_fl w q)) by (eapply Permutation_in; [apply Permutation_sym, E5|auto]).
      destruct (I9 q g a d H') as (A & B & r & c & f & c' & f' & K1 & K2 & K3 & K4 & K5 & K6). split; auto. split; auto.
      exists r, c, f, c', f'. rewrite EG, <- E3. auto 10.
    - intros r c a H. rewrite <- E8 in H. rewrite <- E3. rewrite I10 by auto. f_equal. apply map_ext. intros f. apply seen_ext; auto.
    - intros r c a H. rewrite <- E8 in H. rewrite <- E3. auto.
    - intros r c f q c' f' a H1 H2 H3 H4 H5 H6. rewrite <- E3, <- E4. eauto.
    - intros q s a H. rewrite <- E4. apply I13; auto.
  Qed.

  (** The upwind cell of a satisfied dependency has been updated. *)
  Lemma sat_done w r c f a q c' f' : Inv w -> r < nRanks -> c < rm_nCells (M r) -> a < nAngles -> f < 4 -> dep r a c f = true ->
    w_sat w r c f a = true -> mate (r, c, f) = Some (q, c', f') -> w_dn w q c' a = true /\ given w q c' f' a = true.
  Proof.
    intros I A B C F Hd Hs Hm. destruct (dep_mate r c f a A B F Hd) as (Hi & q0 & c0 & f0 & Hm0 & K). rewrite Hm in Hm0. injection Hm0 as <- <- <-.
    pose proof (sf_sym _ _ _ _ _ OK _ _ Hm) as Hb.
    assert (Em : given w q c' f' a = true).
    { destruct (Nat.eq_dec q r) as [->|N].
      - rewrite <- (i_loc w I r c' f' c f a); auto.
      - assert (doComm = true) by (destruct K; congruence). destruct (i_rem w I q c' f' r c f a) as (_ & K'); auto. }
    destruct (i_em w I _ _ _ _ (given_em _ _ _ _ _ Em)). auto.
  Qed.

  (** ** Taking a pair from the queue and updating it *)
  Definition dn_set (dn : nat -> nat -> nat -> bool) (r c a : nat) : nat -> nat -> nat -> bool :=
    fun r' c' a' => if (r' =? r) && (c' =? c) && (a' =? a) then true else dn r' c' a'.
  Definition val_set (val : nat -> nat -> nat -> V) (r c a : nat) (v : V) : nat -> nat -> nat -> V :=
    fun r' c' a' => if (r' =? r) && (c' =? c) && (a' =? a) then v else val r' c' a'.
  Definition e_set (sat : nat -> nat -> nat -> nat -> bool) (r c f a : nat) : nat -> nat -> nat -> nat -> bool :=
    fun r' c' f' a' => if (r' =? r) && (c' =? c) && (f' =? f) && (a' =? a) then true else sat r' c' f' a'.
  Lemma dn_set_same dn r c a : dn_set dn r c a r c a = true.
  Proof. unfold dn_set. now rewrite !Nat.eqb_refl. Qed.
  Lemma dn_set_case dn r c a r' c' a' : (r' = r /\ c' = c /\ a' = a) \/ ((r', c', a') <> (r, c, a) /\ dn_set dn r c a r' c' a' = dn r' c' a').
  Proof.
    unfold dn_set. destruct (Nat.eqb_spec r' r), (Nat.eqb_spec c' c), (Nat.eqb_spec a' a); cbn; auto; right; split; auto; congruence.
  Qed.
  Lemma val_set_case val r c a v r' c' a' : (r' = r /\ c' = c /\ a' = a /\ val_set val r c a v r' c' a' = v) \/ ((r', c', a') <> (r, c, a) /\ val_set val r c a v r' c' a' = val r' c' a').
  Proof.
    unfold val_set. destruct (Nat.eqb_spec r' r), (Nat.eqb_spec c' c), (Nat.eqb_spec a' a); cbn; auto; right; split; auto; congruence.
  Qed.
  Lemma val_set_other val r c a v r' c' a' : (r', c', a') <> (r, c, a) -> val_set val r c a v r' c' a' = val r' c' a'.
  Proof. intros N. destruct (val_set_case val r c a v r' c' a') as [(-> & -> & -> & _)|(_ & E)]; [exfalso; apply N; reflexivity|exact E]. Qed.
  Lemma e_set_same s r c f a : e_set s r c f a r c f a = true.
  Proof. unfold e_set. now rewrite !Nat.eqb_refl. Qed.
  Lemma e_set_other s r c f a r' c' f' a' : (r', c', f', a') <> (r, c, f, a) -> e_set s r c f a r' c' f' a' = s r' c' f' a'.
  Proof. intros N. unfold e_set. destruct (Nat.eqb_spec r' r), (Nat.eqb_spec c' c), (Nat.eqb_spec f' f), (Nat.eqb_spec a' a); cbn; auto. congruence. Qed.
  Lemma e_set_case s r c f a r' c' f' a' : (r' = r /\ c' = c /\ f' = f /\ a' = a /\ e_set s r c f a r' c' f' a' = true) \/
    ((r', c', f', a') <> (r, c, f, a) /\ e_set s r c f a r' c' f' a' = s r' c' f' a').
  Proof.
    unfold e_set. destruct (Nat.eqb_spec r' r), (Nat.eqb_spec c' c), (Nat.eqb_spec f' f), (Nat.eqb_spec a' a); cbn; auto 10; right; split; auto; congruence.
  Qed.

  Definition settled (w : view) : Prop := forall r c f a, w_dn w r c a = true -> f < 4 -> w_em w r c f a = true.

  (** What update reads is what it should see. *)
  Lemma read_seen w r c a f : Inv w -> In (c, a) (w_ready w r) -> r < nRanks -> f < 4 ->
    readFace dir M T r (w_val w r) (w_bnd w r) c a f = seen (w_val w) bnd0 r c a f.
  Proof.
    intros I HI Hr Hf. apply (i_ready w I) in HI; auto. destruct HI as ((_ & Hc & Ha) & Hn & Hd).
    rewrite (i_nd w I) in Hn by (split; auto). assert (C0 : cnt (w_sat w) r c a = 0) by lia.
    assert (S : dep r a c f = true -> w_sat w r c f a = true).
    { intros Hd'. pose proof (filter_nil_inv _ _ f C0 ltac:(apply in_seq; lia)) as K. cbn in K. rewrite Hd' in K. cbn in K. now destruct (w_sat w r c f a). }
    unfold readFace, TraverseSpec.seen. destruct (isIncoming dir (M r) a c f) eqn:Ei; auto.
    rewrite (sf_cell _ _ _ _ _ OK r c f Hr Hc Hf), (sf_rank _ _ _ _ _ OK r c f Hr Hc Hf).
    destruct (mate (r, c, f)) as [[[q c'] f']|] eqn:Em; auto. destruct (Nat.eqb_spec q r) as [->|N]; auto. f_equal.
    destruct doComm eqn:DC.
    - pose proof (sf_sym _ _ _ _ _ OK _ _ Em) as Hb.
      assert (Hd' : dep r a c f = true) by (eapply mate_dep; eauto). pose proof Hd' as Hd1. rewrite DC in Hd1.
      apply (i_bnd w I q c' f' r c f a); auto.
    - apply (i_bnd0 w I). intros. congruence.
  Qed.

  Lemma begin_inv w r c a rest v : Inv w -> r < nRanks -> Permutation (w_ready w r) ((c, a) :: rest) ->
    v = td_update T r c a (map (readFace dir M T r (w_val w r) (w_bnd w r) c a) (seq 0 4)) ->
    Inv (mkView (w_nd w) (fupd (w_ready w) r rest) (val_set (w_val w) r c a v) (w_bnd w) (w_fl w) (w_sat w) (w_em w) (dn_set (w_dn w) r c a)).
  Proof.
    intros I Hr HP Ev. assert (HI : In (c, a) (w_ready w r)) by (eapply Permutation_in; [apply Permutation_sym; exact HP|now left]).
    pose proof (proj1 (i_ready w I r c a Hr) HI) as ((_ & Hc & Ha) & Hn & Hd).
    assert (ND : NoDup ((c, a) :: rest)) by (eapply Permutation_NoDup; [exact HP|apply (i_nodup w I); auto]).
    assert (C0 : cnt (w_sat w) r c a = 0) by (rewrite (i_nd w I) in Hn by (split; auto); lia).
    assert (SA : forall f, f < 4 -> dep r a c f = true -> w_sat w r c f a = true).
    { intros f Hf Hd'. pose proof (filter_nil_inv _ _ f C0 ltac:(apply in_seq; lia)) as K. cbn in K. rewrite Hd' in K. cbn in K. now destruct (w_sat w r c f a). }
    (* values seen by done pairs do not change *)
    assert (SN : forall r' c' a' f, valid r' c' a' -> f < 4 -> (forall f, f < 4 -> dep r' a' c' f = true -> w_sat w r' c' f a' = true) ->
      seen (val_set (w_val w) r c a v) bnd0 r' c' a' f = seen (w_val w) bnd0 r' c' a' f).
    { intros r' c' a' f (V1 & V2 & V3) Hf S'. unfold TraverseSpec.seen. destruct (isIncoming dir (M r') a' c' f) eqn:Ei; auto.
      destruct (mate (r', c', f)) as [[[q d] g]|] eqn:Em; auto. f_equal.
      assert (K : doComm = true \/ q = r' -> val_set (w_val w) r c a v q d a' = w_val w q d a').
      { intros K. assert (Hdep : dep r' a' c' f = true) by (eapply mate_dep; eauto).
        destruct (sat_done w r' c' f a' q d g I) as (Dn & _); auto. apply val_set_other. intros E. injection E as -> -> ->. congruence. }
      destruct (Nat.eqb_spec q r') as [->|N]; [now rewrite K by auto|]. destruct doComm; auto. now rewrite K by auto. }
    constructor; cbn [w_nd w_ready w_val w_bnd w_fl w_sat w_em w_dn].
    - apply (i_nd w I).
    - intros r' c' a' Hr'. destruct (Nat.eq_dec r' r) as [->|N].
      + rewrite fupd_same. destruct (dn_set_case (w_dn w) r c a r c' a') as [(_ & -> & ->)|(Ne & ->)].
        * rewrite dn_set_same. split; [|intros (_ & _ & X); discriminate]. intros K. inversion ND; subst. easy.
        * rewrite <- (i_ready w I) by auto. split; intros K.
          -- eapply Permutation_in; [apply Permutation_sym; exact HP|now right].
          -- eapply Permutation_in in K; [|exact HP]. destruct K as [K|K]; auto. congruence.
      + rewrite fupd_other by auto. destruct (dn_set_case (w_dn w) r c a r' c' a') as [(-> & _)|(_ & ->)]; [congruence|]. apply (i_ready w I); auto.
    - intros r' Hr'. destruct (Nat.eq_dec r' r) as [->|N]; [rewrite fupd_same; now inversion ND|rewrite fupd_other by auto; apply (i_nodup w I); auto].
    - intros r' c' a' f Hv Hdn Hf Hdep. destruct (dn_set_case (w_dn w) r c a r' c' a') as [(-> & -> & ->)|(_ & E)]; [auto|]. rewrite E in Hdn. apply (i_done w I r' c' a' f); auto.
    - intros r' c' a' H. destruct (dn_set_case (w_dn w) r c a r' c' a') as [(-> & -> & ->)|(_ & E)]; [split; auto|]. rewrite E in H. apply (i_dnv w I); auto.
    - intros r' c' f a' H. destruct (i_em w I _ _ _ _ H) as (Hf & Hdn). split; auto.
      destruct (dn_set_case (w_dn w) r c a r' c' a') as [(-> & -> & ->)|(_ & ->)]; auto. apply dn_set_same.
    - apply (i_loc w I).
    - apply (i_rem w I).
    - intros q g a' d H. destruct (i_pk w I q g a' d H) as (A & B & r1 & c1 & f1 & c1' & f1' & K1 & K2 & K3 & K4 & K5 & K6). split; auto. split; auto.
      exists r1, c1, f1, c1', f1'. split; auto. split; auto. split; auto. split; auto. split; auto. rewrite val_set_other; auto.
      intros E. injection E as -> -> ->. destruct (i_em w I _ _ _ _ (given_em _ _ _ _ _ K5)). congruence.
    - intros r' c' a' H. destruct (dn_set_case (w_dn w) r c a r' c' a') as [(-> & -> & ->)|(Ne & E)].
      + destruct (val_set_case (w_val w) r c a v r c a) as [(_ & _ & _ & ->)|(X & _)]; [|congruence].
        rewrite Ev. f_equal. apply map_ext_in. intros f Hf. apply in_seq in Hf. rewrite read_seen by (auto; lia).
        rewrite <- Ev. symmetry. apply SN; [split; auto|lia|auto].
      + rewrite E in H. rewrite val_set_other by auto. rewrite (i_val w I) by auto. f_equal. apply map_ext_in. intros f Hf. apply in_seq in Hf.
        symmetry. apply SN; [apply (i_dnv w I); auto|lia|]. intros. apply (i_done w I r' c' a'); auto. apply (i_dnv w I); auto.
    - intros r' c' a' H. destruct (dn_set_case (w_dn w) r c a r' c' a') as [(-> & -> & ->)|(Ne & E)]; [rewrite dn_set_same in H; discriminate|].
      rewrite val_set_other by auto. rewrite E in H. apply (i_val0 w I); auto.
    - intros r' c' f q c1 f1 a' H1 H2 H3 H4 H5 H6. rewrite (i_bnd w I r' c' f q c1 f1 a') by auto. f_equal. rewrite val_set_other; auto.
      destruct (i_rem w I r' c' f q c1 f1 a') as (_ & K); auto. specialize (K H6). destruct (i_em w I _ _ _ _ (given_em _ _ _ _ _ K)). intros E. injection E as -> -> ->. congruence.
    - apply (i_bnd0 w I).
  Qed.

  (** ** Satisfying one dependency *)
  Definition release_nd (w : view) (r c a : nat) : nat -> nat -> nat -> N :=
    fun r' a' c' => if (r' =? r) && (a' =? a) && (c' =? c) then dec64 (w_nd w r a c) else w_nd w r' a' c'.
  Definition release_ready (w : view) (r c a : nat) : nat -> list (nat * nat) :=
    if N.eqb (dec64 (w_nd w r a c)) 0 then fupd (w_ready w) r ((c, a) :: w_ready w r) else w_ready w.
  Lemma release_ok w r c f a sat' : Inv w -> valid r c a -> f < 4 -> dep r a c f = true -> w_sat w r c f a = false -> sat' = e_set (w_sat w) r c f a ->
    (forall r' c' a', valid r' c' a' -> release_nd w r c a r' a' c' = N.of_nat (cnt sat' r' c' a')) /\
    (forall r' c' a', r' < nRanks -> (In (c', a') (release_ready w r c a r') <-> valid r' c' a' /\ release_nd w r c a r' a' c' = 0%N /\ w_dn w r' c' a' = false)) /\
    (forall r', r' < nRanks -> NoDup (release_ready w r c a r')) /\
    (forall r' c' a' f', valid r' c' a' -> w_dn w r' c' a' = true -> f' < 4 -> dep r' a' c' f' = true -> sat' r' c' f' a' = true).
  Proof.
    intros I (Hr & Hc & Ha) Hf Hd Hs ->.
    assert (Dn : w_dn w r c a = false).
    { destruct (w_dn w r c a) eqn:E; auto. pose proof (i_done w I r c a f ltac:(split; auto) E Hf Hd). congruence. }
    assert (CN : cnt (w_sat w) r c a = S (cnt (e_set (w_sat w) r c f a) r c a)).
    { unfold cnt. apply filter_flip with (x := f); [apply seq_NoDup|apply in_seq; lia|now rewrite Hd, Hs|rewrite e_set_same; apply andb_false_r|].
      intros y Hy. rewrite e_set_other; auto. congruence. }
    assert (C4 : cnt (e_set (w_sat w) r c f a) r c a < 1000).
    { assert (cnt (w_sat w) r c a <= 4); [|lia]. unfold cnt. etransitivity; [apply filter_len|]. now rewrite seq_length. }
    assert (NDr : dec64 (w_nd w r a c) = N.of_nat (cnt (e_set (w_sat w) r c f a) r c a)).
    { rewrite (i_nd w I) by (split; auto). rewrite CN. now apply dec64_S. }
    assert (ND0 : w_nd w r a c <> 0%N) by (rewrite (i_nd w I) by (split; auto); lia).
    assert (CO : forall r' c' a', (r', c', a') <> (r, c, a) -> cnt (e_set (w_sat w) r c f a) r' c' a' = cnt (w_sat w) r' c' a').
    { intros r' c' a' N. unfold cnt. f_equal. apply filter_ext. intros y. rewrite e_set_other; auto. congruence. }
    assert (RN : forall r' c' a', (r', c', a') <> (r, c, a) -> release_nd w r c a r' a' c' = w_nd w r' a' c').
    { intros r' c' a' N. unfold release_nd. destruct (Nat.eqb_spec r' r), (Nat.eqb_spec a' a), (Nat.eqb_spec c' c); cbn; auto. congruence. }
    assert (RS : release_nd w r c a r a c = dec64 (w_nd w r a c)) by (unfold release_nd; now rewrite !Nat.eqb_refl).
    assert (DEC : forall r' c' a' : nat, (r', c', a') = (r, c, a) \/ (r', c', a') <> (r, c, a)).
    { intros r' c' a'. destruct (Nat.eq_dec r' r), (Nat.eq_dec c' c), (Nat.eq_dec a' a); subst; auto; right; congruence. }
    assert (NI : ~ In (c, a) (w_ready w r)) by (rewrite (i_ready w I) by auto; tauto).
    split; [|split; [|split]].
    - intros r' c' a' Hv. destruct (DEC r' c' a') as [E|N]; [injection E as -> -> ->; congruence|]. rewrite RN, CO by auto. apply (i_nd w I); auto.
    - intros r' c' a' Hr'. unfold release_ready. destruct (DEC r' c' a') as [E|N].
      + injection E as -> -> ->. rewrite RS. destruct (N.eqb_spec (dec64 (w_nd w r a c)) 0) as [->|N0].
        * rewrite fupd_same. split; [intros _; split; [split; auto|auto]|left; reflexivity].
        * split; [intros K; easy|intros (_ & K & _); congruence].
      + rewrite RN by auto. rewrite <- (i_ready w I) by auto. destruct (N.eqb (dec64 (w_nd w r a c)) 0); [|tauto].
        unfold fupd. destruct (Nat.eqb_spec r' r) as [->|]; [|tauto]. cbn [In]. split; [intros [K|K]; [congruence|auto]|auto].
    - intros r' Hr'. unfold release_ready. destruct (N.eqb (dec64 (w_nd w r a c)) 0); [|apply (i_nodup w I); auto].
      unfold fupd. destruct (Nat.eqb_spec r' r) as [->|]; [|apply (i_nodup w I); auto]. constructor; auto. apply (i_nodup w I); auto.
    - intros r' c' a' f' Hv Hdn Hf' Hd'. destruct (e_set_case (w_sat w) r c f a r' c' f' a') as [(_ & _ & _ & _ & ->)|(_ & ->)]; auto. apply (i_done w I r' c' a'); auto.
  Qed.

  Definition setEm (w : view) (r c f a : nat) : view :=
    mkView (w_nd w) (w_ready w) (w_val w) (w_bnd w) (w_fl w) (w_sat w) (e_set (w_em w) r c f a) (w_dn w).

  (** A face handed on with nothing to do. *)
  Lemma emit_none w r c f a : Inv w -> w_dn w r c a = true -> f < 4 ->
    (isOutgoingWrt dir (M r) a c f = false \/ mate (r, c, f) = None \/ (doComm = false /\ exists q c' f', mate (r, c, f) = Some (q, c', f') /\ q <> r)) ->
    Inv (setEm w r c f a).
  Proof.
    intros I Hdn Hf Hn. pose proof (i_dnv w I _ _ _ Hdn) as (Hr & Hc & Ha).
    assert (NM : forall r1 c1 f1 q c' f' a', mate (r1, c1, f1) = Some (q, c', f') -> doComm = true \/ q = r1 -> given (setEm w r c f a) r1 c1 f1 a' = given w r1 c1 f1 a').
    { intros r1 c1 f1 q c' f' a' Hm K. unfold given. cbn [setEm w_em]. destruct (e_set_case (w_em w) r c f a r1 c1 f1 a') as [(-> & -> & -> & -> & _)|(_ & ->)]; auto.
      destruct Hn as [->|[Hn|(Hn & q' & d & g & Hm' & Nq)]]; [reflexivity|congruence|]. rewrite Hm in Hm'. injection Hm' as <- <- <-. destruct K; congruence. }
    destruct I as [I1 I2 I3 I4 I5 I6 I7 I8 I9 I10 I11 I12 I13]. constructor; try (cbn [setEm w_nd w_ready w_val w_bnd w_fl w_sat w_em w_dn]; auto; fail).
    - cbn [setEm w_em w_dn]. intros r' c' f' a' H. destruct (e_set_case (w_em w) r c f a r' c' f' a') as [(-> & -> & -> & -> & _)|(_ & E)]; auto. rewrite E in H. auto.
    - intros r' c' f' c1 f1 a' Ha' Hm Hd. rewrite (NM _ _ _ _ _ _ a' Hm) by auto. cbn [setEm w_sat]. eauto.
    - intros r' c' f' q c1 f1 a' Ha' DC Hm Nq Hd. change (ckey (setEm w r c f a) q (key r' c' f') a') with (ckey w q (key r' c' f') a').
      rewrite !(NM _ _ _ _ _ _ a' Hm) by auto. apply I8; auto.
    - intros q g a' d H. destruct (I9 q g a' d H) as (A & B & r1 & c1 & f1 & c1' & f1' & K1 & K2 & K3 & K4 & K5 & K6). split; auto. split; auto.
      exists r1, c1, f1, c1', f1'. rewrite (NM _ _ _ _ _ _ a' K1) by auto. auto 10.
  Qed.

  (** A face towards a cell of the same rank. *)
  Lemma emit_local w r c f a c' f' : Inv w -> w_dn w r c a = true -> w_em w r c f a = false -> isOutgoingWrt dir (M r) a c f = true -> mate (r, c, f) = Some (r, c', f') ->
    Inv (mkView (release_nd w r c' a) (release_ready w r c' a) (w_val w) (w_bnd w) (w_fl w) (e_set (w_sat w) r c' f' a) (e_set (w_em w) r c f a) (w_dn w)).
  Proof.
    intros I Hdn Hem Ho Hm. pose proof (i_dnv w I _ _ _ Hdn) as (Hr & Hc & Ha). destruct (mate_back _ _ _ _ _ _ Hm) as (_ & Hc' & Hf').
    destruct (sf_range _ _ _ _ _ OK _ _ _ _ Hm) as (_ & _ & Hf). pose proof (sf_sym _ _ _ _ _ OK _ _ Hm) as Hb.
    assert (Hd : dep r a c' f' = true). { eapply mate_dep; eauto. exact (flow_out r c f r c' f' a Ha Hm Ho). }
    assert (Hs : w_sat w r c' f' a = false) by (rewrite (i_loc w I r c f c' f' a); auto; now rewrite given_out).
    destruct (release_ok w r c' f' a _ I (conj Hr (conj Hc' Ha)) Hf' Hd Hs eq_refl) as (R1 & R2 & R3 & R4).
    assert (SO : forall q c1 f1 a', (exists r1 c2 f2, mate (r1, c2, f2) = Some (q, c1, f1) /\ q <> r1) -> e_set (w_sat w) r c' f' a q c1 f1 a' = w_sat w q c1 f1 a').
    { intros q c1 f1 a' (r1 & c2 & f2 & Hm1 & Nq). apply e_set_other. intros E. injection E as -> -> -> ->. pose proof (mate_inj _ _ _ Hm Hm1) as E. congruence. }
    assert (EO : forall r1 c1 f1 q c2 f2 a', mate (r1, c1, f1) = Some (q, c2, f2) -> q <> r1 -> e_set (w_em w) r c f a r1 c1 f1 a' = w_em w r1 c1 f1 a').
    { intros r1 c1 f1 q c2 f2 a' Hm1 Nq. apply e_set_other. intros E. injection E as -> -> -> ->. rewrite Hm in Hm1. injection Hm1 as <- <- <-. congruence. }
    destruct I as [I1 I2 I3 I4 I5 I6 I7 I8 I9 I10 I11 I12 I13]. constructor; unfold given in *; cbn [w_nd w_ready w_val w_bnd w_fl w_sat w_em w_dn]; auto.
    - intros r' c1 f1 a' H. destruct (e_set_case (w_em w) r c f a r' c1 f1 a') as [(-> & -> & -> & -> & _)|(_ & E)]; auto. rewrite E in H. auto.
    - intros r' c1 f1 c2 f2 a' Ha' Hm1 Hd1. destruct (e_set_case (w_em w) r c f a r' c1 f1 a') as [(-> & -> & -> & -> & ->)|(N & ->)].
      + rewrite Hm in Hm1. injection Hm1 as <- <-. now rewrite e_set_same, Ho.
      + rewrite e_set_other; auto. intros E. injection E as -> -> -> ->. pose proof (mate_inj _ _ _ Hm Hm1). congruence.
    - intros r' c1 f1 q c2 f2 a' Ha' DC Hm1 Nq Hd1. change (ckey _ q (key r' c1 f1) a') with (ckey w q (key r' c1 f1) a').
      rewrite (EO _ _ _ _ _ _ a' Hm1 Nq), (SO q c2 f2 a') by eauto. apply I8; auto.
    - intros q g a' d H. destruct (I9 q g a' d H) as (A & B & r1 & c1 & f1 & c1' & f1' & K1 & K2 & K3 & K4 & K5 & K6). split; auto. split; auto.
      exists r1, c1, f1, c1', f1'. rewrite (EO _ _ _ _ _ _ a' K1 K2). auto 10.
    - intros r' c1 f1 q c2 f2 a' H1 H2 H3 H4 H5 H6. rewrite (SO q c2 f2 a') in H6 by eauto. eauto.
    - intros q s a' H. apply I13. intros r1 c1 f1 c2 f2 K1 K2 K3 K4 K5 K6. rewrite <- (SO q c2 f2 a') by eauto. eapply H; eauto.
  Qed.

  (** A face towards another rank. *)
  Lemma emit_remote w r c f a q c' f' : Inv w -> doComm = true -> w_dn w r c a = true -> w_em w r c f a = false ->
    isOutgoingWrt dir (M r) a c f = true -> mate (r, c, f) = Some (q, c', f') -> q <> r ->
    Inv (mkView (w_nd w) (w_ready w) (w_val w) (w_bnd w) (fupd (w_fl w) q ((key r c f, a, td_getData T r c f a (w_val w r c a)) :: w_fl w q))
           (w_sat w) (e_set (w_em w) r c f a) (w_dn w)).
  Proof.
    intros I DC Hdn Hem Ho Hm Nq. pose proof (i_dnv w I _ _ _ Hdn) as (Hr & Hc & Ha). destruct (mate_back _ _ _ _ _ _ Hm) as (Hq & Hc' & Hf').
    destruct (sf_range _ _ _ _ _ OK _ _ _ _ Hm) as (_ & _ & Hf).
    assert (Hd : dep q a c' f' = true). { eapply mate_dep; [apply (sf_sym _ _ _ _ _ OK); eauto| |auto]. exact (flow_out r c f q c' f' a Ha Hm Ho). }
    assert (Hs : w_sat w q c' f' a = false).
    { destruct (i_rem w I r c f q c' f' a) as (_ & K); auto. destruct (w_sat w q c' f' a); auto. rewrite (given_em _ _ _ _ _ (K eq_refl)) in Hem; auto. }
    destruct I as [I1 I2 I3 I4 I5 I6 I7 I8 I9 I10 I11 I12 I13]. constructor; unfold given in *; cbn [w_nd w_ready w_val w_bnd w_fl w_sat w_em w_dn]; auto.
    - intros r' c1 f1 a' H. destruct (e_set_case (w_em w) r c f a r' c1 f1 a') as [(-> & -> & -> & -> & _)|(_ & E)]; auto. rewrite E in H. auto.
    - intros r' c1 f1 c2 f2 a' Ha' Hm1 Hd1. rewrite e_set_other; auto. intros E. injection E as -> -> -> ->. rewrite Hm in Hm1. injection Hm1 as -> <- <-. congruence.
    - intros r' c1 f1 q1 c2 f2 a' Ha' _ Hm1 Nq1 Hd1. destruct (e_set_case (w_em w) r c f a r' c1 f1 a') as [(-> & -> & -> & -> & E)|(N & E)]; rewrite E.
      + rewrite Hm in Hm1. injection Hm1 as <- <- <-. rewrite Hs, Ho. split; auto. cbn [andb negb]. unfold ckey. cbn [w_fl]. rewrite fupd_same. cbn [filter].
        unfold keyed at 1. cbn [fst snd]. rewrite N.eqb_refl, Nat.eqb_refl. cbn [andb length]. f_equal.
        destruct (I8 r c f q c' f' a) as (K & _); auto. rewrite Hem, andb_false_r in K. exact K.
      + destruct (I8 r' c1 f1 q1 c2 f2 a') as (K1 & K2); auto. split; auto. rewrite <- K1. unfold ckey. cbn [w_fl]. unfold fupd.
        destruct (Nat.eqb_spec q1 q) as [->|]; auto. cbn [filter]. unfold keyed at 1. cbn [fst snd].
        destruct (N.eqb_spec (key r c f) (key r' c1 f1)) as [EK|]; auto. destruct (Nat.eqb_spec a a') as [<-|]; auto.
        destruct (key_inj r c f q c' f' r' c1 f1 c2 f2) as (-> & -> & -> & _); auto. congruence.
    - intros q1 g a' d H. unfold fupd in H. destruct (Nat.eqb_spec q1 q) as [->|N].
      + destruct H as [H|H].
        * injection H as <- <- <-. split; auto. split; auto. exists r, c, f, c', f'. rewrite e_set_same, Ho. auto 10.
        * destruct (I9 q g a' d H) as (A & B & r1 & c1 & f1 & c1' & f1' & K1 & K2 & K3 & K4 & K5 & K6). split; auto. split; auto.
          exists r1, c1, f1, c1', f1'. split; auto. split; auto. split; auto. split; auto. split; auto.
          destruct (andb_prop _ _ K5) as (-> & K5'). cbn [andb]. destruct (e_set_case (w_em w) r c f a r1 c1 f1 a') as [(_ & _ & _ & _ & ->)|(_ & ->)]; auto.
      + destruct (I9 q1 g a' d H) as (A & B & r1 & c1 & f1 & c1' & f1' & K1 & K2 & K3 & K4 & K5 & K6). split; auto. split; auto.
        exists r1, c1, f1, c1', f1'. split; auto. split; auto. split; auto. split; auto. split; auto.
        destruct (andb_prop _ _ K5) as (-> & K5'). cbn [andb]. destruct (e_set_case (w_em w) r c f a r1 c1 f1 a') as [(_ & _ & _ & _ & ->)|(_ & ->)]; auto.
  Qed.

  (** A packet arrives. *)
  Lemma deliver_inv w q g a d rest : Inv w -> Permutation (w_fl w q) ((g, a, d) :: rest) ->
    exists c' f', rm_glSide (M q) g = Some (rm_side (M q) c' f') /\ rm_sideCell (M q) (rm_side (M q) c' f') = c' /\ a < nAngles /\ q < nRanks /\ c' < rm_nCells (M q) /\
    Inv (mkView (release_nd w q c' a) (release_ready w q c' a) (w_val w)
           (fun r s a' => if (r =? q) && (s =? rm_side (M q) c' f') && (a' =? a) then d else w_bnd w r s a') (fupd (w_fl w) q rest)
           (e_set (w_sat w) q c' f' a) (w_em w) (w_dn w)).
  Proof.
    intros I HP. destruct (i_pk w I q g a d) as (DC & Ha & r & c & f & c' & f' & Hm & Nq & Hd & Eg & Hem & Ed).
    { eapply Permutation_in; [apply Permutation_sym; exact HP|now left]. }
    destruct (mate_back _ _ _ _ _ _ Hm) as (Hq & Hc' & Hf'). destruct (sf_side _ _ _ _ _ OK _ _ _ _ _ _ Hm Nq) as (GL & SC).
    exists c', f'. rewrite Eg. split; auto. split; auto. split; auto. split; auto. split; auto.
    destruct (i_rem w I r c f q c' f' a) as (CK & _); auto.
    assert (CK' : ckey w q (key r c f) a = S (length (filter (keyed (key r c f) a) rest))).
    { unfold ckey. rewrite (perm_filter _ _ _ HP). cbn [filter]. unfold keyed at 1. cbn [fst snd]. rewrite Eg, N.eqb_refl, Nat.eqb_refl. reflexivity. }
    assert (Hs : w_sat w q c' f' a = false). { rewrite CK' in CK. destruct (w_sat w q c' f' a); auto. rewrite andb_false_r in CK. discriminate. }
    assert (R0 : length (filter (keyed (key r c f) a) rest) = 0). { rewrite CK' in CK. rewrite Hem, Hs in CK. cbn in CK. lia. }
    destruct (release_ok w q c' f' a _ I (conj Hq (conj Hc' Ha)) Hf' Hd Hs eq_refl) as (R1 & R2 & R3 & R4).
    destruct I as [I1 I2 I3 I4 I5 I6 I7 I8 I9 I10 I11 I12 I13]. constructor; unfold given in *; cbn [w_nd w_ready w_val w_bnd w_fl w_sat w_em w_dn]; auto.
    - intros r1 c1 f1 c2 f2 a' Ha' Hm1 Hd1. rewrite e_set_other; auto. intros E. injection E as -> -> -> ->. pose proof (mate_inj _ _ _ Hm Hm1) as E. congruence.
    - intros r1 c1 f1 q1 c2 f2 a' Ha' _ Hm1 Nq1 Hd1. destruct (e_set_case (w_sat w) q c' f' a q1 c2 f2 a') as [(-> & -> & -> & -> & E)|(N & E)]; rewrite E.
      + pose proof (mate_inj _ _ _ Hm Hm1) as EE. injection EE as <- <- <-. split; auto. rewrite andb_false_r. unfold ckey. cbn [w_fl]. now rewrite fupd_same.
      + destruct (I8 r1 c1 f1 q1 c2 f2 a') as (K1 & K2); auto. split; auto. rewrite <- K1. unfold ckey. cbn [w_fl]. unfold fupd.
        destruct (Nat.eqb_spec q1 q) as [->|]; auto. rewrite (perm_filter _ _ _ HP). cbn [filter]. unfold keyed at 2. cbn [fst snd]. rewrite Eg.
        destruct (N.eqb_spec (key r c f) (key r1 c1 f1)) as [EK|]; auto. destruct (Nat.eqb_spec a a') as [<-|]; auto.
        destruct (key_inj r c f q c' f' r1 c1 f1 c2 f2) as (-> & -> & -> & -> & ->); auto. congruence.
    - intros q1 g1 a' d' H. assert (H' : In (g1, a', d') (w_fl w q1)).
      { unfold fupd in H. destruct (Nat.eqb_spec q1 q) as [->|]; auto. eapply Permutation_in; [apply Permutation_sym; exact HP|now right]. }
      destruct (I9 _ _ _ _ H') as (A & B & r1 & c1 & f1 & c1' & f1' & K). split; auto. split; auto. exists r1, c1, f1, c1', f1'. auto.
    - intros r1 c1 f1 q1 c2 f2 a' H1 H2 H3 H4 H5 H6. destruct (e_set_case (w_sat w) q c' f' a q1 c2 f2 a') as [(-> & -> & -> & -> & _)|(N & E)].
      + pose proof (mate_inj _ _ _ Hm H3) as EE. injection EE as <- <- <-. rewrite !Nat.eqb_refl. exact Ed.
      + rewrite E in H6. rewrite <- (I12 r1 c1 f1 q1 c2 f2 a') by auto.
        destruct (Nat.eqb_spec q1 q) as [->|]; auto. destruct (Nat.eqb_spec (rm_side (M q) c2 f2) (rm_side (M q) c' f')) as [ES|]; auto. destruct (Nat.eqb_spec a' a) as [->|]; auto.
        exfalso. pose proof (sf_sym _ _ _ _ _ OK _ _ Hm) as Hb. pose proof (sf_sym _ _ _ _ _ OK _ _ H3) as Hb1.
        destruct (sf_inj _ _ _ _ _ OK _ _ _ _ _ _ _ _ _ _ _ Hb1 (not_eq_sym H4) Hb (not_eq_sym Nq) ES) as (-> & ->). congruence.
    - intros q1 s a' H. destruct (Nat.eqb_spec q1 q) as [->|N1].
      2: { cbn [andb]. apply I13. intros r1 c1 f1 c2 f2 K1 K2 K3 K4 K5 K6. rewrite <- (e_set_other (w_sat w) q c' f' a) by congruence. eapply H; eauto. }
      destruct (Nat.eqb_spec s (rm_side (M q) c' f')) as [->|N2].
      2: { cbn [andb]. apply I13. intros r1 c1 f1 c2 f2 K1 K2 K3 K4 K5 K6. rewrite <- (e_set_other (w_sat w) q c' f' a) by congruence. eapply H; eauto. }
      destruct (Nat.eqb_spec a' a) as [->|N3].
      2: { cbn [andb]. apply I13. intros r1 c1 f1 c2 f2 K1 K2 K3 K4 K5 K6. rewrite <- (e_set_other (w_sat w) q c' f' a) by congruence. eapply H; eauto. }
      exfalso. specialize (H _ _ _ _ _ Hm Nq Ha Hd eq_refl DC). rewrite e_set_same in H. discriminate.
  Qed.

  (** ** Consequences *)
  (** Nothing is on its way to a rank that has updated everything. *)
  Lemma done_no_flight w q : Inv w -> settled w -> (forall c a, valid q c a -> w_dn w q c a = true) -> w_fl w q = [].
  Proof.
    intros I _ H. destruct (w_fl w q) as [|[[g a] d] l] eqn:E; auto. exfalso.
    destruct (i_pk w I q g a d) as (DC & Ha & r & c & f & c' & f' & Hm & Nq & Hd & Eg & Hem & _); [rewrite E; now left|].
    destruct (mate_back _ _ _ _ _ _ Hm) as (Hq & Hc' & Hf').
    pose proof (i_done w I q c' a f' (conj Hq (conj Hc' Ha)) (H c' a (conj Hq (conj Hc' Ha))) Hf' Hd) as Hs.
    destruct (i_rem w I r c f q c' f' a) as (CK & _); auto. rewrite Hs, andb_false_r in CK. unfold ckey in CK. rewrite E in CK. cbn [filter] in CK.
    unfold keyed in CK. cbn [fst snd] in CK. rewrite Eg, N.eqb_refl, Nat.eqb_refl in CK. discriminate.
  Qed.
  (** Keys on their way to a rank are different. *)
  Lemma flight_nodup w q : Inv w -> NoDup (map fst (w_fl w q)).
  Proof.
    intros I.
    assert (K : forall g a, length (filter (keyed g a) (w_fl w q)) <= 1).
    { intros g a. destruct (filter (keyed g a) (w_fl w q)) as [|[[g1 a1] d] l] eqn:E; [cbn; lia|].
      assert (H : In (g1, a1, d) (filter (keyed g a) (w_fl w q))) by (rewrite E; now left). apply filter_In in H. destruct H as (H & HK).
      unfold keyed in HK. cbn [fst snd] in HK. apply andb_prop in HK. destruct HK as (H1 & H2). apply N.eqb_eq in H1. apply Nat.eqb_eq in H2. subst g1 a1.
      destruct (i_pk w I q g a d H) as (DC & Ha & r & c & f & c' & f' & Hm & Nq & Hd & Eg & Hem & _).
      destruct (i_rem w I r c f q c' f' a) as (CK & _); auto. unfold ckey in CK. rewrite <- Eg, E in CK. rewrite CK. destruct (_ && _); lia. }
    clear I. revert K. generalize (w_fl w q). induction l as [|[[g a] d] l IH]; intros K; cbn; constructor.
    - intros HI. apply in_map_iff in HI. destruct HI as ([[g' a'] d'] & E & HI). cbn in E. injection E as -> ->.
      specialize (K g a). cbn [filter] in K. unfold keyed at 1 in K. cbn [fst snd] in K. rewrite N.eqb_refl, Nat.eqb_refl in K. cbn [andb length] in K.
      assert (In (g, a, d') (filter (keyed g a) l)). { apply filter_In. split; auto. unfold keyed. cbn. now rewrite N.eqb_refl, Nat.eqb_refl. }
      destruct (filter (keyed g a) l); [easy|cbn in K; lia].
    - apply IH. intros g' a'. specialize (K g' a'). cbn [filter] in K. destruct (keyed g' a' (g, a, d)); cbn in K; lia.
  Qed.
  Lemma out_in r c f a : isOutgoingWrt dir (M r) a c f = negb (isIncoming dir (M r) a c f).
  Proof. unfold isOutgoingWrt, isIncoming. destruct dir, (rm_out (M r) a c f); reflexivity. Qed.
  (** Where no cell waits for itself, the other side of an incoming face is outgoing. *)
  Lemma level_out (lvl : nat -> nat -> nat -> nat) r c f q c' f' a : (forall a r c q c', a < nAngles -> upwind dir doComm nRanks M mate a (q, c') (r, c) -> lvl q c' a < lvl r c a) ->
    a < nAngles -> mate (r, c, f) = Some (q, c', f') -> isIncoming dir (M r) a c f = true -> doComm = true \/ q = r -> isOutgoingWrt dir (M q) a c' f' = true.
  Proof.
    intros L Ha Hm Hi K. rewrite out_in. destruct (isIncoming dir (M q) a c' f') eqn:E; auto. exfalso. destruct (sf_range _ _ _ _ _ OK _ _ _ _ Hm) as (Hr & Hc & Hf). destruct (mate_back _ _ _ _ _ _ Hm) as (Hq & Hc' & Hf').
    assert (L1 : lvl q c' a < lvl r c a) by (apply L; auto; split; auto; split; auto; exists f, f'; auto).
    assert (L2 : lvl r c a < lvl q c' a). { apply L; auto. split; auto. split; auto. exists f', f. split; auto. split; [now apply (sf_sym _ _ _ _ _ OK)|]. split; auto. destruct K as [K|K]; auto. }
    lia.
  Qed.
  (** Some work is left only if some pair is ready or some packet is on its way. *)
  Lemma progress w : Inv w -> settled w -> acyclic dir doComm nRanks nAngles M mate ->
    (exists r c a, valid r c a /\ w_dn w r c a = false) -> exists r, r < nRanks /\ (w_ready w r <> [] \/ w_fl w r <> []).
  Proof.
    intros I ST (lvl & L) (r & c & a & Hv & Hd).
    remember (lvl r c a) as n eqn:En. revert r c Hv Hd En. induction n as [n IH] using lt_wf_ind. intros r c Hv Hd En. pose proof Hv as (Hr & Hc & Ha).
    destruct (w_nd w r a c) eqn:E0.
    - exists r. split; auto. left. intros E. assert (In (c, a) (w_ready w r)) as K by (apply (i_ready w I); auto). now rewrite E in K.
    - rewrite (i_nd w I) in E0 by auto. unfold cnt in E0.
      destruct (filter (fun f => dep r a c f && negb (w_sat w r c f a)) (seq 0 4)) as [|f l] eqn:EF; [discriminate|].
      assert (HF : In f (filter (fun f => dep r a c f && negb (w_sat w r c f a)) (seq 0 4))) by (rewrite EF; now left).
      apply filter_In in HF. destruct HF as (Hf & HF). apply in_seq in Hf. apply andb_prop in HF. destruct HF as (Hdep & Hs). apply negb_true_iff in Hs.
      destruct (dep_mate r c f a Hr Hc ltac:(lia) Hdep) as (Hi & q & c' & f' & Hm & K). destruct (mate_back _ _ _ _ _ _ Hm) as (Hq & Hc' & Hf').
      pose proof (sf_sym _ _ _ _ _ OK _ _ Hm) as Hb.
      destruct (w_dn w q c' a) eqn:Ed.
      + pose proof (ST q c' f' a Ed Hf') as Em. destruct (Nat.eq_dec q r) as [->|N].
        * rewrite (i_loc w I r c' f' c f a), given_out in Hs; auto; [congruence|]. exact (level_out lvl r c f r c' f' a L Ha Hm Hi K).
        * assert (DC : doComm = true) by (destruct K; congruence). exists r. split; auto. right. intros E.
          destruct (i_rem w I q c' f' r c f a) as (CK & _); auto. unfold ckey in CK. rewrite E, given_out, Em, Hs in CK by (exact (level_out lvl r c f q c' f' a L Ha Hm Hi K)). discriminate.
      + eapply (IH (lvl q c' a)); [|split; [exact Hq|split; [exact Hc'|exact Ha]]|exact Ed|reflexivity]. subst n. apply L; auto. split; auto. split; auto.
        exists f, f'. split; [lia|]. auto.
  Qed.
  Lemma final_solution w : Inv w -> (forall r c a, valid r c a -> w_dn w r c a = true) -> solution dir doComm nRanks nAngles M T mate bnd0 (w_val w).
  Proof. intros I H r c a Hv. apply (i_val w I); auto. Qed.
End Inv.
Arguments view : clear implicits. Arguments mkView {V D}. Arguments w_nd {V D}. Arguments w_ready {V D}. Arguments w_val {V D}. Arguments w_bnd {V D}.
Arguments w_fl {V D}. Arguments w_sat {V D}. Arguments w_em {V D}. Arguments w_dn {V D}.

(** ** Uniqueness of the recursion *)
Section Unique.
  Context {V D : Type}.
  Variables (dir : direction) (doComm : bool) (nRanks nAngles : nat) (M : nat -> rmesh) (T : tdata V D) (mate : site -> option site).
  Hypothesis OK : sys_fit dir nRanks nAngles M mate.
  Lemma solution_unique bnd val val' : acyclic dir doComm nRanks nAngles M mate -> solution dir doComm nRanks nAngles M T mate bnd val ->
    solution dir doComm nRanks nAngles M T mate bnd val' -> forall r c a, valid nRanks nAngles M r c a -> val r c a = val' r c a.
  Proof.
    intros (lvl & L) S1 S2 r c a Hv. remember (lvl r c a) as n eqn:En. revert r c Hv En. induction n as [n IH] using lt_wf_ind. intros r c Hv En.
    rewrite S1, S2 by auto. f_equal. apply map_ext_in. intros f Hf. apply in_seq in Hf. unfold seen. destruct (isIncoming dir (M r) a c f) eqn:Ei; auto.
    destruct (mate (r, c, f)) as [[[q c'] f']|] eqn:Em; auto. f_equal. pose proof Hv as (Hr & Hc & Ha).
    assert (K : doComm = true \/ q = r -> val q c' a = val' q c' a).
    { intros K. pose proof (sf_sym _ _ _ _ _ OK _ _ Em) as Hb. destruct (sf_range _ _ _ _ _ OK _ _ _ _ Hb) as (Hq & Hc' & Hf').
      eapply IH; [|split; [exact Hq|split; [exact Hc'|exact Ha]]|reflexivity]. subst n. apply L; auto. split; auto. split; auto. exists f, f'. split; [lia|auto]. }
    destruct (Nat.eqb_spec q r) as [->|]; [now rewrite K by auto|]. destruct doComm; auto. now rewrite K by auto.
  Qed.
End Unique.
