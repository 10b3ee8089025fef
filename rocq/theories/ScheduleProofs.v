(** The schedule loop: which pairs are queued, released and listed. *)
From Coq Require Import Permutation.
From Verif Require Import Prelude MeshModel TraverseModel TraverseSpec TraverseInv TraverseProofs TraverseTerm TychoProofs ScheduleModel ScheduleSpec.

Lemma limit_pos m : (0 < limit m)%N \/ limit m = 0%N.
Proof. lia. Qed.
Lemma glAngleFrom_nth l : forall a i, NoDup l -> a < length l -> glAngleFrom l (nth a l 0) i = i + a.
Proof.
  induction l as [|h t IH]; intros a i ND Ha; cbn in *; [lia|]. inversion ND; subst. destruct a as [|a].
  - rewrite Nat.eqb_refl. lia.
  - destruct (Nat.eqb_spec h (nth a t 0)) as [e|e].
    + exfalso. apply H1. rewrite e. apply nth_In. lia.
    + rewrite IH by (auto; lia). lia.
Qed.

Lemma nodup_app_r {A} (l m : list A) : NoDup (l ++ m) -> NoDup m.
Proof. induction l; cbn; auto. intros H. inversion H; auto. Qed.
Lemma fold_cond {A B} (P : A -> bool) (g : A -> B) l : forall acc, fold_left (fun q x => if P x then g x :: q else q) l acc = rev (map g (filter P l)) ++ acc.
Proof.
  induction l as [|x l IH]; intros acc; cbn; auto. rewrite IH. destruct (P x); cbn; auto. now rewrite <- app_assoc.
Qed.
Lemma fold_count {A} (P : A -> bool) l : forall n, fold_left (fun n x => if P x then N.succ n else n) l n = (n + N.of_nat (length (filter P l)))%N.
Proof. induction l as [|x l IH]; intros n; cbn; [lia|]. rewrite IH. destruct (P x); cbn [length]; lia. Qed.
Lemma sumr_pos n f r : r < n -> 0 < f r -> 0 < sumr n f.
Proof. intros H1 H2. pose proof (sumr_lt n (fun _ => 0) f r (fun r _ => Nat.le_0_l (f r)) H1 H2). lia. Qed.
Lemma sumr_add n f g : sumr n (fun r => f r + g r) = sumr n f + sumr n g.
Proof. induction n; [reflexivity|]. rewrite !sumr_S. lia. Qed.

Section P.
  Variables (nRanks : nat) (M : nat -> rmesh) (angles : list nat) (mate : site -> option site).
  Variables (need give : nat -> nat -> nat -> nat -> bool).
  Hypothesis OK : sys_ok nRanks 0 M mate.
  Hypothesis ND : NoDup angles.
  Notation nAng := (nAng angles).
  Hypothesis Hgn : forall r c f q c' f' a, mate (r, c, f) = Some (q, c', f') -> a < nAng -> give r a c f = need q a c' f'.
  Hypothesis Hneed : forall r c f a, need r a c f = true -> rm_adjRank (M r) c f <> None.
  Hypothesis Hgive : forall r c f a, give r a c f = true -> rm_adjRank (M r) c f <> None.

  Definition vld (r : nat) (x : nat * nat) : Prop := fst x < rm_nCells (M r) /\ snd x < nAng.
  Lemma adjRank_mate r c f : r < nRanks -> c < rm_nCells (M r) -> f < 4 -> rm_adjRank (M r) c f <> None -> exists q c' f', mate (r, c, f) = Some (q, c', f').
  Proof.
    intros Hr Hc Hf H. rewrite (so_rank _ _ _ _ OK) in H by auto. destruct (mate (r, c, f)) as [[[q c'] f']|]; eauto. congruence.
  Qed.
  Lemma mrange r c f q c' f' : mate (r, c, f) = Some (q, c', f') -> (r < nRanks /\ c < rm_nCells (M r) /\ f < 4) /\ (q < nRanks /\ c' < rm_nCells (M q) /\ f' < 4).
  Proof. intros H. split; [eapply (so_range _ _ _ _ OK); eauto|]. apply (so_sym _ _ _ _ OK) in H. eapply (so_range _ _ _ _ OK); eauto. Qed.
  Lemma minj x y z : mate x = Some z -> mate y = Some z -> x = y.
  Proof. intros H1 H2. apply (so_sym _ _ _ _ OK) in H1, H2. congruence. Qed.

  (** ** Counters and queue of one rank *)
  Definition edge := (nat * nat * nat)%type.   (* cell face angle *)
  Definition unsat (r : nat) (sat : edge -> bool) (c a f : nat) : bool := need r a c f && negb (sat (c, f, a)).
  Record LI (r : nat) (sat : edge -> bool) (dn : list (nat * nat)) (s : (nat -> nat -> N) * list (nat * nat)) : Prop := {
    li_nd : forall x, vld r x -> fst s (snd x) (fst x) = N.of_nat (length (filter (unsat r sat (fst x) (snd x)) (seq 0 4)));
    li_nodup : NoDup (snd s);
    li_q : forall x, In x (snd s) <-> vld r x /\ ~ In x dn /\ forall f, f < 4 -> unsat r sat (fst x) (snd x) f = false
  }.
  Lemma LI_ext r sat sat' dn s : (forall c f a, vld r (c, a) -> f < 4 -> need r a c f = true -> sat (c, f, a) = sat' (c, f, a)) -> LI r sat dn s -> LI r sat' dn s.
  Proof.
    intros E [A B C]. assert (U : forall x f, vld r x -> f < 4 -> unsat r sat (fst x) (snd x) f = unsat r sat' (fst x) (snd x) f).
    { intros [c a] f Hx Hf; unfold unsat; cbn. destruct (need r a c f) eqn:En; cbn; auto. now rewrite E. }
    constructor; auto.
    - intros x Hx. rewrite (A x Hx). f_equal. f_equal. apply filter_ext_in. intros f Hf; apply in_seq in Hf. apply U; auto; lia.
    - intros x. rewrite C. split; intros (H1 & H2 & H3); repeat split; auto; try apply H1; intros; [rewrite <- U|rewrite U]; auto.
  Qed.
  Definition eqe (e e' : edge) : bool := let '(c, f, a) := e in let '(c', f', a') := e' in (c =? c') && (f =? f') && (a =? a').
  Lemma eqe_spec e e' : reflect (e = e') (eqe e e').
  Proof.
    destruct e as [[c f] a], e' as [[c' f'] a']. unfold eqe.
    destruct (Nat.eqb_spec c c'), (Nat.eqb_spec f f'), (Nat.eqb_spec a a'); cbn; constructor; congruence.
  Qed.
  Lemma release_edge r sat dn s c f a : LI r sat dn s -> vld r (c, a) -> ~ In (c, a) dn -> f < 4 -> need r a c f = true -> sat (c, f, a) = false ->
    LI r (fun e => sat e || eqe e (c, f, a)) dn (srelease s c a).
  Proof.
    intros [A B C] V Nd Hf Hn Hs. destruct s as [nd q]; cbn [fst snd] in *.
    set (sat' := fun e => sat e || eqe e (c, f, a)).
    assert (Hoth : forall x g, x <> (c, a) -> unsat r sat' (fst x) (snd x) g = unsat r sat (fst x) (snd x) g).
    { intros [c1 a1] g Hx. cbn. unfold unsat, sat'. destruct (eqe_spec (c1, g, a1) (c, f, a)); [congruence|]. now rewrite orb_false_r. }
    assert (Hcnt : length (filter (unsat r sat c a) (seq 0 4)) = S (length (filter (unsat r sat' c a) (seq 0 4)))).
    { apply filter_flip with (x := f).
      - apply seq_NoDup.
      - apply in_seq; lia.
      - unfold unsat. now rewrite Hn, Hs.
      - unfold unsat, sat'. destruct (eqe_spec (c, f, a) (c, f, a)); [|congruence]. now rewrite orb_true_r, andb_false_r.
      - intros g Hg. unfold unsat, sat'. destruct (eqe_spec (c, g, a) (c, f, a)); [congruence|]. now rewrite orb_false_r. }
    assert (Hnd : dec64 (nd a c) = N.of_nat (length (filter (unsat r sat' c a) (seq 0 4)))).
    { pose proof (A (c, a) V) as E. cbn [fst snd] in E. rewrite E, Hcnt. apply dec64_S.
      pose proof (filter_len (unsat r sat' c a) (seq 0 4)) as K. rewrite seq_length in K. lia. }
    unfold srelease. rewrite fupd2_same.
    assert (Hndv : forall x, vld r x -> fupd2 nd a c (dec64 (nd a c)) (snd x) (fst x) = N.of_nat (length (filter (unsat r sat' (fst x) (snd x)) (seq 0 4)))).
    { intros x Hx. destruct (Nat.eq_dec (fst x) c) as [e1|e1]; [destruct (Nat.eq_dec (snd x) a) as [e2|e2]|].
      - rewrite e1, e2, fupd2_same. exact Hnd.
      - rewrite fupd2_other by congruence. rewrite (A x Hx). f_equal. f_equal. apply filter_ext. intros; symmetry; apply Hoth. intros ->; auto.
      - rewrite fupd2_other by congruence. rewrite (A x Hx). f_equal. f_equal. apply filter_ext. intros; symmetry; apply Hoth. intros ->; auto. }
    assert (Hnotq : ~ In (c, a) q).
    { intros Hin. apply C in Hin. destruct Hin as (_ & _ & K). specialize (K f Hf). cbn in K. unfold unsat in K. rewrite Hn, Hs in K. discriminate. }
    assert (Hqo : forall x, x <> (c, a) -> (In x q <-> vld r x /\ ~ In x dn /\ forall f, f < 4 -> unsat r sat' (fst x) (snd x) f = false)).
    { intros x Hx. rewrite C. split; intros (H1 & H2 & H3); repeat split; auto; try apply H1; intros; [rewrite Hoth|rewrite <- Hoth]; auto. }
    destruct (N.eqb_spec (dec64 (nd a c)) 0) as [Z|Z]; constructor; cbn [fst snd]; auto.
    - constructor; auto.
    - intros x. assert (Dx : {x = (c, a)} + {x <> (c, a)}) by (repeat decide equality). destruct Dx as [->|Hx].
      + split; [intros _|intros _; now left]. repeat split; auto; try apply V. intros g Hg. cbn.
        rewrite Hnd in Z. assert (Z' : length (filter (unsat r sat' c a) (seq 0 4)) = 0) by lia. apply filter_nil_inv with (x := g) in Z'; [exact Z'|apply in_seq; lia].
      + rewrite <- (Hqo x Hx). cbn. split; [intros [K|K]; [congruence|auto]|auto].
    - intros x. assert (Dx : {x = (c, a)} + {x <> (c, a)}) by (repeat decide equality). destruct Dx as [->|Hx]; [|apply Hqo; auto].
      split; [intros K; now contradiction|]. intros (_ & _ & K). exfalso. apply Z. rewrite Hnd.
      rewrite (filter_nil (unsat r sat' c a)); [reflexivity|]. intros g Hg. apply in_seq in Hg. apply K. lia.
  Qed.
  Definition eca (e : edge) : nat * nat := (fst (fst e), snd e).
  Definition memE (e : edge) (E : list edge) : bool := existsb (eqe e) E.
  Lemma memE_In e E : memE e E = true <-> In e E.
  Proof.
    unfold memE. rewrite existsb_exists. split.
    - intros (x & Hx & K). destruct (eqe_spec e x); congruence.
    - intros H. exists e. split; auto. destruct (eqe_spec e e); congruence.
  Qed.
  Definition good_edge (r : nat) (sat : edge -> bool) (dn : list (nat * nat)) (e : edge) : Prop :=
    let '(c, f, a) := e in vld r (c, a) /\ ~ In (c, a) dn /\ f < 4 /\ need r a c f = true /\ sat e = false.
  Lemma release_edges r dn E : forall sat s, LI r sat dn s -> NoDup E -> (forall e, In e E -> good_edge r sat dn e) ->
    LI r (fun e => sat e || memE e E) dn (fold_left (fun s e => srelease s (fst (eca e)) (snd (eca e))) E s).
  Proof.
    induction E as [|[[c f] a] E IH]; intros sat s HL HN HE; cbn [fold_left].
    - eapply LI_ext; [|exact HL]. intros; cbn [memE existsb]. now rewrite orb_false_r.
    - inversion HN; subst. destruct (HE (c, f, a) (or_introl eq_refl)) as (V & Nd & Hf & Hn & Hs).
      eapply LI_ext; [|apply (IH (fun e => sat e || eqe e (c, f, a)))]; auto.
      + intros c0 f0 a0 _ _ _. cbn [memE existsb]. now rewrite orb_assoc.
      + apply release_edge; auto.
      + intros [[c1 f1] a1] Hin. destruct (HE (c1, f1, a1) (or_intror Hin)) as (V1 & Nd1 & Hf1 & Hn1 & Hs1).
        repeat split; auto; try apply V1. rewrite Hs1. destruct (eqe_spec (c1, f1, a1) (c, f, a)) as [e|e]; auto. now rewrite <- e in H1.
  Qed.

  (** ** Which edges are satisfied: local ones by [dl], remote ones by [dr] *)
  Definition eq2 (x y : nat * nat) : bool := (fst x =? fst y) && (snd x =? snd y).
  Lemma eq2_spec x y : reflect (x = y) (eq2 x y).
  Proof. destruct x as [a b], y as [c d]. unfold eq2; cbn. destruct (Nat.eqb_spec a c), (Nat.eqb_spec b d); cbn; constructor; congruence. Qed.
  Definition mem2 (x : nat * nat) (l : list (nat * nat)) : bool := existsb (eq2 x) l.
  Lemma mem2_In x l : mem2 x l = true <-> In x l.
  Proof.
    unfold mem2. rewrite existsb_exists. split.
    - intros (y & Hy & K). destruct (eq2_spec x y); congruence.
    - intros H. exists x. split; auto. destruct (eq2_spec x x); congruence.
  Qed.
  Lemma mem2_app x l m : mem2 x (l ++ m) = mem2 x l || mem2 x m.
  Proof. unfold mem2. apply existsb_app. Qed.
  Definition satF (r : nat) (dl : list (nat * nat)) (dr : nat -> list (nat * nat)) (e : edge) : bool :=
    let '(c, f, a) := e in
    match mate (r, c, f) with Some (q, c', _) => if q =? r then mem2 (c', a) dl else mem2 (c', a) (dr q) | None => false end.

  (** Edges released on the rank itself by the pair (c, a). *)
  Definition localEdges (r c a : nat) : list edge :=
    flat_map (fun f => if give r a c f then match mate (r, c, f) with Some (q, c', f') => if q =? r then [(c', f', a)] else [] | None => [] end else []) (seq 0 4).
  Lemma topoChild_edges r c a : r < nRanks -> c < rm_nCells (M r) -> forall fs s, (forall f, In f fs -> f < 4) ->
    fold_left (topoChild M give r c a) fs s =
    fold_left (fun s e => srelease s (fst (eca e)) (snd (eca e)))
      (flat_map (fun f => if give r a c f then match mate (r, c, f) with Some (q, c', f') => if q =? r then [(c', f', a)] else [] | None => [] end else []) fs) s.
  Proof.
    intros Hr Hc. induction fs as [|f fs IH]; intros s Hfs; cbn [fold_left flat_map]; auto.
    rewrite fold_left_app, <- IH by (intros; apply Hfs; now right). f_equal.
    unfold topoChild. destruct (give r a c f); auto. rewrite (so_cell _ _ _ _ OK) by (auto; apply Hfs; now left).
    destruct (mate (r, c, f)) as [[[q c'] f']|]; auto. destruct (q =? r); auto.
  Qed.
  Lemma localEdges_In r c a e : In e (localEdges r c a) <-> exists f, f < 4 /\ give r a c f = true /\ exists c' f', mate (r, c, f) = Some (r, c', f') /\ e = (c', f', a).
  Proof.
    unfold localEdges. rewrite in_flat_map. split.
    - intros (f & Hf & He). exists f. apply in_seq in Hf. destruct (give r a c f); [|easy].
      destruct (mate (r, c, f)) as [[[q c'] f']|]; [|easy]. destruct (Nat.eqb_spec q r) as [->|]; [|easy].
      destruct He as [<-|[]]. repeat split; try lia. eauto.
    - intros (f & Hf & Hg & c' & f' & Hm & ->). exists f. split; [apply in_seq; lia|]. rewrite Hg, Hm, Nat.eqb_refl. now left.
  Qed.
  Lemma flat_map_nodup {A B} (F : A -> list B) l : NoDup l -> (forall x, In x l -> NoDup (F x)) ->
    (forall x y b, In x l -> In y l -> In b (F x) -> In b (F y) -> x = y) -> NoDup (flat_map F l).
  Proof.
    induction l as [|x l IH]; cbn; intros H1 H2 H3; [constructor|]. inversion H1; subst.
    assert (K : forall (u v : list B), NoDup u -> NoDup v -> (forall b, In b u -> ~ In b v) -> NoDup (u ++ v)).
    { induction u; cbn; intros v Hu Hv Hd; auto. inversion Hu; subst. constructor.
      - intros Hin. apply in_app_or in Hin. destruct Hin as [|Hin]; [auto|]. apply (Hd a); auto.
      - apply IHu; auto. }
    apply K.
    - apply H2; now left.
    - apply IH; auto. intros; eapply H3; eauto.
    - intros b Hb Hin. apply in_flat_map in Hin. destruct Hin as (y & Hy & Hb'). assert (x = y) by (eapply H3; eauto). congruence.
  Qed.
  Lemma localEdges_nodup r c a : NoDup (localEdges r c a).
  Proof.
    apply flat_map_nodup.
    - apply seq_NoDup.
    - intros f _. destruct (give r a c f); [|constructor]. destruct (mate (r, c, f)) as [[[q c'] f']|]; [|constructor].
      destruct (q =? r); repeat constructor. easy.
    - intros f g b _ _ Hf Hg. destruct (give r a c f); [|easy]. destruct (mate (r, c, f)) as [[[q c'] f']|] eqn:E1; [|easy].
      destruct (Nat.eqb_spec q r) as [->|]; [|easy]. destruct Hf as [<-|[]].
      destruct (give r a c g); [|easy]. destruct (mate (r, c, g)) as [[[q' d'] g']|] eqn:E2; [|easy].
      destruct (Nat.eqb_spec q' r) as [->|]; [|easy]. destruct Hg as [K|[]]. injection K as -> ->.
      assert (E : (r, c, f) = (r, c, g)) by (eapply minj; eauto). congruence.
  Qed.

  (** ** partialTopoSort *)
  Definition wvld (r : nat) (w : list (nat * nat)) : list (nat * nat) := map (fun u => (fst u, glAngle angles (snd u))) w.
  Lemma gl_nth a : a < nAng -> glAngle angles (nth a angles 0) = a.
  Proof. intros H. unfold glAngle. rewrite glAngleFrom_nth; auto. Qed.

  (** Every pair of [w] comes when all that it needs is in [dl] and the earlier part of [w], or in [dr]. *)
  Definition in_turn (r : nat) (dl : list (nat * nat)) (dr : nat -> list (nat * nat)) (w : list (nat * nat)) : Prop :=
    forall w1 x w2, w = w1 ++ x :: w2 -> vld r x /\ ~ In x (dl ++ w1) /\ forall f, f < 4 -> unsat r (satF r (dl ++ w1) dr) (fst x) (snd x) f = false.
  (** Nothing in [l] waits for anything. *)
  Definition closed (r : nat) (dl : list (nat * nat)) (dr : nat -> list (nat * nat)) (l : list (nat * nat)) : Prop :=
    forall x, In x l -> vld r x /\ forall f, f < 4 -> unsat r (satF r dl dr) (fst x) (snd x) f = false.
  Lemma satF_mono r dl dl' dr dr' e : (forall x, In x dl -> In x dl') -> (forall q x, In x (dr q) -> In x (dr' q)) -> satF r dl dr e = true -> satF r dl' dr' e = true.
  Proof.
    destruct e as [[c f] a]. unfold satF. intros H1 H2. destruct (mate (r, c, f)) as [[[q c'] f']|]; auto.
    destruct (q =? r); rewrite !mem2_In; auto.
  Qed.
  Lemma closed_mono r dl dl' dr dr' l : (forall x, In x dl -> In x dl') -> (forall q x, In x (dr q) -> In x (dr' q)) -> closed r dl dr l -> closed r dl' dr' l.
  Proof.
    intros H1 H2 H x Hx. destruct (H x Hx) as [Hv K]. split; auto. intros f Hf. specialize (K f Hf). unfold unsat in *.
    destruct (need r (snd x) (fst x) f); auto. cbn [andb] in *. apply negb_false_iff in K. apply negb_false_iff. eapply satF_mono; eauto.
  Qed.
  Lemma in_turn_closed r dl dr w : in_turn r dl dr w -> closed r dl dr dl -> closed r (dl ++ w) dr (dl ++ w).
  Proof.
    intros H K x Hx. apply in_app_or in Hx. destruct Hx as [Hx|Hx].
    - eapply closed_mono; [| |exact K|exact Hx]; auto. intros; apply in_or_app; auto.
    - apply in_split in Hx. destruct Hx as (w1 & w2 & ->). destruct (H w1 x w2 eq_refl) as (Hv & _ & Hf). split; auto. intros f Hff. specialize (Hf f Hff). unfold unsat in *.
      destruct (need r (snd x) (fst x) f); auto. cbn [andb] in *. apply negb_false_iff in Hf. apply negb_false_iff. eapply satF_mono; [| |exact Hf]; auto.
      intros y Hy. apply in_app_or in Hy. apply in_or_app. destruct Hy; auto. right. apply in_or_app; auto.
  Qed.
  Lemma in_turn_snoc r dl dr w x : in_turn r dl dr w -> vld r x -> ~ In x (dl ++ w) ->
    (forall f, f < 4 -> unsat r (satF r (dl ++ w) dr) (fst x) (snd x) f = false) -> in_turn r dl dr (w ++ [x]).
  Proof.
    intros H Hv Hn Hf w1 y w2 E. destruct w2 as [|z w2] using rev_ind.
    - apply app_inj_tail in E. destruct E as [-> ->]. auto.
    - clear IHw2. change (y :: w2 ++ [z]) with ((y :: w2) ++ [z]) in E. rewrite app_assoc in E. apply app_inj_tail in E. destruct E as [-> ->]. eapply H; eauto.
  Qed.
  Lemma topo_ok prio mx r dl dr s w s' w' : r < nRanks -> topo M angles give prio mx r s w s' w' ->
    closed r dl dr dl -> LI r (satF r (dl ++ wvld r w) dr) (dl ++ wvld r w) s -> in_turn r dl dr (wvld r w) -> (forall u, In u w -> exists a, a < nAng /\ snd u = nth a angles 0) ->
    LI r (satF r (dl ++ wvld r w') dr) (dl ++ wvld r w') s' /\ in_turn r dl dr (wvld r w') /\
    (N.of_nat (length w') <= N.max (limit mx) (N.of_nat (length w)))%N /\ (snd s' = [] \/ (limit mx <= N.of_nat (length w'))%N) /\
    (forall u, In u w' -> exists a, a < nAng /\ snd u = nth a angles 0) /\ exists w2, w' = w ++ w2.
  Proof.
    intros Hr. intros Htp HD. induction Htp as [s w Hst|nd q1 q2 c a w s' w' Hl Hp Ht IH]; intros HL HT HW.
    - split; [exact HL|]. split; [exact HT|]. split; [lia|]. split; [exact Hst|]. split; [exact HW|]. exists []. now rewrite app_nil_r.
    - assert (Hin : In (c, a) (q1 ++ (c, a) :: q2)) by (apply in_elt).
      destruct HL as [A B C]. cbn [fst snd] in *. pose proof (proj1 (C _) Hin) as (V & Nd & Us). destruct V as [Hc Ha]; cbn in Hc, Ha.
      pose proof (in_turn_closed _ _ _ _ HT HD) as HT2. set (D := dl ++ wvld r w) in *.
      assert (Ew : wvld r (w ++ [(c, nth a angles 0)]) = wvld r w ++ [(c, a)]).
      { unfold wvld. rewrite map_app. cbn. now rewrite gl_nth. }
      destruct IH as (I1 & I2 & I3 & I4 & I5 & w2 & I6).
      + rewrite topoChild_edges by (auto; intros f Hf; apply in_seq in Hf; lia). fold (localEdges r c a). rewrite Ew, app_assoc. fold D.
        assert (L0 : LI r (satF r D dr) (D ++ [(c, a)]) (nd, q1 ++ q2)).
        { constructor; cbn [fst snd]; auto.
          - apply NoDup_remove_1 in B. exact B.
          - intros x. split.
            + intros Hx. assert (Hx' : In x (q1 ++ (c, a) :: q2)) by (apply in_app_or in Hx; apply in_or_app; cbn; tauto).
              apply C in Hx'. destruct Hx' as (K1 & K2 & K3). repeat split; auto; try apply K1.
              intros K. apply in_app_or in K. destruct K as [K|[K|[]]]; auto. subst x. apply NoDup_remove_2 in B. auto.
            + intros (K1 & K2 & K3). assert (Hx' : In x (q1 ++ (c, a) :: q2)) by (apply C; repeat split; auto; try apply K1; intros K; apply K2; apply in_or_app; auto).
              apply in_app_or in Hx'. cbn in Hx'. destruct Hx' as [|[|]]; [apply in_or_app; auto| |apply in_or_app; auto].
              exfalso. apply K2. apply in_or_app. right. now left. }
        eapply LI_ext; [|apply release_edges; [exact L0|apply localEdges_nodup|]].
        * intros c1 f1 a1 [V1 V2] Hf1 Hn1. cbn in V1, V2. unfold satF. destruct (mate (r, c1, f1)) as [[[q c'] f']|] eqn:Em.
          -- destruct (Nat.eqb_spec q r) as [->|Hq].
             ++ rewrite mem2_app. f_equal. unfold mem2; cbn [existsb]. rewrite orb_false_r. unfold eq2; cbn [fst snd].
                apply eq_true_iff_eq. rewrite memE_In, localEdges_In. rewrite andb_true_iff, !Nat.eqb_eq. split.
                ** intros (f & Hf & Hg & c2 & f2 & Hm & E). injection E as -> -> ->. apply (so_sym _ _ _ _ OK) in Hm.
                   assert (E : (r, c', f') = (r, c, f)) by congruence. injection E as -> ->. auto.
                ** intros (-> & ->). apply (so_sym _ _ _ _ OK) in Em. exists f'. pose proof (mrange _ _ _ _ _ _ Em) as ((_ & _ & Hf') & _). repeat split; auto.
                   2: exists c1, f1; auto.
                   rewrite (Hgn _ _ _ _ _ _ _ Em); auto.
             ++ replace (memE (c1, f1, a1) (localEdges r c a)) with false; [now rewrite orb_false_r|]. symmetry. apply not_true_iff_false. rewrite memE_In, localEdges_In. intros (f & Hf & Hg & c2 & f2 & Hm & E).
                injection E as -> -> ->. apply (so_sym _ _ _ _ OK) in Hm. congruence.
          -- cbn [orb]. apply not_true_iff_false. rewrite memE_In, localEdges_In. intros (f & Hf & Hg & c2 & f2 & Hm & E).
             injection E as -> -> ->. apply (so_sym _ _ _ _ OK) in Hm. congruence.
        * intros e He. apply localEdges_In in He. destruct He as (f & Hf & Hg & c' & f' & Hm & ->).
          pose proof (mrange _ _ _ _ _ _ Hm) as (_ & (_ & Hc' & Hf')). assert (Hn : need r a c' f' = true) by (rewrite <- (Hgn _ _ _ _ _ _ _ Hm); auto).
          assert (Hs : satF r D dr (c', f', a) = false).
          { unfold satF. rewrite (so_sym _ _ _ _ OK _ _ Hm), Nat.eqb_refl. apply not_true_iff_false. rewrite mem2_In. auto. }
          unfold good_edge, vld. cbn [fst snd]. repeat split; auto. intros K. apply in_app_or in K. destruct K as [K|[K|[]]].
          -- pose proof (proj2 (HT2 (c', a) K) f' Hf') as HT3. cbn [fst snd] in HT3. unfold unsat in HT3. rewrite Hn, Hs in HT3. discriminate.
          -- injection K as <-. specialize (Us f' Hf'). cbn [fst snd] in Us. unfold unsat in Us. rewrite Hn, Hs in Us. discriminate.
      + rewrite Ew. apply in_turn_snoc; auto. split; auto.
      + intros u Hu. apply in_app_or in Hu. destruct Hu as [Hu|[<-|[]]]; auto. exists a. auto.
      + split; [exact I1|]. split; [exact I2|]. split; [|split; [exact I4|split; [exact I5|]]].
        * rewrite app_length in I3. cbn in I3. lia.
        * exists ((c, nth a angles 0) :: w2). rewrite I6, <- app_assoc. reflexivity.
  Qed.

  (** ** The exchange *)
  Lemma neighbor_iff r p : r < nRanks -> (In p (neighborProcs nRanks M r) <-> p <> r /\ exists c f c' f', mate (r, c, f) = Some (p, c', f')).
  Proof.
    intros Hr. unfold neighborProcs, isNeighbor. rewrite filter_In, existsb_exists. split.
    - intros (_ & [c f] & Hin & K). apply in_prod_iff in Hin. destruct Hin as [H1 H2]. apply in_seq in H1, H2. cbn [fst snd] in K.
      rewrite (so_cell _ _ _ _ OK), (so_rank _ _ _ _ OK) in K by lia. destruct (mate (r, c, f)) as [[[q c'] f']|] eqn:E; [|easy].
      destruct (Nat.eqb_spec q r); [easy|]. apply Nat.eqb_eq in K. subst q. eauto 8.
    - intros (Hp & c & f & c' & f' & E). destruct (mrange _ _ _ _ _ _ E) as ((_ & Hc & Hf) & (Hq & _)). split; [apply in_seq; lia|].
      exists (c, f). split; [apply in_prod_iff; split; apply in_seq; lia|]. cbn [fst snd].
      rewrite (so_cell _ _ _ _ OK), (so_rank _ _ _ _ OK), E by lia. destruct (Nat.eqb_spec p r); [easy|]. apply Nat.eqb_refl.
  Qed.
  Lemma neighbor_nodup r : NoDup (neighborProcs nRanks M r).
  Proof. apply NoDup_filter, seq_NoDup. Qed.

  (** Edges of rank [r] that the pairs [w] of rank [p] release. *)
  Definition faceEdges (r p : nat) (x : nat * nat) (f : nat) : list edge :=
    if give p (snd x) (fst x) f then match mate (p, fst x, f) with Some (q, c', f') => if (q =? r) && negb (q =? p) then [(c', f', snd x)] else [] | None => [] end else [].
  Definition remoteEdges (r p : nat) (w : list (nat * nat)) : list edge := flat_map (fun x => flat_map (faceEdges r p x) (seq 0 4)) w.
  Lemma remoteEdges_In r p w e : In e (remoteEdges r p w) <->
    exists c f a c' f', In (c, a) w /\ f < 4 /\ give p a c f = true /\ mate (p, c, f) = Some (r, c', f') /\ p <> r /\ e = (c', f', a).
  Proof.
    unfold remoteEdges. rewrite in_flat_map. split.
    - intros ([c a] & Hx & He). apply in_flat_map in He. destruct He as (f & Hf & He). apply in_seq in Hf. unfold faceEdges in He; cbn [fst snd] in He.
      destruct (give p a c f) eqn:Eg; [|easy]. destruct (mate (p, c, f)) as [[[q c'] f']|] eqn:Em; [|easy].
      destruct (Nat.eqb_spec q r) as [->|]; [|easy]. destruct (Nat.eqb_spec r p) as [|Hn]; [easy|]. destruct He as [<-|[]].
      exists c, f, a, c', f'. repeat split; auto; lia.
    - intros (c & f & a & c' & f' & Hx & Hf & Hg & Hm & Hp & ->). exists (c, a). split; auto. apply in_flat_map. exists f. split; [apply in_seq; lia|].
      unfold faceEdges; cbn [fst snd]. rewrite Hg, Hm, Nat.eqb_refl. destruct (Nat.eqb_spec r p); [congruence|]. now left.
  Qed.
  Lemma remoteEdges_nodup r p w : NoDup w -> NoDup (remoteEdges r p w).
  Proof.
    intros Hw. unfold remoteEdges.
    assert (FE : forall x f e, In e (faceEdges r p x f) -> exists c' f', mate (p, fst x, f) = Some (r, c', f') /\ e = (c', f', snd x)).
    { intros x f e H. unfold faceEdges in H. destruct (give p (snd x) (fst x) f); [|easy]. destruct (mate (p, fst x, f)) as [[[q c'] f']|] eqn:E; [|easy].
      destruct (Nat.eqb_spec q r) as [->|]; [|easy]. destruct (r =? p); [easy|]. destruct H as [<-|[]]. eauto. }
    apply flat_map_nodup; auto.
    - intros x _. apply flat_map_nodup; [apply seq_NoDup| |].
      + intros f _. unfold faceEdges. destruct (give p (snd x) (fst x) f); [|constructor]. destruct (mate (p, fst x, f)) as [[[q c'] f']|]; [|constructor].
        destruct ((q =? r) && negb (q =? p)); repeat constructor. easy.
      + intros f g e _ _ Hf Hg. apply FE in Hf, Hg. destruct Hf as (c1 & f1 & E1 & ->), Hg as (c2 & f2 & E2 & E). injection E as -> ->.
        assert (K : (p, fst x, f) = (p, fst x, g)) by (eapply minj; eauto). congruence.
    - intros x y e _ _ Hx Hy. apply in_flat_map in Hx, Hy. destruct Hx as (f & _ & Hf), Hy as (g & _ & Hg). apply FE in Hf, Hg.
      destruct Hf as (c1 & f1 & E1 & ->), Hg as (c2 & f2 & E2 & E). injection E as -> -> E.
      assert (K : (p, fst x, f) = (p, fst y, g)) by (eapply minj; eauto). injection K as K _. destruct x, y; cbn in *; congruence.
  Qed.

  Section Exchange.
    Context {X D : Type}.
    Variables (payload : nat -> X -> nat -> nat -> D) (accept : nat -> X -> nat -> nat -> D -> X).
    (** What arrives for one edge. *)
    Definition edgeMsg (r p : nat) (x : X) (e : edge) : nat * nat * D :=
      let '(c, f, a) := e in (rm_side (M r) c f, a, match mate (r, c, f) with Some (_, c', _) => payload p x a c' | None => payload p x a 0 end).
    Definition acceptEdges (r p : nat) (xp : X) (E : list edge) (x : X) : X :=
      fold_left (fun x e => let '(side, a, d) := edgeMsg r p xp e in accept r x a side d) E x.
    Lemma recv_edges r p xp w : forall s x, r < nRanks -> p < nRanks -> p <> r -> (forall u, In u w -> vld p (fst u, glAngle angles (snd u))) ->
      fold_left (recvOne M accept r) (outMsg M angles give payload p xp w r) (Some (s, x)) =
      Some (fold_left (fun s e => srelease s (fst (eca e)) (snd (eca e))) (remoteEdges r p (wvld p w)) s, acceptEdges r p xp (remoteEdges r p (wvld p w)) x).
    Proof.
      intros s x Hr Hp Hpr. revert s x. unfold outMsg, remoteEdges, wvld, acceptEdges. induction w as [|u w IH]; intros s x Hw; cbn [flat_map map fold_left]; auto.
      rewrite !fold_left_app. pose proof (Hw u (or_introl eq_refl)) as [Hc Ha]. cbn [fst snd] in Hc, Ha.
      set (c := fst u) in *. set (a := glAngle angles (snd u)) in *.
      assert (K : forall fs s x, (forall f, In f fs -> f < 4) ->
        fold_left (recvOne M accept r) (flat_map (sideMsg M angles give payload p xp r u) fs) (Some (s, x)) =
        Some (fold_left (fun s e => srelease s (fst (eca e)) (snd (eca e))) (flat_map (faceEdges r p (c, a)) fs) s,
              fold_left (fun x e => let '(side, a, d) := edgeMsg r p xp e in accept r x a side d) (flat_map (faceEdges r p (c, a)) fs) x)).
      { clear IH s x. induction fs as [|f fs IH]; intros s x Hfs; cbn [flat_map fold_left]; auto. rewrite !fold_left_app.
        assert (Hf : f < 4) by (apply Hfs; now left).
        unfold sideMsg at 2. fold c a. unfold faceEdges at 2 4. cbn [fst snd].
        destruct (give p a c f) eqn:Eg; [|cbn [fold_left]; apply IH; intros; apply Hfs; now right].
        rewrite (so_cell _ _ _ _ OK), (so_rank _ _ _ _ OK) by auto. destruct (mate (p, c, f)) as [[[q c'] f']|] eqn:Em; [|cbn [fold_left]; apply IH; intros; apply Hfs; now right].
        destruct (Nat.eqb_spec q p) as [->|Hqp].
        { rewrite andb_false_r. cbn [fold_left]. apply IH; intros; apply Hfs; now right. }
        rewrite andb_true_r. destruct (Nat.eqb_spec q r) as [->|Hqr]; [|cbn [fold_left]; apply IH; intros; apply Hfs; now right].
        cbn [fold_left]. unfold recvOne at 2. cbn [obind]. destruct (so_side _ _ _ _ OK _ _ _ _ _ _ Em Hqp) as [E1 E2]. rewrite E1. cbn [obind]. rewrite E2.
        rewrite IH by (intros; apply Hfs; now right). cbn [eca fst snd edgeMsg]. rewrite (so_sym _ _ _ _ OK _ _ Em). reflexivity. }
      rewrite K by (intros f Hf; apply in_seq in Hf; lia). apply IH. intros; apply Hw; now right.
    Qed.
    (** All messages to [r]. *)
    Definition allEdges (r : nat) (w : nat -> list (nat * nat)) : list edge := flat_map (fun p => remoteEdges r p (wvld p (w p))) (neighborProcs nRanks M r).
    Definition acceptAll (r : nat) (xs : nat -> X) (w : nat -> list (nat * nat)) (x : X) : X :=
      fold_left (fun x p => acceptEdges r p (xs p) (remoteEdges r p (wvld p (w p))) x) (neighborProcs nRanks M r) x.
    Lemma recvAll_edges r xs w s x : r < nRanks -> (forall p u, p < nRanks -> In u (w p) -> vld p (fst u, glAngle angles (snd u))) ->
      recvAll nRanks M accept r (fun p => outMsg M angles give payload p (xs p) (w p) r) (s, x) =
      Some (fold_left (fun s e => srelease s (fst (eca e)) (snd (eca e))) (allEdges r w) s, acceptAll r xs w x).
    Proof.
      intros Hr Hw. unfold recvAll, allEdges, acceptAll.
      assert (Hps : forall p, In p (neighborProcs nRanks M r) -> p < nRanks /\ p <> r).
      { intros p Hp. apply neighbor_iff in Hp; auto. destruct Hp as (K & c & f & c' & f' & E). split; auto. apply (mrange _ _ _ _ _ _ E). }
      revert s x Hps. generalize (neighborProcs nRanks M r) as ps. induction ps as [|p ps IH]; intros s x Hps; cbn [flat_map fold_left]; auto.
      rewrite !fold_left_app. destruct (Hps p (or_introl eq_refl)) as [H1 H2]. rewrite recv_edges; auto. apply IH. intros; apply Hps; now right.
    Qed.
    Lemma allEdges_In r w e : r < nRanks -> (In e (allEdges r w) <-> exists p c f a c' f', In (c, a) (wvld p (w p)) /\ f < 4 /\ give p a c f = true /\ mate (p, c, f) = Some (r, c', f') /\ p <> r /\ e = (c', f', a)).
    Proof.
      intros Hr. unfold allEdges. rewrite in_flat_map. split.
      - intros (p & Hp & He). apply remoteEdges_In in He. destruct He as (c & f & a & c' & f' & H). exists p, c, f, a, c', f'. exact H.
      - intros (p & c & f & a & c' & f' & H1 & H2 & H3 & H4 & H5 & H6). exists p. split.
        + apply neighbor_iff; auto. split; auto. exists c', f', c, f. now apply (so_sym _ _ _ _ OK).
        + apply remoteEdges_In. exists c, f, a, c', f'. auto 10.
    Qed.
    Lemma allEdges_nodup r w : r < nRanks -> (forall p, p < nRanks -> NoDup (wvld p (w p))) -> NoDup (allEdges r w).
    Proof.
      intros Hr Hw. apply flat_map_nodup.
      - apply neighbor_nodup.
      - intros p Hp. apply remoteEdges_nodup, Hw. apply neighbor_iff in Hp; auto. destruct Hp as (K & c & f & c' & f' & E). apply (mrange _ _ _ _ _ _ E).
      - intros p q e _ _ H1 H2. apply remoteEdges_In in H1, H2. destruct H1 as (c & f & a & c' & f' & _ & _ & _ & E1 & _ & ->).
        destruct H2 as (d & g & b & d' & g' & _ & _ & _ & E2 & _ & E). injection E as -> -> ->.
        assert (K : (p, c, f) = (q, d, g)) by (eapply minj; eauto). congruence.
    Qed.

    (** ** Rounds *)
    Variables (prio : nat -> nat -> nat -> N) (mx : N) (after : nat -> X -> list (nat * nat) -> X).
    Notation sround := (sround nRanks M angles give prio mx after payload accept).
    Notation srun := (srun nRanks M angles give prio mx after payload accept).
    Definition wv (w : nat -> list (nat * nat)) (r : nat) : list (nat * nat) := wvld r (w r).
    Record GI (S : nat -> srank (X:=X)) (dn : nat -> list (nat * nat)) : Prop := {
      gi_li : forall r, r < nRanks -> LI r (satF r (dn r) dn) (dn r) (s_nd (S r), s_q (S r));
      gi_closed : forall r, r < nRanks -> closed r (dn r) dn (dn r);
      gi_nodup : forall r, r < nRanks -> NoDup (dn r)
    }.
    Lemma in_turn_nodup r dl dr w : NoDup dl -> in_turn r dl dr w -> NoDup (dl ++ w).
    Proof.
      intros Hd. induction w as [|x w IH] using rev_ind; intros HT; [now rewrite app_nil_r|].
      rewrite app_assoc. destruct (HT w x [] eq_refl) as (_ & Hn & _).
      apply (Permutation_NoDup (Permutation_cons_append (dl ++ w) x)). constructor; auto. apply IH.
      intros w1 y w2 E. apply (HT w1 y (w2 ++ [x])). now rewrite E, <- app_assoc.
    Qed.
    (** What one iteration guarantees. *)
    Definition round_ok (dn : nat -> list (nat * nat)) (w : nat -> list (nat * nat)) : Prop :=
      forall r, r < nRanks -> in_turn r (dn r) dn (wv w r) /\ (N.of_nat (length (w r)) <= limit mx)%N /\
        forall u, In u (w r) -> exists a, a < nAng /\ snd u = nth a angles 0.
    Lemma topo_phase S dn r s' w : GI S dn -> r < nRanks -> topo M angles give prio mx r (s_nd (S r), s_q (S r)) [] s' w ->
      LI r (satF r (dn r ++ wvld r w) dn) (dn r ++ wvld r w) s' /\ in_turn r (dn r) dn (wvld r w) /\ (N.of_nat (length w) <= limit mx)%N /\
      (snd s' = [] \/ (limit mx <= N.of_nat (length w))%N) /\ forall u, In u w -> exists a, a < nAng /\ snd u = nth a angles 0.
    Proof.
      intros [A B C] Hr Ht. destruct (topo_ok prio mx r (dn r) dn _ _ _ _ Hr Ht) as (K1 & K2 & K3 & K4 & K5 & _); auto.
      - cbn. rewrite app_nil_r. auto.
      - intros w1 x w2 E. cbn in E. destruct w1; discriminate.
      - intros u [].
      - cbn [length] in K3. split; [exact K1|]. split; [exact K2|]. split; [lia|]. auto.
    Qed.
    Lemma in_turn_vld r dl dr w : in_turn r dl dr w -> forall x, In x w -> vld r x.
    Proof. intros H x Hx. apply in_split in Hx. destruct Hx as (w1 & w2 & ->). apply (H w1 x w2 eq_refl). Qed.
    Lemma recv_phase S dn w mid r x : GI S dn -> r < nRanks -> (forall p, p < nRanks -> topo M angles give prio mx p (s_nd (S p), s_q (S p)) [] (mid p) (w p)) ->
      forall xs, recvAll nRanks M accept r (fun p => outMsg M angles give payload p (xs p) (w p) r) (mid r, x) =
        Some (fold_left (fun s e => srelease s (fst (eca e)) (snd (eca e))) (allEdges r w) (mid r), acceptAll r xs w x).
    Proof.
      intros G Hr Ht xs. apply recvAll_edges; auto. intros p u Hp Hu. destruct (topo_phase S dn p _ _ G Hp (Ht p Hp)) as (_ & T & _).
      apply (in_turn_vld _ _ _ _ T). unfold wvld. apply in_map_iff. eauto.
    Qed.
    Lemma round_inv S S' w dn : GI S dn -> sround S S' w -> GI S' (fun r => dn r ++ wv w r) /\ round_ok dn w.
    Proof.
      intros G (Nd & mid & Ht & Hrv). pose proof G as [A B C].
      assert (T : forall r, r < nRanks -> _) by (intros r Hr; exact (topo_phase S dn r _ _ G Hr (Ht r Hr))).
      split; [|intros r Hr; destruct (T r Hr) as (_ & T2 & T3 & _ & T5); auto].
      assert (RP : forall r, r < nRanks -> (s_nd (S' r), s_q (S' r)) = fold_left (fun s e => srelease s (fst (eca e)) (snd (eca e))) (allEdges r w) (mid r)).
      { intros r Hr. specialize (Hrv r Hr). rewrite (recv_phase S dn w mid r _ G Hr Ht (fun p => after p (s_x (S p)) (w p))) in Hrv. congruence. }
      constructor.
      - intros r Hr. rewrite (RP r Hr). destruct (T r Hr) as (T1 & T2 & _). unfold wv. eapply LI_ext; [|apply release_edges; [exact T1| |]].
        + intros c f a [V1 V2] Hf Hn. cbn [fst snd] in V1, V2. unfold satF. destruct (mate (r, c, f)) as [[[q c'] f']|] eqn:Em.
          * destruct (Nat.eqb_spec q r) as [->|Hq].
            -- replace (memE (c, f, a) (allEdges r w)) with false; [now rewrite orb_false_r|]. symmetry. apply not_true_iff_false. rewrite memE_In, allEdges_In by auto.
               intros (p & d & g & b & d' & g' & _ & _ & _ & E & Hp & K). injection K as -> -> ->. apply (so_sym _ _ _ _ OK) in E. congruence.
            -- fold (wv w q). unfold wv. rewrite mem2_app. f_equal. apply eq_true_iff_eq. rewrite memE_In, mem2_In, allEdges_In by auto. split.
               ++ intros (p & d & g & b & d' & g' & Hin & _ & _ & E & Hp & K). injection K as -> -> ->. apply (so_sym _ _ _ _ OK) in E. assert (K : (q, c', f') = (p, d, g)) by congruence. injection K as -> -> ->. auto.
               ++ intros Hin. pose proof (so_sym _ _ _ _ OK _ _ Em) as Em'. destruct (mrange _ _ _ _ _ _ Em') as ((_ & _ & Hf') & _). exists q, c', f', a, c, f. repeat split; auto. rewrite (Hgn _ _ _ _ _ _ _ Em'); auto.
          * cbn [orb]. apply not_true_iff_false. rewrite memE_In, allEdges_In by auto. intros (p & d & g & b & d' & g' & _ & _ & _ & E & Hp & K). injection K as -> -> ->. apply (so_sym _ _ _ _ OK) in E. congruence.
        + apply allEdges_nodup; auto. intros p Hp. destruct (T p Hp) as (_ & T2' & _). pose proof (in_turn_nodup _ _ _ _ (C p Hp) T2') as K. apply nodup_app_r in K. exact K.
        + intros e He. apply allEdges_In in He; auto. destruct He as (p & c & f & a & c' & f' & Hin & Hf & Hg & Em & Hp & ->).
          destruct (mrange _ _ _ _ _ _ Em) as ((Hp' & Hc & _) & (_ & Hc' & Hf')). destruct (T p Hp') as (_ & Tp & _).
          pose proof (in_turn_vld _ _ _ _ Tp _ Hin) as [_ Ha]. cbn in Ha.
          assert (Hn : need r a c' f' = true) by (rewrite <- (Hgn _ _ _ _ _ _ _ Em); auto).
          assert (Hs : forall dl, satF r dl dn (c', f', a) = false).
          { intros dl. unfold satF. rewrite (so_sym _ _ _ _ OK _ _ Em). destruct (Nat.eqb_spec p r); [congruence|]. apply not_true_iff_false. rewrite mem2_In.
            intros K. apply in_split in Hin. destruct Hin as (w1 & w2 & E). destruct (Tp w1 _ w2 E) as (_ & N1 & _). apply N1. apply in_or_app; auto. }
          unfold good_edge, vld. cbn [fst snd]. repeat split; auto. intros K.
          pose proof (in_turn_closed _ _ _ _ T2 (B r Hr)) as Cl. destruct (Cl _ K) as [_ U]. specialize (U f' Hf'). cbn [fst snd] in U. unfold unsat in U. rewrite Hn, Hs in U. discriminate.
      - intros r Hr. destruct (T r Hr) as (_ & T2 & _). eapply closed_mono; [| |exact (in_turn_closed _ _ _ _ T2 (B r Hr))]; auto. intros q x Hx. apply in_or_app; auto.
      - intros r Hr. destruct (T r Hr) as (_ & T2 & _). apply (in_turn_nodup _ _ _ _ (C r Hr) T2).
    Qed.
    (** A state with work left has a next one. *)
    Lemma topo_total r : (0 < limit mx)%N -> forall k s w, N.to_nat (limit mx) - length w <= k -> exists s' w', topo M angles give prio mx r s w s' w'.
    Proof.
      intros Hl. induction k; intros s w Hk.
      - exists s, w. constructor. right. lia.
      - destruct s as [nd q]. destruct q as [|x q]; [exists (nd, []), w; constructor; now left|].
        destruct (N.ltb_spec (N.of_nat (length w)) (limit mx)) as [H|H]; [|exists (nd, x :: q), w; constructor; now right].
        assert (MX : forall l, l <> [] -> exists y, In y l /\ forall z, In z l -> (prio r (snd z) (fst z) <= prio r (snd y) (fst y))%N).
        { induction l as [|y l IHl]; intros Hne; [easy|]. destruct l as [|y' l].
          - exists y. split; [now left|]. intros z [->|[]]. lia.
          - destruct IHl as (m & Hm & Hmx); [easy|]. destruct (N.leb_spec (prio r (snd y) (fst y)) (prio r (snd m) (fst m))).
            + exists m. split; [now right|]. intros z [->|Hz]; auto.
            + exists y. split; [now left|]. intros z [->|Hz]; [lia|]. specialize (Hmx z Hz). lia. }
        destruct (MX (x :: q)) as ([c a] & Hin & Hmx); [easy|]. apply in_split in Hin. destruct Hin as (q1 & q2 & E). rewrite E in *.
        destruct (IHk (fold_left (topoChild M give r c a) (seq 0 4) (nd, q1 ++ q2)) (w ++ [(c, nth a angles 0)])) as (s' & w' & Ht).
        { rewrite app_length. cbn. lia. }
        exists s', w'. constructor; auto. intros c' a' Hc. apply (Hmx (c', a') Hc).
    Qed.
    Lemma init_GI x0 : GI (initS M angles need x0) (fun _ => []).
    Proof.
      assert (U : forall r c a f, unsat r (satF r [] (fun _ => [])) c a f = need r a c f).
      { intros. unfold unsat, satF. destruct (mate (r, c, f)) as [[[q c'] f']|]; cbn; [destruct (q =? r)|]; now rewrite andb_true_r. }
      assert (E : forall r a c, numDependents need r a c = N.of_nat (length (filter (need r a c) (seq 0 4)))).
      { intros. unfold numDependents. rewrite fold_count. lia. }
      constructor.
      - intros r Hr. constructor; cbn [initS s_nd s_q fst snd].
        + intros x Hx. rewrite E. f_equal. f_equal. apply filter_ext. intros; symmetry; apply U.
        + unfold initializeWorkQ. rewrite fold_cond, app_nil_r. apply NoDup_rev. apply FinFun.Injective_map_NoDup.
          * intros [x1 x2] [y1 y2]; cbn; congruence.
          * apply NoDup_filter, NoDup_list_prod; apply seq_NoDup.
        + intros [c a]. unfold initializeWorkQ. rewrite fold_cond, app_nil_r, <- in_rev, in_map_iff. split.
          * intros ([a' c'] & K & Hin). cbn in K. injection K as <- <-. apply filter_In in Hin. destruct Hin as [Hin Hz]. apply in_prod_iff in Hin.
            destruct Hin as [H1 H2]. apply in_seq in H1, H2. cbn [fst snd] in *. split; [split; cbn [fst snd]; lia|]. split; [easy|]. intros f Hf. rewrite U.
            apply N.eqb_eq in Hz. rewrite E in Hz. apply filter_nil_inv with (l := seq 0 4); [lia|apply in_seq; lia].
          * intros ((V1 & V2) & _ & K). cbn [fst snd] in *. exists (a, c). split; auto. apply filter_In. split; [apply in_prod_iff; split; apply in_seq; lia|]. cbn [fst snd].
            apply N.eqb_eq. rewrite E, filter_nil; auto. intros f Hf. apply in_seq in Hf. rewrite <- (U r c a f). apply K. lia.
      - intros r Hr x [].
      - intros; constructor.
    Qed.
    Definition dnL (L : list (nat -> list (nat * nat))) (r : nat) : list (nat * nat) := concat (map (fun w => wv w r) L).
    Lemma dnL_snoc L w r : dnL (L ++ [w]) r = dnL L r ++ wv w r.
    Proof. unfold dnL. rewrite map_app, concat_app. cbn. now rewrite app_nil_r. Qed.
    Lemma GI_ext S dn dn' : (forall r, dn r = dn' r) -> GI S dn -> GI S dn'.
    Proof.
      intros E [A B C].
      assert (F : forall r e, satF r (dn' r) dn' e = satF r (dn r) dn e).
      { intros r [[c f] a]. unfold satF. destruct (mate (r, c, f)) as [[[q c'] f']|]; auto. now rewrite !E. }
      constructor.
      - intros r Hr. rewrite <- E. eapply LI_ext; [|apply A; auto]. intros. rewrite <- F. now rewrite E.
      - intros r Hr. rewrite <- E. intros x Hx. destruct (B r Hr x Hx) as [V U]. split; auto. intros f Hf. unfold unsat in *. rewrite E. rewrite F. auto.
      - intros r Hr. rewrite <- E. auto.
    Qed.
    Lemma run_GI x0 L S : srun (initS M angles need x0) L S -> GI S (dnL L) /\ forall L1 w L2, L = L1 ++ w :: L2 -> round_ok (dnL L1) w.
    Proof.
      induction 1 as [|L S1 w S2 Hr [IH1 IH2] Hs].
      - split; [apply init_GI|]. intros L1 w L2 E. destruct L1; discriminate.
      - destruct (round_inv _ _ _ _ IH1 Hs) as [G R]. split.
        + eapply GI_ext; [|exact G]. intros r. now rewrite dnL_snoc.
        + intros L1 w' L2 E. destruct L2 as [|z L2] using rev_ind.
          * apply app_inj_tail in E. destruct E as [-> ->]. auto.
          * clear IHL2. change (w' :: L2 ++ [z]) with ((w' :: L2) ++ [z]) in E. rewrite app_assoc in E. apply app_inj_tail in E. destruct E as [-> ->]. eapply IH2; eauto.
    Qed.
    Definition acyc : Prop := exists lvl : nat -> nat -> nat -> nat, forall r c f a q c' f',
      a < nAng -> need r a c f = true -> mate (r, c, f) = Some (q, c', f') -> lvl q c' a < lvl r c a.
    Lemma done_all S dn : acyc -> GI S dn -> allDone nRanks S -> forall r x, r < nRanks -> vld r x -> In x (dn r).
    Proof.
      intros [lvl Hl] [A B C] HD.
      assert (K : forall n r c a, lvl r c a < n -> r < nRanks -> vld r (c, a) -> In (c, a) (dn r)).
      { induction n; intros r c a Hn Hr V; [lia|]. destruct (mem2 (c, a) (dn r)) eqn:Em; [now apply mem2_In|].
        assert (Nin : ~ In (c, a) (dn r)) by (rewrite <- mem2_In; congruence).
        destruct (A r Hr) as [_ _ Q]. cbn [fst snd] in Q. specialize (Q (c, a)). rewrite (HD r Hr) in Q. exfalso. apply Q. split; auto. split; auto.
        intros f Hf. cbn [fst snd]. unfold unsat. destruct (need r a c f) eqn:En; auto. cbn. apply negb_false_iff. unfold satF.
        destruct V as [V1 V2]; cbn in V1, V2. destruct (adjRank_mate r c f Hr V1 Hf) as (q & c' & f' & E); [eapply Hneed; eauto|]. rewrite E.
        destruct (mrange _ _ _ _ _ _ E) as (_ & (Hq & Hc' & _)).
        assert (In (c', a) (dn q)). { apply IHn; auto. - pose proof (Hl _ _ _ _ _ _ _ V2 En E). lia. - split; auto. }
        destruct (Nat.eqb_spec q r) as [->|]; apply mem2_In; auto. }
      intros r [c a] Hr V. eapply K; eauto.
    Qed.
    Definition total : nat := sumr nRanks (fun r => rm_nCells (M r) * nAng).
    Lemma dn_bound S dn r : GI S dn -> r < nRanks -> length (dn r) <= rm_nCells (M r) * nAng.
    Proof.
      intros [A B C] Hr. rewrite <- (seq_length (rm_nCells (M r)) 0), <- (seq_length nAng 0), <- prod_length. apply NoDup_incl_length; auto.
      intros [c a] Hx. destruct (B r Hr _ Hx) as [[V1 V2] _]. cbn in *. apply in_prod_iff. split; apply in_seq; lia.
    Qed.
    Lemma round_grows S S' w : (0 < limit mx)%N -> sround S S' w -> exists r, r < nRanks /\ 0 < length (w r).
    Proof.
      intros Hl (Nd & mid & Ht & _).
      destruct (existsb (fun r => nonempty (s_q (S r))) (seq 0 nRanks)) eqn:E.
      - apply existsb_exists in E. destruct E as (r & Hr & Hq). apply in_seq in Hr. exists r. split; [lia|]. specialize (Ht r ltac:(lia)).
        destruct (s_q (S r)) as [|x q] eqn:Eq; [easy|]. inversion Ht as [s0 w0 Hst E1 E2|nd q1 q2 c a w0 s' w' Hlt Hmx Hrec]; subst.
        + destruct Hst as [Hst|Hst]; [easy|]. cbn in Hst. lia.
        + assert (K : forall s0 w0 s1 w1, topo M angles give prio mx r s0 w0 s1 w1 -> length w0 <= length w1).
          { induction 1; auto. rewrite app_length in IHtopo. cbn in IHtopo. lia. }
          apply K in Hrec. cbn in Hrec. lia.
      - exfalso. apply Nd. intros r Hr. assert (K : nonempty (s_q (S r)) = false). { rewrite <- not_true_iff_false in E. apply not_true_iff_false. intros K. apply E. apply existsb_exists. exists r. split; auto. apply in_seq; lia. }
        destruct (s_q (S r)); easy.
    Qed.
    Lemma run_short x0 L S : (0 < limit mx)%N -> srun (initS M angles need x0) L S -> length L <= total.
    Proof.
      intros Hl H. assert (K : length L <= sumr nRanks (fun r => length (dnL L r))).
      { induction H as [|L S1 w S2 Hr IH Hs]; [cbn; lia|]. rewrite app_length. cbn [length]. destruct (round_grows _ _ _ Hl Hs) as (r & Hr' & Hw).
        assert (E : sumr nRanks (fun r => length (dnL (L ++ [w]) r)) = sumr nRanks (fun r => length (dnL L r) + length (w r))).
        { unfold sumr. f_equal. apply map_ext. intros. rewrite dnL_snoc, app_length. unfold wv, wvld. now rewrite map_length. }
        rewrite E, sumr_add. pose proof (sumr_pos nRanks (fun r => length (w r)) r Hr' Hw). lia. }
      etransitivity; [exact K|]. apply sumr_le. intros r Hr. eapply dn_bound; eauto. eapply run_GI; eauto.
    Qed.
    Lemma dec_done (S : nat -> srank (X:=X)) : {allDone nRanks S} + {~ allDone nRanks S}.
    Proof.
      destruct (forallb (fun r => negb (nonempty (s_q (S r)))) (seq 0 nRanks)) eqn:E.
      - left. intros r Hr. rewrite forallb_forall in E. specialize (E r). rewrite in_seq in E. specialize (E ltac:(lia)). destruct (s_q (S r)); easy.
      - right. intros K. rewrite <- not_true_iff_false in E. apply E. apply forallb_forall. intros r Hr. apply in_seq in Hr. rewrite K by lia. reflexivity.
    Qed.
    Lemma choice_lt {B} (b0 : B) (P : nat -> B -> Prop) : forall n, (forall r, r < n -> exists b, P r b) -> exists f, forall r, r < n -> P r (f r).
    Proof.
      induction n; intros H; [exists (fun _ => b0); lia|]. destruct IHn as [f Hf]; [intros; apply H; lia|]. destruct (H n) as [b Hb]; [lia|].
      exists (fupd f n b). intros r Hr. destruct (Nat.eq_dec r n) as [->|Hne]; [now rewrite fupd_same|]. rewrite fupd_other by auto. apply Hf; lia.
    Qed.
    Lemma round_exists S dn : (0 < limit mx)%N -> GI S dn -> ~ allDone nRanks S -> exists S' w, sround S S' w.
    Proof.
      intros Hl G Nd.
      destruct (choice_lt ((fun _ _ => 0%N, []) : (nat -> nat -> N) * list (nat * nat), ([] : list (nat * nat))) (fun r sw => topo M angles give prio mx r (s_nd (S r), s_q (S r)) [] (fst sw) (snd sw)) nRanks) as [f Hf].
      { intros r Hr. destruct (topo_total r Hl _ (s_nd (S r), s_q (S r)) [] (le_n _)) as (s' & w' & Ht). exists (s', w'). auto. }
      set (w := fun r => snd (f r)). set (mid := fun r => fst (f r)). set (xs := fun p => after p (s_x (S p)) (w p)).
      exists (fun r => let s := fold_left (fun s e => srelease s (fst (eca e)) (snd (eca e))) (allEdges r w) (mid r) in mkSrank (fst s) (snd s) (acceptAll r xs w (xs r))), w.
      split; auto. exists mid. split; [exact Hf|]. intros r Hr. rewrite (recv_phase S dn w mid r _ G Hr Hf xs). cbn. now destruct (fold_left _ _ _).
    Qed.
    Lemma run_complete x0 : (0 < limit mx)%N -> exists L S, srun (initS M angles need x0) L S /\ allDone nRanks S.
    Proof.
      intros Hl. assert (K : forall k L S, total - length L <= k -> srun (initS M angles need x0) L S -> exists L S, srun (initS M angles need x0) L S /\ allDone nRanks S).
      { induction k; intros L S Hk Hr.
        - destruct (dec_done S) as [d|d]; [eauto|]. destruct (round_exists S (dnL L) Hl) as (S' & w & Hs); [eapply run_GI; eauto|auto|].
          pose proof (run_short x0 (L ++ [w]) S' Hl ltac:(econstructor; eauto)) as B. rewrite app_length in B. cbn in B. lia.
        - destruct (dec_done S) as [d|d]; [eauto|]. destruct (round_exists S (dnL L) Hl) as (S' & w & Hs); [eapply run_GI; eauto|auto|].
          apply (IHk (L ++ [w]) S'); [|econstructor; eauto]. rewrite app_length. cbn. lia. }
      apply (K total [] (initS M angles need x0)); [lia|constructor].
    Qed.
    (** With a zero limit nothing is ever listed. *)
    Lemma run_stuck x0 L S : limit mx = 0%N -> srun (initS M angles need x0) L S ->
      (forall w r, In w L -> r < nRanks -> w r = []) /\ forall r, r < nRanks -> s_q (S r) = initializeWorkQ M angles need r.
    Proof.
      intros Hl H. induction H as [|L S1 w S2 Hr [IH1 IH2] Hs]; [split; [easy|reflexivity]|].
      destruct (run_GI _ _ _ Hr) as [G _]. pose proof Hs as (Nd & mid & Ht & Hrv).
      assert (W : forall r, r < nRanks -> w r = [] /\ mid r = (s_nd (S1 r), s_q (S1 r))).
      { intros r Hr'. specialize (Ht r Hr'). inversion Ht as [s0 w0 Hst E1 E2|nd q1 q2 c a w0 s' w' Hlt Hmx Hrec]; subst; auto. rewrite Hl in Hlt. lia. }
      split.
      - intros w' r Hw Hr'. apply in_app_or in Hw. destruct Hw as [Hw|[<-|[]]]; [auto|]. apply W; auto.
      - intros r Hr'. specialize (Hrv r Hr'). rewrite (recv_phase S1 _ w mid r _ G Hr' Ht (fun p => after p (s_x (S1 p)) (w p))) in Hrv.
        assert (E : allEdges r w = []).
        { unfold allEdges. apply flat_map_nil. intros p Hp. apply neighbor_iff in Hp; auto. destruct Hp as (_ & c & f & c' & f' & E). destruct (mrange _ _ _ _ _ _ E) as (_ & (Hp & _)).
          unfold wvld. now rewrite (proj1 (W p Hp)). }
        rewrite E in Hrv. cbn in Hrv. rewrite (proj2 (W r Hr')) in Hrv. rewrite <- IH2 by auto. congruence.
    Qed.
  End Exchange.
End P.
