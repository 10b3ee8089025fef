From Coq Require Import Permutation.
From Verif Require Import Prelude Bytes MeshModel MeshSpec CreateSpec TychoModel TychoSpec.
Local Open Scope N_scope.

Lemma foldM_inv {A S} (f : S -> A -> option S) (I : list A -> S -> Prop) l s0 :
  I [] s0 ->
  (forall pre a suf s, l = pre ++ a :: suf -> I pre s -> exists s', f s a = Some s' /\ I (pre ++ [a]) s') ->
  exists s, foldM f l s0 = Some s /\ I l s.
Proof.
  intros H0 Hs.
  enough (G : forall suf pre s, l = pre ++ suf -> I pre s -> exists s', foldM f suf s = Some s' /\ I l s')
    by (apply (G l [] s0); auto).
  induction suf as [|a suf IH]; intros pre s E Ip.
  - rewrite app_nil_r in E. subst. exists s. auto.
  - destruct (Hs pre a suf s E Ip) as (s' & Es & Is). cbn [foldM]. rewrite Es. cbn [obind].
    apply (IH (pre ++ [a])); auto. rewrite <- app_assoc. exact E.
Qed.

Lemma in_loop2 n m c i : In (c, i) (loop2 n m) <-> (c < n /\ i < m)%nat.
Proof. unfold loop2. rewrite in_prod_iff, !in_seq. lia. Qed.
Lemma NoDup_app_intro' {A} (l m : list A) : NoDup l -> NoDup m -> (forall x, In x l -> ~ In x m) -> NoDup (l ++ m).
Proof.
  intros Hl Hm D. induction Hl as [|a l Ha Hl IH]; cbn; auto. constructor.
  - rewrite in_app_iff. intros [H|H]; auto. apply (D a); auto. now left.
  - apply IH. intros x Hx. apply D. now right.
Qed.
Lemma NoDup_list_prod {A B} (l : list A) (m : list B) : NoDup l -> NoDup m -> NoDup (list_prod l m).
Proof.
  intros Hl Hm. induction Hl as [|a l Ha Hl IH]; cbn; [constructor|].
  apply NoDup_app_intro'; auto.
  - apply FinFun.Injective_map_NoDup; auto. intros x y E; congruence.
  - intros [x y] Hx Hx'. apply in_map_iff in Hx. destruct Hx as (z & E & _). injection E as <- <-.
    apply in_prod_iff in Hx'. tauto.
Qed.
Lemma NoDup_loop2 n m : NoDup (loop2 n m).
Proof. apply NoDup_list_prod; apply seq_NoDup. Qed.
Lemma NoDup_split {A} (l pre suf : list A) a : NoDup l -> l = pre ++ a :: suf -> ~ In a pre.
Proof. intros H ->. apply NoDup_remove_2 in H. rewrite in_app_iff in H. tauto. Qed.

(** ** The vertex missing from a face *)
Lemma lface_spec (cn : q4 N) (fn : q3 N) : NoDup (q4l cn) -> NoDup (q3l fn) -> incl (q3l fn) (q4l cn) ->
  exists lf, getLFaceIndex cn fn = Some lf /\ (lf < 4)%nat /\
    forall v n, nth_error (q4l cn) v = Some n -> (In n (q3l fn) <-> v <> lf).
Proof.
  destruct cn as [a b c d], fn as [x y z]. cbn [q4l q3l r0 r1 r2 r3 t0 t1 t2]. intros Hc Hf Hi.
  assert (D : a <> b /\ a <> c /\ a <> d /\ b <> c /\ b <> d /\ c <> d).
  { inversion_clear Hc as [|? ? H1 H']. inversion_clear H' as [|? ? H2 H'']. inversion_clear H'' as [|? ? H3 H4].
    cbn in *. repeat split; intros ->; tauto. }
  assert (E : x <> y /\ x <> z /\ y <> z).
  { inversion_clear Hf as [|? ? H1 H']. inversion_clear H' as [|? ? H2 H'']. cbn in *. repeat split; intros ->; tauto. }
  pose proof (Hi x ltac:(cbn; auto)) as Ix. pose proof (Hi y ltac:(cbn; auto)) as Iy. pose proof (Hi z ltac:(cbn; auto)) as Iz.
  clear Hi Hc Hf. unfold q4l in Ix, Iy, Iz. cbn [In r0 r1 r2 r3] in Ix, Iy, Iz.
  destruct D as (D1 & D2 & D3 & D4 & D5 & D6).
  pose proof (proj2 (N.eqb_neq _ _) D1) as B1. pose proof (proj2 (N.eqb_neq _ _) D2) as B2. pose proof (proj2 (N.eqb_neq _ _) D3) as B3.
  pose proof (proj2 (N.eqb_neq _ _) D4) as B4. pose proof (proj2 (N.eqb_neq _ _) D5) as B5. pose proof (proj2 (N.eqb_neq _ _) D6) as B6.
  pose proof B1 as C1. pose proof B2 as C2. pose proof B3 as C3. pose proof B4 as C4. pose proof B5 as C5. pose proof B6 as C6.
  rewrite N.eqb_sym in C1, C2, C3, C4, C5, C6.
  unfold getLFaceIndex. cbn [q4l r0 r1 r2 r3 seq find t0 t1 t2 nth].
  destruct E as (E1 & E2 & E3).
  destruct Ix as [<-|[<-|[<-|[<-|[]]]]]; destruct Iy as [<-|[<-|[<-|[<-|[]]]]]; try (exfalso; now (apply E1 + apply D1));
  destruct Iz as [<-|[<-|[<-|[<-|[]]]]]; try (exfalso; now (apply E2 + apply E3)).
  all: rewrite ?N.eqb_refl, ?B1, ?B2, ?B3, ?B4, ?B5, ?B6, ?C1, ?C2, ?C3, ?C4, ?C5, ?C6; cbn [negb andb].
  all: eexists; split; [reflexivity|]; split; [lia|].
  all: intros v n Hv; destruct v as [|[|[|[|v]]]]; cbn in Hv; [| | | |destruct v; discriminate]; apply Some_inj in Hv; subst n.
  all: split; intros HH; [intros HK; try discriminate HK; unfold q3l in HH; cbn [In t0 t1 t2] in HH; repeat (destruct HH as [HH|HH]; [congruence|]); exact HH
                         | unfold q3l; cbn [In t0 t1 t2]; try (exfalso; apply HH; reflexivity); auto 6].
Qed.

Lemma set2_eq t c f v : set2 t c f v c f = v.
Proof. unfold set2. now rewrite !Nat.eqb_refl. Qed.
Lemma set2_neq t c f v c' f' : (c', f') <> (c, f) -> set2 t c f v c' f' = t c' f'.
Proof.
  unfold set2. destruct (Nat.eqb_spec c' c), (Nat.eqb_spec f' f); cbn; auto. intros H. subst. now contradiction H.
Qed.
Lemma set1_eq t i v : set1 t i v i = v.
Proof. unfold set1. now rewrite Nat.eqb_refl. Qed.
Lemma set1_neq t i v i' : i' <> i -> set1 t i v i' = t i'.
Proof. unfold set1. destruct (Nat.eqb_spec i' i); congruence. Qed.
Lemma set3_eq t c f k v : set3 t c f k v c f k = v.
Proof. unfold set3. now rewrite !Nat.eqb_refl. Qed.
Lemma set3_neq t c f k v c' f' k' : (c', f', k') <> (c, f, k) -> set3 t c f k v c' f' k' = t c' f' k'.
Proof.
  unfold set3. destruct (Nat.eqb_spec c' c), (Nat.eqb_spec f' f), (Nat.eqb_spec k' k); cbn; auto. intros H. subst. now contradiction H.
Qed.

Lemma nthN_nth' {A} (l : list A) i : nthN l i = nth_error l (N.to_nat i).
Proof.
  unfold nthN. destruct (N.ltb_spec i (N.of_nat (length l))); auto. symmetry. apply nth_error_None. lia.
Qed.
Lemma nth_q4 {A} (q : q4 A) i : (i < 4)%nat -> exists a, nth_error (q4l q) i = Some a.
Proof. intros H. destruct i as [|[|[|[|i]]]]; [| | | |lia]; cbn; eauto. Qed.
Lemma nth_q4_lt {A} (q : q4 A) i a : nth_error (q4l q) i = Some a -> (i < 4)%nat.
Proof. intros H. apply (nth_error_Some (q4l q)). congruence. Qed.
Lemma nth_q3_lt {A} (q : q3 A) i a : nth_error (q3l q) i = Some a -> (i < 3)%nat.
Proof. intros H. apply (nth_error_Some (q3l q)). congruence. Qed.
Lemma nth_q3 {A} (q : q3 A) i : (i < 3)%nat -> exists a, nth_error (q3l q) i = Some a.
Proof. intros H. destruct i as [|[|[|i]]]; [| | |lia]; cbn; eauto. Qed.

Section Local.
  Context (P : partition) (rank : N) (W : part_wf P rank).
  Notation nc := (length (pt_cells P)).

  Definition fi (c i : nat) (C : pcell) (f : N) (F : pface) (lf : nat) : Prop :=
    nth_error (pt_cells P) c = Some C /\ nth_error (q4l (pc_faces C)) i = Some f /\ P_face P f = Some F /\
    getLFaceIndex (pc_nodes C) (pf_nodes F) = Some lf /\ opposite P c lf f F.

  Lemma face_lf c C f : nth_error (pt_cells P) c = Some C -> In f (q4l (pc_faces C)) ->
    exists F lf, P_face P f = Some F /\ getLFaceIndex (pc_nodes C) (pf_nodes F) = Some lf /\ opposite P c lf f F.
  Proof.
    intros HC Hf. destruct (pw_face _ _ W c C f HC Hf) as (F & HF & Hn & Hi).
    destruct (pw_cell _ _ W c C HC) as (Hd & _).
    destruct (lface_spec _ _ Hd Hn Hi) as (lf & E & L & S). exists F, lf. split; auto. split; auto.
    exists C. auto.
  Qed.
  Lemma fi_ex c i : (c < nc)%nat -> (i < 4)%nat -> exists C f F lf, fi c i C f F lf.
  Proof.
    intros Hc Hi. destruct (nth_error (pt_cells P) c) as [C|] eqn:HC; [|apply nth_error_None in HC; lia].
    destruct (nth_q4 (pc_faces C) i Hi) as (f & Hf).
    destruct (face_lf c C f HC (nth_error_In _ _ Hf)) as (F & lf & HF & E & O).
    exists C, f, F, lf. repeat split; auto.
  Qed.
  Lemma fi_fun c i C f F lf C' f' F' lf' : fi c i C f F lf -> fi c i C' f' F' lf' -> C = C' /\ f = f' /\ F = F' /\ lf = lf'.
  Proof.
    intros (A & B & D & E & _) (A' & B' & D' & E' & _). assert (C = C') by congruence. subst C'.
    assert (f = f') by congruence. subst f'. assert (F = F') by congruence. subst F'. repeat split; auto. congruence.
  Qed.
  Lemma fi_cf c i C f F lf : fi c i C f F lf -> cellFace P c i = Some (C, F).
  Proof.
    intros (A & B & D & _). unfold cellFace. rewrite A. cbn [obind]. rewrite B. cbn [obind]. rewrite nthN_nth'.
    unfold P_face in D. rewrite D. reflexivity.
  Qed.
  Lemma fi_lt c i C f F lf : fi c i C f F lf -> (c < nc /\ i < 4 /\ lf < 4)%nat.
  Proof.
    intros (A & B & D & _ & (C' & _ & _ & _ & L & _)). repeat split; auto.
    - apply nth_error_Some. congruence. - eapply nth_q4_lt; eauto.
  Qed.
  Lemma fi_inj c i j C f F lf C' g G : fi c i C f F lf -> fi c j C' g G lf -> i = j.
  Proof.
    intros (A & B & D & E & (C1 & HC1 & _ & _ & L & S)) (A' & B' & D' & E' & (C2 & HC2 & _ & _ & L' & S')).
    assert (C' = C) by congruence. assert (C1 = C) by congruence. assert (C2 = C) by congruence. subst C' C1 C2.
    eapply (pw_distinct _ _ W c C i j f g F G); eauto. intros n.
    destruct (pw_face _ _ W c C f A (nth_error_In _ _ B)) as (F1 & HF1 & _ & I1). assert (F1 = F) by congruence. subst F1.
    destruct (pw_face _ _ W c C g A (nth_error_In _ _ B')) as (F1 & HF1' & _ & I2). assert (F1 = G) by congruence. subst F1.
    split; intros Hn.
    - destruct (In_nth_error _ _ (I1 n Hn)) as (v & Hv). apply (S' v n Hv). now apply (S v n Hv).
    - destruct (In_nth_error _ _ (I2 n Hn)) as (v & Hv). apply (S v n Hv). now apply (S' v n Hv).
  Qed.
  Lemma fi_surj c lf : (c < nc)%nat -> (lf < 4)%nat -> exists i C f F, fi c i C f F lf.
  Proof.
    intros Hc Hl.
    destruct (fi_ex c 0 Hc ltac:(lia)) as (C0 & f0 & F0 & l0 & H0). destruct (fi_ex c 1 Hc ltac:(lia)) as (C1 & f1 & F1 & l1 & H1).
    destruct (fi_ex c 2 Hc ltac:(lia)) as (C2 & f2 & F2 & l2 & H2). destruct (fi_ex c 3 Hc ltac:(lia)) as (C3 & f3 & F3 & l3 & H3).
    pose proof (fi_lt _ _ _ _ _ _ H0). pose proof (fi_lt _ _ _ _ _ _ H1). pose proof (fi_lt _ _ _ _ _ _ H2). pose proof (fi_lt _ _ _ _ _ _ H3).
    assert (l0 <> l1) by (intros ->; pose proof (fi_inj _ _ _ _ _ _ _ _ _ _ H0 H1); lia).
    assert (l0 <> l2) by (intros ->; pose proof (fi_inj _ _ _ _ _ _ _ _ _ _ H0 H2); lia).
    assert (l0 <> l3) by (intros ->; pose proof (fi_inj _ _ _ _ _ _ _ _ _ _ H0 H3); lia).
    assert (l1 <> l2) by (intros ->; pose proof (fi_inj _ _ _ _ _ _ _ _ _ _ H1 H2); lia).
    assert (l1 <> l3) by (intros ->; pose proof (fi_inj _ _ _ _ _ _ _ _ _ _ H1 H3); lia).
    assert (l2 <> l3) by (intros ->; pose proof (fi_inj _ _ _ _ _ _ _ _ _ _ H2 H3); lia).
    assert (X : lf = l0 \/ lf = l1 \/ lf = l2 \/ lf = l3) by lia.
    destruct X as [-> | [-> | [-> | ->]]]; eauto 8.
  Qed.
  Lemma opposite_fi c lf f F : opposite P c lf f F -> exists i C, fi c i C f F lf.
  Proof.
    intros (C & HC & Hf & HF & L & S). destruct (In_nth_error _ _ Hf) as (i & Hi).
    destruct (face_lf c C f HC Hf) as (F' & lf' & HF' & E & O). assert (F' = F) by congruence. subst F'.
    assert (lf = lf').
    { destruct O as (C1 & HC1 & _ & _ & L' & S'). assert (C1 = C) by congruence. subst C1.
      destruct (nth_q4 (pc_nodes C) lf L) as (n & Hn).
      destruct (Nat.eq_dec lf lf'); auto. exfalso. pose proof (proj2 (S' _ _ Hn) n0) as X. apply (S _ _ Hn) in X. auto. }
    subst lf'. exists i, C. repeat split; auto.
  Qed.
  Lemma opposite_lf_inj c f F lf lf' : opposite P c lf f F -> opposite P c lf' f F -> lf = lf'.
  Proof.
    intros (C & HC & _ & _ & L & S) (C1 & HC1 & _ & _ & L' & S'). assert (C1 = C) by congruence. subst C1.
    destruct (nth_q4 (pc_nodes C) lf L) as (n & Hn).
    destruct (Nat.eq_dec lf lf') as [|Hne]; auto. exfalso. pose proof (proj2 (S' _ _ Hn) Hne) as X. apply (S _ _ Hn) in X. auto.
  Qed.
  Lemma opposite_fun c lf f F g G : opposite P c lf f F -> opposite P c lf g G -> f = g /\ F = G.
  Proof.
    intros O1 O2. destruct (opposite_fi _ _ _ _ O1) as (i & C & H). destruct (opposite_fi _ _ _ _ O2) as (j & C' & H').
    pose proof (fi_inj _ _ _ _ _ _ _ _ _ _ H H'). subst j. destruct (fi_fun _ _ _ _ _ _ _ _ _ _ H H') as (_ & A & B & _). auto.
  Qed.
  Lemma opposite_ex c lf : (c < nc)%nat -> (lf < 4)%nat -> exists f F, opposite P c lf f F.
  Proof. intros A B. destruct (fi_surj c lf A B) as (i & C & f & F & H). exists f, F. apply H. Qed.
  Lemma of_nat_small c : (c < nc)%nat -> N.of_nat c <> INVALID.
  Proof. pose proof (pw_size _ _ W) as H. unfold lenN in H. intros L E. rewrite <- E in H. lia. Qed.

  Definition adj_ok (c : nat) (f : N) (F : pface) (x y : N) : Prop :=
    (pf_bdry F = NotBoundary -> exists c' lf', opposite P c' lf' f F /\ c' <> c /\ x = N.of_nat c' /\ y = N.of_nat lf') /\
    (pf_bdry F <> NotBoundary -> x = BOUNDARY_FACE /\ y = BOUNDARY_FACE).
  Definition isB (ci : nat * nat) : bool :=
    match cellFace P (fst ci) (snd ci) with Some (_, F) => negb (pf_bdry F =? NotBoundary) | None => false end.

  Lemma inner_adj c i C f F lf : fi c i C f F lf -> pf_bdry F = NotBoundary ->
    exists c' lf' C', opposite P c' lf' f F /\ c' <> c /\
      (if MeshModel.p0 (pf_cells F) =? N.of_nat c then MeshModel.p1 (pf_cells F) else MeshModel.p0 (pf_cells F)) = N.of_nat c' /\
      nth_error (pt_cells P) c' = Some C' /\ getLFaceIndex (pc_nodes C') (pf_nodes F) = Some lf'.
  Proof.
    intros (A & B & D & E & O) HB.
    destruct (pw_inner _ _ W c C f F A (nth_error_In _ _ B) D HB) as (_ & c' & C' & Hne & HC' & Hf' & Hc).
    destruct (face_lf c' C' f HC' Hf') as (F' & lf' & HF' & E' & O'). assert (F' = F) by congruence. subst F'.
    exists c', lf', C'. split; auto. split; auto. split; auto.
    destruct Hc as [-> | ->]; cbn [MeshModel.p0 MeshModel.p1].
    - now rewrite N.eqb_refl.
    - destruct (N.eqb_spec (N.of_nat c') (N.of_nat c)) as [X|X]; [|reflexivity]. now rewrite X.
  Qed.

  Lemma adjLoop_ok : exists a, adjLoop P = Some a /\
    (forall c i C f F lf, fi c i C f F lf -> as_handle a c lf = N.of_nat i /\ adj_ok c f F (as_adjCell a c lf) (as_adjFace a c lf)) /\
    as_nSides a = lenN (filter isB (loop2 nc 4)).
  Proof.
    destruct (foldM_inv (adjStep P) (fun pre a =>
      (forall c i C f F lf, In (c, i) pre -> fi c i C f F lf ->
          as_handle a c lf = N.of_nat i /\ adj_ok c f F (as_adjCell a c lf) (as_adjFace a c lf)) /\
      as_nSides a = lenN (filter isB pre)) (loop2 nc 4) (mkAdjst 0 zero2 zero2 zero2)) as (a & Ea & Ia & Na).
    - split; [intros ? ? ? ? ? ? []|reflexivity].
    - intros pre (c & i) suf a El (Ia & Na).
      assert (Hci : In (c, i) (loop2 nc 4)) by (rewrite El; apply in_elt).
      apply in_loop2 in Hci. destruct (fi_ex c i) as (C & f & F & lf & H); try tauto.
      assert (Nin : ~ In (c, i) pre) by (eapply NoDup_split; [apply (NoDup_loop2 nc 4)|exact El]).
      pose proof H as (A & B & D & E & O).
      assert (Keep : forall c1 i1 C1 f1 F1 lf1, In (c1, i1) pre -> fi c1 i1 C1 f1 F1 lf1 -> (c1, lf1) <> (c, lf)).
      { intros c1 i1 C1 f1 F1 lf1 Hin H1 X. injection X as -> ->. apply Nin. now rewrite <- (fi_inj _ _ _ _ _ _ _ _ _ _ H1 H). }
      assert (Fin : filter isB (pre ++ [(c, i)]) = filter isB pre ++ (if negb (pf_bdry F =? NotBoundary) then [(c, i)] else [])).
      { rewrite filter_app. apply f_equal2; auto. cbn [filter]. unfold isB. cbn [fst snd]. rewrite (fi_cf _ _ _ _ _ _ H). reflexivity. }
      cbn [adjStep]. rewrite (fi_cf _ _ _ _ _ _ H). cbn [obind]. rewrite E. cbn [obind].
      destruct (N.eqb_spec (pf_bdry F) NotBoundary) as [EB|EB]; cbn [negb].
      + destruct (inner_adj _ _ _ _ _ _ H EB) as (c' & lf' & C' & O' & Hne & Ec & HC' & El').
        rewrite Ec, nthN_nth', Nat2N.id, HC'. cbn [obind]. rewrite El'. eexists. split; [reflexivity|]. cbn [as_handle as_adjCell as_adjFace as_nSides].
        split.
        * intros c1 i1 C1 f1 F1 lf1 Hin H1. apply in_app_iff in Hin. destruct Hin as [Hin|[X|[]]].
          -- pose proof (Keep _ _ _ _ _ _ Hin H1). rewrite !set2_neq by auto. apply (Ia c1 i1 C1); auto.
          -- injection X as <- <-. destruct (fi_fun _ _ _ _ _ _ _ _ _ _ H H1) as (<- & <- & <- & <-). rewrite !set2_eq.
             split; auto. split; [|intros; contradiction]. intros _. exists c', lf'. auto.
        * rewrite Na, Fin. cbn [negb]. now rewrite app_nil_r.
      + eexists. split; [reflexivity|]. cbn [as_handle as_adjCell as_adjFace as_nSides]. split.
        * intros c1 i1 C1 f1 F1 lf1 Hin H1. apply in_app_iff in Hin. destruct Hin as [Hin|[X|[]]].
          -- pose proof (Keep _ _ _ _ _ _ Hin H1). rewrite !set2_neq by auto. apply (Ia c1 i1 C1); auto.
          -- injection X as <- <-. destruct (fi_fun _ _ _ _ _ _ _ _ _ _ H H1) as (<- & <- & <- & <-). rewrite !set2_eq.
             split; auto. split; [intros; contradiction|]. auto.
        * rewrite Na, Fin. cbn [negb]. unfold lenN. rewrite app_length. cbn [length]. lia.
    - exists a. split; [exact Ea|]. split; auto. intros c i C f F lf H. apply (Ia c i C); auto.
      apply in_loop2. apply fi_lt in H. tauto.
  Qed.

  (** sides *)
  Section Sides.
    Context (a : adjst)
      (Ha : forall c i C f F lf, fi c i C f F lf -> as_handle a c lf = N.of_nat i /\ adj_ok c f F (as_adjCell a c lf) (as_adjFace a c lf))
      (Hs : as_nSides a = lenN (filter isB (loop2 nc 4))).
    Definition isB' (cl : nat * nat) : bool := as_adjCell a (fst cl) (snd cl) =? BOUNDARY_FACE.

    Lemma isB'_spec c lf f F : opposite P c lf f F -> (isB' (c, lf) = true <-> pf_bdry F <> NotBoundary).
    Proof.
      intros O. destruct (opposite_fi _ _ _ _ O) as (i & C & H). destruct (Ha _ _ _ _ _ _ H) as (_ & A & B).
      unfold isB'. cbn [fst snd]. rewrite N.eqb_eq. split.
      - intros E EB. destruct (A EB) as (c' & lf' & O' & _ & Ex & _).
        destruct (opposite_fi _ _ _ _ O') as (i' & C' & H'). apply fi_lt in H'.
        apply (of_nat_small c'); [tauto|]. rewrite <- Ex. exact E.
      - intros EB. now apply B.
    Qed.
    Lemma isB_isB' c i C f F lf : fi c i C f F lf -> isB (c, i) = isB' (c, lf).
    Proof.
      intros H. unfold isB. cbn [fst snd]. rewrite (fi_cf _ _ _ _ _ _ H). pose proof H as (_ & _ & _ & _ & O).
      pose proof (isB'_spec _ _ _ _ O). destruct (N.eqb_spec (pf_bdry F) NotBoundary); cbn [negb].
      - destruct (isB' (c, lf)); auto. tauto. - symmetry. tauto.
    Qed.
    Definition lfn (ci : nat * nat) : nat * nat :=
      (fst ci, match cellFace P (fst ci) (snd ci) with
               | Some (C, F) => match getLFaceIndex (pc_nodes C) (pf_nodes F) with Some l => l | None => 0%nat end
               | None => 0%nat end).
    Lemma lfn_fi c i C f F lf : fi c i C f F lf -> lfn (c, i) = (c, lf).
    Proof. intros H. unfold lfn. cbn [fst snd]. rewrite (fi_cf _ _ _ _ _ _ H). destruct H as (_ & _ & _ & -> & _). reflexivity. Qed.
    Lemma lfn_perm : Permutation (map lfn (loop2 nc 4)) (loop2 nc 4).
    Proof.
      apply NoDup_Permutation_bis.
      - enough (G : forall l, (forall x, In x l -> In x (loop2 nc 4)) -> NoDup l -> NoDup (map lfn l)) by (apply G; auto; apply NoDup_loop2).
        intros l. induction l as [|(c, i) l IH]; intros Hl Hn; cbn [map]; [constructor|]. inversion_clear Hn as [|? ? Hx Hn'].
        constructor; [|apply IH; auto; intros; apply Hl; now right].
        intros Hin. apply in_map_iff in Hin. destruct Hin as ((c', i') & E & Hin').
        pose proof (Hl (c, i) (or_introl eq_refl)) as H1. apply in_loop2 in H1. pose proof (Hl (c', i') (or_intror Hin')) as H2. apply in_loop2 in H2.
        destruct (fi_ex c i) as (C & f & F & lf & G); try tauto. destruct (fi_ex c' i') as (C' & f' & F' & lf' & G'); try tauto.
        rewrite (lfn_fi _ _ _ _ _ _ G), (lfn_fi _ _ _ _ _ _ G') in E. injection E as -> ->.
        apply Hx. now rewrite (fi_inj _ _ _ _ _ _ _ _ _ _ G G').
      - rewrite map_length. lia.
      - intros x Hx. apply in_map_iff in Hx. destruct Hx as ((c, i) & E & Hin). apply in_loop2 in Hin.
        destruct (fi_ex c i) as (C & f & F & lf & G); try tauto. rewrite (lfn_fi _ _ _ _ _ _ G) in E. subst x.
        apply in_loop2. apply fi_lt in G. tauto.
    Qed.
    Lemma filter_map_len {A B} (g : A -> B) q l : length (filter q (map g l)) = length (filter (fun x => q (g x)) l).
    Proof. induction l; cbn; auto. destruct (q (g a0)); cbn; auto. Qed.
    Lemma perm_filter_len {A} (q : A -> bool) l l' : Permutation l l' -> length (filter q l) = length (filter q l').
    Proof. induction 1; cbn; auto; try (destruct (q x); cbn; auto); try (destruct (q y); cbn; auto); lia. Qed.
    Lemma nSides_eq : as_nSides a = lenN (filter isB' (loop2 nc 4)).
    Proof.
      rewrite Hs. unfold lenN. f_equal. rewrite <- (perm_filter_len isB' _ _ lfn_perm), filter_map_len.
      f_equal. apply filter_ext_in. intros (c, i) Hin. apply in_loop2 in Hin.
      destruct (fi_ex c i) as (C & f & F & lf & G); try tauto. rewrite (lfn_fi _ _ _ _ _ _ G). apply (isB_isB' _ _ _ _ _ _ G).
    Qed.
    Lemma handle_ok c lf f F : opposite P c lf f F -> handleFace P (as_handle a) c lf = Some F.
    Proof.
      intros O. destruct (opposite_fi _ _ _ _ O) as (i & C & H). destruct (Ha _ _ _ _ _ _ H) as (E & _).
      unfold handleFace. rewrite E, Nat2N.id, (fi_cf _ _ _ _ _ _ H). reflexivity.
    Qed.

    Definition side_ok (s : sidest) (k c lf : nat) (F : pface) : Prop :=
      ss_sideOf s c lf = N.of_nat k /\ ss_sideCell s k = N.of_nat c /\ ss_lG s k = pf_gid F /\
      option_map snd (find (fun e => fst e =? pf_gid F) (ss_gL s)) = Some (N.of_nat k).
    Lemma gid_inj f g F G : P_face P f = Some F -> P_face P g = Some G -> pf_gid F = pf_gid G -> f = g /\ F = G.
    Proof.
      unfold P_face. intros HF HG E.
      assert (N.to_nat f = N.to_nat g).
      { pose proof (pw_gids _ _ W) as ND. unfold faceGids in ND. rewrite NoDup_nth_error in ND. apply ND.
        - rewrite map_length. apply nth_error_Some. congruence.
        - rewrite (map_nth_error pf_gid _ _ HF), (map_nth_error pf_gid _ _ HG). congruence. }
      split; [lia|]. congruence.
    Qed.
    Lemma sideLoop_ok : exists s, sideLoop P a = Some s /\
      ss_side s = length (filter isB' (loop2 nc 4)) /\
      (forall k c lf f F, nth_error (filter isB' (loop2 nc 4)) k = Some (c, lf) -> opposite P c lf f F -> side_ok s k c lf F) /\
      (forall c lf, In (c, lf) (loop2 nc 4) -> isB' (c, lf) = false -> ss_sideOf s c lf = NOT_BOUNDARY_FACE).
    Proof.
      destruct (foldM_inv (sideStep P a) (fun pre s =>
        ss_side s = length (filter isB' pre) /\
        (forall k c lf f F, nth_error (filter isB' pre) k = Some (c, lf) -> opposite P c lf f F -> side_ok s k c lf F) /\
        (forall c lf, In (c, lf) pre -> isB' (c, lf) = false -> ss_sideOf s c lf = NOT_BOUNDARY_FACE) /\
        (forall e, In e (ss_gL s) -> exists c lf f F, In (c, lf) pre /\ opposite P c lf f F /\ pf_gid F = fst e /\ isB' (c, lf) = true))
        (loop2 nc 4) (mkSidest 0 (fun _ => 0) zero2 (fun _ => 0) [])) as (s & Es & S1 & S2 & S3 & _).
      - repeat split; try (intros [|k]; discriminate); try (intros ? ? []); try (intros ? []).
        all: intros; destruct k; discriminate.
      - intros pre (c & lf) suf s El (S1 & S2 & S3 & S4).
        assert (Hci : In (c, lf) (loop2 nc 4)) by (rewrite El; apply in_elt). apply in_loop2 in Hci.
        destruct (opposite_ex c lf) as (f & F & O); try tauto.
        assert (Nin : ~ In (c, lf) pre) by (eapply NoDup_split; [apply (NoDup_loop2 nc 4)|exact El]).
        assert (Fin : filter isB' (pre ++ [(c, lf)]) = filter isB' pre ++ (if isB' (c, lf) then [(c, lf)] else [])) by (rewrite filter_app; reflexivity).
        assert (Inf : forall k x, nth_error (filter isB' pre) k = Some x -> In x pre /\ isB' x = true /\ (k < length (filter isB' pre))%nat).
        { intros k x Hk. pose proof (nth_error_In _ _ Hk) as X. apply filter_In in X. split; [tauto|]. split; [tauto|].
          apply nth_error_Some. congruence. }
        cbn [sideStep]. fold (isB' (c, lf)). change (as_adjCell a c lf =? BOUNDARY_FACE) with (isB' (c, lf)).
        destruct (isB' (c, lf)) eqn:EB.
        + rewrite (handle_ok _ _ _ _ O). cbn [obind].
          assert (LT : N.of_nat (ss_side s) <? as_nSides a = true).
          { apply N.ltb_lt. rewrite nSides_eq, S1, El. unfold lenN. rewrite filter_app, app_length. cbn [filter]. rewrite EB. cbn [length]. lia. }
          rewrite LT. eexists. split; [reflexivity|]. cbn [ss_side ss_sideCell ss_sideOf ss_lG ss_gL].
          assert (New : existsb (fun e => fst e =? pf_gid F) (ss_gL s) = false).
          { destruct (existsb _ _) eqn:Ex; auto. apply existsb_exists in Ex. destruct Ex as (e & He & Eg). apply N.eqb_eq in Eg.
            destruct (S4 e He) as (c' & lf' & f' & F' & Hin' & O' & Eg' & EB').
            pose proof O as (C1 & HC1 & Hf1 & HF1 & _). pose proof O' as (C2 & HC2 & Hf2 & HF2 & _).
            destruct (gid_inj _ _ _ _ HF2 HF1 ltac:(congruence)) as (-> & ->).
            apply (isB'_spec _ _ _ _ O) in EB. destruct (pw_outer _ _ W c C1 f F HC1 Hf1 HF1 EB) as (_ & U).
            assert (c' = c) by (eapply U; eauto). subst c'. rewrite (opposite_lf_inj _ _ _ _ _ O O') in Nin. contradiction. }
          unfold mapInsert. rewrite New.
          assert (EB'' : isB' (c, lf) = true) by exact EB.
          split; [rewrite Fin, app_length, S1; cbn [length]; lia|]. split; [|split].
          * intros k c1 lf1 f1 F1 Hk O1. rewrite Fin in Hk.
            destruct (Nat.lt_ge_cases k (length (filter isB' pre))) as [Lk|Lk].
            -- rewrite nth_error_app1 in Hk by auto. destruct (Inf _ _ Hk) as (I1 & I2 & I3).
               destruct (S2 _ _ _ _ _ Hk O1) as (T1 & T2 & T3 & T4). unfold side_ok. cbn [ss_side ss_sideCell ss_sideOf ss_lG ss_gL].
               rewrite set2_neq by (intros X; injection X as -> ->; auto). rewrite !set1_neq by lia.
               split; auto. split; auto. split; auto. cbn [find fst].
               destruct (N.eqb_spec (pf_gid F) (pf_gid F1)) as [Eg|Eg]; auto. exfalso.
               rewrite Eg in New. clear - New T4. induction (ss_gL s) as [|e l IH]; cbn in *; [discriminate|].
               destruct (fst e =? pf_gid F1); cbn in *; [discriminate|auto].
            -- rewrite nth_error_app2 in Hk by auto. destruct (k - length (filter isB' pre))%nat as [|k'] eqn:Ek; [|destruct k'; discriminate].
               cbn in Hk. injection Hk as <- <-. assert (k = ss_side s) by lia. subst k.
               destruct (opposite_fun _ _ _ _ _ _ O O1) as (<- & <-). unfold side_ok. cbn [ss_side ss_sideCell ss_sideOf ss_lG ss_gL].
               rewrite set2_eq, !set1_eq. cbn [find fst]. rewrite N.eqb_refl. auto.
          * intros c1 lf1 Hin1 EB1. apply in_app_iff in Hin1. destruct Hin1 as [Hin1|[X|[]]]; [|injection X as <- <-; congruence].
            rewrite set2_neq by (intros X; injection X as -> ->; auto). auto.
          * intros e [<-|He]; cbn [fst]; [exists c, lf, f, F; split; [apply in_elt|auto]|].
            destruct (S4 e He) as (c' & lf' & f' & F' & Hin' & R). exists c', lf', f', F'. split; auto. apply in_app_iff. auto.
        + eexists. split; [reflexivity|]. cbn [ss_side ss_sideCell ss_sideOf ss_lG ss_gL]. rewrite Fin, app_nil_r.
          split; auto. split; [|split].
          * intros k c1 lf1 f1 F1 Hk O1. destruct (Inf _ _ Hk) as (I1 & I2 & I3).
            destruct (S2 _ _ _ _ _ Hk O1) as (T1 & T2). unfold side_ok. cbn [ss_side ss_sideCell ss_sideOf ss_lG ss_gL].
            rewrite set2_neq by (intros X; injection X as -> ->; auto). auto.
          * intros c1 lf1 Hin1 EB1. apply in_app_iff in Hin1. destruct Hin1 as [Hin1|[X|[]]].
            -- rewrite set2_neq by (intros X; injection X as -> ->; auto). auto.
            -- injection X as <- <-. now rewrite set2_eq.
          * intros e He. destruct (S4 e He) as (c' & lf' & f' & F' & Hin' & R). exists c', lf', f', F'. split; auto. apply in_app_iff. auto.
      - exists s. auto.
    Qed.

    Lemma procLoop_ok : exists t, procLoop P (as_handle a) rank = Some t /\
      forall c lf f F, opposite P c lf f F -> t c lf = otherPart rank F.
    Proof.
      destruct (foldM_inv (procStep P (as_handle a) rank) (fun pre t => forall c lf f F, In (c, lf) pre -> opposite P c lf f F -> t c lf = otherPart rank F)
        (loop2 nc 4) zero2) as (t & Et & T).
      - intros ? ? ? ? [].
      - intros pre (c & lf) suf t El T.
        assert (Hci : In (c, lf) (loop2 nc 4)) by (rewrite El; apply in_elt). apply in_loop2 in Hci.
        destruct (opposite_ex c lf) as (f & F & O); try tauto.
        cbn [procStep]. rewrite (handle_ok _ _ _ _ O). cbn [obind].
        assert (R : In rank (q2l (pf_part F))).
        { pose proof O as (C & HC & Hf & HF & _). destruct (N.eq_dec (pf_bdry F) NotBoundary) as [EB|EB].
          - destruct (pw_inner _ _ W c C f F HC Hf HF EB) as (-> & _). cbn. auto.
          - apply (pw_outer _ _ W c C f F HC Hf HF EB). }
        assert (RR : (MeshModel.p0 (pf_part F) =? rank) || (MeshModel.p1 (pf_part F) =? rank) = true).
        { destruct (pf_part F) as [x y]. cbn in R |- *. destruct R as [-> | [-> | []]]; rewrite N.eqb_refl; auto. now rewrite orb_true_r. }
        rewrite RR. eexists. split; [reflexivity|]. intros c1 lf1 f1 F1 Hin O1.
        destruct (Nat.eq_dec c1 c) as [->|N1]; [destruct (Nat.eq_dec lf1 lf) as [->|N2]|].
        + rewrite set2_eq. destruct (opposite_fun _ _ _ _ _ _ O O1) as (_ & <-). unfold otherPart. destruct (pf_part F) as [x y]. cbn [MeshModel.p0 MeshModel.p1].
          set (ap := if x =? rank then y else x). destruct (N.eqb_spec ap INVALID); auto.
        + rewrite set2_neq by congruence. apply in_app_iff in Hin. destruct Hin as [Hin|[X|[]]]; [eauto|congruence].
        + rewrite set2_neq by congruence. apply in_app_iff in Hin. destruct Hin as [Hin|[X|[]]]; [eauto|congruence].
      - exists t. split; auto. intros c lf f F O. apply (T c lf f F); auto. apply in_loop2.
        destruct (opposite_fi _ _ _ _ O) as (i & C & H). apply fi_lt in H. tauto.
    Qed.
  End Sides.
End Local.
