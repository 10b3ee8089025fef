From Coq Require Import Permutation.
From Verif Require Import Prelude Bytes MeshModel MeshSpec CreateSpec TychoModel TychoSpec TychoProofs.
Local Open Scope N_scope.

(** ** order3Vertices is defined for ordered coordinates *)
Definition total_on {A} (le : A -> A -> bool) (G : A -> Prop) : Prop :=
  forall a b, G a -> G b -> le a b = true \/ le b a = true.
Definition trans_on {A} (le : A -> A -> bool) (G : A -> Prop) : Prop :=
  forall a b c, G a -> G b -> G c -> le a b = true -> le b c = true -> le a c = true.
Definition lexle {A} (ltb : N -> N -> bool) (key : A -> N) (le : A -> A -> bool) (a b : A) : bool :=
  if ltb (key a) (key b) then true else if ltb (key b) (key a) then false else le a b.
Lemma lex_total {A} ltb (Good : N -> Prop) (key : A -> N) le (G : A -> Prop) :
  weak_order ltb Good -> (forall a, G a -> Good (key a)) -> total_on le G -> total_on (lexle ltb key le) G.
Proof.
  intros (Irr & Tr & NT) GG T a b Ga Gb. unfold lexle.
  destruct (ltb (key a) (key b)) eqn:E1; auto. destruct (ltb (key b) (key a)) eqn:E2; auto.
Qed.
Lemma lex_trans {A} ltb (Good : N -> Prop) (key : A -> N) le (G : A -> Prop) :
  weak_order ltb Good -> (forall a, G a -> Good (key a)) -> trans_on le G -> trans_on (lexle ltb key le) G.
Proof.
  intros (Irr & Tr & NT) GG T a b c Ga Gb Gc. unfold lexle.
  pose proof (GG _ Ga) as A1. pose proof (GG _ Gb) as B1. pose proof (GG _ Gc) as C1.
  assert (Asym : forall x y, Good x -> Good y -> ltb x y = true -> ltb y x = false).
  { intros x y Gx Gy E. destruct (ltb y x) eqn:E'; auto. rewrite <- (Irr x Gx). symmetry. eapply (Tr x y x); eauto. }
  destruct (ltb (key a) (key b)) eqn:Eab; destruct (ltb (key b) (key c)) eqn:Ebc.
  - intros _ _. now rewrite (Tr _ _ _ A1 B1 C1 Eab Ebc).
  - intros _. destruct (ltb (key c) (key b)) eqn:Ecb; [discriminate|]. intros _.
    destruct (ltb (key a) (key c)) eqn:Eac; auto.
    exfalso. pose proof (NT _ _ _ A1 C1 B1 Eac Ecb). congruence.
  - destruct (ltb (key b) (key a)) eqn:Eba; [discriminate|]. intros _ _.
    destruct (ltb (key a) (key c)) eqn:Eac; auto.
    exfalso. pose proof (NT _ _ _ B1 A1 C1 Eba Eac). congruence.
  - destruct (ltb (key b) (key a)) eqn:Eba; [discriminate|]. destruct (ltb (key c) (key b)) eqn:Ecb; [discriminate|].
    intros L1 L2. rewrite (NT _ _ _ A1 B1 C1 Eab Ebc), (NT _ _ _ C1 B1 A1 Ecb Eba). eapply (T a b c); eauto.
Qed.
Section Ord.
  Context (ltb : N -> N -> bool) (Good : N -> Prop) (WO : weak_order ltb Good).
  Definition good3 (v : q3 N) : Prop := forall x, In x (q3l v) -> Good x.
  Lemma isV1_lex v w : isV1LessThanV2 ltb v w = lexle ltb t0 (lexle ltb t1 (lexle ltb t2 (fun _ _ => true))) v w.
  Proof. reflexivity. Qed.
  Lemma isV1_total : total_on (isV1LessThanV2 ltb) good3.
  Proof.
    intros a b Ga Gb. rewrite !isV1_lex. revert a b Ga Gb.
    do 3 (apply (lex_total ltb Good); [exact WO|intros v Gv; apply Gv; destruct v; cbn; auto|]). intros a b _ _. auto.
  Qed.
  Lemma isV1_trans : trans_on (isV1LessThanV2 ltb) good3.
  Proof.
    intros a b c Ga Gb Gc. rewrite !isV1_lex. revert a b c Ga Gb Gc.
    do 3 (apply (lex_trans ltb Good); [exact WO|intros v Gv; apply Gv; destruct v; cbn; auto|]). intros a b c _ _. auto.
  Qed.
  Lemma order3_ok c0 c1 c2 : good3 c0 -> good3 c1 -> good3 c2 ->
    exists o, order3Vertices ltb c0 c1 c2 = Some o /\ Permutation o [0; 1; 2]%nat.
  Proof.
    intros G0 G1 G2. unfold order3Vertices.
    assert (P1 : Permutation [0;2;1]%nat [0;1;2]%nat) by (apply perm_skip, perm_swap).
    assert (P2 : Permutation [1;0;2]%nat [0;1;2]%nat) by apply perm_swap.
    assert (P3 : Permutation [1;2;0]%nat [0;1;2]%nat) by (eapply perm_trans; [apply perm_skip, perm_swap|apply perm_swap]).
    assert (P4 : Permutation [2;0;1]%nat [0;1;2]%nat) by (eapply perm_trans; [apply perm_swap|apply perm_skip, perm_swap]).
    assert (P5 : Permutation [2;1;0]%nat [0;1;2]%nat) by (eapply perm_trans; [apply perm_swap|exact P3]).
    destruct (isV1_total c0 c1 G0 G1) as [E01|E10]; destruct (isV1_total c0 c2 G0 G2) as [E02|E20];
      destruct (isV1_total c1 c2 G1 G2) as [E12|E21];
      repeat match goal with E : isV1LessThanV2 _ _ _ = true |- _ => rewrite E; revert E end; intros; cbn [andb];
      repeat match goal with |- context [if ?b then _ else _] => destruct b eqn:?; cbn [andb] end; eauto; exfalso.
    all: repeat match goal with H : _ && _ = false |- _ => apply andb_false_iff in H; destruct H end; try congruence.
    all: pose proof isV1_trans as T.
    all: first [assert (isV1LessThanV2 ltb c0 c1 = true) by (eapply (T c0 c2 c1); eauto; fail); congruence
               |assert (isV1LessThanV2 ltb c0 c2 = true) by (eapply (T c0 c1 c2); eauto; fail); congruence
               |assert (isV1LessThanV2 ltb c1 c0 = true) by (eapply (T c1 c2 c0); eauto; fail); congruence
               |assert (isV1LessThanV2 ltb c1 c2 = true) by (eapply (T c1 c0 c2); eauto; fail); congruence
               |assert (isV1LessThanV2 ltb c2 c0 = true) by (eapply (T c2 c1 c0); eauto; fail); congruence
               |assert (isV1LessThanV2 ltb c2 c1 = true) by (eapply (T c2 c0 c1); eauto; fail); congruence].
  Qed.
End Ord.

Lemma fold_left_none {A S} (g : S -> A -> option S) l :
  fold_left (fun s a => match s with Some x => g x a | None => None end) l None = None.
Proof. induction l; cbn; auto. Qed.
Lemma fold_left_foldM {A S} (g : S -> A -> option S) l s :
  fold_left (fun s a => match s with Some x => g x a | None => None end) l (Some s) = foldM g l s.
Proof.
  revert s. induction l as [|a l IH]; intros s; cbn; auto. destruct (g s a) eqn:E; cbn; [apply IH|apply fold_left_none].
Qed.

Section Inner.
  Context (C : pcell) (F : pface) (c lf : nat) (order : list nat).
  Context (HC : NoDup (q4l (pc_nodes C))) (HF : NoDup (q3l (pf_nodes F))) (HO : Permutation order [0;1;2]%nat).
  Definition innerStep (st : tab3 * tab3) (fc : nat * nat) : option (tab3 * tab3) :=
    let (ftc, ctf) := st in
    let* o := nth_error order (fst fc) in
    let* n := nth_error (q3l (pf_nodes F)) o in
    let* m := nth_error (q4l (pc_nodes C)) (snd fc) in
    Some (if n =? m then (set3 ftc c lf o (N.of_nat (snd fc)), set3 ctf c lf (snd fc) (N.of_nat o)) else (ftc, ctf)).
  Lemma inner_foldM l st : fold_left (vrtxInner C F c lf order) l (Some st) = foldM innerStep l st.
  Proof.
    rewrite <- fold_left_foldM. generalize (Some st). clear. induction l as [|a l IH]; intros s; cbn; auto.
  Qed.
  Definition matches (st : tab3 * tab3) (o v : nat) : Prop := fst st c lf o = N.of_nat v /\ snd st c lf v = N.of_nat o.
  Lemma inner_ok st : exists st', fold_left (vrtxInner C F c lf order) (loop2 3 4) (Some st) = Some st' /\
    (forall o v n, nth_error (q3l (pf_nodes F)) o = Some n -> nth_error (q4l (pc_nodes C)) v = Some n -> matches st' o v) /\
    (forall c' f' k, (c', f') <> (c, lf) -> fst st' c' f' k = fst st c' f' k /\ snd st' c' f' k = snd st c' f' k).
  Proof.
    rewrite inner_foldM.
    assert (NO : NoDup order).
    { eapply Permutation_NoDup; [symmetry; exact HO|]. repeat constructor; cbn; intuition discriminate. }
    pose proof (Permutation_length HO) as LO. cbn in LO.
    destruct (foldM_inv innerStep (fun pre st' =>
      (forall j o v n, In (j, v) pre -> nth_error order j = Some o ->
         nth_error (q3l (pf_nodes F)) o = Some n -> nth_error (q4l (pc_nodes C)) v = Some n -> matches st' o v) /\
      (forall c' f' k, (c', f') <> (c, lf) -> fst st' c' f' k = fst st c' f' k /\ snd st' c' f' k = snd st c' f' k))
      (loop2 3 4) st) as (st' & E & I1 & I2).
    - split; [intros ? ? ? ? []|auto].
    - intros pre (j & v) suf (ftc & ctf) El (I1 & I2).
      assert (Hci : In (j, v) (loop2 3 4)) by (rewrite El; apply in_elt). apply in_loop2 in Hci.
      unfold innerStep. cbn [fst snd].
      destruct (nth_error order j) as [o|] eqn:Eo; [|apply nth_error_None in Eo; lia]. cbn [obind].
      assert (Lo : (o < 3)%nat).
      { apply nth_error_In in Eo. apply (Permutation_in _ HO) in Eo. cbn in Eo. lia. }
      destruct (nth_q3 (pf_nodes F) o Lo) as (n & En). rewrite En. cbn [obind].
      destruct (nth_q4 (pc_nodes C) v ltac:(lia)) as (m & Em). rewrite Em. cbn [obind].
      eexists. split; [reflexivity|].
      assert (NDO : forall i k x, nth_error order i = Some x -> nth_error order k = Some x -> i = k).
      { intros i k x A B. pose proof NO as ND. rewrite NoDup_nth_error in ND. apply ND; [apply nth_error_Some; congruence|congruence]. }
      assert (NDF : forall i k x, nth_error (q3l (pf_nodes F)) i = Some x -> nth_error (q3l (pf_nodes F)) k = Some x -> i = k).
      { intros i k x A B. pose proof HF as ND. rewrite NoDup_nth_error in ND. apply ND; [apply nth_error_Some; congruence|congruence]. }
      assert (NDC : forall i k x, nth_error (q4l (pc_nodes C)) i = Some x -> nth_error (q4l (pc_nodes C)) k = Some x -> i = k).
      { intros i k x A B. pose proof HC as ND. rewrite NoDup_nth_error in ND. apply ND; [apply nth_error_Some; congruence|congruence]. }
      destruct (N.eqb_spec n m) as [E|E]; (split; [|]).
      + subst m. intros j1 o1 v1 n1 Hin A B D. unfold matches. cbn [fst snd].
        destruct (Nat.eq_dec o1 o) as [->|No].
        * assert (n1 = n) by congruence. subst n1. assert (v1 = v) by eauto. subst v1. now rewrite !set3_eq.
        * assert (v1 <> v) by (intros ->; assert (n1 = n) by congruence; subst n1; apply No; eauto).
          rewrite !set3_neq by congruence. apply in_app_iff in Hin. destruct Hin as [Hin|[X|[]]]; [eapply (I1 j1); eauto|congruence].
      + intros c' f' k Hne. cbn [fst snd]. rewrite !set3_neq by congruence. apply I2; auto.
      + intros j1 o1 v1 n1 Hin A B D. apply in_app_iff in Hin. destruct Hin as [Hin|[X|[]]]; [eapply (I1 j1); eauto|].
        injection X as <- <-. congruence.
      + exact I2.
    - exists st'. split; auto. split; auto. intros o v n En Em.
      assert (Ino : In o order). { apply (Permutation_in o (Permutation_sym HO)). apply nth_q3_lt in En. cbn. lia. }
      destruct (In_nth_error _ _ Ino) as (j & Hj). apply (I1 j o v n); auto. apply in_loop2. split.
      + rewrite <- LO. apply nth_error_Some. congruence.
      + eapply nth_q4_lt; eauto.
  Qed.
End Inner.

Section Vrtx.
  Context (ltb : N -> N -> bool) (P : partition) (rank : N) (W : part_wf P rank) (a : adjst).
  Notation nc := (length (pt_cells P)).
  Context (Ha : forall c i C f F lf, fi P c i C f F lf -> as_handle a c lf = N.of_nat i /\ adj_ok P c f F (as_adjCell a c lf) (as_adjFace a c lf)).
  Context (Good : N -> Prop) (WO : weak_order ltb Good) (GN : forall nd x, In nd (pt_nodes P) -> In x (q3l (pn_coords nd)) -> Good x).

  Definition vrtx_ok (st : tab3 * tab3) (c lf : nat) : Prop :=
    forall C f F o v n, nth_error (pt_cells P) c = Some C -> opposite P c lf f F ->
      nth_error (q3l (pf_nodes F)) o = Some n -> nth_error (q4l (pc_nodes C)) v = Some n -> matches c lf st o v.
  Lemma node_good c C f F n : nth_error (pt_cells P) c = Some C -> In f (q4l (pc_faces C)) -> P_face P f = Some F ->
    In n (q3l (pf_nodes F)) -> exists nd, nthN (pt_nodes P) n = Some nd /\ good3 Good (pn_coords nd).
  Proof.
    intros HC Hf HF Hn. destruct (pw_face _ _ W c C f HC Hf) as (F' & HF' & _ & I). assert (F' = F) by congruence. subst F'.
    destruct (pw_cell _ _ W c C HC) as (_ & R). specialize (R n (I n Hn)).
    destruct (nth_error (pt_nodes P) (N.to_nat n)) as [nd|] eqn:E; [|apply nth_error_None in E; lia].
    exists nd. split; [now rewrite nthN_nth'|]. intros x Hx. eapply GN; eauto. eapply nth_error_In; eauto.
  Qed.
  Lemma vrtxLoop_ok : exists st, vrtxLoop ltb P (as_handle a) = Some st /\ forall c lf, In (c, lf) (loop2 nc 4) -> vrtx_ok st c lf.
  Proof.
    destruct (foldM_inv (vrtxStep ltb P (as_handle a)) (fun pre st => forall c lf, In (c, lf) pre -> vrtx_ok st c lf)
      (loop2 nc 4) (fun _ _ _ => 0, fun _ _ _ => 0)) as (st & E & I).
    - intros c lf [].
    - intros pre (c & lf) suf st El I.
      assert (Hci : In (c, lf) (loop2 nc 4)) by (rewrite El; apply in_elt). apply in_loop2 in Hci.
      assert (Nin : ~ In (c, lf) pre) by (eapply NoDup_split; [apply (NoDup_loop2 nc 4)|exact El]).
      destruct (fi_surj P rank W c lf) as (i & C & f & F & H); try tauto.
      destruct (Ha _ _ _ _ _ _ H) as (Hh & _). cbn [vrtxStep]. rewrite Hh, Nat2N.id, (fi_cf P _ _ _ _ _ _ H). cbn [obind].
      pose proof H as (A & B & D & _ & O). pose proof (nth_error_In _ _ B) as Bi.
      destruct (pw_face _ _ W c C f A Bi) as (F' & HF' & NDF & _). assert (F' = F) by congruence. subst F'.
      destruct (pw_cell _ _ W c C A) as (NDC & _).
      destruct (node_good c C f F (t0 (pf_nodes F)) A Bi D) as (n0 & E0 & G0). { destruct (pf_nodes F); cbn; auto. }
      destruct (node_good c C f F (t1 (pf_nodes F)) A Bi D) as (n1 & E1 & G1). { destruct (pf_nodes F); cbn; auto. }
      destruct (node_good c C f F (t2 (pf_nodes F)) A Bi D) as (n2 & E2 & G2). { destruct (pf_nodes F); cbn; auto. }
      rewrite E0. cbn [obind]. rewrite E1. cbn [obind]. rewrite E2. cbn [obind].
      destruct (order3_ok ltb Good WO _ _ _ G0 G1 G2) as (o & Eo & Po). rewrite Eo. cbn [obind].
      destruct (inner_ok C F c lf o NDC NDF Po st) as (st' & Es & M & K). exists st'. split; auto.
      intros c1 lf1 Hin. destruct (Nat.eq_dec c1 c) as [->|N1]; [destruct (Nat.eq_dec lf1 lf) as [->|N2]|].
      + intros C1 f1 F1 oo v n HC1 O1. assert (C1 = C) by congruence. subst C1.
        destruct (opposite_fun P rank W _ _ _ _ _ _ O O1) as (_ & <-). apply M.
      + apply in_app_iff in Hin. destruct Hin as [Hin|[X|[]]]; [|congruence].
        intros C1 f1 F1 oo v n HC1 O1 A1 B1. destruct (I _ _ Hin C1 f1 F1 oo v n HC1 O1 A1 B1) as (M1 & M2).
        unfold matches. destruct (K c lf1 oo ltac:(congruence)) as (-> & _). destruct (K c lf1 v ltac:(congruence)) as (_ & ->). auto.
      + apply in_app_iff in Hin. destruct Hin as [Hin|[X|[]]]; [|congruence].
        intros C1 f1 F1 oo v n HC1 O1 A1 B1. destruct (I _ _ Hin C1 f1 F1 oo v n HC1 O1 A1 B1) as (M1 & M2).
        unfold matches. destruct (K c1 lf1 oo ltac:(congruence)) as (-> & _). destruct (K c1 lf1 v ltac:(congruence)) as (_ & ->). auto.
    - exists st. auto.
  Qed.
End Vrtx.
