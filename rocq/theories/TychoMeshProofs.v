From Coq Require Import Permutation Sorted.
From Verif Require Import Prelude Bytes MeshModel MeshSpec CreateModel CreateSpec CreateProofs PropertiesCreate TychoModel TychoSpec TychoProofs TychoVrtxProofs.
Local Open Scope N_scope.

Section Final.
  Context (ltb : N -> N -> bool) (P : partition) (rank : N) (W : part_wf P rank).
  Context (Good : N -> Prop) (WO : weak_order ltb Good) (GN : forall nd x, In nd (pt_nodes P) -> In x (q3l (pn_coords nd)) -> Good x).
  Notation nc := (length (pt_cells P)).

  Lemma opp_lt c lf f F : opposite P c lf f F -> (c < nc)%nat /\ (lf < 4)%nat.
  Proof using W. clear ltb Good WO GN. intros O. destruct (opposite_fi P rank W _ _ _ _ O) as (i & C & H). apply fi_lt in H. tauto. Qed.

  Record faithful (m : tmesh) : Prop := {
    ff_sizes : tm_nCells m = nc /\ tm_nNodes m = length (pt_nodes P);
    ff_inner : forall c lf f F, opposite P c lf f F -> pf_bdry F = NotBoundary ->
      exists c' lf', opposite P c' lf' f F /\ c' <> c /\
        getAdjCell m c lf = Some (N.of_nat c') /\ tm_adjFace m c lf = N.of_nat lf' /\
        getAdjCell m c' lf' = Some (N.of_nat c) /\ tm_adjFace m c' lf' = N.of_nat lf /\
        getAdjRank m c lf = Some rank /\ getSide m c lf = Some NOT_BOUNDARY_FACE;
    ff_outer : forall c lf f F, opposite P c lf f F -> pf_bdry F <> NotBoundary ->
      getAdjCell m c lf = Some BOUNDARY_FACE /\ getAdjRank m c lf = Some (otherPart rank F) /\
      exists s, N.of_nat s < tm_nSides m /\ getSide m c lf = Some (N.of_nat s) /\ getSideCell m s = Some (N.of_nat c) /\
        getLGSide m s = Some (pf_gid F) /\ getGLSide m (pf_gid F) = Some (N.of_nat s);
    ff_sides : forall s, N.of_nat s < tm_nSides m -> exists c lf f F, opposite P c lf f F /\ pf_bdry F <> NotBoundary /\
        getSide m c lf = Some (N.of_nat s);
    ff_node : forall c v, getCellNode m c v = (let* C := nth_error (pt_cells P) c in nth_error (q4l (pc_nodes C)) v);
    ff_lg : forall c, getLGCell m c = option_map pc_gid (nth_error (pt_cells P) c);
    ff_mat : forall c, getCellMaterial m c = option_map pc_mat (nth_error (pt_cells P) c);
    ff_coords : tm_coords m = map pn_coords (pt_nodes P);
    ff_vrtx : forall c lf f F C o v n, opposite P c lf f F -> nth_error (pt_cells P) c = Some C ->
      nth_error (q3l (pf_nodes F)) o = Some n -> nth_error (q4l (pc_nodes C)) v = Some n ->
      getFaceToCellVrtx m c lf o = Some (N.of_nat v) /\ getCellToFaceVrtx m c lf v = Some (N.of_nat o)
  }.

  Lemma in2_true m c lf : tm_nCells m = nc -> (c < nc)%nat -> (lf < 4)%nat -> in2 m c lf = true.
  Proof. intros E H1 H2. unfold in2. rewrite E. apply andb_true_intro. split; now apply Nat.ltb_lt. Qed.

  Lemma read_faithful : exists m, readTychoMesh ltb P rank = Some m /\ faithful m.
  Proof.
    destruct (adjLoop_ok P rank W) as (a & Ea & Ha & Hs).
    destruct (sideLoop_ok P rank W a Ha Hs) as (s & Es & S1 & S2 & S3).
    destruct (procLoop_ok P rank W a Ha) as (t & Et & T).
    destruct (vrtxLoop_ok ltb P rank W a Ha Good WO GN) as ((ftc & ctf) & Ev & V).
    unfold readTychoMesh. rewrite Ea. cbn [obind]. rewrite Es. cbn [obind]. rewrite Et. cbn [obind]. rewrite Ev. cbn [obind].
    eexists. split; [reflexivity|].
    assert (NS : as_nSides a = N.of_nat (ss_side s)) by (rewrite (nSides_eq P rank W a Ha Hs), S1; reflexivity).
    match goal with |- faithful ?x => set (m := x) end.
    assert (I2 : forall c lf, (c < nc)%nat -> (lf < 4)%nat -> in2 m c lf = true) by (intros; now apply in2_true).
    constructor.
    - split; reflexivity.
    - intros c lf f F O EB. destruct (opp_lt _ _ _ _ O) as (L1 & L2).
      destruct (opposite_fi P rank W _ _ _ _ O) as (i & C & H). destruct (Ha _ _ _ _ _ _ H) as (_ & A & _).
      destruct (A EB) as (c' & lf' & O' & Hne & Ex & Ey). destruct (opp_lt _ _ _ _ O') as (L1' & L2').
      destruct (opposite_fi P rank W _ _ _ _ O') as (i' & C' & H'). destruct (Ha _ _ _ _ _ _ H') as (_ & A' & _).
      destruct (A' EB) as (c2 & lf2 & O2 & Hne2 & Ex2 & Ey2).
      assert (c2 = c /\ lf2 = lf) as (-> & ->).
      { assert (c2 = c).
        { pose proof O as (C0 & HC0 & Hf0 & HF0 & _). pose proof O' as (C1 & HC1 & Hf1 & HF1 & _). pose proof O2 as (C2 & HC2 & Hf2 & HF2 & _).
          destruct (pw_inner _ _ W c' C1 f F HC1 Hf1 HF1 EB) as (_ & x & Cx & Nx & HCx & Hfx & Hc).
          destruct (pw_inner _ _ W c C0 f F HC0 Hf0 HF0 EB) as (_ & x' & Cx' & Nx' & HCx' & Hfx' & Hc').
          destruct (pw_inner _ _ W c2 C2 f F HC2 Hf2 HF2 EB) as (_ & x2 & Cx2 & Nx2 & HCx2 & Hfx2 & Hc2).
          assert (Y : MeshModel.p0 (pf_cells F) = N.of_nat c' \/ MeshModel.p1 (pf_cells F) = N.of_nat c')
            by (destruct Hc as [-> | ->]; cbn; auto).
          assert (Y' : MeshModel.p0 (pf_cells F) = N.of_nat c \/ MeshModel.p1 (pf_cells F) = N.of_nat c)
            by (destruct Hc' as [-> | ->]; cbn; auto).
          assert (Y2 : MeshModel.p0 (pf_cells F) = N.of_nat c2 \/ MeshModel.p1 (pf_cells F) = N.of_nat c2)
            by (destruct Hc2 as [-> | ->]; cbn; auto).
          lia. }
        subst c2. split; auto. eapply (opposite_lf_inj P); eauto. }
      exists c', lf'. split; [exact O'|]. split; [exact Hne|]. unfold getAdjCell, getAdjRank, getSide. rewrite !I2 by auto.
      cbn [m tm_adjCell tm_adjFace tm_adjProc tm_side]. rewrite Ex, Ey, Ex2, Ey2, (T _ _ _ _ O).
      split; auto. split; auto. split; auto. split; auto. split.
      + f_equal. pose proof O as (C0 & HC0 & Hf0 & HF0 & _). destruct (pw_inner _ _ W c C0 f F HC0 Hf0 HF0 EB) as (Ep & _).
        unfold otherPart. rewrite Ep. now rewrite N.eqb_refl.
      + f_equal. apply S3; [apply in_loop2; auto|]. destruct (isB' a (c, lf)) eqn:E; auto.
        apply (isB'_spec P rank W a Ha _ _ _ _ O) in E. contradiction.
    - intros c lf f F O EB. destruct (opp_lt _ _ _ _ O) as (L1 & L2).
      destruct (opposite_fi P rank W _ _ _ _ O) as (i & C & H). destruct (Ha _ _ _ _ _ _ H) as (_ & _ & A).
      destruct (A EB) as (Ex & _). unfold getAdjCell, getAdjRank, getSide, getSideCell, getLGSide, getGLSide. rewrite !I2 by auto.
      cbn [m tm_adjCell tm_adjFace tm_adjProc tm_side tm_sideCell tm_nSides tm_lGSides tm_gLSides].
      rewrite Ex, (T _ _ _ _ O). split; auto. split; auto.
      pose proof (proj2 (isB'_spec P rank W a Ha _ _ _ _ O) EB) as E.
      assert (Hin : In (c, lf) (filter (isB' a) (loop2 nc 4))) by (apply filter_In; split; auto; apply in_loop2; auto).
      destruct (In_nth_error _ _ Hin) as (k & Hk). destruct (S2 _ _ _ _ _ Hk O) as (B1 & B2 & B3 & B4).
      exists k. assert (Lk : N.of_nat k < as_nSides a).
      { rewrite NS, S1. assert (k < length (filter (isB' a) (loop2 nc 4)))%nat by (apply nth_error_Some; congruence). lia. }
      rewrite (proj2 (N.ltb_lt _ _) Lk), B1, B2, B3, B4. auto.
    - intros k Hk. cbn [m tm_nSides] in Hk. rewrite NS, S1 in Hk.
      destruct (nth_error (filter (isB' a) (loop2 nc 4)) k) as [(c, lf)|] eqn:E; [|apply nth_error_None in E; lia].
      pose proof (nth_error_In _ _ E) as Hin. apply filter_In in Hin. destruct Hin as (Hin & EB). apply in_loop2 in Hin.
      destruct (opposite_ex P rank W c lf) as (f & F & O); try tauto. exists c, lf, f, F. split; auto.
      split; [now apply (isB'_spec P rank W a Ha _ _ _ _ O)|]. destruct (S2 _ _ _ _ _ E O) as (B1 & _).
      unfold getSide. rewrite I2 by tauto. cbn [m tm_side]. now rewrite B1.
    - intros c v. unfold getCellNode. cbn [m tm_cellNodes]. rewrite nth_error_map. destruct (nth_error (pt_cells P) c); reflexivity.
    - intros c. unfold getLGCell. cbn [m tm_lGCells]. rewrite nth_error_map. destruct (nth_error (pt_cells P) c); reflexivity.
    - intros c. unfold getCellMaterial. cbn [m tm_material]. rewrite nth_error_map. destruct (nth_error (pt_cells P) c); reflexivity.
    - reflexivity.
    - intros c lf f F C o v n O HC En Em. destruct (opp_lt _ _ _ _ O) as (L1 & L2).
      destruct (V c lf ltac:(apply in_loop2; auto) C f F o v n HC O En Em) as (M1 & M2). cbn [fst snd] in M1, M2.
      unfold getFaceToCellVrtx, getCellToFaceVrtx. rewrite I2 by auto. pose proof (nth_q3_lt _ _ _ En) as Lo. pose proof (nth_q4_lt _ _ _ Em) as Lv.
      rewrite (proj2 (Nat.ltb_lt _ _) Lo), (proj2 (Nat.ltb_lt _ _) Lv). cbn [andb].
      assert (v <> lf). { destruct O as (C1 & HC1 & _ & _ & _ & S). assert (C1 = C) by congruence. subst C1. apply (S v n Em). eapply nth_error_In; eauto. }
      rewrite (proj2 (Nat.eqb_neq _ _) H). cbn [negb m tm_ftc tm_ctf]. now rewrite M1, M2.
  Qed.

  Lemma face_node c lf f F C o : opposite P c lf f F -> nth_error (pt_cells P) c = Some C -> (o < 3)%nat ->
    exists n v, nth_error (q3l (pf_nodes F)) o = Some n /\ nth_error (q4l (pc_nodes C)) v = Some n.
  Proof using W. clear ltb Good WO GN.
    intros (C1 & HC1 & Hf & HF & _) HC Lo. assert (C1 = C) by congruence. subst C1.
    destruct (nth_q3 (pf_nodes F) o Lo) as (n & Hn). exists n.
    destruct (pw_face _ _ W c C f HC Hf) as (F' & HF' & _ & I). assert (F' = F) by congruence. subst F'.
    destruct (In_nth_error _ _ (I n (nth_error_In _ _ Hn))) as (v & Hv). eauto.
  Qed.
  Lemma cell_node c lf f F C v : opposite P c lf f F -> nth_error (pt_cells P) c = Some C -> (v < 4)%nat -> v <> lf ->
    exists n o, nth_error (q3l (pf_nodes F)) o = Some n /\ nth_error (q4l (pc_nodes C)) v = Some n.
  Proof using W. clear ltb Good WO GN.
    intros (C1 & HC1 & Hf & HF & _ & S) HC Lv Ne. assert (C1 = C) by congruence. subst C1.
    destruct (nth_q4 (pc_nodes C) v Lv) as (n & Hn). exists n.
    destruct (In_nth_error _ _ (proj2 (S v n Hn) Ne)) as (o & Ho). eauto.
  Qed.
  Lemma check_ok m : faithful m -> checkVrtxMaps m = true.
  Proof using W. clear ltb Good WO GN.
    intros FF. unfold checkVrtxMaps. apply forallb_forall. intros (c, lf) Hin. apply in_loop2 in Hin.
    rewrite (proj1 (ff_sizes m FF)) in Hin. destruct (opposite_ex P rank W c lf) as (f & F & O); try tauto.
    pose proof O as (C & HC & _). apply andb_true_intro. split; apply forallb_forall; intros k Hk; apply in_seq in Hk.
    - destruct (Nat.eqb_spec k lf) as [|Ne]; auto.
      destruct (cell_node _ _ _ _ C k O HC ltac:(lia) Ne) as (n & o & H1 & H2).
      destruct (ff_vrtx m FF _ _ _ _ _ _ _ _ O HC H1 H2) as (A & B). rewrite B, Nat2N.id, A. apply N.eqb_refl.
    - destruct (face_node _ _ _ _ C k O HC ltac:(lia)) as (n & v & H1 & H2).
      destruct (ff_vrtx m FF _ _ _ _ _ _ _ _ O HC H1 H2) as (A & B). rewrite A, Nat2N.id, B. apply N.eqb_refl.
  Qed.
  Lemma vrtx_maps m : faithful m -> forall c lf f F o n, opposite P c lf f F -> nth_error (q3l (pf_nodes F)) o = Some n ->
    exists v, getFaceToCellVrtx m c lf o = Some (N.of_nat v) /\ v <> lf /\ getCellNode m c v = Some n /\
      getCellToFaceVrtx m c lf v = Some (N.of_nat o).
  Proof using W. clear ltb Good WO GN.
    intros FF c lf f F o n O Hn. pose proof O as (C & HC & _ & _ & _ & S).
    destruct (face_node _ _ _ _ C o O HC (nth_q3_lt _ _ _ Hn)) as (n' & v & H1 & H2). assert (n' = n) by congruence. subst n'.
    destruct (ff_vrtx m FF _ _ _ _ _ _ _ _ O HC H1 H2) as (A & B). exists v. split; auto.
    split; [apply (S v n H2); eapply nth_error_In; eauto|]. split; auto. rewrite (ff_node m FF), HC. exact H2.
  Qed.
  Lemma find_node (q : q4 N) v n : NoDup (q4l q) -> nth_error (q4l q) v = Some n ->
    find (fun v => match nth_error (q4l q) v with Some x => x =? n | None => false end) (seq 0 4) = Some v.
  Proof. clear ltb Good WO GN.
    intros ND H. destruct (find _ _) as [v'|] eqn:E.
    - apply find_some in E. destruct E as (Hin & E). destruct (nth_error (q4l q) v') as [x|] eqn:Ex; [|discriminate].
      apply N.eqb_eq in E. subst x. f_equal. rewrite NoDup_nth_error in ND. apply ND; [apply nth_error_Some; congruence|congruence].
    - exfalso. pose proof (find_none _ _ E v) as X. cbn beta in X. rewrite H, N.eqb_refl in X.
      assert (true = false); [apply X; apply in_seq; apply nth_q4_lt in H; lia|discriminate].
  Qed.
  Lemma neighbor_ok m : faithful m -> forall c lf f F o n, opposite P c lf f F -> nth_error (q3l (pf_nodes F)) o = Some n ->
    if pf_bdry F =? NotBoundary then
      exists c' v', getAdjCell m c lf = Some (N.of_nat c') /\ neighborVrtx m c lf o = Some (N.of_nat v') /\ getCellNode m c' v' = Some n
    else neighborVrtx m c lf o = Some INVALID.
  Proof using W. clear ltb Good WO GN.
    intros FF c lf f F o n O Hn. destruct (vrtx_maps m FF c lf f F o n O Hn) as (v & A & _ & Nd & _).
    destruct (N.eqb_spec (pf_bdry F) NotBoundary) as [EB|EB].
    - destruct (ff_inner m FF _ _ _ _ O EB) as (c' & lf' & O' & _ & Ea & _). pose proof O' as (C' & HC' & _).
      destruct (face_node _ _ _ _ C' o O' HC' (nth_q3_lt _ _ _ Hn)) as (n' & v' & H1 & H2). assert (n' = n) by congruence. subst n'.
      exists c', v'. split; auto.
      assert (CN : getCellNode m c' v' = Some n) by (rewrite (ff_node m FF), HC'; exact H2). split; auto.
      unfold neighborVrtx. rewrite Ea. cbn [obind]. destruct (opp_lt _ _ _ _ O') as (L & _).
      destruct (N.eqb_spec (N.of_nat c') BOUNDARY_FACE) as [E|_]; [exfalso; eapply (of_nat_small P rank W c'); eauto|].
      rewrite A. cbn [obind]. rewrite Nat2N.id, Nd. cbn [obind]. unfold getCellVrtx. rewrite Nat2N.id.
      assert (QQ : nth_error (tm_cellNodes m) c' = Some (pc_nodes C')).
      { pose proof (ff_node m FF c') as G. unfold getCellNode in G. rewrite HC' in G. cbn [obind] in G.
        destruct (nth_error (tm_cellNodes m) c') as [q|]; cbn [obind] in G.
        - f_equal. destruct q as [a b d e], (pc_nodes C') as [a' b' d' e'].
          pose proof (G 0%nat). pose proof (G 1%nat). pose proof (G 2%nat). pose proof (G 3%nat). cbn in *. congruence.
        - specialize (G 0%nat). destruct (pc_nodes C'); discriminate. }
      rewrite QQ. cbn [obind]. rewrite (find_node _ v' n); auto. apply (proj1 (pw_cell _ _ W c' C' HC')).
    - destruct (ff_outer m FF _ _ _ _ O EB) as (Ea & _). unfold neighborVrtx. rewrite Ea. reflexivity.
  Qed.
End Final.
