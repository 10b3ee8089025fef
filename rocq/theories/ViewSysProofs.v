(** The meshes the ranks read fit together: hypotheses of the theorems about sweeps. *)
From Coq Require Import Permutation Sorted Reals Lra.
From Verif Require Import Prelude Bytes MeshModel MeshSpec CreateModel CreateSpec CreateProofs PropertiesCreate TychoModel TychoSpec
  TychoProofs TychoVrtxProofs TychoMeshProofs TychoCreatedProofs PropertiesTycho RefineSpec GeometryModel GeometrySpec GeometryProofs
  GaussModel TransportModel TransportSpec TraverseModel TraverseSpec TraverseRun SweepModel SweepSpec SweepProofs OrigSpec ViewModel ViewSpec ViewProofs ViewGeoProofs.

Section World.
  Context (sm : smesh) (pv : list N) (np : nat) (m : pmesh) (ltb : N -> N -> bool) (dec : N -> R) (t : nat -> tmesh).
  Context (OK : serial_mesh_ok sm) (TT : tets_ok sm) (PV : partition_vector_ok sm pv np) (CR : createFromSerialMesh sm pv np = Some m).
  Context (CMP : compares sm dec ltb).
  Context (RD : forall r, r < np -> exists P, PM_part m (N.of_nat r) = Some P /\ readTychoMesh ltb P (N.of_nat r) = Some (t r)).

  (** Vertices. *)
  Lemma vertex r c g sc v n : r < np -> getLGCell (t r) c = Some g -> SM_cell sm g = Some sc -> nth_error (q4l (sc_nodes sc)) v = Some n ->
    exists P nl, PM_part m (N.of_nat r) = Some P /\ getCellNode (t r) c v = Some nl /\ nodeGid P nl = Some n /\ nodePoint dec (t r) nl = s_point sm dec n.
  Proof.
    intros Hr HG HS Hv. destruct (rank_view sm pv np m ltb dec t OK TT PV CR CMP RD r Hr) as (P & HP & _ & _ & W & FF).
    rewrite (ff_lg _ _ _ FF) in HG. destruct (nth_error (pt_cells P) c) as [C|] eqn:HC; [|discriminate]. cbn in HG. apply Some_inj in HG. subst g.
    destruct (cell_info sm pv np m OK PV CR _ P HP c C HC) as (sc' & A & _ & _ & B & _). assert (sc' = sc) by congruence. subst sc'.
    destruct (map_nth_eq _ _ _ _ _ _ (eq_sym B) Hv) as (nl & Hn & E). exists P, nl. split; auto. split; [rewrite (ff_node _ _ _ FF), HC; exact Hn|]. split; [auto|].
    unfold nodePoint. rewrite (ff_coords _ _ _ FF). unfold nodeGid, P_node in E. rewrite nth_error_map. destruct (nth_error (pt_nodes P) (N.to_nat nl)) as [nd|] eqn:Hd; [|discriminate].
    cbn in E. apply Some_inj in E. destruct (C12_references sm pv np m _ P OK PV CR HP) as (_ & _ & K). destruct (K nd (nth_error_In _ _ Hd)) as (sn & S1 & S2).
    unfold s_point. rewrite E, S1. cbn. now rewrite S2.
  Qed.
  Lemma cellPoint_ok r c g sc v n : r < np -> getLGCell (t r) c = Some g -> SM_cell sm g = Some sc -> nth_error (q4l (sc_nodes sc)) v = Some n -> cellPoint dec (t r) c v = s_point sm dec n.
  Proof. intros Hr HG HS Hv. destruct (vertex r c g sc v n Hr HG HS Hv) as (P & nl & _ & A & _ & B). unfold cellPoint. rewrite A. exact B. Qed.
  Lemma cell_points r c g : r < np -> getLGCell (t r) c = Some g -> exists p, getCellVrtxCoords dec (t r) c = Some p /\ s_cell sm dec g p.
  Proof.
    intros Hr HG. destruct (gid_cell sm pv np m ltb dec t OK TT PV CR CMP RD r c g Hr HG) as (_ & _ & sc & _ & _ & _ & HS & _).
    destruct (s_cell_ex sm dec OK g sc HS) as (p & K). exists p. split; auto. destruct K as (sc' & HS' & E). assert (sc' = sc) by congruence. subst sc'.
    unfold getCellVrtxCoords. rewrite (cellPoint_ok r c g sc 0 _ Hr HG HS eq_refl), (cellPoint_ok r c g sc 1 _ Hr HG HS eq_refl), (cellPoint_ok r c g sc 2 _ Hr HG HS eq_refl), (cellPoint_ok r c g sc 3 _ Hr HG HS eq_refl).
    destruct (sc_nodes sc) as [n0 n1 n2 n3], p as [x y z w]. cbn in E |- *. injection E as -> -> -> ->. reflexivity.
  Qed.
  (** Vertex maps. *)
  Lemma face_maps r c g sc lf f sf k v n : r < np -> getLGCell (t r) c = Some g -> SM_cell sm g = Some sc -> s_opposite sm g lf f sf ->
    nth_error (q3l (sf_nodes sf)) k = Some n -> nth_error (q4l (sc_nodes sc)) v = Some n ->
    getFaceToCellVrtx (t r) c lf k = Some (N.of_nat v) /\ getCellToFaceVrtx (t r) c lf v = Some (N.of_nat k).
  Proof.
    intros Hr HG HS SO Hk Hv. destruct (vertex r c g sc v n Hr HG HS Hv) as (P' & nl & HP' & A & B & _).
    destruct (rank_view sm pv np m ltb dec t OK TT PV CR CMP RD r Hr) as (P & HP & _ & _ & W & FF). assert (P' = P) by congruence. subst P'. clear HP'.
    rewrite (ff_lg _ _ _ FF) in HG. destruct (nth_error (pt_cells P) c) as [C|] eqn:HC; [|discriminate]. cbn in HG. apply Some_inj in HG. subst g.
    destruct (serial_opposite sm pv np m OK PV CR _ P HP c C lf f sf HC SO) as (fl & F & O & EG). subst f.
    pose proof O as (C1 & HC1 & Hf & HF & L & S). destruct (face_info sm pv np m OK PV CR _ P HP fl F HF) as (sf' & HS' & Bn).
    assert (sf' = sf) by (destruct SO as (? & _ & _ & ? & _); congruence). subst sf'.
    destruct (map_nth_eq _ _ _ _ _ _ (eq_sym Bn) Hk) as (nl' & Hnl & En). symmetry in En. rewrite (node_by_gid sm pv np m OK PV CR _ P HP _ _ _ En B) in Hnl.
    rewrite (ff_node _ _ _ FF), HC in A. cbn [obind] in A. exact (ff_vrtx _ _ _ FF c lf fl F C k v nl O HC Hnl A).
  Qed.
  Lemma face_vertex g sc lf f sf k n : SM_cell sm g = Some sc -> s_opposite sm g lf f sf -> nth_error (q3l (sf_nodes sf)) k = Some n ->
    exists v, v < 4 /\ v <> lf /\ nth_error (q4l (sc_nodes sc)) v = Some n.
  Proof using OK.
    intros HS (sc' & A & I & B & L & S) Hk. assert (sc' = sc) by congruence. subst sc'. destruct (smo_cf sm OK g sc f A I) as (sf' & B' & _ & K). assert (sf' = sf) by congruence. subst sf'.
    pose proof (nth_error_In _ _ Hk) as Hin. destruct (In_nth_error _ _ (K n Hin)) as (v & Hv). exists v. split; [|split; auto].
    - assert (X : v < length (q4l (sc_nodes sc))) by (apply nth_error_Some; congruence). exact X.
    - now apply (S v n Hv).
  Qed.
  Lemma vertex_face g sc lf f sf v n : SM_cell sm g = Some sc -> s_opposite sm g lf f sf -> v <> lf -> nth_error (q4l (sc_nodes sc)) v = Some n ->
    exists k, k < 3 /\ nth_error (q3l (sf_nodes sf)) k = Some n.
  Proof using.
    clear. intros HS (sc' & A & I & B & L & S) Ne Hv. assert (sc' = sc) by congruence. subst sc'. apply (S v n Hv) in Ne. destruct (In_nth_error _ _ Ne) as (k & Hk). exists k. split; auto.
    assert (X : k < length (q3l (sf_nodes sf))) by (apply nth_error_Some; congruence). exact X.
  Qed.
  Lemma facePoint_ok r c g lf f sf k n : r < np -> getLGCell (t r) c = Some g -> s_opposite sm g lf f sf -> nth_error (q3l (sf_nodes sf)) k = Some n -> facePoint dec (t r) c lf k = s_point sm dec n.
  Proof.
    intros Hr HG SO Hk. assert (H : exists sc, SM_cell sm g = Some sc) by (destruct SO as (sc & ? & _); eauto). destruct H as (sc & HS).
    destruct (face_vertex g sc lf f sf k n HS SO Hk) as (v & Lv & Nv & Hv). destruct (face_maps r c g sc lf f sf k v n Hr HG HS SO Hk Hv) as (E & _).
    unfold facePoint. rewrite E. cbn [obind]. rewrite Nat2N.id. now apply (cellPoint_ok r c g sc).
  Qed.
  Lemma face_points r c g lf f sf : r < np -> getLGCell (t r) c = Some g -> s_opposite sm g lf f sf -> exists F, getFaceVrtxCoords dec (t r) c lf = Some F /\ s_face sm dec f F.
  Proof.
    intros Hr HG SO. destruct (s_face_ex sm dec OK g lf f sf SO) as (F & K). exists F. split; auto. destruct K as (sf' & HS' & E).
    assert (sf' = sf) by (destruct SO as (? & _ & _ & ? & _); congruence). subst sf'.
    unfold getFaceVrtxCoords. rewrite (facePoint_ok r c g lf f sf 0 _ Hr HG SO eq_refl), (facePoint_ok r c g lf f sf 1 _ Hr HG SO eq_refl), (facePoint_ok r c g lf f sf 2 _ Hr HG SO eq_refl).
    destruct (sf_nodes sf) as [n0 n1 n2], F as [x y z]. cbn in E |- *. injection E as -> -> ->. reflexivity.
  Qed.
  Lemma nodeOf_ok r c g sc v : getLGCell (t r) c = Some g -> SM_cell sm g = Some sc -> nodeOf sm t r c v = nth_error (q4l (sc_nodes sc)) v.
  Proof using. clear. intros A B. unfold nodeOf. rewrite A. cbn [obind]. now rewrite B. Qed.

  Context (SOL : solid sm dec).
  (** Geometry of a face. *)
  Lemma face_geo r c g lf : r < np -> lf < 4 -> getLGCell (t r) c = Some g -> exists f sf p F n,
    s_opposite sm g lf f sf /\ s_cell sm dec g p /\ s_face sm dec f F /\ face_of p lf F /\ getCellVrtxCoords dec (t r) c = Some p /\ getFaceVrtxCoords dec (t r) c lf = Some F /\
    getNormal Rops F p = Some n /\ outward_unit_normal p lf F n /\ vol6 p <> 0%R /\
    forall om a, faceArea Rops dec (t r) c lf = Some (sqrt (heron16 F) / 4)%R /\ getOmegaDotN Rops dec om (t r) a c lf = Some (dotR (om a) n).
  Proof.
    intros Hr L HG. destruct (gid_cell sm pv np m ltb dec t OK TT PV CR CMP RD r c g Hr HG) as (_ & _ & sc & _ & _ & _ & HS & _).
    destruct (opp_ex sm pv np m ltb dec t OK TT PV CR CMP RD g sc lf HS L) as (f & sf & SO). destruct (cell_points r c g Hr HG) as (p & Ep & Kp).
    destruct (face_points r c g lf f sf Hr HG SO) as (F & EF & KF). pose proof (s_face_of sm dec OK TT g lf f sf p F SO Kp KF) as FO.
    pose proof (sol_volume _ _ SOL g p Kp) as V. destruct (normal_face p lf F V FO) as (n & _ & _ & _ & _ & E & O & _).
    exists f, sf, p, F, n. split; auto. split; auto. split; auto. split; auto. split; auto. split; auto. split; auto. split; auto. split; auto.
    intros om a. unfold faceArea, getOmegaDotN. rewrite EF, Ep. cbn [option_map obind]. split; [now rewrite area_sqrt|]. unfold omegaDotN. rewrite E. reflexivity.
  Qed.
  Variable om : nat -> q3 R.
  Notation geo := (fun r => viewGeo Rops dec om (t r)).
  Notation M := (fun r => viewMesh Rops dec om (t r)).
  Lemma farea_eq r c f : f < 4 -> farea geo r c f = orZero Rops (faceArea Rops dec (t r) c f).
  Proof using. clear. intros L. destruct f as [|[|[|[|f]]]]; try reflexivity. lia. Qed.
  Lemma fom_eq r a c f : f < 4 -> fom geo r a c f = orZero Rops (getOmegaDotN Rops dec om (t r) a c f).
  Proof using. clear. intros L. destruct f as [|[|[|[|f]]]]; try reflexivity. lia. Qed.
  Lemma signed_ok r a c g lf : r < np -> lf < 4 -> getLGCell (t r) c = Some g -> s_signed sm dec (om a) g lf (sarea geo r a c lf).
  Proof.
    intros Hr L HG. destruct (face_geo r c g lf Hr L HG) as (f & sf & p & F & n & SO & Kp & KF & FO & Ep & EF & EN & O & V & K). destruct (K om a) as (K1 & K2).
    exists p, f, sf, F, n. split; auto. split; auto. split; auto. split; auto. unfold sarea. rewrite farea_eq, fom_eq by auto. rewrite K1, K2. reflexivity.
  Qed.
  Lemma signed_fun om0 g lf x y : s_signed sm dec om0 g lf x -> s_signed sm dec om0 g lf y -> x = y.
  Proof.
    intros (p & f & sf & F & n & A1 & A2 & A3 & A4 & ->) (q & f' & sf' & F' & n' & B1 & B2 & B3 & B4 & ->).
    rewrite (s_cell_fun _ _ _ _ _ B1 A1) in *. destruct (opp_fun sm pv np m ltb dec t OK TT PV CR CMP RD _ _ _ _ _ _ B2 A2) as (-> & ->). rewrite (s_face_fun _ _ _ _ _ B3 A3) in *.
    rewrite (normal_unique p lf F n n' (sol_volume _ _ SOL g p A1) (s_face_of sm dec OK TT g lf f sf p F A2 A1 A3) A4 B4). reflexivity.
  Qed.
  Lemma geo_pos r c g f : r < np -> f < 4 -> getLGCell (t r) c = Some g -> (0 < farea geo r c f)%R.
  Proof.
    intros Hr L HG. destruct (face_geo r c g f Hr L HG) as (f' & sf & p & F & n & SO & Kp & KF & FO & Ep & EF & EN & O & V & K). rewrite farea_eq by auto.
    destruct (K om 0) as (K1 & _). rewrite K1. cbn [orZero]. rewrite <- area_sqrt. now apply (area_pos p f F).
  Qed.
  Lemma out_ok r a c f : f < 4 -> rm_out (M r) a c f = true <-> (fom geo r a c f > 0)%R.
  Proof using. clear. intros L. rewrite fom_eq by auto. cbn. destruct (Rgt_dec _ _); split; auto; discriminate. Qed.
  Lemma sarea_sign r a c g f : r < np -> f < 4 -> getLGCell (t r) c = Some g -> (rm_out (M r) a c f = true <-> (sarea geo r a c f > 0)%R).
  Proof.
    intros Hr L HG. rewrite out_ok by auto. pose proof (geo_pos r c g f Hr L HG) as P. unfold sarea. split; intros H.
    - now apply Rmult_lt_0_compat.
    - destruct (Rgt_dec (fom geo r a c f) 0) as [|N]; auto. exfalso. assert (farea geo r c f * fom geo r a c f <= farea geo r c f * 0)%R by (apply Rmult_le_compat_l; lra). lra.
  Qed.
  (** The two cells at a face. *)
  Lemma matched r c f q c' f' a : mateOf sm np t (r, c, f) = Some (q, c', f') ->
    (farea geo r c f = farea geo q c' f' /\ fom geo r a c f = - fom geo q a c' f')%R.
  Proof.
    intros H. apply (mate_iff sm pv np m ltb dec t OK TT PV CR CMP RD) in H. destruct H as (Hr & Hq & L & L' & g & h & k & sf & HG & HH & O & O' & NE & _).
    destruct (face_geo r c g f Hr L HG) as (f1 & sf1 & p & F & n & SO & Kp & KF & FO & Ep & EF & EN & ON & V & K).
    destruct (face_geo q c' h f' Hq L' HH) as (f2 & sf2 & p2 & F2 & n2 & SO2 & Kp2 & KF2 & FO2 & Ep2 & EF2 & EN2 & ON2 & V2 & K2).
    destruct (opp_fun sm pv np m ltb dec t OK TT PV CR CMP RD _ _ _ _ _ _ SO O) as (-> & ->). destruct (opp_fun sm pv np m ltb dec t OK TT PV CR CMP RD _ _ _ _ _ _ SO2 O') as (-> & ->).
    rewrite (s_face_fun _ _ _ _ _ KF2 KF) in *.
    destruct (shared_faces p p2 f f' F F V V2 FO FO2 (Permutation_refl _) (fun x A B => sol_apart _ _ SOL g h p p2 x (fun E => NE (eq_sym E)) Kp Kp2 A B)) as (n0 & E1 & E2 & _).
    assert (n0 = n) by congruence. subst n0. assert (n2 = oppR n) by congruence. subst n2.
    rewrite !farea_eq, !fom_eq by auto. destruct (K om a) as (-> & ->). destruct (K2 om a) as (-> & ->). cbn [orZero]. split; auto. unfold dotR, oppR. cbn. lra.
  Qed.
  (** Adjacency as the sweepers see it. *)
  Lemma view_adj r c f : r < np -> c < tm_nCells (t r) -> f < 4 ->
    match mateOf sm np t (r, c, f) with
    | Some (q, c', f') => rm_adjRank (M r) c f = Some q /\
        if q =? r then rm_adjCell (M r) c f = Some c'
        else rm_adjCell (M r) c f = None
    | None => rm_adjCell (M r) c f = None /\ rm_adjRank (M r) c f = None
    end.
  Proof.
    intros Hr Hc L. destruct (gid_ex sm pv np m ltb dec t OK TT PV CR CMP RD r c Hr Hc) as (g & HG).
    destruct (rank_view sm pv np m ltb dec t OK TT PV CR CMP RD r Hr) as (P & HP & HR & ON & W & FF).
    destruct (face_cases sm pv np m ltb dec t OK TT PV CR CMP RD r c g f Hr L HG) as (n & sf & O & K).
    pose proof (C16_serial_adjacency ltb sm pv np m _ P (t r) OK TT PV CR HP ON HR c g f n sf HG O) as A. cbn zeta in A.
    destruct K as [(E & Em)|(NE & q & c' & f' & Em & HH)]; rewrite Em.
    - assert (X : owner pv (s_across sf g) = None).
      { rewrite E. unfold owner. apply nth_error_None. destruct PV as (PL & _). rewrite PL. pose proof (smo_cells sm OK) as Q. unfold lenN in Q. lia. }
      rewrite X in A. destruct A as (_ & A1 & A2 & _). cbn. rewrite A1, A2. split; reflexivity.
    - apply (mate_iff sm pv np m ltb dec t OK TT PV CR CMP RD) in Em. destruct Em as (_ & Hq & _).
      destruct (gid_cell sm pv np m ltb dec t OK TT PV CR CMP RD q c' _ Hq HH) as (_ & _ & _ & _ & _ & _ & _ & Ow & Hc' & _). rewrite Ow in A.
      assert (NQ : (N.of_nat q =? INVALID)%N = false) by (apply N.eqb_neq; destruct PV as (_ & _ & PL); unfold INVALID; lia).
      destruct (Nat.eqb_spec q r) as [->|Ne].
      + rewrite N.eqb_refl in A. destruct A as (d & lf' & A1 & A2 & _ & _ & A3 & _). cbn. rewrite A1, A3. cbn. rewrite NQ, Nat2N.id.
        destruct (gid_inj sm pv np m ltb dec t OK TT PV CR CMP RD r d r c' _ Hr Hr A2 HH) as (_ & ->). rewrite Nat2N.id.
        assert (NC : (N.of_nat c' =? INVALID)%N = false).
        { apply N.eqb_neq. rewrite (proj1 (ff_sizes _ _ _ FF)) in Hc'. pose proof (pw_size P _ W) as Q. unfold lenN in Q. lia. }
        rewrite NC. split; auto.
      + assert (NE2 : (N.of_nat q =? N.of_nat r)%N = false) by (apply N.eqb_neq; lia). rewrite NE2 in A. destruct A as (A1 & A2 & _). cbn. rewrite A1, A2. cbn. rewrite NQ, Nat2N.id. split; reflexivity.
  Qed.
  (** Sides. *)
  Lemma view_side r c g f n sf : r < np -> getLGCell (t r) c = Some g -> s_opposite sm g f n sf -> rm_adjCell (M r) c f = None ->
    rm_lgSide (M r) (rm_side (M r) c f) = n /\ rm_glSide (M r) n = Some (rm_side (M r) c f) /\ rm_sideCell (M r) (rm_side (M r) c f) = c.
  Proof.
    intros Hr HG O NA. destruct (gid_cell sm pv np m ltb dec t OK TT PV CR CMP RD r c g Hr HG) as (_ & _ & _ & _ & _ & _ & _ & _ & Hc & _).
    destruct (rank_view sm pv np m ltb dec t OK TT PV CR CMP RD r Hr) as (P & HP & HR & ON & W & FF).
    pose proof (C16_serial_adjacency ltb sm pv np m _ P (t r) OK TT PV CR HP ON HR c g f n sf HG O) as A. cbn zeta in A.
    assert (K : exists s, getSide (t r) c f = Some (N.of_nat s) /\ getLGSide (t r) s = Some n /\ getGLSide (t r) n = Some (N.of_nat s) /\ getSideCell (t r) s = Some (N.of_nat c)).
    { destruct (owner pv (s_across sf g)) as [q|]; [|apply A]. destruct (q =? N.of_nat r)%N; [exfalso|apply A].
      destruct A as (d & lf' & A1 & A2 & _). cbn in NA. rewrite A1 in NA. cbn in NA. destruct (N.eqb_spec (N.of_nat d) INVALID) as [E|]; [|discriminate].
      destruct (gid_cell sm pv np m ltb dec t OK TT PV CR CMP RD r d _ Hr A2) as (_ & _ & _ & _ & _ & _ & _ & _ & Hd & _).
      rewrite (proj1 (ff_sizes _ _ _ FF)) in Hd. pose proof (pw_size P _ W) as Q. unfold lenN in Q. lia. }
    destruct K as (s & K1 & K2 & K3 & K4). unfold getSide in K1. destruct (in2 (t r) c f); [|discriminate]. apply Some_inj in K1.
    unfold getLGSide in K2. destruct (N.of_nat s <? tm_nSides (t r))%N eqn:E; [|discriminate]. apply Some_inj in K2. unfold getSideCell in K4. rewrite E in K4. apply Some_inj in K4.
    cbn. rewrite K1, Nat2N.id, K2, K3, K4. cbn. rewrite !Nat2N.id. auto.
  Qed.
  Lemma view_sides_distinct : sides_distinct np M.
  Proof.
    intros r c f d h Hr Hc Lf Hd Lh A B E. destruct (gid_ex sm pv np m ltb dec t OK TT PV CR CMP RD r c Hr Hc) as (g & HG). destruct (gid_ex sm pv np m ltb dec t OK TT PV CR CMP RD r d Hr Hd) as (g' & HG').
    destruct (gid_cell sm pv np m ltb dec t OK TT PV CR CMP RD r c g Hr HG) as (_ & _ & sc & _ & _ & _ & HS & _). destruct (gid_cell sm pv np m ltb dec t OK TT PV CR CMP RD r d g' Hr HG') as (_ & _ & sc' & _ & _ & _ & HS' & _).
    destruct (opp_ex sm pv np m ltb dec t OK TT PV CR CMP RD g sc f HS Lf) as (n & sf & O). destruct (opp_ex sm pv np m ltb dec t OK TT PV CR CMP RD g' sc' h HS' Lh) as (n' & sf' & O').
    destruct (view_side r c g f n sf Hr HG O A) as (E1 & _). destruct (view_side r d g' h n' sf' Hr HG' O' B) as (E2 & _). rewrite E in E1. assert (EN : n' = n) by congruence. clear E1 E2. subst n'.
    destruct (N.eq_dec g' g) as [->|Ne].
    - split; [exact (proj2 (gid_inj sm pv np m ltb dec t OK TT PV CR CMP RD r c r d g Hr Hr HG HG'))|exact (opp_lf_inj sm g f h n sf sf' O O')].
    - exfalso. destruct (opp_two sm OK TT g f g' h n sf sf' O O' Ne) as (-> & AC). destruct (opp_two sm OK TT g' h g f n sf sf O' O (fun X => Ne (eq_sym X))) as (_ & AC').
      assert (T : mateOf sm np t (r, c, f) = Some (r, d, h)).
      { apply (mate_iff sm pv np m ltb dec t OK TT PV CR CMP RD). split; auto. split; auto. split; auto. split; auto. exists g, g', n, sf. auto 10. }
      pose proof (view_adj r c f Hr Hc Lf) as K. rewrite T, Nat.eqb_refl in K. destruct K as (_ & K). congruence.
  Qed.
  Variable nA : nat.
  Hypothesis TR : transversal sm dec nA om.
  Hypothesis SIZE : (N.of_nat nA * lenN (sm_cells sm) < two64)%N.
  Lemma cells_le r : r < np -> tm_nCells (t r) <= length (sm_cells sm).
  Proof.
    intros Hr. destruct (rank_view sm pv np m ltb dec t OK TT PV CR CMP RD r Hr) as (P & HP & _ & _ & _ & FF). rewrite (proj1 (ff_sizes _ _ _ FF)).
    assert (E : length (pt_cells P) = length (cellGids P)) by (unfold cellGids; now rewrite map_length). rewrite E.
    rewrite <- (seq_length (length (sm_cells sm)) 0), <- (map_length N.of_nat). apply NoDup_incl_length; [exact (nd_cells sm pv np m OK PV CR _ P HP)|].
    intros g Hg. destruct (cells_of sm pv np m OK PV CR _ P HP) as (_ & IFF). apply IFF in Hg. apply in_map_iff. exists (N.to_nat g). split; [lia|]. apply in_seq. split; [lia|].
    destruct Hg as ((sc & Hg) & _). cbn. apply nth_error_Some. unfold SM_cell in Hg. congruence.
  Qed.
  Lemma view_flow r c f q c' f' a : mateOf sm np t (r, c, f) = Some (q, c', f') -> a < nA -> rm_out (M r) a c f = negb (rm_out (M q) a c' f').
  Proof.
    intros H Ha. destruct (matched r c f q c' f' a H) as (_ & EO). apply (mate_iff sm pv np m ltb dec t OK TT PV CR CMP RD) in H. destruct H as (Hr & Hq & L & L' & g & h & k & sf & HG & HH & O & O' & NE & AC & _).
    assert (NI : h <> INVALID) by (destruct (gid_cell sm pv np m ltb dec t OK TT PV CR CMP RD q c' h Hq HH) as (_ & _ & _ & _ & _ & _ & _ & _ & _ & X); exact X).
    assert (NX : s_next sm g f h) by (exists k, sf; auto). pose proof (TR a g f h _ Ha NX (signed_ok r a c g f Hr L HG)) as NZ. unfold sarea in NZ.
    assert (NZ' : fom geo r a c f <> 0%R) by (intros Z; apply NZ; rewrite Z; lra).
    pose proof (out_ok r a c f L) as P1. pose proof (out_ok q a c' f' L') as P2.
    destruct (rm_out (M r) a c f), (rm_out (M q) a c' f'); cbn; auto; exfalso.
    - destruct P1 as (P1 & _), P2 as (P2 & _). specialize (P1 eq_refl). specialize (P2 eq_refl). lra.
    - destruct P1 as (_ & P1), P2 as (_ & P2). destruct (Rgt_dec (fom geo r a c f) 0) as [G|G]; [now discriminate (P1 G)|]. assert (G2 : (fom geo q a c' f' > 0)%R) by lra. now discriminate (P2 G2).
  Qed.
  Lemma view_sys : sys_ok np nA M (mateOf sm np t).
  Proof.
    constructor.
    - intros r c f y H. destruct y as [[q c'] f']. apply (mate_iff sm pv np m ltb dec t OK TT PV CR CMP RD) in H. destruct H as (Hr & _ & L & _ & g & _ & _ & _ & HG & _).
      split; auto. split; auto. destruct (gid_cell sm pv np m ltb dec t OK TT PV CR CMP RD r c g Hr HG) as (_ & _ & _ & _ & _ & _ & _ & _ & Hc & _). exact Hc.
    - intros x y H. apply (mate_iff sm pv np m ltb dec t OK TT PV CR CMP RD). apply touching_sym. now apply (mate_iff sm pv np m ltb dec t OK TT PV CR CMP RD).
    - intros r c f f' H. apply (mate_iff sm pv np m ltb dec t OK TT PV CR CMP RD) in H. destruct H as (_ & _ & _ & _ & g & h & _ & _ & HG & HH & _ & _ & NE & _). congruence.
    - intros r c f Hr Hc L. pose proof (view_adj r c f Hr Hc L) as K. destruct (mateOf sm np t (r, c, f)) as [[[q c'] f']|]; [|apply K]. destruct K as (_ & K). destruct (q =? r); exact K.
    - intros r c f Hr Hc L. pose proof (view_adj r c f Hr Hc L) as K. destruct (mateOf sm np t (r, c, f)) as [[[q c'] f']|]; apply K.
    - intros r c f q c' f' H Ne. pose proof H as H'. apply (mate_iff sm pv np m ltb dec t OK TT PV CR CMP RD) in H. destruct H as (Hr & Hq & L & L' & g & h & n & sf & HG & HH & O & O' & NE & AC & AC').
      destruct (gid_cell sm pv np m ltb dec t OK TT PV CR CMP RD r c g Hr HG) as (_ & _ & _ & _ & _ & _ & _ & _ & Hc & _). destruct (gid_cell sm pv np m ltb dec t OK TT PV CR CMP RD q c' h Hq HH) as (_ & _ & _ & _ & _ & _ & _ & _ & Hc' & _).
      pose proof (view_adj r c f Hr Hc L) as K. rewrite H' in K. rewrite (proj2 (Nat.eqb_neq q r) Ne) in K.
      assert (T : mateOf sm np t (q, c', f') = Some (r, c, f)).
      { apply (mate_iff sm pv np m ltb dec t OK TT PV CR CMP RD). split; auto. split; auto. split; auto. split; auto. exists h, g, n, sf. auto 10. }
      pose proof (view_adj q c' f' Hq Hc' L') as K'. rewrite T in K'. rewrite (proj2 (Nat.eqb_neq r q) (fun E => Ne (eq_sym E))) in K'.
      destruct (view_side r c g f n sf Hr HG O (proj2 K)) as (S1 & _). destruct (view_side q c' h f' n sf Hq HH O' (proj2 K')) as (_ & S2 & S3). rewrite S1. auto.
    - intros r c f q c' f' d h q' d' h' H Ne H2 Ne2 E.
      assert (X : forall c f q c' f', mateOf sm np t (r, c, f) = Some (q, c', f') -> q <> r -> r < np /\ c < tm_nCells (t r) /\ f < 4 /\ rm_adjCell (M r) c f = None).
      { clear -OK TT PV CR CMP RD. intros c f q c' f' H Ne. pose proof H as H'. apply (mate_iff sm pv np m ltb dec t OK TT PV CR CMP RD) in H. destruct H as (Hr & _ & L & _ & g & _ & _ & _ & HG & _).
        destruct (gid_cell sm pv np m ltb dec t OK TT PV CR CMP RD r c g Hr HG) as (_ & _ & _ & _ & _ & _ & _ & _ & Hc & _). split; auto. split; auto. split; auto.
        pose proof (view_adj r c f Hr Hc L) as K. rewrite H' in K. rewrite (proj2 (Nat.eqb_neq q r) Ne) in K. apply K. }
      destruct (X _ _ _ _ _ H Ne) as (Hr & Hc & L & A). destruct (X _ _ _ _ _ H2 Ne2) as (_ & Hd & L2 & A2). exact (view_sides_distinct r c f d h Hr Hc L Hd L2 A A2 E).
    - exact view_flow.
    - intros r Hr. cbn. pose proof (cells_le r Hr). eapply N.le_lt_trans; [|exact SIZE]. apply N.mul_le_mono_l. unfold lenN. lia.
  Qed.
  (** Volumes and closedness. *)
  Lemma volume_view r c g : r < np -> getLGCell (t r) c = Some g -> exists p, s_cell sm dec g p /\ rg_volume (geo r) c = (Rabs (vol6 p) / 6)%R /\ cellVolume Rops dec (t r) c = Some (Rabs (vol6 p) / 6)%R /\ vol6 p <> 0%R.
  Proof.
    intros Hr HG. destruct (cell_points r c g Hr HG) as (p & Ep & Kp). exists p. split; auto. cbn [viewGeo rg_volume]. unfold cellVolume. rewrite Ep. cbn [option_map orZero]. rewrite volume_ok. split; auto. split; auto. exact (sol_volume _ _ SOL g p Kp).
  Qed.
  Lemma closed_view r a c g : r < np -> getLGCell (t r) c = Some g -> sum4 (sarea geo r a c) = 0%R.
  Proof.
    intros Hr HG. destruct (cell_points r c g Hr HG) as (p & Ep & Kp). pose proof (sol_volume _ _ SOL g p Kp) as V.
    assert (X : forall lf, lf < 4 -> exists F n, face_of p lf F /\ getNormal Rops F p = Some n /\ sarea geo r a c lf = (getTriangleArea Rops F * dotR (om a) n)%R).
    { intros lf L. destruct (face_geo r c g lf Hr L HG) as (f & sf & p' & F & n & SO & Kp' & KF & FO & Ep' & EF & EN & O & _ & K). assert (p' = p) by congruence. subst p'. destruct (K om a) as (K1 & K2).
      exists F, n. split; auto. split; auto. unfold sarea. rewrite farea_eq, fom_eq by auto. rewrite K1, K2. cbn [orZero]. now rewrite area_sqrt. }
    destruct (X 0) as (F0 & n0 & A0 & B0 & C0); [lia|]. destruct (X 1) as (F1 & n1 & A1 & B1 & C1); [lia|]. destruct (X 2) as (F2 & n2 & A2 & B2 & C2); [lia|]. destruct (X 3) as (F3 & n3 & A3 & B3 & C3); [lia|].
    pose proof (closed_surface p (fun k => match k with 0 => F0 | 1 => F1 | 2 => F2 | _ => F3 end) (fun k => match k with 0 => n0 | 1 => n1 | 2 => n2 | _ => n3 end) V) as K. cbn zeta beta iota in K.
    assert (H : forall lf, lf < 4 -> face_of p lf (match lf with 0 => F0 | 1 => F1 | 2 => F2 | _ => F3 end) /\ getNormal Rops (match lf with 0 => F0 | 1 => F1 | 2 => F2 | _ => F3 end) p = Some (match lf with 0 => n0 | 1 => n1 | 2 => n2 | _ => n3 end)).
    { intros [|[|[|[|lf]]]] L; auto. lia. }
    specialize (K H). unfold sum4. rewrite C0, C1, C2, C3. pose proof (f_equal (@t0 R) K) as K1. pose proof (f_equal (@t1 R) K) as K2. pose proof (f_equal (@t2 R) K) as K3. unfold addR, scaleR, zeroR in K1, K2, K3. cbn [t0 t1 t2] in K1, K2, K3. unfold dotR.
    set (a0 := getTriangleArea Rops F0) in *. set (a1 := getTriangleArea Rops F1) in *. set (a2 := getTriangleArea Rops F2) in *. set (a3 := getTriangleArea Rops F3) in *.
    transitivity (t0 (om a) * (a0 * t0 n0 + a1 * t0 n1 + (a2 * t0 n2 + a3 * t0 n3)) + t1 (om a) * (a0 * t1 n0 + a1 * t1 n1 + (a2 * t1 n2 + a3 * t1 n3)) + t2 (om a) * (a0 * t2 n0 + a1 * t2 n1 + (a2 * t2 n2 + a3 * t2 n3)))%R; [ring|].
    rewrite K1, K2, K3. ring.
  Qed.
  (** Points shared by two cells. *)
  Lemma c2f_ok r c g sc f n sf j nd : r < np -> getLGCell (t r) c = Some g -> SM_cell sm g = Some sc -> s_opposite sm g f n sf -> j <> f -> nth_error (q4l (sc_nodes sc)) j = Some nd ->
    rg_c2f (geo r) c f j < 3 /\ nth_error (q3l (sf_nodes sf)) (rg_c2f (geo r) c f j) = Some nd.
  Proof.
    intros Hr HG HS O Ne Hj. destruct (vertex_face g sc f n sf j nd HS O Ne Hj) as (k & Lk & Hk). destruct (face_maps r c g sc f n sf k j nd Hr HG HS O Hk Hj) as (_ & E).
    cbn. rewrite E. cbn. rewrite Nat2N.id. auto.
  Qed.
  Lemma f2c_ok r c g sc f n sf k nd : r < np -> getLGCell (t r) c = Some g -> SM_cell sm g = Some sc -> s_opposite sm g f n sf -> nth_error (q3l (sf_nodes sf)) k = Some nd ->
    rg_f2c (geo r) c f k < 4 /\ rg_f2c (geo r) c f k <> f /\ nth_error (q4l (sc_nodes sc)) (rg_f2c (geo r) c f k) = Some nd.
  Proof.
    intros Hr HG HS O Hk. destruct (face_vertex g sc f n sf k nd HS O Hk) as (v & Lv & Nv & Hv). destruct (face_maps r c g sc f n sf k v nd Hr HG HS O Hk Hv) as (E & _).
    cbn. rewrite E. cbn. rewrite Nat2N.id. auto.
  Qed.
  Lemma nbr_ok r c g sc f n sf k nd c' h sh f' : r < np -> getLGCell (t r) c = Some g -> SM_cell sm g = Some sc -> s_opposite sm g f n sf -> nth_error (q3l (sf_nodes sf)) k = Some nd ->
    getLGCell (t r) c' = Some h -> SM_cell sm h = Some sh -> s_opposite sm h f' n sf -> rm_adjCell (M r) c f = Some c' ->
    let v := rg_nbr (geo r) c f k in v < 4 /\ v <> f' /\ nth_error (q4l (sc_nodes sh)) v = Some nd.
  Proof.
    intros Hr HG HS O Hk HH HS' O' AD. destruct (face_vertex h sh f' n sf k nd HS' O' Hk) as (v & Lv & Nv & Hv). 
    destruct (rank_view sm pv np m ltb dec t OK TT PV CR CMP RD r Hr) as (P & HP & HR & ON & W & FF).
    destruct (face_vertex g sc f n sf k nd HS O Hk) as (u & Lu & Nu & Hu). destruct (face_maps r c g sc f n sf k u nd Hr HG HS O Hk Hu) as (E & _).
    destruct (vertex r c g sc u nd Hr HG HS Hu) as (P1 & nl & HP1 & A1 & B1 & _). destruct (vertex r c' h sh v nd Hr HH HS' Hv) as (P2 & nl' & HP2 & A2 & B2 & _).
    assert (P1 = P) by congruence. assert (P2 = P) by congruence. subst P1 P2. rewrite (node_by_gid sm pv np m OK PV CR _ P HP _ _ _ B2 B1) in A2.
    assert (KK : neighborVrtx (t r) c f k = Some (N.of_nat v)); [|cbn; rewrite KK; cbn; rewrite Nat2N.id; auto].
    unfold neighborVrtx. cbn in AD. destruct (getAdjCell (t r) c f) as [x|] eqn:EA; [|discriminate]. cbn in AD. change BOUNDARY_FACE with INVALID. destruct (N.eqb_spec x INVALID); [discriminate|].
    apply Some_inj in AD. cbn [obind]. destruct (N.eqb_spec x INVALID); [easy|]. rewrite E. cbn [obind]. rewrite Nat2N.id, A1. cbn [obind]. rewrite AD.
    (* getCellVrtx finds the vertex *)
    pose proof (neighbor_ok P _ W (t r) FF) as NOK.
    pose proof HG as HG1. rewrite (ff_lg _ _ _ FF) in HG1. destruct (nth_error (pt_cells P) c) as [C|] eqn:HC; [|discriminate]. cbn in HG1. apply Some_inj in HG1. subst g.
    destruct (serial_opposite sm pv np m OK PV CR _ P HP c C f n sf HC O) as (fl & F & OL & EG). pose proof OL as (C1 & HC1 & Hf & HF & L & S). destruct (face_info sm pv np m OK PV CR _ P HP fl F HF) as (sf' & HSf & Bn).
    assert (sf' = sf) by (destruct O as (? & _ & _ & ? & _); congruence). subst sf'. destruct (map_nth_eq _ _ _ _ _ _ (eq_sym Bn) Hk) as (nl2 & Hnl & En). symmetry in En.
    rewrite (node_by_gid sm pv np m OK PV CR _ P HP _ _ _ En B1) in Hnl. specialize (NOK c f fl F k nl OL Hnl). destruct (pf_bdry F =? NotBoundary)%N.
    - destruct NOK as (c2 & v2 & N1 & N2 & N3). assert (c2 = c') by (rewrite EA in N1; apply Some_inj in N1; subst x; rewrite <- AD; lia). subst c2.
      assert (v2 = v).
      { rewrite (ff_node _ _ _ FF) in A2, N3. destruct (nth_error (pt_cells P) c') as [C'|] eqn:HC'; [|discriminate]. cbn [obind] in A2, N3. destruct (pw_cell P _ W c' C' HC') as (ND & _).
        apply (proj1 (NoDup_nth_error _) ND); [apply nth_error_Some|]; congruence. }
      subst v2. unfold neighborVrtx in N2. rewrite EA in N2. cbn [obind] in N2. change BOUNDARY_FACE with INVALID in N2. destruct (N.eqb_spec x INVALID); [easy|]. rewrite E in N2. cbn [obind] in N2. rewrite Nat2N.id, A1 in N2. cbn [obind] in N2. rewrite AD in N2. exact N2.
    - exfalso. unfold neighborVrtx in NOK. rewrite EA in NOK. cbn [obind] in NOK. change BOUNDARY_FACE with INVALID in NOK. destruct (N.eqb_spec x INVALID); [easy|]. rewrite E in NOK. cbn [obind] in NOK. rewrite Nat2N.id, A1 in NOK. cbn [obind] in NOK.
      unfold getCellVrtx in NOK. destruct (nth_error (tm_cellNodes (t r)) (N.to_nat x)) as [qd|]; [|discriminate]. cbn [obind] in NOK. apply Some_inj in NOK. revert NOK. clear.
      destruct (find _ (seq 0 4)) as [w|] eqn:Ew; [apply find_some in Ew; destruct Ew as (Ew & _); apply in_seq in Ew|]; unfold INVALID; lia.
  Qed.
  Lemma nth4 {X} (q : q4 X) j : j < 4 -> exists n, nth_error (q4l q) j = Some n.
  Proof using. clear. intros L. destruct j as [|[|[|[|j]]]]; cbn; eauto. lia. Qed.
  Lemma nth3 {X} (q : q3 X) j : j < 3 -> exists n, nth_error (q3l q) j = Some n.
  Proof using. clear. intros L. destruct j as [|[|[|j]]]; cbn; eauto. lia. Qed.
  Lemma view_geo : geo_fits np nA (fun r => rm_nCells (M r)) (fun r => rm_out (M r)) (mateOf sm np t) (nodeOf sm t) (fun r => rg_volume (geo r)) (farea geo) (fom geo)
    (fun r => rg_c2f (geo r)) (fun r => rg_f2c (geo r)) (fun r => rg_nbr (geo r)).
  Proof.
    constructor.
    - intros r a c f Hr Ha Hc L. now apply out_ok.
    - intros r c f Hr Hc L. destruct (gid_ex sm pv np m ltb dec t OK TT PV CR CMP RD r c Hr Hc) as (g & HG). exact (geo_pos r c g f Hr L HG).
    - intros r c Hr Hc. destruct (gid_ex sm pv np m ltb dec t OK TT PV CR CMP RD r c Hr Hc) as (g & HG). destruct (volume_view r c g Hr HG) as (p & _ & E & _ & V). rewrite E. apply Rabs_pos_lt in V. lra.
    - intros r a c Hr Ha Hc. destruct (gid_ex sm pv np m ltb dec t OK TT PV CR CMP RD r c Hr Hc) as (g & HG). exact (closed_view r a c g Hr HG).
    - intros r c f c' f' j H Lj Ne k. pose proof (so_range _ _ _ _ view_sys _ _ _ _ H) as (Hr & Hc & Lf). pose proof (view_adj r c f Hr Hc Lf) as AD. rewrite H, Nat.eqb_refl in AD. destruct AD as (_ & AD).
      apply (mate_iff sm pv np m ltb dec t OK TT PV CR CMP RD) in H. destruct H as (_ & _ & _ & L' & g & h & n & sf & HG & HH & O & O' & NE & AC & _). clear AC.
      destruct (gid_cell sm pv np m ltb dec t OK TT PV CR CMP RD r c g Hr HG) as (_ & _ & sc & _ & _ & _ & HS & _). destruct (gid_cell sm pv np m ltb dec t OK TT PV CR CMP RD r c' h Hr HH) as (_ & _ & sh & _ & _ & _ & HS' & _).
      destruct (nth4 (sc_nodes sc) j Lj) as (nd & Hj). destruct (c2f_ok r c g sc f n sf j nd Hr HG HS O Ne Hj) as (_ & Hk).
      destruct (nbr_ok r c g sc f n sf _ nd c' h sh f' Hr HG HS O Hk HH HS' O' AD) as (V1 & V2 & V3). fold k in V1, V2, V3. split; auto. split; auto.
      rewrite (nodeOf_ok r c' h sh k HH HS'), (nodeOf_ok r c g sc j HG HS). congruence.
    - intros r c f q c' f' j H Nq Lj Ne k.
      apply (mate_iff sm pv np m ltb dec t OK TT PV CR CMP RD) in H. destruct H as (Hr & Hq & L & L' & g & h & n & sf & HG & HH & O & O' & NE & AC & _). clear AC.
      destruct (gid_cell sm pv np m ltb dec t OK TT PV CR CMP RD r c g Hr HG) as (_ & _ & sc & _ & _ & _ & HS & _). destruct (gid_cell sm pv np m ltb dec t OK TT PV CR CMP RD q c' h Hq HH) as (_ & _ & sh & _ & _ & _ & HS' & _).
      destruct (nth4 (sc_nodes sc) j Lj) as (nd & Hj). destruct (c2f_ok r c g sc f n sf j nd Hr HG HS O Ne Hj) as (_ & Hk).
      destruct (f2c_ok q c' h sh f' n sf _ nd Hq HH HS' O' Hk) as (V1 & V2 & V3). fold k in V1, V2, V3. split; auto. split; auto.
      rewrite (nodeOf_ok q c' h sh k HH HS'), (nodeOf_ok r c g sc j HG HS). congruence.
  Qed.
  Lemma view_faces_match r c f q c' f' a : mateOf sm np t (r, c, f) = Some (q, c', f') -> sarea geo r a c f = (- sarea geo q a c' f')%R.
  Proof. intros H. destruct (matched r c f q c' f' a H) as (E1 & E2). unfold sarea. rewrite E1, E2. ring. Qed.
  Lemma view_face_vertices :
    (forall r c f j, r < np -> c < tm_nCells (t r) -> f < 4 -> j < 4 -> j <> f -> rg_c2f (geo r) c f j < 3) /\
    (forall r c f fv, r < np -> c < tm_nCells (t r) -> f < 4 -> fv < 3 -> rg_f2c (geo r) c f fv < 4).
  Proof.
    split; intros r c f j Hr Hc Lf Lj; [intros Ne|]; destruct (gid_ex sm pv np m ltb dec t OK TT PV CR CMP RD r c Hr Hc) as (g & HG);
      destruct (gid_cell sm pv np m ltb dec t OK TT PV CR CMP RD r c g Hr HG) as (_ & _ & sc & _ & _ & _ & HS & _); destruct (opp_ex sm pv np m ltb dec t OK TT PV CR CMP RD g sc f HS Lf) as (n & sf & O).
    - destruct (nth4 (sc_nodes sc) j Lj) as (nd & Hj). exact (proj1 (c2f_ok r c g sc f n sf j nd Hr HG HS O Ne Hj)).
    - destruct (nth3 (sf_nodes sf) j Lj) as (nd & Hj). exact (proj1 (f2c_ok r c g sc f n sf j nd Hr HG HS O Hj)).
  Qed.
  Lemma view_nodes r c v w : r < np -> c < tm_nCells (t r) -> v < 4 -> w < 4 -> nodeOf sm t r c v = nodeOf sm t r c w -> v = w.
  Proof.
    intros Hr Hc Lv Lw E. destruct (gid_ex sm pv np m ltb dec t OK TT PV CR CMP RD r c Hr Hc) as (g & HG). destruct (gid_cell sm pv np m ltb dec t OK TT PV CR CMP RD r c g Hr HG) as (_ & _ & sc & _ & _ & _ & HS & _).
    rewrite !(nodeOf_ok r c g sc _ HG HS) in E. apply (proj1 (NoDup_nth_error _) (to_cell sm TT g sc HS)); auto.
  Qed.
  Lemma view_acyclic : s_acyclic sm dec nA om -> acyclic Forward true np nA M (mateOf sm np t).
  Proof.
    intros (lvl & LV). exists (fun r c a => match getLGCell (t r) c with Some g => lvl a g | None => 0 end).
    intros a r c q c' Ha (Hr & Hc & f & f' & L & H & IN & _). pose proof (view_flow r c f q c' f' a H Ha) as FL.
    apply (mate_iff sm pv np m ltb dec t OK TT PV CR CMP RD) in H. destruct H as (_ & Hq & _ & L' & g & h & n & sf & HG & HH & O & O' & NE & AC & _). rewrite HG, HH.
    destruct (gid_cell sm pv np m ltb dec t OK TT PV CR CMP RD q c' h Hq HH) as (_ & _ & _ & _ & _ & _ & _ & _ & _ & NI). assert (NX : s_next sm g f h) by (exists n, sf; auto).
    apply (LV a g f h (sarea geo r a c f) Ha NX); [exact (signed_ok r a c g f Hr L HG)|].
    pose proof (TR a g f h _ Ha NX (signed_ok r a c g f Hr L HG)) as NZ. pose proof (sarea_sign r a c g f Hr L HG) as SS.
    destruct (rm_out (M r) a c f) eqn:E; [unfold isIncoming in IN; cbn in IN, E; rewrite E in IN; discriminate|]. destruct SS as (_ & SS). destruct (Rgt_dec (sarea geo r a c f) 0) as [G|G]; [now discriminate (SS G)|lra].
  Qed.
  Lemma view_constructs r : r < np -> constructs Rops dec om (t r) nA = true.
  Proof.
    intros Hr. destruct (rank_view sm pv np m ltb dec t OK TT PV CR CMP RD r Hr) as (P & HP & HR & ON & W & FF). unfold constructs. apply Bool.andb_true_iff. split; [apply Bool.andb_true_iff; split|].
    - apply forallb_forall. intros c Hc. apply in_seq in Hc. destruct (gid_ex sm pv np m ltb dec t OK TT PV CR CMP RD r c Hr ltac:(lia)) as (g & HG). destruct (volume_view r c g Hr HG) as (p & _ & _ & E & _). now rewrite E.
    - apply forallb_forall. intros (c, f) H. unfold loop2 in H. apply in_prod_iff in H. destruct H as (Hc & Hf). apply in_seq in Hc, Hf. cbn [fst snd].
      destruct (gid_ex sm pv np m ltb dec t OK TT PV CR CMP RD r c Hr ltac:(lia)) as (g & HG). destruct (face_geo r c g f Hr ltac:(lia) HG) as (n & sf & p & F & nn & SO & Kp & KF & FO & Ep & EF & EN & O & V & K).
      apply Bool.andb_true_iff. split; [apply Bool.andb_true_iff; split|].
      + destruct (K om 0) as (K1 & _). now rewrite K1.
      + apply forallb_forall. intros a _. destruct (K om a) as (_ & K2). now rewrite K2.
      + apply forallb_forall. intros k Hk. apply in_seq in Hk. pose proof (neighbor_ok P _ W (t r) FF) as NOK.
        pose proof HG as HG1. rewrite (ff_lg _ _ _ FF) in HG1. destruct (nth_error (pt_cells P) c) as [C|] eqn:HC; [|discriminate]. cbn in HG1. apply Some_inj in HG1. subst g.
        destruct (serial_opposite sm pv np m OK PV CR _ P HP c C f n sf HC SO) as (fl & FL & OL & EG). destruct (nth3 (pf_nodes FL) k ltac:(lia)) as (nl & Hnl). specialize (NOK c f fl FL k nl OL Hnl).
        destruct (pf_bdry FL =? NotBoundary)%N; [destruct NOK as (_ & v' & _ & NOK & _)|]; now rewrite NOK.
    - exact (check_ok P _ W (t r) FF).
  Qed.
End World.
