(** The meshes the ranks read, for an arbitrary arithmetic: a sweep computes the recursion of the serial mesh. *)
From Coq Require Import Permutation Reals.
From Verif Require Import Prelude Bytes MeshModel MeshSpec CreateModel CreateSpec CreateProofs PropertiesCreate TychoModel TychoSpec
  TychoProofs TychoVrtxProofs TychoMeshProofs TychoCreatedProofs PropertiesTycho GeometryModel GaussModel TransportModel
  TraverseModel TraverseSpec TraverseRun SweepModel SweepSpec OrigSpec ViewModel ViewSpec ViewProofs ViewGeoProofs ViewSysProofs BitsSpec PropertiesTraverse.

(** The cell solver reads its data at the vertices that exist. *)
Section Ext.
  Context {T : Type} (A : arith T) (gs : gaussElim).
  Lemma rhs_ext V area c2f c2f' pb pb' s s' :
    (forall f j, f < 4 -> j < 4 -> j <> f -> pb (c2f f j) f = pb' (c2f' f j) f) -> (forall v, v < 4 -> s v = s' v) ->
    cellRhs A V area c2f pb s = cellRhs A V area c2f' pb' s'.
  Proof.
    intros H K. unfold cellRhs, calcSource. rewrite (K 0), (K 1), (K 2), (K 3) by lia. unfold calcIncomingFlux.
    assert (E0 : forall x, incoming0 A c2f area pb x = incoming0 A c2f' area pb' x).
    { intros x. unfold incoming0. rewrite (H 0 1), (H 0 2), (H 0 3) by lia. reflexivity. }
    assert (E1 : forall x, incoming1 A c2f area pb x = incoming1 A c2f' area pb' x).
    { intros x. unfold incoming1. rewrite (H 1 0), (H 1 2), (H 1 3) by lia. reflexivity. }
    assert (E2 : forall x, incoming2 A c2f area pb x = incoming2 A c2f' area pb' x).
    { intros x. unfold incoming2. rewrite (H 2 0), (H 2 1), (H 2 3) by lia. reflexivity. }
    assert (E3 : forall x, incoming3 A c2f area pb x = incoming3 A c2f' area pb' x).
    { intros x. unfold incoming3. rewrite (H 3 0), (H 3 1), (H 3 2) by lia. reflexivity. }
    rewrite E0, E1, E2, E3. reflexivity.
  Qed.
  Lemma solve_ext nG V fa on s c2f c2f' pb pb' q q' p0 :
    (forall f j G, f < 4 -> j < 4 -> j <> f -> G < nG -> pb (c2f f j) f G = pb' (c2f' f j) f G) -> (forall v G, v < 4 -> G < nG -> q v G = q' v G) ->
    solve A gs nG V fa on s c2f pb q p0 = solve A gs nG V fa on s c2f' pb' q' p0.
  Proof.
    intros H K. unfold solve. assert (X : forall l st, (forall G, In G l -> G < nG) ->
      fold_left (fun st group => let* p := st in let* sol := solveGroup A gs V (signedAreas A fa on) s c2f (fun fv f => pb fv f group) (fun v => q v group) in Some (putGroup p group sol)) l st =
      fold_left (fun st group => let* p := st in let* sol := solveGroup A gs V (signedAreas A fa on) s c2f' (fun fv f => pb' fv f group) (fun v => q' v group) in Some (putGroup p group sol)) l st).
    { induction l as [|G l IH]; intros st HL; [reflexivity|]. cbn [fold_left]. rewrite IH by (intros; apply HL; now right). f_equal. destruct st as [p|]; [cbn [obind]|reflexivity].
      assert (LG : G < nG) by (apply HL; now left).
      assert (E : solveGroup A gs V (signedAreas A fa on) s c2f (fun fv f => pb fv f G) (fun v => q v G) = solveGroup A gs V (signedAreas A fa on) s c2f' (fun fv f => pb' fv f G) (fun v => q' v G)).
      { unfold solveGroup. rewrite (rhs_ext V (signedAreas A fa on) c2f c2f' (fun fv f => pb fv f G) (fun fv f => pb' fv f G) (fun v => q v G) (fun v => q' v G)); auto. }
      now rewrite E. }
    apply X. intros G I. apply in_seq in I. lia.
  Qed.
End Ext.

Lemma vsame_refl {T} nG (x : value T) : vsame nG x x.
Proof. destruct x; cbn; auto. Qed.
Lemma vsame_sym {T} nG (x y : value T) : vsame nG x y -> vsame nG y x.
Proof. destruct x, y; cbn; auto. intros H v G L L'. symmetry. auto. Qed.
Lemma vsame_trans {T} nG (x y z : value T) : vsame nG x y -> vsame nG y z -> vsame nG x z.
Proof. destruct x, y, z; cbn; auto; try easy. intros H K v G L L'. rewrite H; auto. Qed.
Lemma vsame_get {T} (A : arith T) nG (x y : value T) v G : vsame nG x y -> v < 4 -> G < nG -> getBlock A x v G = getBlock A y v G.
Proof. destruct x, y; cbn; auto; easy. Qed.

Section World.
  Context (sm : smesh) (pv : list N) (np : nat) (m : pmesh) (ltb : N -> N -> bool) (dec : N -> R) (t : nat -> tmesh).
  Context (OK : serial_mesh_ok sm) (TT : tets_ok sm) (PV : partition_vector_ok sm pv np) (CR : createFromSerialMesh sm pv np = Some m).
  Context (CMP : compares sm dec ltb).
  Context (RD : forall r, r < np -> exists P, PM_part m (N.of_nat r) = Some P /\ readTychoMesh ltb P (N.of_nat r) = Some (t r)).
  Context {T : Type} (A : arith T) (decT : N -> T) (om : nat -> q3 T).
  Notation geo := (fun r => viewGeo A decT om (t r)).
  Notation M := (fun r => viewMesh A decT om (t r)).

  (** Points. *)
  Lemma bvertex r c g sc v n : r < np -> getLGCell (t r) c = Some g -> SM_cell sm g = Some sc -> nth_error (q4l (sc_nodes sc)) v = Some n -> cellPoint decT (t r) c v = b_point sm decT n.
  Proof.
    intros Hr HG HS Hv. destruct (vertex sm pv np m ltb dec t OK TT PV CR CMP RD r c g sc v n Hr HG HS Hv) as (P & nl & HP & EN & E & _).
    destruct (rank_view sm pv np m ltb dec t OK TT PV CR CMP RD r Hr) as (P' & HP' & _ & _ & W & FF). assert (P' = P) by congruence. subst P'.
    unfold cellPoint. rewrite EN. cbn [obind]. unfold nodePoint. rewrite (ff_coords _ _ _ FF). unfold nodeGid, P_node in E. rewrite nth_error_map. destruct (nth_error (pt_nodes P) (N.to_nat nl)) as [nd|] eqn:Hd; [|discriminate].
    cbn in E. apply Some_inj in E. destruct (C12_references sm pv np m _ P OK PV CR HP) as (_ & _ & K). destruct (K nd (nth_error_In _ _ Hd)) as (sn & S1 & S2).
    unfold b_point. rewrite <- E, S1. cbn. now rewrite S2.
  Qed.
  Lemma bcell r c g : r < np -> getLGCell (t r) c = Some g -> getCellVrtxCoords decT (t r) c = b_cell sm decT g.
  Proof.
    intros Hr HG. destruct (gid_cell sm pv np m ltb dec t OK TT PV CR CMP RD r c g Hr HG) as (_ & _ & sc & _ & _ & _ & HS & _).
    unfold getCellVrtxCoords, b_cell. rewrite HS. cbn [obind].
    rewrite (bvertex r c g sc 0 _ Hr HG HS eq_refl), (bvertex r c g sc 1 _ Hr HG HS eq_refl), (bvertex r c g sc 2 _ Hr HG HS eq_refl), (bvertex r c g sc 3 _ Hr HG HS eq_refl). reflexivity.
  Qed.
  Lemma bfacePoint r c g lf f sf k n : r < np -> getLGCell (t r) c = Some g -> s_opposite sm g lf f sf -> nth_error (q3l (sf_nodes sf)) k = Some n -> facePoint decT (t r) c lf k = b_point sm decT n.
  Proof.
    intros Hr HG SO Hk. assert (H : exists sc, SM_cell sm g = Some sc) by (destruct SO as (sc & ? & _); eauto). destruct H as (sc & HS).
    destruct (face_vertex sm OK g sc lf f sf k n HS SO Hk) as (v & Lv & Nv & Hv). destruct (face_maps sm pv np m ltb dec t OK TT PV CR CMP RD r c g sc lf f sf k v n Hr HG HS SO Hk Hv) as (E & _).
    unfold facePoint. rewrite E. cbn [obind]. rewrite Nat2N.id. now apply (bvertex r c g sc).
  Qed.
  Lemma bface r c g lf : r < np -> lf < 4 -> getLGCell (t r) c = Some g -> getFaceVrtxCoords decT (t r) c lf = b_face sm decT g lf.
  Proof.
    intros Hr L HG. destruct (gid_cell sm pv np m ltb dec t OK TT PV CR CMP RD r c g Hr HG) as (_ & _ & sc & _ & _ & _ & HS & _).
    destruct (opp_ex sm pv np m ltb dec t OK TT PV CR CMP RD g sc lf HS L) as (f & sf & SO). unfold b_face.
    rewrite (proj2 (faceNumber_iff sm pv np m ltb dec t OK TT PV CR CMP RD g lf f L) (ex_intro _ sf SO)). cbn [obind]. assert (HF : SM_face sm f = Some sf) by (destruct SO as (? & _ & _ & X & _); exact X). rewrite HF. cbn [obind].
    unfold getFaceVrtxCoords. rewrite (bfacePoint r c g lf f sf 0 _ Hr HG SO eq_refl), (bfacePoint r c g lf f sf 1 _ Hr HG SO eq_refl), (bfacePoint r c g lf f sf 2 _ Hr HG SO eq_refl). reflexivity.
  Qed.
  (** Geometry. *)
  Lemma bvolume_ok r c g : r < np -> getLGCell (t r) c = Some g -> rg_volume (geo r) c = b_volume A sm decT g.
  Proof. intros Hr HG. cbn [viewGeo rg_volume]. unfold cellVolume, b_volume. now rewrite (bcell r c g Hr HG). Qed.
  Lemma barea1 r c g f : r < np -> f < 4 -> getLGCell (t r) c = Some g -> orZero A (faceArea A decT (t r) c f) = b_area A sm decT g f.
  Proof. intros Hr L HG. unfold faceArea, b_area. now rewrite (bface r c g f Hr L HG). Qed.
  Lemma bomN1 r a c g f : r < np -> f < 4 -> getLGCell (t r) c = Some g -> orZero A (getOmegaDotN A decT om (t r) a c f) = b_omN A sm decT om a g f.
  Proof. intros Hr L HG. unfold getOmegaDotN, b_omN. now rewrite (bface r c g f Hr L HG), (bcell r c g Hr HG). Qed.
  Lemma barea_ok r c g : r < np -> getLGCell (t r) c = Some g -> rg_area (geo r) c = four (b_area A sm decT g).
  Proof. intros Hr HG. cbn [viewGeo rg_area]. unfold four. rewrite !(barea1 r c g) by (lia || auto). reflexivity. Qed.
  Lemma bomN_ok r a c g : r < np -> getLGCell (t r) c = Some g -> rg_omN (geo r) a c = four (b_omN A sm decT om a g).
  Proof. intros Hr HG. cbn [viewGeo rg_omN]. unfold four. rewrite !(bomN1 r a c g) by (lia || auto). reflexivity. Qed.
  Lemma bout_ok r a c g f : r < np -> f < 4 -> getLGCell (t r) c = Some g -> rm_out (M r) a c f = b_out A sm decT om a g f.
  Proof. intros Hr L HG. cbn [viewMesh rm_out]. unfold b_out. now rewrite (bomN1 r a c g f Hr L HG). Qed.

  Variable nA : nat.
  Hypothesis SIZE : (N.of_nat nA * lenN (sm_cells sm) < two64)%N.
  (** The system of the ranks. *)
  Notation omR := (fun _ : nat => Q3 0%R 0%R 0%R).
  Lemma badj r c f : r < np -> c < tm_nCells (t r) -> f < 4 ->
    match mateOf sm np t (r, c, f) with
    | Some (q, c', f') => rm_adjRank (M r) c f = Some q /\ if q =? r then rm_adjCell (M r) c f = Some c' else rm_adjCell (M r) c f = None
    | None => rm_adjCell (M r) c f = None /\ rm_adjRank (M r) c f = None
    end.
  Proof. exact (view_adj sm pv np m ltb dec t OK TT PV CR CMP RD omR r c f). Qed.
  Lemma bside r c g f n sf : r < np -> getLGCell (t r) c = Some g -> s_opposite sm g f n sf -> rm_adjCell (M r) c f = None ->
    rm_lgSide (M r) (rm_side (M r) c f) = n /\ rm_glSide (M r) n = Some (rm_side (M r) c f) /\ rm_sideCell (M r) (rm_side (M r) c f) = c.
  Proof. exact (view_side sm pv np m ltb dec t OK TT PV CR CMP RD omR r c g f n sf). Qed.
  Lemma bsides : sides_distinct np M.
  Proof. exact (view_sides_distinct sm pv np m ltb dec t OK TT PV CR CMP RD omR). Qed.
  Lemma bfit (SF : signs_fit A sm decT om nA) : sys_fit Forward np nA M (mateOf sm np t).
  Proof.
    constructor.
    - intros r c f y H. destruct y as [[q c'] f']. apply (mate_iff sm pv np m ltb dec t OK TT PV CR CMP RD) in H. destruct H as (Hr & _ & L & _ & g & _ & _ & _ & HG & _).
      split; auto. split; auto. destruct (gid_cell sm pv np m ltb dec t OK TT PV CR CMP RD r c g Hr HG) as (_ & _ & _ & _ & _ & _ & _ & _ & Hc & _). exact Hc.
    - intros x y H. apply (mate_iff sm pv np m ltb dec t OK TT PV CR CMP RD). apply touching_sym. now apply (mate_iff sm pv np m ltb dec t OK TT PV CR CMP RD).
    - intros r c f f' H. apply (mate_iff sm pv np m ltb dec t OK TT PV CR CMP RD) in H. destruct H as (_ & _ & _ & _ & g & h & _ & _ & HG & HH & _ & _ & NE & _). congruence.
    - intros r c f Hr Hc L. pose proof (badj r c f Hr Hc L) as K. destruct (mateOf sm np t (r, c, f)) as [[[q c'] f']|]; [|apply K]. destruct K as (_ & K). destruct (q =? r); exact K.
    - intros r c f Hr Hc L. pose proof (badj r c f Hr Hc L) as K. destruct (mateOf sm np t (r, c, f)) as [[[q c'] f']|]; apply K.
    - intros r c f q c' f' H Ne. pose proof H as H'. apply (mate_iff sm pv np m ltb dec t OK TT PV CR CMP RD) in H. destruct H as (Hr & Hq & L & L' & g & h & n & sf & HG & HH & O & O' & NE & AC & AC').
      destruct (gid_cell sm pv np m ltb dec t OK TT PV CR CMP RD r c g Hr HG) as (_ & _ & _ & _ & _ & _ & _ & _ & Hc & _). destruct (gid_cell sm pv np m ltb dec t OK TT PV CR CMP RD q c' h Hq HH) as (_ & _ & _ & _ & _ & _ & _ & _ & Hc' & _).
      pose proof (badj r c f Hr Hc L) as K. rewrite H' in K. rewrite (proj2 (Nat.eqb_neq q r) Ne) in K.
      assert (TM : mateOf sm np t (q, c', f') = Some (r, c, f)).
      { apply (mate_iff sm pv np m ltb dec t OK TT PV CR CMP RD). split; auto. split; auto. split; auto. split; auto. exists h, g, n, sf. auto 10. }
      pose proof (badj q c' f' Hq Hc' L') as K'. rewrite TM in K'. rewrite (proj2 (Nat.eqb_neq r q) (fun E => Ne (eq_sym E))) in K'.
      destruct (bside r c g f n sf Hr HG O (proj2 K)) as (S1 & _). destruct (bside q c' h f' n sf Hq HH O' (proj2 K')) as (_ & S2 & S3). rewrite S1. auto.
    - intros r c f q c' f' d h q' d' h' H Ne H2 Ne2 E.
      assert (X : forall c f q c' f', mateOf sm np t (r, c, f) = Some (q, c', f') -> q <> r -> r < np /\ c < tm_nCells (t r) /\ f < 4 /\ rm_adjCell (M r) c f = None).
      { clear -OK TT PV CR CMP RD. intros c f q c' f' H Ne. pose proof H as H'. apply (mate_iff sm pv np m ltb dec t OK TT PV CR CMP RD) in H. destruct H as (Hr & _ & L & _ & g & _ & _ & _ & HG & _).
        destruct (gid_cell sm pv np m ltb dec t OK TT PV CR CMP RD r c g Hr HG) as (_ & _ & _ & _ & _ & _ & _ & _ & Hc & _). split; auto. split; auto. split; auto.
        pose proof (badj r c f Hr Hc L) as K. rewrite H' in K. rewrite (proj2 (Nat.eqb_neq q r) Ne) in K. apply K. }
      destruct (X _ _ _ _ _ H Ne) as (Hr & Hc & L & AA). destruct (X _ _ _ _ _ H2 Ne2) as (_ & Hd & L2 & A2). exact (bsides r c f d h Hr Hc L Hd L2 AA A2 E).
    - intros r c f q c' f' a H Ha. apply (mate_iff sm pv np m ltb dec t OK TT PV CR CMP RD) in H. destruct H as (Hr & Hq & L & L' & g & h & k & sf & HG & HH & O & O' & NE & _).
      unfold isOutgoingWrt, isIncoming. intros X. pose proof (bout_ok r a c g f Hr L HG) as E1. pose proof (bout_ok q a c' h f' Hq L' HH) as E2. rewrite E1 in X. assert (X' : b_out A sm decT om a g f = true) by now destruct (b_out A sm decT om a g f). rewrite E2, (SF a g f h f' k sf Ha O O' ltac:(congruence) X'). reflexivity.
    - intros r Hr. cbn. pose proof (cells_le sm pv np m ltb dec t OK TT PV CR CMP RD nA SIZE r Hr). eapply N.le_lt_trans; [|exact SIZE]. apply N.mul_le_mono_l. unfold lenN. lia.
  Qed.
  Hypothesis SG : signs_ok A sm decT om nA.
  Lemma bflow r c f q c' f' a : mateOf sm np t (r, c, f) = Some (q, c', f') -> a < nA -> rm_out (M r) a c f = negb (rm_out (M q) a c' f').
  Proof.
    intros H Ha. apply (mate_iff sm pv np m ltb dec t OK TT PV CR CMP RD) in H. destruct H as (Hr & Hq & L & L' & g & h & k & sf & HG & HH & O & O' & NE & _).
    rewrite (bout_ok r a c g f Hr L HG), (bout_ok q a c' h f' Hq L' HH). apply (SG a g f h f' k sf Ha O O'). congruence.
  Qed.
  Lemma bsys : sys_ok np nA M (mateOf sm np t).
  Proof.
    destruct bfit as [S1 S2 S3 S4 S5 S6 S7 S8 S9].
    { intros a g lf h lf' f sf Ha O O' NE X. pose proof (SG a g lf h lf' f sf Ha O O' NE) as Y. rewrite X in Y. now destruct (b_out A sm decT om a h lf'). }
    constructor; auto. exact bflow.
  Qed.
  Lemma bacyclic : b_acyclic A sm decT om nA -> acyclic Forward true np nA M (mateOf sm np t).
  Proof.
    intros (lvl & LV). exists (fun r c a => match getLGCell (t r) c with Some g => lvl a g | None => 0 end).
    intros a r c q c' Ha (Hr & Hc & f & f' & L & H & IN & _).
    apply (mate_iff sm pv np m ltb dec t OK TT PV CR CMP RD) in H. destruct H as (_ & Hq & _ & L' & g & h & n & sf & HG & HH & O & O' & NE & AC & _). rewrite HG, HH.
    destruct (gid_cell sm pv np m ltb dec t OK TT PV CR CMP RD q c' h Hq HH) as (_ & _ & _ & _ & _ & _ & _ & _ & _ & NI). assert (NX : s_next sm g f h) by (exists n, sf; auto).
    apply (LV a g f h Ha NX). pose proof (bout_ok r a c g f Hr L HG) as E. unfold isIncoming in IN. destruct (b_out A sm decT om a g f); [|reflexivity]. cbn in IN, E. rewrite E in IN. discriminate.
  Qed.

  (** What is read through a face. *)
  Variables (gs : gaussElim) (nG : nat) (sigmaT : nat -> nat -> T) (sigma : N -> T) (src : nat -> nat -> nat -> block T) (pr : nat -> nat -> nat -> N).
  Hypothesis SGM : forall r c g, r < np -> getLGCell (t r) c = Some g -> sigmaT r c = sigma g.
  Notation D := (sweepData A gs nG geo sigmaT src pr).
  Lemma bseen val bnd (Val : nat -> N -> value T) r c g a :
    (forall r c g a, r < np -> a < nA -> getLGCell (t r) c = Some g -> vsame nG (val r c a) (Val a g)) ->
    r < np -> c < tm_nCells (t r) -> a < nA -> getLGCell (t r) c = Some g ->
    b_inflow A sm decT om nG (Val a) a g (localPsiBound A (map (seen Forward true M D (mateOf sm np t) val bnd r c a) (seq 0 4))).
  Proof.
    intros VAL Hr Hc Ha HG lf fv G L Lv LG.
    assert (E : localPsiBound A (map (seen Forward true M D (mateOf sm np t) val bnd r c a) (seq 0 4)) fv lf G =
      match seen Forward true M D (mateOf sm np t) val bnd r c a lf with Some d => d fv G | None => azero A end).
    { destruct lf as [|[|[|[|lf]]]]; try reflexivity. lia. }
    rewrite E. clear E. unfold seen. pose proof (bout_ok r a c g lf Hr L HG) as EO. cbn [rm_out viewMesh] in EO.
    destruct (face_cases sm pv np m ltb dec t OK TT PV CR CMP RD r c g lf Hr L HG) as (n & sf & O & K).
    unfold isIncoming. cbn [rm_out viewMesh]. rewrite EO. destruct (b_out A sm decT om a g lf); cbn [negb].
    { split; [reflexivity|]. intros; discriminate. }
    destruct K as [(EI & Em)|(NE & q & c' & f' & Em & HH)]; rewrite Em.
    - split; [reflexivity|]. intros h f1 sf1 n1 sh k _ (f2 & sf2 & O2 & AC & NI). exfalso. destruct (opp_fun sm pv np m ltb dec t OK TT PV CR CMP RD _ _ _ _ _ _ O2 O) as (-> & ->). congruence.
    - assert (NX : s_next sm g lf (s_across sf g)) by (exists n, sf; auto). split; [intros [X|X]; [discriminate|now destruct (X _ NX)]|].
      intros h f1 sf1 nd sh k _ (f2 & sf2 & O2 & AC & NI) O1 Hk HS' Hv.
      destruct (opp_fun sm pv np m ltb dec t OK TT PV CR CMP RD _ _ _ _ _ _ O2 O) as (-> & ->). destruct (opp_fun sm pv np m ltb dec t OK TT PV CR CMP RD _ _ _ _ _ _ O1 O) as (-> & ->). subst h. clear O1 O2.
      assert (H : exists sc, SM_cell sm g = Some sc) by (destruct O as (sc & ? & _); eauto). destruct H as (sc & HS).
      pose proof Em as Em'. apply (mate_iff sm pv np m ltb dec t OK TT PV CR CMP RD) in Em'. destruct Em' as (_ & Hq & _ & L' & g1 & h1 & n1 & sf1 & HG1 & HH1 & O1 & O' & NE1 & AC1 & _).
      assert (g1 = g) by congruence. assert (h1 = s_across sf g) by congruence. subst g1 h1. set (h := s_across sf g) in *. destruct (opp_fun sm pv np m ltb dec t OK TT PV CR CMP RD _ _ _ _ _ _ O1 O) as (-> & ->).
      assert (Lk : k < 4). { change 4 with (length (q4l (sc_nodes sh))). apply nth_error_Some. congruence. }
      assert (U : forall k', nth_error (q4l (sc_nodes sh)) k' = Some nd -> k' = k).
      { intros k' Hk'. pose proof (to_cell sm TT h sh HS') as ND. apply (proj1 (NoDup_nth_error _) ND); [apply nth_error_Some|]; congruence. }
      destruct (Nat.eqb_spec q r) as [->|Ne].
      + assert (AD : rm_adjCell (M r) c lf = Some c') by (pose proof (badj r c lf Hr Hc L) as K; rewrite Em, Nat.eqb_refl in K; apply K).
        pose proof (nbr_ok sm pv np m ltb dec t OK TT PV CR CMP RD omR nA SIZE r c g sc lf n sf fv nd c' h sh f' Hr HG HS O Hk HH HS' O' AD) as (Lv' & _ & Hv').
        cbn [td_read sweepData]. unfold sweepRead. assert (EV : rg_nbr (viewGeo A decT om (t r)) c lf fv = k) by exact (U _ Hv'). cbv beta. rewrite EV. apply (vsame_get A nG); auto.
      + pose proof (f2c_ok sm pv np m ltb dec t OK TT PV CR CMP RD omR q c' h sh f' n sf fv nd Hq HH HS' O' Hk) as (Lv' & _ & Hv').
        cbn [td_getData sweepData]. unfold sweepGetData. assert (EV : rg_f2c (viewGeo A decT om (t q)) c' f' fv = k) by exact (U _ Hv'). cbv beta. rewrite EV. apply (vsame_get A nG); auto.
  Qed.
  Lemma bc2f r c g : r < np -> getLGCell (t r) c = Some g -> b_c2f sm g (rg_c2f (geo r) c).
  Proof.
    intros Hr HG lf f sf sc j k n O HS Ne Hj Hk. destruct (face_maps sm pv np m ltb dec t OK TT PV CR CMP RD r c g sc lf f sf k j n Hr HG HS O Hk Hj) as (_ & E).
    cbn. rewrite E. cbn. apply Nat2N.id.
  Qed.
  (** Values by global cell. *)
  Definition gather (val : nat -> nat -> nat -> value T) (a : nat) (g : N) : value T :=
    match find (fun rc : nat * nat => match getLGCell (t (fst rc)) (snd rc) with Some g' => (g' =? g)%N | None => false end)
      (flat_map (fun r => list_prod [r] (seq 0 (tm_nCells (t r)))) (seq 0 np)) with Some rc => val (fst rc) (snd rc) a | None => None end.
  Lemma gather_ok val r c g a : r < np -> getLGCell (t r) c = Some g -> gather val a g = val r c a.
  Proof.
    clear SGM SG SIZE.
    intros Hr HG. unfold gather. destruct (gid_cell sm pv np m ltb dec t OK TT PV CR CMP RD r c g Hr HG) as (_ & _ & _ & _ & _ & _ & _ & _ & Hc & _).
    match goal with |- context [find ?p ?l] => destruct (find p l) as [[r' c']|] eqn:E; [|exfalso; pose proof (find_none _ _ E (r, c)) as K] end.
    - apply find_some in E. destruct E as (I & E). cbn [fst snd] in *. destruct (getLGCell (t r') c') as [g'|] eqn:HG'; [|discriminate]. apply N.eqb_eq in E. subst g'.
      apply in_flat_map in I. destruct I as (r1 & I1 & I). apply in_prod_iff in I. destruct I as ([->|[]] & _). apply in_seq in I1.
      destruct (gid_inj sm pv np m ltb dec t OK TT PV CR CMP RD r' c' r c g) as (-> & ->); auto. lia.
    - cbn beta in K. cbn [fst snd] in K. rewrite HG, N.eqb_refl in K. discriminate K. apply in_flat_map. exists r. split; [apply in_seq; lia|]. apply in_prod_iff. split; [now left|apply in_seq; lia].
  Qed.
  Lemma bsolution (Q : nat -> N -> block T) val bnd :
    (forall r c g a v G, r < np -> a < nA -> getLGCell (t r) c = Some g -> v < 4 -> G < nG -> src r c a v G = Q a g v G) ->
    solution Forward true np nA M D (mateOf sm np t) bnd val -> b_sweep A sm decT om gs nG sigma nA Q (gather val).
  Proof.
    intros SR SO a g sc Ha HS. destruct (gid_onto sm pv np m ltb dec t OK TT PV CR CMP RD g sc HS) as (r & c & Hr & HG).
    destruct (gid_cell sm pv np m ltb dec t OK TT PV CR CMP RD r c g Hr HG) as (_ & _ & _ & _ & _ & _ & _ & _ & Hc & _).
    exists (localPsiBound A (map (seen Forward true M D (mateOf sm np t) val bnd r c a) (seq 0 4))), (rg_c2f (geo r) c).
    split; [|split].
    - apply bseen; auto. intros r1 c1 g1 a1 H1 _ K1. rewrite (gather_ok val r1 c1 g1 a1 H1 K1). apply vsame_refl.
    - now apply bc2f.
    - rewrite (gather_ok val r c g a Hr HG), (SO r c a (conj Hr (conj Hc Ha))). cbn [td_update sweepData]. unfold sweepUpdate.
      rewrite (bvolume_ok r c g Hr HG), (barea_ok r c g Hr HG), (bomN_ok r a c g Hr HG), (SGM r c g Hr HG).
      match goal with |- vsame _ ?x ?y => assert (E : x = y); [|rewrite E; apply vsame_refl] end. apply solve_ext; [reflexivity|]. intros v G Lv LG. now apply SR.
  Qed.
  (** Uniqueness. *)
  Lemma bunique Q Q' Val Val' : b_acyclic A sm decT om nA ->
    (forall a g sc v G, a < nA -> SM_cell sm g = Some sc -> v < 4 -> G < nG -> Q a g v G = Q' a g v G) ->
    b_sweep A sm decT om gs nG sigma nA Q Val -> b_sweep A sm decT om gs nG sigma nA Q' Val' ->
    forall a g sc, a < nA -> SM_cell sm g = Some sc -> vsame nG (Val a g) (Val' a g).
  Proof.
    intros (lvl & LV) EQ SV SV' a g sc Ha. remember (lvl a g) as N eqn:EN. revert g sc EN. induction N as [N IH] using lt_wf_ind. intros g sc EN HS.
    destruct (SV a g sc Ha HS) as (pb & c2f & IN & CF & E). destruct (SV' a g sc Ha HS) as (pb' & c2f' & IN' & CF' & E').
    eapply vsame_trans; [exact E|]. apply vsame_sym. eapply vsame_trans; [exact E'|].
    match goal with |- vsame _ ?x ?y => assert (EE : x = y); [|rewrite EE; apply vsame_refl] end. apply solve_ext; [|intros v G Lv LG; symmetry; now apply (EQ a g sc)].
    intros lf j G L Lj Ne LG. symmetry. destruct (opp_ex sm pv np m ltb dec t OK TT PV CR CMP RD g sc lf HS L) as (f & sf & O).
    destruct (nth4 (sc_nodes sc) j Lj) as (n & Hj). destruct (vertex_face sm g sc lf f sf j n HS O Ne Hj) as (k & Lk & Hk).
    rewrite (CF lf f sf sc j k n O HS Ne Hj Hk), (CF' lf f sf sc j k n O HS Ne Hj Hk).
    destruct (IN lf k G L Lk LG) as (Z & B), (IN' lf k G L Lk LG) as (Z' & B').
    destruct (b_out A sm decT om a g lf) eqn:EO; [rewrite Z, Z' by auto; reflexivity|].
    destruct (N.eq_dec (s_across sf g) INVALID) as [EI|NI].
    - assert (NN : forall h, ~ s_next sm g lf h).
      { intros h (f2 & sf2 & O2 & AC & NI). destruct (opp_fun sm pv np m ltb dec t OK TT PV CR CMP RD _ _ _ _ _ _ O2 O) as (-> & ->). congruence. }
      rewrite Z, Z' by auto. reflexivity.
    - set (h := s_across sf g) in *. assert (NX : s_next sm g lf h) by (exists f, sf; auto). destruct (opp_back sm OK TT g lf f sf O NI) as (lf' & O' & _). fold h in O'.
      assert (H : exists sh, SM_cell sm h = Some sh) by (destruct O' as (sh & ? & _); eauto). destruct H as (sh & HS').
      destruct (face_vertex sm OK h sh lf' f sf k n HS' O' Hk) as (v & Lv & _ & Hv).
      rewrite (B h f sf n sh v eq_refl NX O Hk HS' Hv), (B' h f sf n sh v eq_refl NX O Hk HS' Hv). apply (vsame_get A nG); auto.
      apply (IH (lvl a h)) with (sc := sh); auto. subst N. now apply (LV a g lf h).
  Qed.
End World.
