From Coq Require Import Permutation Sorted.
From Verif Require Import Prelude Bytes MeshModel MeshSpec CreateModel CreateSpec CreateProofs PropertiesCreate TychoModel TychoSpec TychoProofs TychoVrtxProofs TychoMeshProofs.
Local Open Scope N_scope.

Lemma map_nth_eq {A B D} (f : A -> B) (g : D -> B) l l' i a : map f l = map g l' -> nth_error l i = Some a ->
  exists d, nth_error l' i = Some d /\ f a = g d.
Proof.
  intros E H. pose proof (map_nth_error f _ _ H) as X. rewrite E, nth_error_map in X.
  destruct (nth_error l' i); cbn in X; [|discriminate]. apply Some_inj in X. eauto.
Qed.
Lemma map_in_eq {A B D} (f : A -> B) (g : D -> B) l l' a : map f l = map g l' -> In a l -> exists d, In d l' /\ f a = g d.
Proof.
  intros E H. destruct (In_nth_error _ _ H) as (i & Hi). destruct (map_nth_eq _ _ _ _ _ _ E Hi) as (d & Hd & X).
  exists d. split; auto. eapply nth_error_In; eauto.
Qed.
Lemma NoDup_map_some {A B} (f : A -> option B) l l' : map f l = map Some l' -> NoDup l' -> NoDup l.
Proof.
  intros E N. apply (NoDup_map_inv f). rewrite E. apply FinFun.Injective_map_NoDup; auto. intros x y H. congruence.
Qed.

Section Created.
  Context (sm : smesh) (pv : list N) (np : nat) (m : pmesh).
  Context (OK : serial_mesh_ok sm) (PV : partition_vector_ok sm pv np) (CR : createFromSerialMesh sm pv np = Some m) (TT : tets_ok sm).
  Context (p : N) (P : partition) (HP : PM_part m p = Some P).

  Lemma gid_unique {A} (gid : A -> N) (l : list A) i j a b :
    NoDup (map gid l) -> nth_error l i = Some a -> nth_error l j = Some b -> gid a = gid b -> i = j.
  Proof.
    intros ND Ha Hb E. rewrite NoDup_nth_error in ND. apply ND.
    - rewrite map_length. apply nth_error_Some. congruence.
    - rewrite (map_nth_error gid _ _ Ha), (map_nth_error gid _ _ Hb). congruence.
  Qed.
  Lemma nd_cells : NoDup (cellGids P).
  Proof using OK PV CR HP. destruct (cells_of sm pv np m OK PV CR p P HP) as (S & _). now apply sorted_nodup. Qed.
  Lemma nd_faces : NoDup (faceGids P).
  Proof using OK PV CR HP.
    destruct (created sm pv np m OK PV CR) as (sets & _ & _ & _ & _ & K & _). destruct (po_faces _ _ _ _ _ (K p P HP)) as (S & _). now apply sorted_nodup.
  Qed.
  Lemma nd_nodes : NoDup (map pn_gid (pt_nodes P)).
  Proof using OK PV CR HP.
    destruct (created sm pv np m OK PV CR) as (sets & _ & _ & _ & _ & K & _). destruct (po_nodes _ _ _ _ _ (K p P HP)) as (S & _). now apply sorted_nodup.
  Qed.
  Lemma cell_info c C : nth_error (pt_cells P) c = Some C -> exists sc, SM_cell sm (pc_gid C) = Some sc /\ owner pv (pc_gid C) = Some p /\
    map (faceGid P) (q4l (pc_faces C)) = map Some (q4l (sc_faces sc)) /\
    map (nodeGid P) (q4l (pc_nodes C)) = map Some (q4l (sc_nodes sc)) /\ pc_gid C <> INVALID /\ pc_mat C = sc_mat sc.
  Proof using OK PV CR HP.
    intros H. apply nth_error_In in H. destruct (created sm pv np m OK PV CR) as (sets & _ & _ & _ & _ & K & _).
    destruct (po_cell _ _ _ _ _ (K p P HP) C H) as (sc & A & M & B & D). exists sc. split; auto.
    destruct (cells_of sm pv np m OK PV CR p P HP) as (_ & IFF). destruct (proj1 (IFF (pc_gid C)) (in_map pc_gid _ _ H)) as (_ & O).
    split; auto. split; auto. split; auto. split; auto. eapply SM_cell_not_invalid; eauto.
  Qed.
  Lemma face_info f F : P_face P f = Some F -> exists sf, SM_face sm (pf_gid F) = Some sf /\
     map (nodeGid P) (q3l (pf_nodes F)) = map Some (q3l (sf_nodes sf)).
  Proof using OK PV CR HP.
    intros H. destruct (face_rec sm pv np m OK PV CR p P F HP (nth_error_In _ _ H)) as (sf & A & _ & _ & _ & B & _). eauto.
  Qed.
  Lemma cell_by_gid c C c' : nth_error (pt_cells P) c = Some C -> cellGid P c' = Some (pc_gid C) -> c' = N.of_nat c.
  Proof using OK PV CR HP.
    intros H E. unfold cellGid, P_cell in E. destruct (nth_error (pt_cells P) (N.to_nat c')) as [C'|] eqn:E'; [|discriminate]. cbn in E.
    apply Some_inj in E. pose proof (gid_unique pc_gid _ _ _ _ _ nd_cells H E' (eq_sym E)). lia.
  Qed.
  Lemma node_by_gid n n' g : nodeGid P n = Some g -> nodeGid P n' = Some g -> n = n'.
  Proof using OK PV CR HP.
    unfold nodeGid, P_node. intros A B.
    destruct (nth_error (pt_nodes P) (N.to_nat n)) as [x|] eqn:E; [|discriminate]. destruct (nth_error (pt_nodes P) (N.to_nat n')) as [y|] eqn:E'; [|discriminate].
    cbn in A, B. apply Some_inj in A, B. pose proof (gid_unique pn_gid _ _ _ _ _ nd_nodes E E' ltac:(congruence)). lia.
  Qed.
  Lemma face_by_gid f F f' g : P_face P f = Some F -> pf_gid F = g -> faceGid P f' = Some g -> f' = f.
  Proof using OK PV CR HP.
    unfold faceGid, P_face. intros A <- B. destruct (nth_error (pt_faces P) (N.to_nat f')) as [y|] eqn:E'; [|discriminate].
    cbn in B. apply Some_inj in B. pose proof (gid_unique pf_gid _ _ _ _ _ nd_faces A E' ltac:(congruence)). lia.
  Qed.
  (** membership of faces and nodes transfers *)
  Lemma face_in_cell c C sc f F : nth_error (pt_cells P) c = Some C -> SM_cell sm (pc_gid C) = Some sc ->
    P_face P f = Some F -> (In f (q4l (pc_faces C)) <-> In (pf_gid F) (q4l (sc_faces sc))).
  Proof using OK PV CR HP.
    intros HC HS HF. destruct (cell_info c C HC) as (sc' & A & _ & B & _). assert (sc' = sc) by congruence. subst sc'. split; intros H.
    - destruct (map_in_eq _ _ _ _ _ B H) as (g & Hg & E). unfold faceGid in E. rewrite HF in E. cbn in E. congruence.
    - destruct (map_in_eq _ _ _ _ _ (eq_sym B) H) as (g & Hg & E). rewrite (face_by_gid f F g (pf_gid F)) in Hg; auto.
  Qed.
  Lemma node_in_face f F sf n g : P_face P f = Some F -> SM_face sm (pf_gid F) = Some sf -> nodeGid P n = Some g ->
    (In n (q3l (pf_nodes F)) <-> In g (q3l (sf_nodes sf))).
  Proof using OK PV CR HP.
    intros HF HS HN. destruct (face_info f F HF) as (sf' & A & B). assert (sf' = sf) by congruence. subst sf'. split; intros H.
    - destruct (map_in_eq _ _ _ _ _ B H) as (x & Hx & E). congruence.
    - destruct (map_in_eq _ _ _ _ _ (eq_sym B) H) as (x & Hx & E). rewrite (node_by_gid n x g); auto.
  Qed.

  Lemma opposite_serial c C lf f F : nth_error (pt_cells P) c = Some C -> opposite P c lf f F ->
    exists sf, s_opposite sm (pc_gid C) lf (pf_gid F) sf.
  Proof using OK PV CR HP.
    intros HC (C1 & HC1 & Hf & HF & L & S). assert (C1 = C) by congruence. subst C1.
    destruct (cell_info c C HC) as (sc & A & O & Bf & Bn & NI & _). destruct (face_info f F HF) as (sf & Af & Bfn).
    exists sf, sc. split; auto. split; [now apply (face_in_cell c C sc f F)|]. split; auto. split; auto.
    intros v g Hg. destruct (map_nth_eq _ _ _ _ _ _ (eq_sym Bn) Hg) as (n & Hn & E).
    rewrite <- (S v n Hn). symmetry. apply (node_in_face f F sf n g); auto.
  Qed.
  Lemma serial_opposite c C lf g sf : nth_error (pt_cells P) c = Some C -> s_opposite sm (pc_gid C) lf g sf ->
    exists f F, opposite P c lf f F /\ pf_gid F = g.
  Proof using OK PV CR HP.
    intros HC (sc & HS & Hg & Hsf & L & S). destruct (cell_info c C HC) as (sc' & A & O & Bf & Bn & NI & _). assert (sc' = sc) by congruence. subst sc'.
    destruct (map_in_eq _ _ _ _ _ (eq_sym Bf) Hg) as (f & Hf & E). unfold faceGid in E.
    destruct (P_face P f) as [F|] eqn:HF; [|discriminate]. cbn in E. apply Some_inj in E. subst g. exists f, F. split; auto.
    exists C. split; auto. split; auto. split; auto. split; auto.
    intros v n Hn. destruct (map_nth_eq _ _ _ _ _ _ Bn Hn) as (x & Hx & En). rewrite <- (S v x Hx). apply (node_in_face f F sf n x); auto.
  Qed.

  (** classification of the face [F] of cell [c] *)
  Lemma classify c C f F sf : nth_error (pt_cells P) c = Some C -> In f (q4l (pc_faces C)) -> P_face P f = Some F ->
    SM_face sm (pf_gid F) = Some sf ->
    let h := s_across sf (pc_gid C) in
    h <> pc_gid C /\ (sf_cells sf = Q2 (pc_gid C) h \/ sf_cells sf = Q2 h (pc_gid C)) /\
    match owner pv h with
    | Some q => h <> INVALID /\
       if q =? p then pf_bdry F = NotBoundary /\ pf_part F = Q2 p p /\
         exists c' C', nth_error (pt_cells P) c' = Some C' /\ pc_gid C' = h /\ In f (q4l (pc_faces C')) /\
         (pf_cells F = Q2 (N.of_nat c) (N.of_nat c') \/ pf_cells F = Q2 (N.of_nat c') (N.of_nat c))
       else pf_bdry F = PartitionBoundary /\ (pf_part F = Q2 p q \/ pf_part F = Q2 q p)
    | None => h = INVALID /\ pf_bdry F = MeshBoundary /\ (pf_part F = Q2 p INVALID \/ pf_part F = Q2 INVALID p)
    end.
  Proof using OK PV CR HP TT.
    intros HC Hf HF HS h. destruct (cell_info c C HC) as (sc & A & O & Bf & Bn & NI & _).
    assert (Hin : In (pf_gid F) (q4l (sc_faces sc))) by (now apply (face_in_cell c C sc f F)).
    destruct (smo_cf sm OK _ _ _ A Hin) as (sf' & HS' & Hc & _). assert (sf' = sf) by congruence. subst sf'.
    destruct (to_face sm TT _ _ HS) as (_ & Dist).
    assert (X : h <> pc_gid C /\ (sf_cells sf = Q2 (pc_gid C) h \/ sf_cells sf = Q2 h (pc_gid C))).
    { unfold h, s_across. destruct (sf_cells sf) as [a b]. cbn in *. destruct (N.eqb_spec a (pc_gid C)) as [->|Ne].
      - split; auto. - split; auto. destruct Hc as [Hc|[Hc|[]]]; [congruence|]. subst b. auto. }
    clearbody h. destruct X as (Hne & Hcells). split; auto. split; auto.
    pose proof (nth_error_In _ _ HF) as HFi.
    destruct (N.eq_dec h INVALID) as [->|Hh].
    - assert (ON : owner pv INVALID = None).
      { unfold owner. apply nth_error_None. destruct PV as (L & _). rewrite L. pose proof (smo_cells sm OK) as S. unfold lenN in S. lia. }
      rewrite ON. split; auto.
      assert (Hor : sf_cells sf = Q2 (pc_gid C) INVALID \/ sf_cells sf = Q2 INVALID (pc_gid C)) by (destruct Hcells; auto).
      destruct (C12_exterior_face sm pv np m (pf_gid F) sf (pc_gid C) p OK PV CR HS Hor NI O p P HP) as (_ & _ & K).
      destruct (K F HFi eq_refl) as (K1 & K2 & K3). split; auto. destruct Hor as [E|E]; auto.
    - assert (exists q, owner pv h = Some q) as (q & Oh).
      { assert (Ih : In h (q2l (sf_cells sf))) by (destruct Hcells as [-> | ->]; cbn; auto).
        destruct (smo_fc sm OK _ _ _ HS Ih Hh) as (sh & Hsh & _). unfold owner. destruct PV as (L & _).
        destruct (nth_error pv (N.to_nat h)) eqn:E; eauto. apply nth_error_None in E. unfold SM_cell in Hsh.
        assert (N.to_nat h < length (sm_cells sm))%nat by (apply nth_error_Some; congruence). lia. }
      rewrite Oh. split; auto. destruct (N.eqb_spec q p) as [->|Nq].
      + assert (Y : pf_bdry F = NotBoundary /\ pf_part F = Q2 p p /\
           ((cellGid P (MeshModel.p0 (pf_cells F)) = Some (pc_gid C) /\ cellGid P (MeshModel.p1 (pf_cells F)) = Some h) \/
            (cellGid P (MeshModel.p0 (pf_cells F)) = Some h /\ cellGid P (MeshModel.p1 (pf_cells F)) = Some (pc_gid C)))).
        { destruct Hcells as [E|E].
          - destruct (C12_interior_face sm pv np m (pf_gid F) sf _ _ p OK PV CR HS E NI Hh O Oh p P HP) as (_ & _ & K).
            destruct (K F HFi eq_refl) as (K1 & K2 & K3 & K4). auto.
          - destruct (C12_interior_face sm pv np m (pf_gid F) sf _ _ p OK PV CR HS E Hh NI Oh O p P HP) as (_ & _ & K).
            destruct (K F HFi eq_refl) as (K1 & K2 & K3 & K4). auto. }
        destruct Y as (Y1 & Y2 & Y3). split; auto. split; auto.
        assert (exists c1, cellGid P c1 = Some h /\ (pf_cells F = Q2 (N.of_nat c) c1 \/ pf_cells F = Q2 c1 (N.of_nat c))) as (c1 & G1 & G2).
        { destruct (pf_cells F) as [x y]; cbn [MeshModel.p0 MeshModel.p1] in Y3. destruct Y3 as [(Y3 & Y4)|(Y3 & Y4)].
          - exists y. split; auto. left. now rewrite (cell_by_gid c C x HC Y3).
          - exists x. split; auto. right. now rewrite (cell_by_gid c C y HC Y4). }
        unfold cellGid, P_cell in G1. destruct (nth_error (pt_cells P) (N.to_nat c1)) as [C'|] eqn:HC'; [|discriminate].
        cbn in G1. apply Some_inj in G1. exists (N.to_nat c1), C'. rewrite N2Nat.id. split; auto. split; auto. split; auto.
        assert (Ih : In h (q2l (sf_cells sf))) by (destruct Hcells as [-> | ->]; cbn; auto).
        destruct (smo_fc sm OK _ _ _ HS Ih Hh) as (sh & Hsh & Hinh).
        apply (face_in_cell _ C' sh f F HC'); auto. congruence.
      + destruct Hcells as [E|E].
        * destruct (C12_partition_boundary sm pv np m (pf_gid F) sf _ _ p q OK PV CR HS E NI Hh O Oh ltac:(congruence) p P HP) as (_ & _ & K).
          destruct (K F HFi eq_refl) as (K1 & K2 & _). auto.
        * destruct (C12_partition_boundary sm pv np m (pf_gid F) sf _ _ q p OK PV CR HS E Hh NI Oh O ltac:(congruence) p P HP) as (_ & _ & K).
          destruct (K F HFi eq_refl) as (K1 & K2 & _). auto.
  Qed.

  Lemma created_wf : part_wf P p.
  Proof using OK PV CR HP TT.
    constructor.
    - pose proof (all_cells_once sm pv np m OK PV CR) as PM. pose proof (Permutation_length PM) as L.
      unfold allCells in L. rewrite map_length, seq_length in L. pose proof (smo_cells sm OK) as S. unfold lenN in *.
      assert (length (pt_cells P) <= length (flat_map cellGids (pm_parts m)))%nat; [|lia].
      unfold PM_part in HP. apply nth_error_In in HP. apply in_split in HP. destruct HP as (l1 & l2 & E). rewrite E.
      rewrite flat_map_app. cbn [flat_map]. rewrite !app_length. unfold cellGids at 2. rewrite map_length. lia.
    - intros c C HC. destruct (cell_info c C HC) as (sc & A & _ & _ & B & _). split.
      + eapply NoDup_map_some; [exact B|]. eapply to_cell; eauto.
      + intros n Hn. destruct (map_in_eq _ _ _ _ _ B Hn) as (g & _ & E). unfold nodeGid, P_node in E.
        apply nth_error_Some. intros X. rewrite X in E. discriminate.
    - intros c C f HC Hf. destruct (cell_info c C HC) as (sc & A & _ & Bf & B & _).
      destruct (map_in_eq _ _ _ _ _ Bf Hf) as (g & Hg & E). unfold faceGid in E. destruct (P_face P f) as [F|] eqn:HF; [|discriminate].
      exists F. split; auto. cbn in E. apply Some_inj in E. destruct (face_info f F HF) as (sf & Af & Bn). split.
      + eapply NoDup_map_some; [exact Bn|]. eapply (proj1 (to_face sm TT _ _ Af)).
      + intros n Hn. destruct (map_in_eq _ _ _ _ _ Bn Hn) as (x & Hx & Ex). subst g.
        destruct (smo_cf sm OK _ _ _ A Hg) as (sf' & HS' & _ & Inc). assert (sf' = sf) by congruence. subst sf'.
        destruct (map_in_eq _ _ _ _ _ (eq_sym B) (Inc x Hx)) as (n' & Hn' & En'). now rewrite (node_by_gid n n' x).
    - intros c C i j f g F G HC Hi Hj HF HG EQ. destruct (cell_info c C HC) as (sc & A & _ & Bf & B & _).
      destruct (map_nth_eq _ _ _ _ _ _ Bf Hi) as (gf & Hgf & Ef). destruct (map_nth_eq _ _ _ _ _ _ Bf Hj) as (gg & Hgg & Eg).
      unfold faceGid in Ef, Eg. rewrite HF in Ef. rewrite HG in Eg. cbn in Ef, Eg. apply Some_inj in Ef, Eg. subst gf gg.
      destruct (face_info f F HF) as (sf & Sf & Bnf). destruct (face_info g G HG) as (sg & Sg & Bng).
      eapply (to_distinct sm TT _ sc i j _ _ sf sg A Hgf Hgg Sf Sg). intros n. split; intros H.
      + destruct (map_in_eq _ _ _ _ _ (eq_sym Bnf) H) as (x & Hx & E). apply (node_in_face g G sg x n); auto. now apply EQ.
      + destruct (map_in_eq _ _ _ _ _ (eq_sym Bng) H) as (x & Hx & E). apply (node_in_face f F sf x n); auto. now apply EQ.
    - intros c C f F HC Hf HF EB. destruct (face_info f F HF) as (sf & Af & _).
      destruct (classify c C f F sf HC Hf HF Af) as (Hne & Hcells & K). destruct (owner pv _) as [q|] eqn:Oh.
      + destruct K as (NI & K). destruct (N.eqb_spec q p) as [->|Nq].
        * destruct K as (_ & K2 & c' & C' & HC' & Eg & Hf' & Hc). split; auto. exists c', C'. split; auto.
          intros ->. assert (C' = C) by congruence. subst C'. apply Hne. congruence.
        * destruct K as (K & _). rewrite K in EB. discriminate.
      + destruct K as (_ & K & _). rewrite K in EB. discriminate.
    - intros c C f F HC Hf HF EB. destruct (face_info f F HF) as (sf & Af & _).
      destruct (classify c C f F sf HC Hf HF Af) as (Hne & Hcells & K). split.
      + destruct (owner pv _) as [q|] eqn:Oh.
        * destruct K as (NI & K). destruct (N.eqb_spec q p) as [->|Nq].
          -- destruct K as (K & _). contradiction.
          -- destruct K as (_ & [-> | ->]); cbn; auto.
        * destruct K as (_ & _ & [-> | ->]); cbn; auto.
      + intros c' C' HC' Hf'. destruct (classify c' C' f F sf HC' Hf' HF Af) as (Hne' & Hcells' & K').
        destruct (Nat.eq_dec c' c) as [|Nc]; auto. exfalso.
        assert (NG : pc_gid C' <> pc_gid C) by (intros E; apply Nc; eapply (gid_unique pc_gid); [apply nd_cells|eauto..]).
        assert (EH : s_across sf (pc_gid C) = pc_gid C') by (destruct Hcells as [E|E]; destruct Hcells' as [E'|E']; congruence).
        rewrite EH in K. destruct (cell_info c' C' HC') as (sc' & _ & O' & _). rewrite O' in K. destruct K as (_ & K).
        rewrite N.eqb_refl in K. destruct K as (K & _). contradiction.
    - apply nd_faces.
  Qed.
End Created.
