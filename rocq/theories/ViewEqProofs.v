(** The equations on the meshes of the ranks are those on the serial mesh. *)
From Coq Require Import Permutation Sorted Reals Lra.
From Verif Require Import Prelude Bytes MeshModel MeshSpec CreateModel CreateSpec CreateProofs PropertiesCreate TychoModel TychoSpec
  TychoProofs TychoVrtxProofs TychoMeshProofs TychoCreatedProofs PropertiesTycho RefineSpec GeometryModel GeometrySpec GeometryProofs
  GaussModel TransportModel TransportSpec TraverseModel TraverseSpec TraverseRun SweepModel SweepSpec SweepProofs OrigSpec
  FluxSpec PropertiesFlux SourceModel SourceSpec SourceProofs EnergySpec EnergyProofs SchurSpec ViewModel ViewSpec ViewProofs ViewGeoProofs ViewSysProofs.

Lemma dg_ext_all V area area' sg Q nb psi : (forall f, f < 4 -> area f = area' f) -> dg V area sg Q nb psi -> dg V area' sg Q nb psi.
Proof.
  intros E H i Hi. specialize (H i Hi). unfold dg_row in *. rewrite <- H. rewrite (E i Hi). f_equal. f_equal. unfold sum4.
  unfold TransportSpec.upwind, sumFace, sum4. rewrite (E 0), (E 1), (E 2), (E 3) by lia. reflexivity.
Qed.

(** The value type of the sweeps. *)
Notation GPsi := (nat -> nat -> nat -> nat -> nat -> R).        (* rank cell angle vertex group *)
Notation field := (nat -> nat -> N -> nat -> R).                  (* angle group cell vertex *)
Section Agree.
  Variables (np : nat) (t : nat -> tmesh).
  (** The field of the ranks and the field over the serial mesh are the same. *)
  Definition agree (nA nG : nat) (psi : GPsi) (Psi : field) : Prop := forall r c g a v G, r < np -> getLGCell (t r) c = Some g -> a < nA -> v < 4 -> G < nG -> psi r c a v G = Psi a G g v.
  Definition scatterField (Psi : field) : GPsi := fun r c a v G => match getLGCell (t r) c with Some g => Psi a G g v | None => 0%R end.
  Definition gatherField (psi : GPsi) : field := fun a G g v =>
    match find (fun rc => match getLGCell (t (fst rc)) (snd rc) with Some h => (h =? g)%N | None => false end) (flat_map (fun r => map (pair r) (seq 0 (tm_nCells (t r)))) (seq 0 np)) with
    | Some rc => psi (fst rc) (snd rc) a v G | None => 0%R end.
  Lemma scatter_agree nA nG Psi : agree nA nG (scatterField Psi) Psi.
  Proof. intros r c g a v G _ HG _ _ _. unfold scatterField. now rewrite HG. Qed.
End Agree.

Section World.
  Context (sm : smesh) (pv : list N) (np : nat) (m : pmesh) (ltb : N -> N -> bool) (dec : N -> R) (t : nat -> tmesh).
  Context (OK : serial_mesh_ok sm) (TT : tets_ok sm) (PV : partition_vector_ok sm pv np) (CR : createFromSerialMesh sm pv np = Some m).
  Context (CMP : compares sm dec ltb).
  Context (RD : forall r, r < np -> exists P, PM_part m (N.of_nat r) = Some P /\ readTychoMesh ltb P (N.of_nat r) = Some (t r)).
  Context (SOL : solid sm dec) (om : nat -> q3 R) (nA : nat) (TR : transversal sm dec nA om) (SIZE : (N.of_nat nA * lenN (sm_cells sm) < two64)%N).
  Notation geo := (fun r => viewGeo Rops dec om (t r)).
  Notation M := (fun r => viewMesh Rops dec om (t r)).
  Lemma gather_agree nG psi : agree np t nA nG psi (gatherField np t psi).
  Proof.
    intros r c g a v G Hr HG _ _ _. unfold gatherField. destruct (find _ _) as [[q d]|] eqn:E.
    - apply find_some in E. destruct E as (I & E). cbn [fst snd] in *. apply in_flat_map in I. destruct I as (q' & Hq & I). apply in_map_iff in I. destruct I as (d' & I & Hd). injection I as -> ->.
      apply in_seq in Hq. destruct (getLGCell (t q) d) as [h|] eqn:Eh; [|discriminate]. apply N.eqb_eq in E. subst h.
      destruct (gid_inj sm pv np m ltb dec t OK TT PV CR CMP RD r c q d g Hr ltac:(lia) HG Eh) as (-> & ->). reflexivity.
    - exfalso. destruct (gid_cell sm pv np m ltb dec t OK TT PV CR CMP RD r c g Hr HG) as (_ & _ & _ & _ & _ & _ & _ & _ & Hc & _).
      assert (I : In (r, c) (flat_map (fun r => map (pair r) (seq 0 (tm_nCells (t r)))) (seq 0 np))) by (apply in_flat_map; exists r; split; [apply in_seq; lia|apply in_map, in_seq; lia]).
      pose proof (find_none _ _ E _ I) as X. cbn [fst snd] in X. rewrite HG, N.eqb_refl in X. discriminate.
  Qed.
  Lemma next_fun g f h h' : s_next sm g f h -> s_next sm g f h' -> h = h'.
  Proof. intros (n & sf & A & B & _) (n' & sf' & A' & B' & _). destruct (opp_fun sm pv np m ltb dec t OK TT PV CR CMP RD _ _ _ _ _ _ A A') as (_ & ->). congruence. Qed.
  Lemma mate_next r c f g : r < np -> f < 4 -> getLGCell (t r) c = Some g ->
    match mateOf sm np t (r, c, f) with None => forall h, ~ s_next sm g f h | Some (q, c', f') => exists h n sf, q < np /\ getLGCell (t q) c' = Some h /\ s_next sm g f h /\ s_opposite sm g f n sf /\ s_opposite sm h f' n sf end.
  Proof.
    intros Hr L HG. destruct (face_cases sm pv np m ltb dec t OK TT PV CR CMP RD r c g f Hr L HG) as (n & sf & O & K). destruct K as [(E & Em)|(NE & q & c' & f' & Em & HH)]; rewrite Em.
    - intros h (n' & sf' & O' & AC & NI). destruct (opp_fun sm pv np m ltb dec t OK TT PV CR CMP RD _ _ _ _ _ _ O O') as (_ & <-). congruence.
    - apply (mate_iff sm pv np m ltb dec t OK TT PV CR CMP RD) in Em. destruct Em as (_ & Hq & _ & _ & g' & h & n' & sf' & A1 & A2 & A3 & A4 & A5 & A6 & A7). clear A7. assert (g' = g) by congruence. subst g'.
      exists h, n', sf'. split; auto. split; auto. split; [|split; auto]. exists n', sf'. split; auto. split; auto. rewrite <- A6. destruct (opp_fun sm pv np m ltb dec t OK TT PV CR CMP RD _ _ _ _ _ _ O A3) as (_ & <-). exact NE.
  Qed.
  Lemma across_beyond nG psi Psi r c g a G f j y : agree np t nA nG psi Psi -> r < np -> getLGCell (t r) c = Some g -> a < nA -> G < nG -> f < 4 -> j < 4 -> j <> f ->
    (across (nodeOf sm t) (mateOf sm np t) (fun r c a G v => psi r c a v G) r c a G f j y <-> s_beyond sm (Psi a G) g f j y).
  Proof.
    intros AG Hr HG Ha HGr L Lj Ne. pose proof (mate_next r c f g Hr L HG) as K. unfold across, s_beyond.
    destruct (gid_cell sm pv np m ltb dec t OK TT PV CR CMP RD r c g Hr HG) as (_ & _ & sc & _ & _ & _ & HS & _).
    destruct (mateOf sm np t (r, c, f)) as [[[q c'] f']|].
    - destruct K as (h & n & sf & Hq & HH & NX & O & O'). destruct (gid_cell sm pv np m ltb dec t OK TT PV CR CMP RD q c' h Hq HH) as (_ & _ & sh & _ & _ & _ & HS' & _).
      destruct (nth4 (sc_nodes sc) j Lj) as (nd & Hj). split.
      + intros (k & Lk & Nk & EN & ->). right. rewrite (nodeOf_ok sm t q c' h sh k HH HS'), (nodeOf_ok sm t r c g sc j HG HS) in EN. exists h, sc, sh, k, nd.
        split; auto. split; auto. split; auto. split; auto. split; [congruence|]. apply AG; auto.
      + intros [(N1 & _)|(h' & sc' & sh' & k & nd' & NX' & HS1 & HS2 & Hj' & Hk & ->)]; [now destruct (N1 h)|].
        assert (h' = h) by exact (next_fun g f h' h NX' NX). subst h'. assert (sc' = sc) by congruence. assert (sh' = sh) by congruence. subst sc' sh'. assert (nd' = nd) by congruence. subst nd'. exists k.
        split; [|split; [|split]].
        * assert (X : k < length (q4l (sc_nodes sh))) by (apply nth_error_Some; congruence). exact X.
        * destruct O as (sc1 & A1 & _ & _ & _ & S1). destruct O' as (sh1 & A2 & _ & _ & _ & S2). assert (sc1 = sc) by congruence. assert (sh1 = sh) by congruence. subst sc1 sh1.
          apply (S2 k nd Hk). now apply (S1 j nd Hj).
        * rewrite (nodeOf_ok sm t q c' h sh k HH HS'), (nodeOf_ok sm t r c g sc j HG HS). congruence.
        * symmetry. apply AG; auto. assert (X : k < length (q4l (sc_nodes sh))) by (apply nth_error_Some; congruence). exact X.
    - split; [intros ->; left; auto|]. intros [(_ & ->)|(h & _ & _ & _ & _ & NX & _)]; auto. now destruct (K h).
  Qed.
  Lemma dg_cell_iff nG psi Psi (Qr : nat -> R) (Qs : nat -> R) sg r c g a G : agree np t nA nG psi Psi -> (forall v, v < 4 -> Qr v = Qs v) -> r < np -> getLGCell (t r) c = Some g -> a < nA -> G < nG ->
    (dg_cell (nodeOf sm t) (mateOf sm np t) (rg_volume (geo r) c) (sarea geo r a c) sg Qr (fun r c a G v => psi r c a v G) r c a G <-> s_dg sm dec (om a) sg Qs (Psi a G) g).
  Proof.
    intros AG EQ Hr HG Ha HGr. destruct (volume_view sm pv np m ltb dec t OK TT PV CR CMP RD SOL om r c g Hr HG) as (p & Kp & EV & _ & _). split.
    - intros (nb & A & D). exists p, (sarea geo r a c), nb. split; auto. split; [intros lf L; exact (signed_ok sm pv np m ltb dec t OK TT PV CR CMP RD SOL om r a c g lf Hr L HG)|].
      split; [intros f j L Lj Ne NP; apply (across_beyond nG psi Psi r c g a G f j _ AG); auto|]. rewrite <- EV. eapply dg_ext; [exact EQ| |exact D]. intros v Lv. cbv beta. now apply AG.
    - intros (p' & area & nb & Kp' & SG & B & D). rewrite (s_cell_fun _ _ _ _ _ Kp' Kp) in *. exists nb.
      assert (EA : forall f, f < 4 -> area f = sarea geo r a c f).
      { intros f L. exact (signed_fun sm pv np m ltb dec t OK TT PV CR CMP RD SOL _ _ _ _ _ (SG f L) (signed_ok sm pv np m ltb dec t OK TT PV CR CMP RD SOL om r a c g f Hr L HG)). }
      split; [intros f j L Lj Ne NP; apply (across_beyond nG psi Psi r c g a G f j _ AG); auto; apply B; auto; now rewrite EA|].
      rewrite EV. eapply dg_ext; [| |eapply dg_ext_all; [exact EA|exact D]]; intros v Lv; [symmetry; now apply EQ|]. symmetry. cbv beta. now apply AG.
  Qed.
End World.

(** A parallel run on the meshes that were read. *)
Record view_run (np nA cells : nat) (mesh : nat -> rmesh) (mate : nat * nat * nat -> option (nat * nat * nat)) (R0 : run (value R) (block R)) : Prop := {
  vr_dir : u_dir R0 = Forward; vr_comm : u_comm R0 = true; vr_mpi : u_mpi R0 = TychoTwoSided; vr_max : u_max R0 > 0; vr_threads : u_threads R0 > 0; vr_psize : (0 < u_psize R0)%N;
  vr_ranks : u_ranks R0 = np; vr_angles : u_angles R0 = nA; vr_mesh : u_mesh R0 = mesh; vr_mate : u_mate R0 = mate;
  vr_size : (N.of_nat (nA * cells * 4) * u_psize R0 < INT_MAX)%N }.

Section Run.
  Context (sm : smesh) (pv : list N) (np : nat) (m : pmesh) (ltb : N -> N -> bool) (dec : N -> R) (t : nat -> tmesh).
  Context (PV : partition_vector_ok sm pv np) (CR : createFromSerialMesh sm pv np = Some m) (CMP : compares sm dec ltb).
  Context (RD : forall r, r < np -> exists P, PM_part m (N.of_nat r) = Some P /\ readTychoMesh ltb P (N.of_nat r) = Some (t r)).
  Context (om : nat -> q3 R) (nA nG : nat) (sigma : N -> R) (PB : problem_ok sm dec nA om sigma).
  Context (R0 : run (value R) (block R)).
  Notation geo := (fun r => viewGeo Rops dec om (t r)).
  Notation M := (fun r => viewMesh Rops dec om (t r)).
  Context (VR : view_run np nA (length (sm_cells sm)) M (mateOf sm np t) R0).
  Let OK := pb_mesh _ _ _ _ _ PB.
  Let TT := pb_tets _ _ _ _ _ PB.
  Let SOL := pb_solid _ _ _ _ _ PB.
  Let TR := pb_transversal _ _ _ _ _ PB.
  Lemma run_size : (N.of_nat nA * lenN (sm_cells sm) < two64)%N.
  Proof using VR. clear -VR.
    pose proof (vr_size _ _ _ _ _ _ VR) as S. pose proof (vr_psize _ _ _ _ _ _ VR) as P. unfold lenN. unfold two64.
    assert (N.of_nat (nA * length (sm_cells sm) * 4) < INT_MAX)%N by (eapply N.le_lt_trans; [|exact S]; rewrite <- (N.mul_1_r (N.of_nat _)) at 1; apply N.mul_le_mono_l; lia).
    assert (E : N.of_nat (nA * length (sm_cells sm) * 4) = (N.of_nat nA * N.of_nat (length (sm_cells sm)) * 4)%N) by lia. rewrite E in H. unfold INT_MAX in H. lia.
  Qed.
  Let SIZE := run_size.
  Variable sigmaT : nat -> nat -> R.
  Hypothesis ST : forall r c g, r < np -> getLGCell (t r) c = Some g -> sigmaT r c = sigma g.
  Lemma run_transport : transport_ok (nodeOf sm t) R0 geo sigmaT.
  Proof.
    destruct VR as [V1 V2 V3 V4 V5 V6 V7 V8 V9 V10 V11]. constructor; auto.
    - unfold good_run. rewrite V7, V8, V9, V10. split; [apply ok_fit; exact (view_sys sm pv np m ltb dec t OK TT PV CR CMP RD SOL om nA TR SIZE)|]. split; auto. split; auto.
      intros r Hr. eapply N.le_lt_trans; [|exact V11]. apply N.mul_le_mono_r. cbn. pose proof (cells_le sm pv np m ltb dec t OK TT PV CR CMP RD nA SIZE r Hr).
      assert (nA * tm_nCells (t r) * 4 <= nA * length (sm_cells sm) * 4) by (apply Nat.mul_le_mono_r, Nat.mul_le_mono_l; auto). lia.
    - unfold racyclic. rewrite V1, V2, V7, V8, V9, V10. exact (view_acyclic sm pv np m ltb dec t OK TT PV CR CMP RD SOL om nA TR (pb_acyclic _ _ _ _ _ PB)).
    - rewrite V7, V8, V9, V10. exact (view_geo sm pv np m ltb dec t OK TT PV CR CMP RD SOL om nA TR SIZE).
    - rewrite V7, V9. intros r c Hr Hc. destruct (gid_ex sm pv np m ltb dec t OK TT PV CR CMP RD r c Hr Hc) as (g & HG). rewrite (ST r c g Hr HG).
      destruct (gid_cell sm pv np m ltb dec t OK TT PV CR CMP RD r c g Hr HG) as (_ & _ & sc & _ & _ & _ & HS & _). exact (pb_sigma _ _ _ _ _ PB g sc HS).
    - rewrite V7, V9. exact (view_nodes sm pv np m ltb dec t OK TT PV CR CMP RD).
  Qed.
  Lemma run_faces_match : faces_match R0 geo.
  Proof. intros r c f q c' f' a. rewrite (vr_mate _ _ _ _ _ _ VR). intros H _. exact (view_faces_match sm pv np m ltb dec t OK TT PV CR CMP RD SOL om r c f q c' f' a H). Qed.
  Lemma run_face_vertices : face_vertices R0 geo.
  Proof. unfold face_vertices. rewrite (vr_ranks _ _ _ _ _ _ VR), (vr_mesh _ _ _ _ _ _ VR). exact (view_face_vertices sm pv np m ltb dec t OK TT PV CR CMP RD om). Qed.
  Lemma run_equation Qr Qs psi Psi : agree np t nA nG Qr Qs -> agree np t nA nG psi Psi ->
    (transport_eq (nodeOf sm t) R0 nG geo sigmaT Qr psi <-> s_transport sm dec nA nG om sigma Qs Psi).
  Proof.
    intros AQ AP. destruct VR as [V1 V2 V3 V4 V5 V6 V7 V8 V9 V10 V11]. unfold transport_eq, okc, valid. rewrite V7, V8, V9, V10. split.
    - intros H a G g sc Ha HG HS. destruct (gid_onto sm pv np m ltb dec t OK TT PV CR CMP RD g sc HS) as (r & c & Hr & HL).
      destruct (gid_cell sm pv np m ltb dec t OK TT PV CR CMP RD r c g Hr HL) as (_ & _ & _ & _ & _ & _ & _ & _ & Hc & _). rewrite <- (ST r c g Hr HL).
      apply (dg_cell_iff sm pv np m ltb dec t OK TT PV CR CMP RD SOL om nA nG psi Psi (fun v => Qr r c a v G) (Qs a G g) _ r c g a G AP (fun v Lv => AQ r c g a v G Hr HL Ha Lv HG) Hr HL Ha HG).
      apply H; auto.
    - intros H r c a G (Hr & Hc & Ha) HG. destruct (gid_ex sm pv np m ltb dec t OK TT PV CR CMP RD r c Hr Hc) as (g & HL).
      destruct (gid_cell sm pv np m ltb dec t OK TT PV CR CMP RD r c g Hr HL) as (_ & _ & sc & _ & _ & _ & HS & _). rewrite (ST r c g Hr HL).
      apply (dg_cell_iff sm pv np m ltb dec t OK TT PV CR CMP RD SOL om nA nG psi Psi (fun v => Qr r c a v G) (Qs a G g) _ r c g a G AP (fun v Lv => AQ r c g a v G Hr HL Ha Lv HG) Hr HL Ha HG).
      exact (H a G g sc Ha HG HS).
  Qed.
  Lemma run_flux wt psi Psi r c g v G : agree np t nA nG psi Psi -> r < np -> getLGCell (t r) c = Some g -> v < 4 -> G < nG -> scalarFlux R0 wt psi r c v G = s_flux nA wt Psi G g v.
  Proof. intros AP Hr HL Lv HG. unfold scalarFlux, s_flux, overAngles. rewrite (vr_angles _ _ _ _ _ _ VR). apply lsum_ext. intros a Ha. apply in_seq in Ha. rewrite (AP r c g a v G); auto. lia. Qed.
  Lemma run_scattering pi sigmaSr sigmaS wt Qr Qs psi Psi : (forall r c g, r < np -> getLGCell (t r) c = Some g -> sigmaSr r c = sigmaS g) ->
    agree np t nA nG Qr Qs -> agree np t nA nG psi Psi ->
    (scattering_eq (nodeOf sm t) R0 nG geo sigmaT pi sigmaSr wt Qr psi <-> s_scattering sm dec nA nG om sigma pi wt sigmaS Qs Psi).
  Proof.
    intros SS AQ AP. unfold scattering_eq, s_scattering. apply run_equation; auto. intros r c g a v G Hr HL Ha Lv HG. rewrite (run_flux wt psi Psi r c g v G AP Hr HL Lv HG), (SS r c g Hr HL), (AQ r c g a v G); auto.
  Qed.
  Lemma same_fields psi psi' Psi Psi' : agree np t nA nG psi Psi -> agree np t nA nG psi' Psi' -> (same R0 nG psi psi' <-> s_same sm nA nG Psi Psi').
  Proof.
    intros A A'. destruct VR as [V1 V2 V3 V4 V5 V6 V7 V8 V9 V10 V11]. unfold same, okc, valid. rewrite V7, V8, V9. split.
    - intros H a G g sc v Ha HG HS Lv. destruct (gid_onto sm pv np m ltb dec t OK TT PV CR CMP RD g sc HS) as (r & c & Hr & HL).
      destruct (gid_cell sm pv np m ltb dec t OK TT PV CR CMP RD r c g Hr HL) as (_ & _ & _ & _ & _ & _ & _ & _ & Hc & _).
      rewrite <- (A r c g a v G), <- (A' r c g a v G); auto.
    - intros H r c a v G (Hr & Hc & Ha) Lv HG. destruct (gid_ex sm pv np m ltb dec t OK TT PV CR CMP RD r c Hr Hc) as (g & HL).
      destruct (gid_cell sm pv np m ltb dec t OK TT PV CR CMP RD r c g Hr HL) as (_ & _ & sc & _ & _ & _ & HS & _). rewrite (A r c g a v G), (A' r c g a v G); auto. now apply (H a G g sc v).
  Qed.
  (** Sums over the cells of all ranks are sums over the cells of the serial mesh. *)
  Lemma s_volume_eq g p : s_cell sm dec g p -> s_volume sm dec g = (Rabs (vol6 p) / 6)%R.
  Proof using.
    clear. intros (sc & A & E). unfold s_volume. rewrite A. cbn zeta. destruct (sc_nodes sc) as [n0 n1 n2 n3], p as [x y z w]. cbn [q4l r0 r1 r2 r3 map] in E |- *. injection E as -> -> -> ->. reflexivity.
  Qed.
  Lemma sum_cells (h : nat * nat -> R) (h' : N -> R) : (forall r c g, r < np -> getLGCell (t r) c = Some g -> h (r, c) = h' g) ->
    lsum (cells R0) h = lsum (map N.of_nat (seq 0 (length (sm_cells sm)))) h'.
  Proof.
    intros E. destruct (C11_partition_total sm pv np OK PV) as (m' & CR' & _ & LP & PE & _). assert (m' = m) by congruence. subst m'. rewrite <- (lsum_perm _ _ h' PE).
    unfold cells. rewrite (vr_ranks _ _ _ _ _ _ VR), (vr_mesh _ _ _ _ _ _ VR), !lsum_flat.
    assert (EP : forall parts k, (forall i P, nth_error parts i = Some P -> k + i < np /\ PM_part m (N.of_nat (k + i)) = Some P) ->
      lsum (seq k (length parts)) (fun r => lsum (map (fun c => (r, c)) (seq 0 (rm_nCells (M r)))) h) = lsum parts (fun P => lsum (cellGids P) h')).
    { induction parts as [|P parts IH]; intros k H; [reflexivity|]. cbn [length seq]. rewrite !lsum_cons. f_equal.
      - destruct (H 0 P eq_refl) as (Hr & HP). rewrite Nat.add_0_r in Hr, HP. destruct (rank_view sm pv np m ltb dec t OK TT PV CR CMP RD k Hr) as (P' & HP' & _ & _ & _ & FF). assert (P' = P) by congruence. subst P'.
        unfold cellGids. rewrite !lsum_map. cbn [viewMesh rm_nCells]. rewrite (proj1 (ff_sizes _ _ _ FF)).
        assert (X : forall l o, (forall i C, nth_error l i = Some C -> getLGCell (t k) (o + i) = Some (pc_gid C)) -> lsum (seq o (length l)) (fun c => h (k, c)) = lsum l (fun C => h' (pc_gid C))).
        { clear -E Hr. induction l as [|C l IHl]; intros o Q; [reflexivity|]. cbn [length seq]. rewrite !lsum_cons. f_equal.
          - apply E; auto. specialize (Q 0 C eq_refl). now rewrite Nat.add_0_r in Q.
          - apply IHl. intros i C' Hi. specialize (Q (S i) C' Hi). now rewrite <- Nat.add_succ_comm in Q. }
        apply X. intros i C Hi. cbn [Nat.add]. rewrite (ff_lg _ _ _ FF), Hi. reflexivity.
      - apply IH. intros i P' Hi. specialize (H (S i) P' Hi). now rewrite <- Nat.add_succ_comm in H. }
    rewrite <- LP. apply EP. intros i P Hi. cbn [Nat.add]. split; [rewrite <- LP; apply nth_error_Some; congruence|]. unfold PM_part. now rewrite Nat2N.id.
  Qed.
  Lemma run_norm phi Phi G : (forall r c g v, r < np -> getLGCell (t r) c = Some g -> v < 4 -> phi r c v G = Phi G g v) ->
    fluxNorm R0 geo sigmaT phi G = s_norm sm dec sigma Phi G.
  Proof.
    intros E. unfold fluxNorm, s_norm. apply sum_cells. intros r c g Hr HL. cbv beta iota. rewrite (ST r c g Hr HL).
    destruct (volume_view sm pv np m ltb dec t OK TT PV CR CMP RD SOL om r c g Hr HL) as (p & Kp & EV & _ & _). rewrite EV, <- (s_volume_eq g p Kp). unfold massForm, sum4. now rewrite !(E r c g _ Hr HL) by lia.
  Qed.
End Run.
