(** Proofs for C70. *)
From Coq Require Import Reals Permutation.
From Verif Require Import Prelude Bytes LayoutModel LayoutSpec LayoutProofs PsiFileModel PsiFileSpec PsiFileProofs DeckModel MeshModel MeshSpec CreateModel CreateSpec CreateProofs TychoModel TychoSpec TychoProofs TychoMeshProofs TychoCreatedProofs GeometryModel GaussModel TransportModel.
From Verif Require Import TraverseModel TraverseSpec TraverseRun PropertiesTraverse SweepModel FluxModel FluxProofs PropertiesFlux ProblemModel ViewModel ViewSpec ViewProofs ViewSysProofs PropertiesView BitsModel BitsSpec BitsProofs PropertiesBits MainModel MainSpec.
From Verif Require AngleModel ScheduleModel ScheduleSpec PropertiesSchedule OrigModel OrigSpec PropertiesOrig.

(** ---- lists ---- *)
Lemma nodup_app {X} (l m : list X) : NoDup l -> NoDup m -> (forall x, In x l -> ~ In x m) -> NoDup (l ++ m).
Proof.
  induction l as [|a l IH]; intros Nl Nm D; cbn; auto. inversion Nl; subst. constructor.
  - rewrite in_app_iff. intros [H|H]; [auto|]. apply (D a); [now left|auto].
  - apply IH; auto. intros x Hx. apply D. now right.
Qed.
Lemma nodup_concat {X} (f : nat -> list X) (l : list nat) : NoDup l -> (forall r, In r l -> NoDup (f r)) ->
  (forall r q x, In r l -> In q l -> In x (f r) -> In x (f q) -> r = q) -> NoDup (concat (map f l)).
Proof.
  induction l as [|a l IH]; intros NL N D; cbn; [constructor|]. inversion NL; subst. apply nodup_app.
  - apply N. now left.
  - apply IH; auto. intros r Hr. apply N. now right. intros r q x Hr Hq. apply D; now right.
  - intros x Hx I. apply in_concat in I. destruct I as (y & Hy & Hxy). apply in_map_iff in Hy. destruct Hy as (q & <- & Hq).
    assert (a = q) by (eapply (D a q x); [now left|now right|auto|auto]). subst q. contradiction.
Qed.

Lemma finite_choice {X} (d : X) (P : nat -> X -> Prop) n : (forall i, i < n -> exists x, P i x) -> exists f, forall i, i < n -> P i (f i).
Proof.
  induction n as [|n IH]; intros H; [exists (fun _ => d); intros; lia|]. destruct IH as (f & Hf); [intros; apply H; lia|]. destruct (H n) as (x & Hx); [lia|].
  exists (fun i => if i =? n then x else f i). intros i Hi. destruct (Nat.eqb_spec i n); [now subst|apply Hf; lia].
Qed.
(** ---- the program's hat source is the specified one ---- *)
Lemma hat_same {T} (A : arith T) sT sS p o : hatValueA A sT sS p o = b_hat A sT sS p o.
Proof. reflexivity. Qed.

(** ---- cross sections ---- *)
Lemma mapM_nth {X Y} (f : X -> option Y) l r : mapM f l = Some r -> forall i x, nth_error l i = Some x -> exists y, f x = Some y /\ nth_error r i = Some y.
Proof.
  revert r. induction l as [|a l IH]; intros r E i x H; [destruct i; discriminate|]. cbn in E. destruct (f a) as [b|] eqn:Ea; [|discriminate]. destruct (mapM f l) as [s|] eqn:Es; [|discriminate].
  apply Some_inj in E. subst r. destruct i; cbn in *; [apply Some_inj in H; subst; eauto|eauto].
Qed.
Lemma cross_nth {T} (z : T) mats s1 u1 s2 u2 xs : createCrossSections mats s1 u1 s2 u2 = Some xs -> forall c mt, nth_error mats c = Some mt ->
  (mt = 1%N /\ nth c (fst xs) z = s1 /\ nth c (snd xs) z = u1) \/ (mt = 2%N /\ nth c (fst xs) z = s2 /\ nth c (snd xs) z = u2).
Proof.
  unfold createCrossSections. destruct (mapM _ mats) as [l|] eqn:E; [|discriminate]. intros H c mt Hc. apply Some_inj in H. subst xs. cbn [fst snd].
  destruct (mapM_nth _ _ _ E c mt Hc) as ((a, b) & F & Hl).
  assert (N1 : nth_error (map fst l) c = Some a) by (rewrite nth_error_map, Hl; reflexivity). assert (N2 : nth_error (map snd l) c = Some b) by (rewrite nth_error_map, Hl; reflexivity).
  rewrite (nth_error_nth _ _ z N1), (nth_error_nth _ _ z N2). unfold crossSection in F.
  destruct (N.eqb_spec mt 1); [apply Some_inj in F; injection F as <- <-; auto|]. destruct (N.eqb_spec mt 2); [apply Some_inj in F; injection F as <- <-; auto|discriminate].
Qed.
Lemma cross_ex {T} mats (s1 u1 s2 u2 : T) : (forall c mt, nth_error mats c = Some mt -> mt = 1%N \/ mt = 2%N) -> exists xs, createCrossSections mats s1 u1 s2 u2 = Some xs.
Proof.
  intros H. unfold createCrossSections. assert (K : exists l, mapM (crossSection s1 u1 s2 u2) mats = Some l).
  { induction mats as [|a l IH]; [exists []; reflexivity|]. destruct IH as (l' & E); [intros c mt Hc; exact (H (S c) mt Hc)|]. cbn. rewrite E.
    unfold crossSection at 1. destruct (H 0 a eq_refl) as [-> | ->]; cbn; eauto. }
  destruct K as (l & ->). eauto.
Qed.

Section Fit.
  Context {T : Type} (A : arith T) (dec : N -> T) (enc : T -> N) (ltb : N -> N -> bool) (pi : T).
  Context (sm : smesh) (pv : list N) (np : nat) (cfg : config T) (q : angles T) (threads : nat).
  Notation nG := (N.to_nat (cNGroups cfg)).
  Notation nA := (q_num q).
  Notation om := (q_omega q).
  Notation nC := (length (sm_cells sm)).
  Context (PB : fit_ok A sm dec om nA) (PV : partition_vector_ok sm pv np) (SM : mesh_small sm np) (CMP : exists decR, compares sm decR ltb) (TH : 0 < threads) (NP : 0 < np).
  Context (HG0 : 0 < nG) (HA0 : 0 < nA) (HC0 : 0 < nC) (SZ : (N.of_nat (nA * nC * 4) * (24 * cNGroups cfg) < INT_MAX)%N).
  Context (t : nat -> tmesh) (RD : program_reads sm pv np ltb t).
  Notation sigT := (by_material A sm (cSigmaT1 cfg) (cSigmaT2 cfg)).
  Notation sigS := (by_material A sm (cSigmaS1 cfg) (cSigmaS2 cfg)).
  Notation R0 := (traverser A dec cfg q t np threads).
  Lemma size_one : (N.of_nat (nA * 4 * nC * nG) < 89478486)%N.
  Proof.
    clear -SZ. unfold INT_MAX in SZ. assert (E : (N.of_nat (nA * nC * 4) * (24 * cNGroups cfg) = 24 * N.of_nat (nA * 4 * nC * nG))%N).
    { rewrite !Nat2N.inj_mul, N2Nat.id. ring. } rewrite E in SZ. lia.
  Qed.
  Lemma groups_small : (cNGroups cfg < 2^31)%N.
  Proof. pose proof size_one as S. clear -S HA0 HC0. assert (nG <= nA * 4 * nC * nG) by (assert (1 <= nA * 4 * nC) by nia; nia). lia. Qed.
  Lemma psize : getDataSizeInBytes (cNGroups cfg) = (24 * cNGroups cfg)%N.
  Proof. pose proof groups_small as H. clear -H. unfold getDataSizeInBytes. rewrite (w64_small (_ * 3)) by (unfold two64; lia). rewrite w64_small by (unfold two64; lia). lia. Qed.

  Lemma world : exists m decR, createFromSerialMesh sm pv np = Some m /\ compares sm decR ltb /\ forall r, r < np -> exists P, PM_part m (N.of_nat r) = Some P /\ readTychoMesh ltb P (N.of_nat r) = Some (t r).
  Proof. destruct (reads_parts sm pv np ltb t (bo_mesh _ _ _ _ _ PB) PV SM RD) as (m & K & L). destruct CMP as (d & D). eauto. Qed.
  Lemma material r c g sc : r < np -> getLGCell (t r) c = Some g -> SM_cell sm g = Some sc -> nth_error (tm_material (t r)) c = Some (sc_mat sc).
  Proof.
    intros Hr HG HS. destruct world as (m & d & CR & CP & R1). destruct PB. destruct (rank_view sm pv np m ltb d t bo_mesh bo_tets PV CR CP R1 r Hr) as (P & HP & _ & _ & W & FF).
    pose proof (ff_mat _ _ _ FF c) as FM. unfold getCellMaterial in FM. rewrite FM. rewrite (ff_lg _ _ _ FF) in HG. destruct (nth_error (pt_cells P) c) as [C|] eqn:HC; [|discriminate]. cbn in *. apply Some_inj in HG. subst g.
    destruct (cell_info sm pv np m bo_mesh PV CR _ P HP c C HC) as (sc' & E & _ & _ & _ & _ & M). assert (sc' = sc) by congruence. subst. now rewrite M.
  Qed.
  Lemma cell_of r c g : r < np -> getLGCell (t r) c = Some g -> exists sc, SM_cell sm g = Some sc /\ c < tm_nCells (t r).
  Proof.
    intros Hr HG. destruct world as (m & d & CR & CP & R1). destruct PB. destruct (gid_cell sm pv np m ltb d t bo_mesh bo_tets PV CR CP R1 r c g Hr HG) as (_ & _ & sc & _ & _ & _ & HS & _ & Hc & _). eauto.
  Qed.
  (** The values by cell. *)
  Definition holds (psi : nat -> nat -> nat -> nat -> nat -> T) (Val : nat -> N -> value T) : Prop := forall r c g a v G, r < np -> getLGCell (t r) c = Some g -> a < nA -> v < 4 -> G < nG ->
    psi r c a v G = getBlock A (Val a g) v G.
  (** ---- the output file ---- *)
  Lemma lg_length r : r < np -> length (tm_lGCells (t r)) = tm_nCells (t r).
  Proof.
    intros Hr. destruct world as (m & d & CR & CP & R1). destruct PB. destruct (rank_view sm pv np m ltb d t bo_mesh bo_tets PV CR CP R1 r Hr) as (P & HP & _ & _ & W & FF).
    rewrite (proj1 (ff_sizes _ _ _ FF)). assert (E : forall c, nth_error (tm_lGCells (t r)) c = nth_error (map pc_gid (pt_cells P)) c) by (intros c; rewrite nth_error_map; exact (ff_lg _ _ _ FF c)).
    rewrite <- (map_length pc_gid (pt_cells P)). apply Nat.le_antisymm.
    - apply nth_error_None. rewrite E. now apply nth_error_None.
    - apply nth_error_None. rewrite <- E. now apply nth_error_None.
  Qed.
  Lemma lg_perm : Permutation (concat (map (fun r => tm_lGCells (t r)) (seq 0 np))) (map N.of_nat (seq 0 nC)).
  Proof.
    destruct world as (m & d & CR & CP & R1). destruct PB as [OK TT _]. apply NoDup_Permutation.
    - apply nodup_concat; [apply seq_NoDup| |].
      + intros r Hr. apply in_seq in Hr. apply NoDup_nth_error. intros i j Hi E. destruct (nth_error (tm_lGCells (t r)) i) as [g|] eqn:Ei; [|apply nth_error_None in Ei; lia].
        exact (proj2 (gid_inj sm pv np m ltb d t OK TT PV CR CP R1 r i r j g ltac:(lia) ltac:(lia) Ei (eq_sym E))).
      + intros r s x Hr Hs Ir Is. apply in_seq in Hr, Hs. apply In_nth_error in Ir, Is. destruct Ir as (c & Ec), Is as (c' & Ec').
        exact (proj1 (gid_inj sm pv np m ltb d t OK TT PV CR CP R1 r c s c' x ltac:(lia) ltac:(lia) Ec Ec')).
    - apply FinFun.Injective_map_NoDup; [intros x y; lia|apply seq_NoDup].
    - intros g. rewrite in_concat, in_map_iff. split.
      + intros (l & Hl & Hg). apply in_map_iff in Hl. destruct Hl as (r & <- & Hr). apply in_seq in Hr. apply In_nth_error in Hg. destruct Hg as (c & Hc).
        destruct (gid_cell sm pv np m ltb d t OK TT PV CR CP R1 r c g ltac:(lia) Hc) as (_ & _ & sc & _ & _ & _ & HS & _). exists (N.to_nat g). split; [lia|]. apply in_seq. unfold SM_cell in HS. assert (N.to_nat g < nC) by (apply nth_error_Some; congruence). lia.
      + intros (k & <- & Hk). apply in_seq in Hk. destruct (SM_cell sm (N.of_nat k)) as [sc|] eqn:HS; [|unfold SM_cell in HS; rewrite Nat2N.id in HS; apply nth_error_None in HS; lia].
        destruct (gid_onto sm pv np m ltb d t OK TT PV CR CP R1 _ sc HS) as (r & c & Hr & HG). exists (tm_lGCells (t r)). split; [apply in_map_iff; exists r; split; auto; apply in_seq; lia|]. eapply nth_error_In. exact HG.
  Qed.
  Lemma nc_le r : r < np -> tm_nCells (t r) <= nC.
  Proof.
    intros Hr. rewrite <- (lg_length r Hr), <- (seq_length nC 0), <- (map_length N.of_nat (seq 0 nC)), <- (Permutation_length lg_perm).
    assert (I : In r (seq 0 np)) by (apply in_seq; lia). apply in_split in I. destruct I as (l1 & l2 & ->). rewrite map_app, concat_app, app_length. cbn. rewrite app_length. lia.
  Qed.
  Definition image (Val : nat -> N -> value T) : bytes := psiImage nG 4 nA nC (fun G v a c => enc (getBlock A (Val a (N.of_nat c)) v G)).
  Lemma ranks_agree psi Val : holds psi Val -> forall x, In x (map (fun r => psiRank enc nG nA (t r) (psi r)) (seq 0 np)) -> agrees nG 4 nA (fun G v a c => enc (getBlock A (Val a (N.of_nat c)) v G)) x.
  Proof.
    intros H x Hx. apply in_map_iff in Hx. destruct Hx as (r & <- & Hr). apply in_seq in Hr. intros c g G v a Hc HGr Hv Ha. cbn [psiRank lgCell psibuf] in *. rewrite (lg_length r) by lia.
    destruct (cell_of r c g ltac:(lia) Hc) as (sc & HS & Lc). pose proof (nc_le r ltac:(lia)) as LE. pose proof size_one as SO.
    assert (B : (N.of_nat nG * 4 * N.of_nat nA * N.of_nat (tm_nCells (t r)) < two64)%N).
    { assert (K : nG * 4 * nA * tm_nCells (t r) <= nA * 4 * nC * nG) by nia. unfold two64. lia. }
    destruct (index4_ok _ _ _ _ (N.of_nat G) (N.of_nat v) (N.of_nat a) (N.of_nat c) B) as (k & E & Lk & D); try lia. change (N.of_nat 4) with 4%N. unfold read4. rewrite E. unfold buf_read. cbn [blen bget psiRank psibuf].
    rewrite (proj2 (N.ltb_lt _ _) Lk). unfold digits4 in D. injection D as -> -> -> ->. rewrite !Nat2N.id, N2Nat.id. f_equal. f_equal. apply H; auto; lia.
  Qed.
  Lemma write_ok psi Val : holds psi Val -> (exists out, writePsi enc nG nA np t psi out) /\ forall out, writePsi enc nG nA np t psi out -> forall p, out p = nth_error (image Val) (N.to_nat p).
  Proof.
    intros H. pose proof size_one as SO. pose proof (ranks_agree psi Val H) as AG.
    destruct (file_correct nG 4 nA nC (fun G v a c => enc (getBlock A (Val a (N.of_nat c)) v G))) with (ranks := map (fun r => psiRank enc nG nA (t r) (psi r)) (seq 0 np)) as (ws & E & K); auto; try lia.
    - unfold D. assert (nA * (4 * nG) <= nA * 4 * nC * nG) by (replace (nA * 4 * nC * nG) with (nA * (4 * nG) * nC) by ring; generalize (nA * (4 * nG)); clear -HC0; intros x; nia). lia.
    - unfold D, two64. assert (E : (N.of_nat nC * N.of_nat (nA * (4 * nG)) = N.of_nat (nA * 4 * nC * nG))%N) by lia. rewrite E. lia.
    - destruct np; [lia|]. discriminate.
    - rewrite map_map. exact lg_perm.
    - change (N.of_nat 4) with 4%N in E. split.
      + eexists. exists ws, (concat ws). split; [exact E|]. split; [reflexivity|]. intros p. reflexivity.
      + intros out (ws' & l & E' & PL & F) p. rewrite E' in E. apply Some_inj in E. subst ws'. rewrite F. exact (proj1 (K l PL) p).
  Qed.

  (** ---- the constructor of TychoMesh succeeds ---- *)
  Lemma b_point_ex g sc n : SM_cell sm g = Some sc -> In n (q4l (sc_nodes sc)) -> exists p, b_point sm dec n = Some p.
  Proof. intros HS Hn. destruct (smo_cn _ (bo_mesh _ _ _ _ _ PB) g sc n HS Hn) as (sn & E). unfold b_point. rewrite E. cbn. eauto. Qed.
  Lemma b_cell_ex g sc : SM_cell sm g = Some sc -> exists p, b_cell sm dec g = Some p.
  Proof.
    intros HS. unfold b_cell. rewrite HS. cbn [obind]. pose proof (fun n => b_point_ex g sc n HS) as K. destruct (sc_nodes sc) as [a b c d]. unfold q4l in K. cbn [r0 r1 r2 r3] in *.
    destruct (K a ltac:(cbn; auto)) as (? & ->), (K b ltac:(cbn; auto)) as (? & ->), (K c ltac:(cbn; auto)) as (? & ->), (K d ltac:(cbn; auto)) as (? & ->). cbn. eauto.
  Qed.
  Lemma constructs_ok r : normals_ok A sm dec om nA -> r < np -> constructs A dec om (t r) nA = true.
  Proof.
    intros NO Hr. destruct world as (m & d & CR & CP & R1). pose proof PB as [OK TT _]. destruct (rank_view sm pv np m ltb d t OK TT PV CR CP R1 r Hr) as (P & HP & _ & _ & W & FF).
    unfold constructs. apply Bool.andb_true_iff. split; [apply Bool.andb_true_iff; split|].
    - apply forallb_forall. intros c Hc. apply in_seq in Hc. destruct (gid_ex sm pv np m ltb d t OK TT PV CR CP R1 r c Hr ltac:(lia)) as (g & HG). destruct (cell_of r c g Hr HG) as (sc & HS & _).
      unfold cellVolume. rewrite (bcell sm pv np m ltb d t OK TT PV CR CP R1 dec r c g Hr HG). destruct (b_cell_ex g sc HS) as (p & ->). reflexivity.
    - apply forallb_forall. intros (c, f) H. unfold loop2 in H. apply in_prod_iff in H. destruct H as (Hc & Hf). apply in_seq in Hc, Hf. cbn [fst snd].
      destruct (gid_ex sm pv np m ltb d t OK TT PV CR CP R1 r c Hr ltac:(lia)) as (g & HG). destruct (cell_of r c g Hr HG) as (sc & HS & _).
      destruct (opp_ex sm pv np m ltb d t OK TT PV CR CP R1 g sc f HS ltac:(lia)) as (n & sf & SO).
      assert (BF : exists F, b_face sm dec g f = Some F).
      { unfold b_face. rewrite (proj2 (faceNumber_iff sm pv np m ltb d t OK TT PV CR CP R1 g f n ltac:(lia)) (ex_intro _ sf SO)). cbn [obind].
        assert (HF : SM_face sm n = Some sf) by (destruct SO as (? & _ & _ & X & _); exact X). rewrite HF. cbn [obind].
        assert (K : forall k x, nth_error (q3l (sf_nodes sf)) k = Some x -> exists p, b_point sm dec x = Some p).
        { intros k x Hk. destruct (face_vertex sm OK g sc f n sf k x HS SO Hk) as (v & _ & _ & Hv). apply (b_point_ex g sc x HS). eapply nth_error_In; eauto. }
        destruct (K 0 _ eq_refl) as (? & ->), (K 1 _ eq_refl) as (? & ->), (K 2 _ eq_refl) as (? & ->). cbn. eauto. }
      destruct BF as (F & EF). destruct (b_cell_ex g sc HS) as (p & EP).
      apply Bool.andb_true_iff. split; [apply Bool.andb_true_iff; split|].
      + unfold faceArea. rewrite (bface sm pv np m ltb d t OK TT PV CR CP R1 dec r c g f Hr ltac:(lia) HG), EF. reflexivity.
      + apply forallb_forall. intros a Ha. apply in_seq in Ha. unfold getOmegaDotN. rewrite (bface sm pv np m ltb d t OK TT PV CR CP R1 dec r c g f Hr ltac:(lia) HG), EF. cbn [obind].
        rewrite (bcell sm pv np m ltb d t OK TT PV CR CP R1 dec r c g Hr HG), EP. cbn [obind]. pose proof (NO a g f F p ltac:(lia) ltac:(lia) EF EP). destruct (omegaDotN A (om a) F p); [reflexivity|congruence].
      + apply forallb_forall. intros k Hk. apply in_seq in Hk. pose proof (neighbor_ok P _ W (t r) FF) as NOK.
        pose proof HG as HG1. rewrite (ff_lg _ _ _ FF) in HG1. destruct (nth_error (pt_cells P) c) as [C|] eqn:HC; [|discriminate]. cbn in HG1. apply Some_inj in HG1. subst g.
        destruct (serial_opposite sm pv np m OK PV CR _ P HP c C f n sf HC SO) as (fl & FL & OL & EG). destruct (nth3 (pf_nodes FL) k ltac:(lia)) as (nl & Hnl). specialize (NOK c f fl FL k nl OL Hnl).
        destruct (pf_bdry FL =? NotBoundary)%N; [destruct NOK as (_ & v' & _ & NOK & _)|]; now rewrite NOK.
    - exact (check_ok P _ W (t r) FF).
  Qed.

  Context (xs : nat -> list T * list T) (XS : forall r, r < np -> createCrossSections (tm_material (t r)) (cSigmaT1 cfg) (cSigmaS1 cfg) (cSigmaT2 cfg) (cSigmaS2 cfg) = Some (xs r)).
  (** The run with the ghost pairing of faces. *)
  Definition ghost : run (value T) (block T) :=
    mkRun (u_dir R0) (u_comm R0) (u_mpi R0) (u_ranks R0) (u_angles R0) (u_threads R0) (u_max R0) (u_psize R0) (u_mesh R0) (u_data R0) (mateOf sm np t).

  Lemma sig_ok r c g : r < np -> getLGCell (t r) c = Some g -> nth c (fst (xs r)) (azero A) = sigT g /\ nth c (snd (xs r)) (azero A) = sigS g.
  Proof.
    intros Hr HG. destruct (cell_of r c g Hr HG) as (sc & HS & _). pose proof (material r c g sc Hr HG HS) as M. unfold by_material. rewrite HS.
    destruct (cross_nth (azero A) _ _ _ _ _ _ (XS r Hr) c _ M) as [(-> & ? & ?)|(-> & ? & ?)]; cbn; auto.
  Qed.
  Lemma source_ok r c g a v G : r < np -> getLGCell (t r) c = Some g -> v < 4 -> hatSourceA A dec om (t r) (xs r) c a v G = b_source A sm dec om sigT sigS a g v G.
  Proof.
    intros Hr HG Hv. destruct (cell_of r c g Hr HG) as (sc & HS & _). destruct world as (m & d & CR & CP & R1). destruct PB. unfold hatSourceA, b_source. rewrite HS. cbn [obind].
    destruct (nth4 (sc_nodes sc) v Hv) as (n & Hn). rewrite Hn. cbn [obind]. rewrite (bvertex sm pv np m ltb d t bo_mesh bo_tets PV CR CP R1 dec r c g sc v n Hr HG HS Hn).
    destruct (sig_ok r c g Hr HG) as (-> & ->). destruct (b_point sm dec n); [apply hat_same|reflexivity].
  Qed.
  Lemma conf : configuredA A sm dec om nA sigT pv np ltb t ghost (fun r c => nth c (fst (xs r)) (azero A)).
  Proof.
    constructor; try reflexivity; auto.
    - intros r c g Hr HG. now apply sig_ok.
    - cbn. rewrite psize. clear -HG0. lia.
    - cbn [ghost u_psize traverser]. rewrite psize. exact SZ.
  Qed.

  Notation nCells := (fun r => rm_nCells (u_mesh R0 r)).
  Notation iterate := (b_iterate A sm dec om nA (q_weight q) pi (gaussOf (cGauss cfg)) nG sigT sigS).
  Notation emission := (b_emission A sm dec om nA (q_weight q) pi sigT sigS).
  Notation sT := (fun r c => nth c (fst (xs r)) (azero A)).
  Notation sS := (fun r c => nth c (snd (xs r)) (azero A)).
  Notation geo := (fun r => viewGeo A dec om (t r)).
  Notation src := (fun r => hatSourceA A dec om (t r) (xs r)).
  Lemma emission_ok psi Val tot : holds psi Val -> forall r c g a v G, r < np -> a < nA -> getLGCell (t r) c = Some g -> v < 4 -> G < nG ->
    gTotal A pi nA nG nCells sS src (gPsiToPhi A nA nG (q_weight q) nCells psi) tot r c a v G = emission Val a g v G.
  Proof.
    intros H r c g a v G Hr Ha HG Hv HGr. destruct (cell_of r c g Hr HG) as (sc & HS & Hc). unfold gTotal, gPsiToPhi. rewrite total_eq, psiToPhi_eq. rewrite (proj2 (in_inside nG _ c v G)); [|cbn; auto].
    destruct (Nat.ltb_spec a nA); [|lia]. cbn [andb]. unfold b_emission. rewrite (source_ok r c g a v G Hr HG Hv). destruct (sig_ok r c g Hr HG) as (_ & ->). f_equal. f_equal. unfold b_flux.
    assert (E : forall l x, (forall a, In a l -> a < nA) -> fold_left (fun s a => aadd A s (amul A (psi r c a v G) (q_weight q a))) l x = fold_left (fun s a => aadd A s (amul A (getBlock A (Val a g) v G) (q_weight q a))) l x).
    { induction l as [|b l IH]; intros x L; [reflexivity|]. cbn [fold_left]. rewrite (H r c g b v G) by (auto; apply L; now left). apply IH. intros b' Hb. apply L. now right. }
    apply E. intros b Hb. apply in_seq in Hb. lia.
  Qed.
  (** One sweep. *)
  Lemma traverse_ok pr psi Val tot psi' : holds psi Val ->
    fullSweepA A R0 (gaussOf (cGauss cfg)) nG geo sT pr (gTotal A pi nA nG nCells sS src (gPsiToPhi A nA nG (q_weight q) nCells psi) tot) psi psi' ->
    exists Val', holds psi' Val' /\ b_sweep A sm dec om (gaussOf (cGauss cfg)) nG sigT nA (emission Val) Val' /\ forall a g sc, a < nA -> SM_cell sm g = Some sc -> Val' a g <> None.
  Proof.
    intros H (S & SW & NN & ->). exists (gather np t (fun r => r_val (g_r S r))).
    pose proof conf as CF. assert (SW' : sweepEnds A ghost (gaussOf (cGauss cfg)) nG geo sT pr (gTotal A pi nA nG nCells sS src (gPsiToPhi A nA nG (q_weight q) nCells psi) tot) psi S) by exact SW.
    split; [|split].
    - intros r c g a v G Hr HG Ha Hv HGr. now rewrite (ca_gather A sm dec om nA _ PB pv np ltb t _ _ CF _ r c g a Hr HG).
    - refine (ca_sweep A sm dec om nA _ PB pv np ltb t _ _ CF _ nG pr _ _ psi S _ SW'). intros r c g a v G Hr Ha HG Hv HGr. now apply emission_ok.
    - intros a g sc Ha HS. destruct (ca_onto A sm dec om nA _ PB pv np ltb t _ _ CF g sc HS) as (r & c & Hr & HG). rewrite (ca_gather A sm dec om nA _ PB pv np ltb t _ _ CF _ r c g a Hr HG).
      apply NN. apply (ca_valid A sm dec om nA _ PB pv np ltb t _ _ CF). eauto 6.
  Qed.
  Lemma cells_ok : (N.of_nat nA * lenN (sm_cells sm) < two64)%N.
  Proof. pose proof size_one as S. clear -S HG0. unfold lenN, two64. assert (nA * nC <= nA * 4 * nC * nG) by (replace (nA * 4 * nC * nG) with (nA * nC * (4 * nG)) by ring; generalize (nA * nC); intros x; nia). lia. Qed.
  Lemma system_fit : sys_ok np nA (fun r => viewMesh A dec om (t r)) (mateOf sm np t) /\ OrigSpec.sides_distinct np (fun r => viewMesh A dec om (t r)).
  Proof.
    destruct world as (m & d & CR & CP & R1). pose proof PB as [OK TT SG]. split.
    - exact (bsys sm pv np m ltb d t OK TT PV CR CP R1 A dec om nA cells_ok SG).
    - exact (bsides sm pv np m ltb d t OK TT PV CR CP R1 A dec om).
  Qed.
End Fit.

Section Run.
  Context {T : Type} (A : arith T) (dec : N -> T) (enc : T -> N) (ltb : N -> N -> bool) (pi : T).
  Context (sm : smesh) (pv : list N) (np : nat) (cfg : config T) (q : angles T) (threads : nat).
  Notation nG := (N.to_nat (cNGroups cfg)).
  Notation nA := (q_num q).
  Notation om := (q_omega q).
  Notation nC := (length (sm_cells sm)).
  Context (PB : bits_ok A sm dec om nA) (PV : partition_vector_ok sm pv np) (SM : mesh_small sm np) (CMP : exists decR, compares sm decR ltb) (TH : 0 < threads) (NP : 0 < np).
  Context (HG0 : 0 < nG) (HA0 : 0 < nA) (HC0 : 0 < nC) (SZ : (N.of_nat (nA * nC * 4) * (24 * cNGroups cfg) < INT_MAX)%N).
  Context (t : nat -> tmesh) (RD : program_reads sm pv np ltb t).
  Notation sigT := (by_material A sm (cSigmaT1 cfg) (cSigmaT2 cfg)).
  Notation sigS := (by_material A sm (cSigmaS1 cfg) (cSigmaS2 cfg)).
  Notation R0 := (traverser A dec cfg q t np threads).
  Context (xs : nat -> list T * list T) (XS : forall r, r < np -> createCrossSections (tm_material (t r)) (cSigmaT1 cfg) (cSigmaS1 cfg) (cSigmaT2 cfg) (cSigmaS2 cfg) = Some (xs r)).
  Notation nCells := (fun r => rm_nCells (u_mesh R0 r)).
  Notation iterate := (b_iterate A sm dec om nA (q_weight q) pi (gaussOf (cGauss cfg)) nG sigT sigS).
  Notation emission := (b_emission A sm dec om nA (q_weight q) pi sigT sigS).
  Notation sT := (fun r c => nth c (fst (xs r)) (azero A)).
  Notation sS := (fun r c => nth c (snd (xs r)) (azero A)).
  Notation geo := (fun r => viewGeo A dec om (t r)).
  Notation src := (fun r => hatSourceA A dec om (t r) (xs r)).
  Notation world := (world A dec ltb sm pv np q PB PV SM CMP t RD).
  Notation holds := (holds A np cfg q t).
  Notation image := (image A enc sm cfg q).
  Notation ghost := (ghost A dec sm np cfg q threads t).
  Notation sig_ok := (sig_ok A dec ltb sm pv np cfg q PB PV SM CMP t RD xs XS).
  Notation conf := (conf A dec ltb sm pv np cfg q threads PB PV SM CMP TH HG0 HA0 HC0 SZ t RD xs XS).
  Notation emission_ok := (emission_ok A dec enc ltb pi sm pv np cfg q threads PB PV SM CMP TH NP HG0 HA0 HC0 SZ t RD xs XS).
  Notation traverse_ok := (traverse_ok A dec enc ltb pi sm pv np cfg q threads PB PV SM CMP TH NP HG0 HA0 HC0 SZ t RD xs XS).
  Notation cells_ok := (cells_ok sm cfg q HG0 SZ).
  Notation system_fit := (system_fit A dec ltb sm pv np cfg q PB PV SM CMP HG0 SZ t RD).
  (** ---- iterates are determined ---- *)
  Lemma iterate_unique n : forall V V', iterate n V -> iterate n V' -> forall a g sc, a < nA -> SM_cell sm g = Some sc -> vsame nG (V a g) (V' a g).
  Proof.
    destruct world as (m & d & CR & CP & R1). pose proof PB as [[OK TT _] AC].
    induction n as [|n IH]; intros V V' H H'; inversion H as [|n1 W V1 I1 B1 N1]; inversion H' as [|n2 W' V2 I2 B2 N2]; subst.
    - intros a g sc _ _. apply vsame_refl.
    - refine (bunique sm pv np m ltb d t OK TT PV CR CP R1 A dec om nA (gaussOf (cGauss cfg)) nG sigT _ _ _ _ AC _ B1 B2).
      intros a g sc v G Ha HS Hv HGr. unfold b_emission. f_equal. f_equal. unfold b_flux.
      assert (E : forall l x, (forall a, In a l -> a < nA) -> fold_left (fun s a => aadd A s (amul A (getBlock A (W a g) v G) (q_weight q a))) l x = fold_left (fun s a => aadd A s (amul A (getBlock A (W' a g) v G) (q_weight q a))) l x).
      { induction l as [|b l IHl]; intros x L; [reflexivity|]. cbn [fold_left]. rewrite (vsame_get A nG _ _ v G (IH W W' I1 I2 b g sc (L b (or_introl eq_refl)) HS) Hv HGr). apply IHl. intros b' Hb. apply L. now right. }
      apply E. intros b Hb. apply in_seq in Hb. lia.
  Qed.
  Lemma image_unique n V V' : iterate n V -> iterate n V' -> image V = image V'.
  Proof.
    intros H H'. pose proof (iterate_unique n V V' H H') as U. unfold image, psiImage. do 5 f_equal.
    assert (FM : forall X (f g : nat -> list X) l, (forall x, In x l -> f x = g x) -> flat_map f l = flat_map g l).
    { intros X f g l E. induction l as [|x l IHl]; [reflexivity|]. cbn. rewrite E by now left. rewrite IHl; [reflexivity|]. intros y Hy. apply E. now right. }
    apply FM. intros c Hc. apply FM. intros a Ha. apply FM. intros v Hv. apply FM. intros G HGr. apply in_seq in Hc, Ha, Hv, HGr.
    destruct (SM_cell sm (N.of_nat c)) as [sc|] eqn:HS; [|unfold SM_cell in HS; rewrite Nat2N.id in HS; apply nth_error_None in HS; lia].
    now rewrite (vsame_get A nG _ _ v G (U a (N.of_nat c) sc ltac:(lia) HS)) by lia.
  Qed.

  (** The same for a sweep over schedules. *)
  Context (tol : T) (CL : cSweep cfg = OriginalTycho1 \/ cSweep cfg = OriginalTycho2 -> beyond_tol A sm dec om nA tol).
  Notation M := (fun r => viewMesh A dec om (t r)).
  Notation mt := (mateOf sm np t).
  Notation over := (overTol A dec tol q t).
  Notation under := (underTol A dec tol q t).
  Lemma tolerance : cSweep cfg = OriginalTycho1 \/ cSweep cfg = OriginalTycho2 -> OrigSpec.no_grazing nA M mt over under.
  Proof.
    intros NT. pose proof (CL NT) as BT. destruct world as (m & d & CR & CP & R1). pose proof PB as [[OK TT _] _]. intros r c f a Ha Hm.
    destruct (mt (r, c, f)) as [[[q' c'] f']|] eqn:Em; [|exfalso; apply Hm; first [exact Em|reflexivity]]. apply (mate_iff sm pv np m ltb d t OK TT PV CR CP R1) in Em. destruct Em as (Hr & Hq & L & L' & g & h & k & sf & HG & HH & O & O' & NE & AC & _).
    assert (NX : s_next sm g f h). { destruct (gid_cell sm pv np m ltb d t OK TT PV CR CP R1 q' c' h Hq HH) as (_ & _ & _ & _ & _ & _ & _ & _ & _ & NI). exists k, sf. auto. }
    rewrite (bout_ok sm pv np m ltb d t OK TT PV CR CP R1 A dec om r a c g f Hr L HG). unfold overTol, underTol. rewrite (bomN1 sm pv np m ltb d t OK TT PV CR CP R1 A dec om r a c g f Hr L HG). exact (BT a g f h Ha NX).
  Qed.
  Lemma system : sys_ok np nA M mt /\ OrigSpec.sides_distinct np M /\ acyclic Forward true np nA M mt.
  Proof.
    destruct world as (m & d & CR & CP & R1). pose proof PB as [[OK TT SG] AC]. destruct system_fit as (S1 & S2). split; [exact S1|split; [exact S2|]].
    exact (bacyclic sm pv np m ltb d t OK TT PV CR CP R1 A dec om nA AC).
  Qed.
  Lemma valid_iff r c a : valid np nA M r c a <-> r < np /\ a < nA /\ exists g sc, getLGCell (t r) c = Some g /\ SM_cell sm g = Some sc.
  Proof. exact (ca_valid A sm dec om nA _ PB pv np ltb t _ _ conf r c a). Qed.
  Notation total psi tot := (gTotal A pi nA nG nCells sS src (gPsiToPhi A nA nG (q_weight q) nCells psi) tot).
  Lemma solution_ok pr psi Val tot val bnd : holds psi Val -> solution Forward true np nA M (sweepData A (gaussOf (cGauss cfg)) nG geo sT (total psi tot) pr) mt bnd val ->
    b_sweep A sm dec om (gaussOf (cGauss cfg)) nG sigT nA (emission Val) (gather np t val).
  Proof.
    intros H SO. destruct world as (m & d & CR & CP & R1). pose proof PB as [[OK TT SG] AC].
    refine (bsolution sm pv np m ltb d t OK TT PV CR CP R1 A dec om nA cells_ok (gaussOf (cGauss cfg)) nG sT sigT (total psi tot) pr (fun r c g Hr HG => proj1 (sig_ok r c g Hr HG)) _ val bnd _ SO).
    intros r c g a v G Hr Ha HG Hv HGr. now apply emission_ok.
  Qed.
  Lemma tycho_ok ty pr sched psi Val tot psi' : cSweep cfg = OriginalTycho1 \/ cSweep cfg = OriginalTycho2 -> schedules A dec tol cfg q t np threads pr sched -> holds psi Val ->
    tychoSweep A dec tol ty cfg q t np threads xs pr sched (total psi tot) psi psi' ->
    exists Val', holds psi' Val' /\ b_sweep A sm dec om (gaussOf (cGauss cfg)) nG sigT nA (emission Val) Val' /\ forall a g sc, a < nA -> SM_cell sm g = Some sc -> Val' a g <> None.
  Proof.
    intros NT SC H (rv & n & S & RE & EN & NN & ->). destruct system as (SYS & SD & AC). pose proof conf as CF.
    pose proof (PropertiesOrig.C64_result np nA threads M _ mt over under sched _ _ TH SYS SD (tolerance NT) AC SC ty rv _ _ n S RE EN) as SO.
    exists (gather np t (fun r => OrigModel.o_val (OrigModel.os S r))). split; [|split].
    - intros r c g a v G Hr HG Ha Hv HGr. now rewrite (ca_gather A sm dec om nA _ PB pv np ltb t _ _ CF _ r c g a Hr HG).
    - exact (solution_ok pr psi Val tot _ _ H SO).
    - intros a g sc Ha HS. destruct (ca_onto A sm dec om nA _ PB pv np ltb t _ _ CF g sc HS) as (r & c & Hr & HG). rewrite (ca_gather A sm dec om nA _ PB pv np ltb t _ _ CF _ r c g a Hr HG).
      apply NN. apply valid_iff. eauto 6.
  Qed.
  Lemma sweep_ok pr sweep psi Val tot psi' : sweeper A dec tol cfg q t np threads xs pr sweep -> holds psi Val -> sweep (total psi tot) psi psi' ->
    exists Val', holds psi' Val' /\ b_sweep A sm dec om (gaussOf (cGauss cfg)) nG sigT nA (emission Val) Val' /\ forall a g sc, a < nA -> SM_cell sm g = Some sc -> Val' a g <> None.
  Proof.
    intros SW H K. unfold sweeper in SW. destruct (cSweep cfg) eqn:E in SW; try contradiction.
    - destruct SW as (sched & SC & ->). eapply tycho_ok; eauto.
    - destruct SW as (sched & SC & ->). eapply tycho_ok; eauto.
    - subst sweep. eapply traverse_ok; eauto.
  Qed.
  Notation loop gsum sweep := (fixedPointLoop A pi nA nG (q_weight q) nCells sS gsum sweep (cIterMax cfg) (cErrMax cfg) src).
  Lemma loop_ok gsum pr sweep : sweeper A dec tol cfg q t np threads xs pr sweep -> forall i e psi tot n o i' psi' n' o' e', loop gsum sweep i e psi tot n o i' psi' n' o' e' ->
    n = gPsiToPhi A nA nG (q_weight q) nCells psi -> (i <= cIterMax cfg)%N -> forall Val, holds psi Val -> iterate (N.to_nat i) Val ->
    exists Val', holds psi' Val' /\ iterate (N.to_nat i') Val' /\ (i' <= cIterMax cfg)%N.
  Proof.
    intros SWP i e psi tot n o i' psi' n' o' e' L. induction L as [i e psi tot n o _|i e psi tot n o psi1 i' psi' n' o' e' B total1 SW phi1 L IH]; intros En Hi Val HV IT; [eauto|].
    subst n. destruct (sweep_ok pr sweep psi Val tot psi1 SWP HV SW) as (Val1 & H1 & B1 & N1). apply (IH eq_refl) with (Val := Val1); auto.
    - apply Bool.andb_true_iff in B. destruct B as (B & _). apply N.ltb_lt in B. lia.
    - rewrite N2Nat.inj_succ. econstructor; eauto.
  Qed.
  Lemma solve_ok pr gsum iters psi : sweeperSolve A dec pi tol cfg q t np threads xs pr gsum iters psi -> exists Val, holds psi Val /\ iterate (N.to_nat iters) Val /\ (iters <= cIterMax cfg)%N.
  Proof.
    intros (sweep & pn & po & e & SW & L). unfold fixedPoint in L. eapply (loop_ok gsum pr sweep SW); [exact L|reflexivity|lia| |apply bi_zero]. intros r c g a v G _ _ _ _ _. reflexivity.
  Qed.

  (** ---- a run exists ---- *)
  Definition solvable : Prop := cGauss cfg <> GE_Original \/ forall n V, iterate n V -> (N.of_nat n < cIterMax cfg)%N -> exists V', iterate (S n) V'.
  (** The deck names a solver of this model, with an exchange and a number of cells per step for which it is shown to end. *)
  Definition ready : Prop := match cSweep cfg with
    | TraverseGraph => cMpi cfg = DeckModel.TychoTwoSided /\ (0 < cMaxCellsPerStep cfg)%N
    | OriginalTycho1 | OriginalTycho2 => (cMaxCellsPerStep cfg mod 4294967296 <> 0)%N
    | _ => False end.
  Lemma solve_some gs V0 fa on s c2f pb src0 (p0 : nat -> nat -> T) k : gs <> Original -> solve A gs k V0 fa on s c2f pb src0 p0 <> None.
  Proof.
    intros HN. unfold solve. generalize (seq 0 k). intros l. revert p0. induction l as [|x l IH]; intros p0; cbn [fold_left obind]; [discriminate|].
    unfold solveGroup at 2. destruct gs; cbn [gaussElim4 obind]; [contradiction|apply IH|apply IH|apply IH].
  Qed.
  Lemma no_failure Val i val : solvable -> iterate (N.to_nat i) Val -> (i < cIterMax cfg)%N -> b_sweep A sm dec om (gaussOf (cGauss cfg)) nG sigT nA (emission Val) (gather np t val) ->
    forall r c a, valid np nA M r c a -> val r c a <> None.
  Proof.
    intros SV IT Hi B. pose proof conf as CF.
    assert (NN : forall a g sc, a < nA -> SM_cell sm g = Some sc -> gather np t val a g <> None).
    { intros a g sc Ha HS. destruct SV as [NO|EX].
      - destruct (B a g sc Ha HS) as (pb & c2f & _ & _ & E). intros Z. rewrite Z in E. cbn [vsame] in E. match type of E with match ?x with _ => _ end => destruct x eqn:EE end; [exact E|].
        revert EE. apply solve_some. destruct (cGauss cfg); cbn; [congruence|discriminate|discriminate|discriminate].
      - destruct (EX (N.to_nat i) Val IT ltac:(lia)) as (V' & I'). inversion I' as [|n1 W V1 I1 B1 N1]; subst.
        destruct world as (m & d & CR & CP & R1). pose proof PB as [[OK TT _] AC].
        assert (U : vsame nG (gather np t val a g) (V' a g)).
        { refine (bunique sm pv np m ltb d t OK TT PV CR CP R1 A dec om nA (gaussOf (cGauss cfg)) nG sigT _ _ _ _ AC _ B B1 a g sc Ha HS). intros a' g' sc' v G Ha' HS' Hv HGr. unfold b_emission. f_equal. f_equal. unfold b_flux.
          assert (E : forall l x, (forall a, In a l -> a < nA) -> fold_left (fun s a => aadd A s (amul A (getBlock A (Val a g') v G) (q_weight q a))) l x = fold_left (fun s a => aadd A s (amul A (getBlock A (W a g') v G) (q_weight q a))) l x).
          { induction l as [|b l IHl]; intros x L; [reflexivity|]. cbn [fold_left]. rewrite (vsame_get A nG _ _ v G (iterate_unique _ Val W IT I1 b g' sc' (L b (or_introl eq_refl)) HS') Hv HGr). apply IHl. intros b' Hb. apply L. now right. }
          apply E. intros b Hb. apply in_seq in Hb. lia. }
        intros Z. rewrite Z in U. pose proof (N1 a g sc Ha HS). destruct (V' a g); [exact U|congruence]. }
    intros r c a V. apply valid_iff in V. destruct V as (Hr & Ha & g & sc & HG & HS).
    rewrite <- (ca_gather A sm dec om nA _ PB pv np ltb t _ _ CF val r c g a Hr HG). eauto.
  Qed.
  Lemma traverse_ex pr psi Val tot i : mpiOf (cMpi cfg) = TychoTwoSided -> (0 < cMaxCellsPerStep cfg)%N -> solvable -> holds psi Val -> iterate (N.to_nat i) Val -> (i < cIterMax cfg)%N ->
    exists psi', fullSweepA A R0 (gaussOf (cGauss cfg)) nG geo sT pr (total psi tot) psi psi'.
  Proof.
    intros HM HX SV H IT Hi. pose proof conf as CF. set (Q := total psi tot).
    destruct (C66_ends T A sm dec om nA sigT pv np ltb t ghost sT PB CF HM ltac:(cbn; lia) (gaussOf (cGauss cfg)) nG pr Q psi (fun _ _ _ _ _ => azero A)) as ((S0 & I0) & K & _).
    destruct (K S0 S0 I0 ltac:(constructor)) as (S & _ & SW).
    exists (fun r c a v G => getBlock A (r_val (g_r S r) c a) v G). exists S. split; [exact SW|]. split; [|reflexivity].
    apply (no_failure Val i); auto.
    refine (ca_sweep A sm dec om nA _ PB pv np ltb t _ _ CF _ nG pr _ _ psi S _ SW). intros r c g a v G Hr Ha HG Hv HGr. now apply emission_ok.
  Qed.
  Lemma tycho_ex ty pr sched psi Val tot i : cSweep cfg = OriginalTycho1 \/ cSweep cfg = OriginalTycho2 -> schedules A dec tol cfg q t np threads pr sched -> solvable -> holds psi Val -> iterate (N.to_nat i) Val -> (i < cIterMax cfg)%N ->
    exists psi', tychoSweep A dec tol ty cfg q t np threads xs pr sched (total psi tot) psi psi'.
  Proof.
    intros NT SC SV H IT Hi. destruct system as (SYS & SD & AC). pose proof (tolerance NT) as NG.
    destruct (PropertiesOrig.C64_completes np nA threads M (sweepData A (gaussOf (cGauss cfg)) nG geo sT (total psi tot) pr) mt over under sched _ _ TH SYS SD NG AC SC ty true (fun r c a => Some (psi r c a)) (fun _ _ _ _ _ => azero A) 0 _ (OrigModel.oreach_refl _ _ _ _ _ _ _)) as (n & S & RE & EN).
    exists (fun r c a v G => getBlock A (OrigModel.o_val (OrigModel.os S r) c a) v G). exists true, n, S. split; [exact RE|]. split; [exact EN|]. split; [|reflexivity].
    apply (no_failure Val i); auto. apply (solution_ok pr psi Val tot _ (fun _ _ _ _ _ => azero A) H).
    exact (PropertiesOrig.C64_result np nA threads M _ mt over under sched _ _ TH SYS SD NG AC SC ty true _ _ n S RE EN).
  Qed.
  Lemma schedules_ex pr : cSweep cfg = OriginalTycho1 \/ cSweep cfg = OriginalTycho2 -> (cMaxCellsPerStep cfg mod 4294967296 <> 0)%N -> exists sched, schedules A dec tol cfg q t np threads pr sched.
  Proof.
    intros NT HX. destruct system as (SYS & _ & _). pose proof (tolerance NT) as NG.
    assert (SYS0 : sys_ok np 0 M mt). { destruct SYS. constructor; auto; [intros; lia|]. intros r Hr. cbn [N.of_nat]. rewrite N.mul_0_l. reflexivity. }
    refine (finite_choice [] (fun g s => ScheduleModel.ordering np M (AngleModel.sweeperAngles nA threads g) over under (fun r a c => pr r c (nth a (AngleModel.sweeperAngles nA threads g) 0)) (cMaxCellsPerStep cfg) s) threads _). intros g Hg. destruct (PropertiesOrig.split_angles nA threads g TH Hg) as (ND & LT).
    destruct (PropertiesSchedule.C38_ends np M (AngleModel.sweeperAngles nA threads g) over under mt SYS0 ND) with (prio := fun r a c => pr r c (nth a (AngleModel.sweeperAngles nA threads g) 0)) (mx := cMaxCellsPerStep cfg) as ((L & HL) & _); auto; [|exists L; exact HL].
    intros a r c f q' c' f' Ha Hm. pose proof (so_sym _ _ _ _ SYS _ _ Hm) as Hm'. destruct (NG r c f a (LT a Ha)) as (-> & ->); [rewrite Hm; discriminate|].
    destruct (NG q' c' f' a (LT a Ha)) as (_ & ->); [rewrite Hm'; discriminate|]. split; [now rewrite (so_flow _ _ _ _ SYS _ _ _ _ _ _ _ Hm (LT a Ha))|apply Bool.andb_negb_r].
  Qed.
  Lemma sweeper_ex pr : ready -> solvable -> exists sweep, sweeper A dec tol cfg q t np threads xs pr sweep /\
    forall psi Val tot i, holds psi Val -> iterate (N.to_nat i) Val -> (i < cIterMax cfg)%N -> exists psi', sweep (total psi tot) psi psi'.
  Proof.
    unfold ready, sweeper. intros RY SV. destruct (cSweep cfg) eqn:E in RY |- *; try contradiction.
    - destruct (schedules_ex pr ltac:(auto) RY) as (s & HS). eexists. split; [exists s; split; [exact HS|reflexivity]|]. intros psi Val tot i H IT Hi. apply (tycho_ex _ pr s psi Val tot i); auto.
    - destruct (schedules_ex pr ltac:(auto) RY) as (s & HS). eexists. split; [exists s; split; [exact HS|reflexivity]|]. intros psi Val tot i H IT Hi. apply (tycho_ex _ pr s psi Val tot i); auto.
    - eexists. split; [reflexivity|]. intros psi Val tot i H IT Hi. destruct RY as (HM & HX). apply (traverse_ex pr psi Val tot i); auto. now rewrite HM.
  Qed.
  Lemma loop_ex gsum pr sweep : sweeper A dec tol cfg q t np threads xs pr sweep ->
    (forall psi Val tot i, holds psi Val -> iterate (N.to_nat i) Val -> (i < cIterMax cfg)%N -> exists psi', sweep (total psi tot) psi psi') ->
    forall k i e psi tot o Val, N.to_nat (cIterMax cfg) - N.to_nat i = k -> holds psi Val -> iterate (N.to_nat i) Val ->
    exists i' psi' n' o' e', loop gsum sweep i e psi tot (gPsiToPhi A nA nG (q_weight q) nCells psi) o i' psi' n' o' e'.
  Proof.
    intros SWP EX. induction k as [|k IH]; intros i e psi tot o Val Ek HV IT.
    - do 5 eexists. apply fp_end. destruct (N.ltb_spec i (cIterMax cfg)); [lia|reflexivity].
    - destruct (N.ltb i (cIterMax cfg) && agt A e (cErrMax cfg)) eqn:B; [|do 5 eexists; apply fp_end; exact B].
      assert (Hi : (i < cIterMax cfg)%N) by lia. destruct (EX psi Val tot i HV IT Hi) as (psi1 & SW). destruct (sweep_ok pr sweep psi Val tot psi1 SWP HV SW) as (Val1 & H1 & B1 & N1).
      destruct (IH (N.succ i) (relError A nG nCells gsum (gPsiToPhi A nA nG (q_weight q) nCells psi1) (gPsiToPhi A nA nG (q_weight q) nCells psi)) psi1 (total psi tot) (gPsiToPhi A nA nG (q_weight q) nCells psi) Val1) as (i' & psi' & n' & o' & e' & L); auto; [lia|rewrite N2Nat.inj_succ; econstructor; eauto|].
      exists i', psi', n', o', e'. eapply fp_next; [exact B|exact SW|exact L].
  Qed.
  Lemma solve_ex pr gsum : ready -> solvable -> exists iters psi, sweeperSolve A dec pi tol cfg q t np threads xs pr gsum iters psi.
  Proof.
    intros RY SV. destruct (sweeper_ex pr RY SV) as (sweep & SW & EX).
    destruct (loop_ex gsum pr sweep SW EX (N.to_nat (cIterMax cfg)) 0%N (aone A) (fun _ _ _ _ _ => azero A) (fun _ _ _ _ _ => azero A) (fun _ _ _ _ => azero A) (fun _ _ => Some (fun _ _ => azero A))) as (i & psi & n & o & e & L); [cbn; lia|intros r c g a v G _ _ _ _ _; reflexivity|constructor|].
    exists i, psi, sweep, n, o, e. split; [exact SW|exact L].
  Qed.
End Run.
