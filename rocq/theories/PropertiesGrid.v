(** C67 in double precision. *)
From Coq Require Import ZArith Reals Lra Lia.
From Flocq Require Import Core IEEE754.BinarySingleNaN IEEE754.Binary IEEE754.Bits.
From Verif Require Import Prelude Bytes MeshModel MeshSpec CreateSpec MeshCheck RefineModel RefineSpec RefineProofs RefineMeshProofs TychoSpec GeometrySpec GeometryModel DoubleModel DoubleProofs ViewSpec RefinedSpec RefinedMeshProofs PropertiesRefined GridModel GridSpec GridProofs.
Local Open Scope N_scope.

(** Coordinates which are even multiples, by at most 2 b, of 2^e: the utility run [k] times in double precision gives a valid mesh
    of the same solid, if b 2^k <= 2^45. *)
Theorem C67_doubles : forall name0 version0 k sm b e,
  serial_mesh_ok sm -> tets_ok sm -> solid sm number -> grid_mesh sm b e ->
  (b * 2 ^ Z.of_nat k <= 2 ^ 45)%Z -> (-1073 + Z.of_nat k <= e <= 960)%Z ->
  1000 <= lenN (sm_cells sm) -> 4 * 8 ^ N.of_nat k * lenN (sm_cells sm) < 2 ^ 31 ->
  exists rm, refineTimesD name0 version0 k sm = Some rm /\
    lenN (sm_cells rm) = 8 ^ N.of_nat k * lenN (sm_cells sm) /\ serial_mesh_ok rm /\ tets_ok rm /\ solid rm number /\
    (forall g q x, s_cell sm number g q -> (inside q x <-> exists h p, h / 8 ^ N.of_nat k = g /\ s_cell rm number h p /\ inside p x)) /\
    (forall h p, s_cell rm number h p -> exists q, s_cell sm number (h / 8 ^ N.of_nat k) q /\ Rabs (vol6 p) = (Rabs (vol6 q) / 8 ^ k)%R) /\
    (forall h sc, SM_cell rm h = Some sc -> exists sc', SM_cell sm (h / 8 ^ N.of_nat k) = Some sc' /\ sc_mat sc = sc_mat sc') /\
    (face_to_face sm number -> (forall x, on_surface rm number x <-> on_surface sm number x) /\ face_to_face rm number).
Proof.
  intros name0 version0 k. induction k as [|k IH]; intros sm b e OK TT SOL G LB LE L1 L2.
  - exists sm. cbn [refineTimesD]. change (8 ^ N.of_nat 0) with 1. split; auto. split; [lia|]. split; auto. split; auto. split; auto. split; [|split; [|split; [|auto]]].
    + intros g q x Hq. split; [intros I; exists g, q; rewrite N.div_1_r; auto|]. intros (h & p & E & Hp & I). rewrite N.div_1_r in E. subst h.
      assert (p = q) as <-; [|exact I]. destruct Hq as (x1 & X1 & E1), Hp as (x2 & X2 & E2). rewrite X1 in X2. apply Some_inj in X2. subst x2. rewrite E1 in E2. destruct q, p. cbn in E2. congruence.
    + intros h p Hp. exists p. rewrite N.div_1_r. split; auto. cbn [pow]. field.
    + intros h sc H. exists sc. rewrite N.div_1_r. auto.
    + intros F. split; [intros; reflexivity|exact F].
  - assert (P8 : 8 ^ N.of_nat (S k) = 8 * 8 ^ N.of_nat k) by (rewrite Nat2N.inj_succ, N.pow_succ_r'; reflexivity). assert (P8k : 1 <= 8 ^ N.of_nat k) by (pose proof (N.pow_nonzero 8 (N.of_nat k)); lia).
    assert (LB1 : (b <= 2 ^ 44)%Z).
    { rewrite Nat2Z.inj_succ, Z.pow_succ_r in LB by lia. assert (1 <= 2 ^ Z.of_nat k)%Z by (pose proof (Z.pow_pos_nonneg 2 (Z.of_nat k)); lia). change (2 ^ 45)%Z with (2 * 2 ^ 44)%Z in LB. destruct (Z.le_gt_cases b 0); [change (2 ^ 44)%Z with 17592186044416%Z; lia|]. nia. }
    assert (NE : sm_cells sm <> []) by (intros E; rewrite E in L1; cbn in L1; lia).
    destruct (grid_exact sm b e ltac:(lia) LB1 G) as (EM & SP). destruct (diameter_some sm number dltb gmax OK gmin gsub) as (d & Ed). specialize (SP d NE Ed).
    assert (L2' : 32 * lenN (sm_cells sm) < 2 ^ 31) by (rewrite P8 in L2; nia).
    destruct (RefinedBdryProofs.refine_all gmid dltb gdist gmax gmin gltMinus ggtPlus gsub name0 version0 sm number d OK SOL EM Ed SP L1 L2') as (r1 & E1 & N1 & O1 & T1 & S1 & CE & MA & FI & BO & BN & PC & FF).
    assert (G1 : grid_mesh r1 (2 * b) (e - 1)).
    { intros n s x Hn Hx. assert (K : exists c, In c [t0; t1; t2] /\ x = c (sn_coords s)) by (destruct (sn_coords s) as [x0 y0 z0]; cbn [q3l t0 t1 t2 In] in Hx; destruct Hx as [<-|[<-|[<-|[]]]]; [exists t0|exists t1|exists t2]; cbn; auto).
      destruct K as (c & Hc & ->). destruct (grid_refined sm b e c _ ltac:(lia) LB1 G Hc (PC n s c Hn Hc)) as (F & m & Bm & V). split; [exact F|]. exists m. split; [exact Bm|].
      rewrite V, mult_IZR. replace e with (1 + (e - 1))%Z at 1 by ring. rewrite bpow_plus. change (bpow radix2 1) with 2%R. ring. }
    destruct (IH r1 (2 * b)%Z (e - 1)%Z O1 T1 S1 G1) as (rm & ER & NR & OR & TR & SR & FR & VR & MR & BR).
    + rewrite Nat2Z.inj_succ, Z.pow_succ_r in LB by lia. lia.
    + lia.
    + lia.
    + rewrite N1. rewrite P8 in L2. lia.
    + exists rm. cbn [refineTimesD]. unfold refineMeshD. rewrite E1. split; [exact ER|]. split; [rewrite NR, N1, P8; lia|]. split; auto. split; auto. split; auto.
      assert (DD : forall h, h / 8 ^ N.of_nat (S k) = h / 8 ^ N.of_nat k / 8) by (intros h; rewrite P8, N.mul_comm, N.div_div; lia).
      split; [|split; [|split]].
      * intros g q x Hq. split.
        -- intros I. destruct (FI g q x Hq I) as (h1 & p1 & <- & H1 & I1). apply (FR h1 p1 x H1) in I1. destruct I1 as (h & p & <- & H & I2). exists h, p. rewrite DD. auto.
        -- intros (h & p & E & H & I). rewrite DD in E. destruct (VR h p H) as (p1 & H1 & _). assert (I1 : inside p1 x) by (apply (FR _ p1 x H1); eauto).
           destruct (CE _ p1 H1) as (q' & Hq' & IN & _). rewrite E in Hq'. assert (q' = q) as <-; [|auto]. destruct Hq as (x1 & X1 & Y1), Hq' as (x2 & X2 & Y2). rewrite X1 in X2. apply Some_inj in X2. subst x2. rewrite Y1 in Y2. destruct q, q'. cbn in Y2. congruence.
      * intros h p H. destruct (VR h p H) as (p1 & H1 & V1). destruct (CE _ p1 H1) as (q & Hq & _ & V2). exists q. rewrite DD. split; auto. rewrite V1, V2. cbn [pow]. field. apply pow_nonzero. lra.
      * intros h sc H. destruct (MR h sc H) as (sc1 & H1 & M1). destruct (MA _ sc1 H1) as (sc2 & H2 & M2). exists sc2. rewrite DD. split; auto. congruence.
      * intros F. destruct (BR (FF TT F)) as (B1 & F1). split; [|exact F1]. intros x. rewrite B1. exact (RefinedBdryProofs.surface_same sm r1 number (BO TT) (BN TT F) x).
Qed.
Print Assumptions C67_doubles.

(** ** The pairs of tetrahedra with coordinates in double precision *)
Definition recode (f : N -> N) (sm : smesh) : smesh :=
  mkSmesh (sm_name sm) (sm_version sm) (sm_numCells sm) (sm_numFaces sm) (sm_numNodes sm) (sm_cells sm) (sm_faces sm)
    (map (fun s => mkSnode (Q3 (f (t0 (sn_coords s))) (f (t1 (sn_coords s))) (f (t2 (sn_coords s))))) (sm_nodes sm)).
Section Recode.
  Context (f : N -> N) (sm : smesh) (dec dec' : N -> R) (FB : forall x, f x < two64).
  Context (DV : forall n s x, SM_node sm n = Some s -> In x (q3l (sn_coords s)) -> dec' (f x) = dec x).
  Lemma rc_node n s : SM_node (recode f sm) n = Some s <-> exists s', SM_node sm n = Some s' /\ s = mkSnode (Q3 (f (t0 (sn_coords s'))) (f (t1 (sn_coords s'))) (f (t2 (sn_coords s')))).
  Proof. unfold SM_node, recode. cbn [sm_nodes]. rewrite nth_error_map. destruct (nth_error (sm_nodes sm) (N.to_nat n)); cbn [option_map]; split; intros H; [apply Some_inj in H; eauto|destruct H as (s' & H & ->); apply Some_inj in H; subst; reflexivity|discriminate|destruct H as (s' & H & _); discriminate]. Qed.
  Lemma rc_point n : s_point (recode f sm) dec' n = s_point sm dec n.
  Proof.
    unfold s_point. destruct (SM_node sm n) as [s|] eqn:E.
    - assert (H : SM_node (recode f sm) n = Some (mkSnode (Q3 (f (t0 (sn_coords s))) (f (t1 (sn_coords s))) (f (t2 (sn_coords s)))))) by (apply rc_node; eauto). rewrite H. cbn [option_map sn_coords t0 t1 t2]. f_equal.
      rewrite !(DV n s) by (try exact E; destruct (sn_coords s) as [xx yy zz]; cbn [q3l t0 t1 t2 In]; auto). reflexivity.
    - destruct (SM_node (recode f sm) n) as [s|] eqn:E'; [|reflexivity]. apply rc_node in E'. destruct E' as (s' & H & _). congruence.
  Qed.
  Lemma rc_cell g p : s_cell (recode f sm) dec' g p <-> s_cell sm dec g p.
  Proof. unfold s_cell. change (SM_cell (recode f sm) g) with (SM_cell sm g). split; intros (sc & H & E); exists sc; (split; [exact H|]); rewrite <- E; apply map_ext; intros; [symmetry|]; apply rc_point. Qed.
  Lemma rc_face g p : s_face (recode f sm) dec' g p <-> s_face sm dec g p.
  Proof. unfold s_face. change (SM_face (recode f sm) g) with (SM_face sm g). split; intros (sc & H & E); exists sc; (split; [exact H|]); rewrite <- E; apply map_ext; intros; [symmetry|]; apply rc_point. Qed.
  Lemma rc_ok : serial_mesh_ok sm -> serial_mesh_ok (recode f sm).
  Proof.
    intros [A B C D E F G]. constructor; auto.
    - destruct A as (A1 & A2 & A3 & A4 & A5 & A6 & A7 & A8 & A9). unfold serial_wf, recode. cbn [sm_numCells sm_numFaces sm_numNodes sm_cells sm_faces sm_nodes]. unfold lenN in *. rewrite map_length. do 8 (split; [assumption|]).
      apply Forall_forall. intros s Hs. apply in_map_iff in Hs. destruct Hs as (s' & <- & _). cbn [snode_fmt]. repeat (apply Forall_cons; [apply FB|]). constructor.
    - unfold recode, lenN in *. cbn [sm_nodes]. rewrite map_length. exact D.
    - intros c sc n H I. destruct (G c sc n H I) as (sn & K). eexists. apply rc_node. eauto.
  Qed.
  Lemma rc_tets : tets_ok sm -> tets_ok (recode f sm).
  Proof. intros [A B C]. constructor; auto. Qed.
  Lemma rc_solid : solid sm dec -> solid (recode f sm) dec'.
  Proof.
    intros [A B]. constructor.
    - intros g p H. apply rc_cell in H. eauto.
    - intros g h p q x NE Hp Hq. apply rc_cell in Hp, Hq. eauto.
  Qed.
  Lemma rc_f2f : face_to_face sm dec -> face_to_face (recode f sm) dec'.
  Proof. intros F f0 sf T g h p x A B C D E H I. apply rc_face in C. apply rc_cell in I. exact (F f0 sf T g h p x A B C D E H I). Qed.
End Recode.
Definition C67_enc (x : N) : N := dbits (D_of_Z (Z.of_N x)).
Lemma enc_ok x : x < 2 ^ 53 -> is_finite 53 1024 (ddec (C67_enc x)) = true /\ number (C67_enc x) = C67_dec x.
Proof.
  intros L. unfold C67_enc, number, C67_dec. rewrite (proj1 (dbits_ok _)). unfold D_of_Z. set (z := Z.of_N x). change (2 ^ 53) with 9007199254740992 in L. assert (Z0 : (0 <= z < 9007199254740992)%Z) by (unfold z; lia). clearbody z. clear x L.
  pose proof (binary_normalize_correct 53 1024 eq_refl eq_refl mode_NE z 0 false) as K. change (round_mode mode_NE) with ZnearestE in K.
  assert (E : F2R (Float radix2 z 0) = IZR z) by (unfold F2R; cbn [Fnum Fexp bpow]; ring). rewrite E in K. assert (RR : (rnd (IZR z) = IZR z)%R) by (apply (rnd_id _ z 0); [cbn [bpow]; ring|lia|lia]).
  rewrite RR in K. rewrite Rlt_bool_true in K; [destruct K as (K1 & K2 & _); split; assumption|]. rewrite <- abs_IZR. apply Rlt_trans with (bpow radix2 53); [|apply bpow_lt; lia]. apply (IZR_lt (Z.abs z) 9007199254740992). lia.
Qed.
Lemma enc_bits x : C67_enc x < two64. Proof. apply dbits_ok. Qed.
(** 500 pairs of tetrahedra, in doubles, refined three times. *)
Example C67_doubles_ex : exists sm, serial_mesh_ok sm /\ tets_ok sm /\ solid sm number /\ grid_mesh sm (2 ^ 32) 0 /\ (2 ^ 32 * 2 ^ Z.of_nat 3 <= 2 ^ 45)%Z /\
  1000 <= lenN (sm_cells sm) /\ 4 * 8 ^ N.of_nat 3 * lenN (sm_cells sm) < 2 ^ 31 /\ face_to_face sm number.
Proof.
  assert (B : N.of_nat 500 <= 2 ^ 20) by (vm_compute; discriminate). set (sm := C67_mesh 500).
  assert (C : forall n s x, SM_node sm n = Some s -> In x (q3l (sn_coords s)) -> exists z, x = 2 * z /\ z < 2 ^ 32).
  { intros n s x Hn Hx. destruct (pr_node 500 B n s Hn) as (i & j & A & L & _ & D). change (2 ^ 32) with 4294967296.
    destruct j as [|[|[|[|[|j]]]]]; [| | | | |lia]; cbn [C67_nodes nth_error] in D; apply Some_inj in D; subst s; cbn [sn_coords q3l t0 t1 t2 In] in Hx; destruct Hx as [<-|[<-|[<-|[]]]];
      (first [exists 0; lia|exists 1; lia|exists (4 * N.of_nat i); lia|exists (4 * N.of_nat i + 1); lia|exists (4 * N.of_nat i + 2); lia]). }
  assert (DV : forall n s x, SM_node sm n = Some s -> In x (q3l (sn_coords s)) -> number (C67_enc x) = C67_dec x).
  { intros n s x Hn Hx. apply enc_ok. destruct (C n s x Hn Hx) as (z & -> & L). change (2 ^ 32) with 4294967296 in L. change (2 ^ 53) with 9007199254740992. lia. }
  exists (recode C67_enc sm). split; [apply (rc_ok _ _ enc_bits), (pair_ok 500 B)|]. split; [apply rc_tets, (pair_tets 500 B)|]. split; [apply (rc_solid _ _ C67_dec number DV), (pair_solid 500 B)|]. split; [|split; [|split; [|split]]].
  - intros n s x Hn Hx. apply rc_node in Hn. destruct Hn as (s' & Hn & ->). cbn [sn_coords q3l t0 t1 t2 In] in Hx.
    assert (K : exists y, In y (q3l (sn_coords s')) /\ x = C67_enc y) by (destruct (sn_coords s') as [xx yy zz]; cbn [q3l t0 t1 t2 In] in *; destruct Hx as [<-|[<-|[<-|[]]]]; [exists xx|exists yy|exists zz]; cbn; auto). destruct K as (y & Hy & ->). clear Hx.
    destruct (C n s' y Hn Hy) as (z & -> & L). change (2 ^ 32)%Z with 4294967296%Z. change (2 ^ 32) with 4294967296 in L. assert (L' : 2 * z < 2 ^ 53) by (change (2 ^ 53) with 9007199254740992; lia).
    destruct (enc_ok (2 * z) L') as (F & V). split; [exact F|]. exists (Z.of_N z). split; [lia|]. rewrite V. unfold C67_dec. change (bpow radix2 0) with 1%R. rewrite Rmult_1_r. f_equal. lia.
  - vm_compute. discriminate.
  - unfold recode, sm, C67_mesh. cbn [sm_cells]. rewrite (pr_len 500 B C67_cells 2) by reflexivity. vm_compute. discriminate.
  - unfold recode, sm, C67_mesh. cbn [sm_cells]. rewrite (pr_len 500 B C67_cells 2) by reflexivity. vm_compute. reflexivity.
  - apply (rc_f2f _ _ C67_dec number DV), (pair_f2f 500 B).
Qed.
