(** C66: in any arithmetic, floating point included, results do not depend on the partition to the last bit. *)
From Coq Require Import Reals Permutation.
From Verif Require Import Prelude Bytes MeshModel MeshSpec CreateModel CreateSpec CreateProofs PropertiesCreate TychoModel TychoSpec
  TychoProofs TychoMeshProofs TychoCreatedProofs MeshCheck PropertiesTycho GeometryModel GaussModel TransportModel.
From Verif Require Import TraverseModel TraverseSpec TraverseRun PropertiesTraverse SweepModel FluxModel FluxProofs PropertiesFlux ViewModel ViewSpec ViewProofs ViewSysProofs PropertiesView BitsModel BitsSpec BitsProofs.

(** A run of the program on the serial mesh [sm] in the arithmetic [A]: partition vector, number of ranks, the meshes read, the run
    parameters, the total cross section by local cell. [ltb] compares coordinates as some real numbers compare (no NaN). *)
Record configuredA {T : Type} (A : arith T) (sm : smesh) (dec : N -> T) (om : nat -> q3 T) (nA : nat) (sigma : N -> T) (pv : list N) (np : nat) (ltb : N -> N -> bool) (t : nat -> tmesh)
    (R0 : run (value T) (block T)) (sigmaT : nat -> nat -> T) : Prop := {
  ca_partition : partition_vector_ok sm pv np;
  ca_small : mesh_small sm np;
  ca_compares : exists decR, compares sm decR ltb;
  ca_reads : program_reads sm pv np ltb t;
  ca_sigma : forall r c g, r < np -> getLGCell (t r) c = Some g -> sigmaT r c = sigma g;
  ca_dir : u_dir R0 = Forward; ca_comm : u_comm R0 = true; ca_threads : u_threads R0 > 0; ca_psize : (0 < u_psize R0)%N;
  ca_ranks : u_ranks R0 = np; ca_angles : u_angles R0 = nA; ca_mesh : u_mesh R0 = fun r => viewMesh A dec om (t r); ca_mate : u_mate R0 = mateOf sm np t;
  ca_size : (N.of_nat (nA * length (sm_cells sm) * 4) * u_psize R0 < INT_MAX)%N }.

Section Config.
  Context {T : Type} (A : arith T) (sm : smesh) (dec : N -> T) (om : nat -> q3 T) (nA : nat) (sigma : N -> T) (PB : fit_ok A sm dec om nA).
  Context (pv : list N) (np : nat) (ltb : N -> N -> bool) (t : nat -> tmesh) (R0 : run (value T) (block T)) (sigmaT : nat -> nat -> T).
  Context (CF : configuredA A sm dec om nA sigma pv np ltb t R0 sigmaT).
  Notation geo := (fun r => viewGeo A dec om (t r)).
  Lemma ca_world : exists m decR, createFromSerialMesh sm pv np = Some m /\ compares sm decR ltb /\ forall r, r < np -> exists P, PM_part m (N.of_nat r) = Some P /\ readTychoMesh ltb P (N.of_nat r) = Some (t r).
  Proof. destruct (reads_parts sm pv np ltb t (bo_mesh _ _ _ _ _ PB) (ca_partition _ _ _ _ _ _ _ _ _ _ _ _ CF) (ca_small _ _ _ _ _ _ _ _ _ _ _ _ CF) (ca_reads _ _ _ _ _ _ _ _ _ _ _ _ CF)) as (m & K & L). destruct (ca_compares _ _ _ _ _ _ _ _ _ _ _ _ CF) as (d & D). eauto. Qed.
  Lemma ca_cells : (N.of_nat nA * lenN (sm_cells sm) < two64)%N.
  Proof.
    pose proof (ca_size _ _ _ _ _ _ _ _ _ _ _ _ CF) as S. pose proof (ca_psize _ _ _ _ _ _ _ _ _ _ _ _ CF) as P. clear -S P. unfold lenN. unfold two64.
    assert (N.of_nat (nA * length (sm_cells sm) * 4) < INT_MAX)%N by (eapply N.le_lt_trans; [|exact S]; rewrite <- (N.mul_1_r (N.of_nat _)) at 1; apply N.mul_le_mono_l; lia).
    assert (E : N.of_nat (nA * length (sm_cells sm) * 4) = (N.of_nat nA * N.of_nat (length (sm_cells sm)) * 4)%N) by lia. rewrite E in H. unfold INT_MAX in H. lia.
  Qed.
  Lemma ca_valid r c a : valid (u_ranks R0) (u_angles R0) (u_mesh R0) r c a <-> r < np /\ a < nA /\ exists g sc, getLGCell (t r) c = Some g /\ SM_cell sm g = Some sc.
  Proof.
    unfold valid. rewrite (ca_ranks _ _ _ _ _ _ _ _ _ _ _ _ CF), (ca_angles _ _ _ _ _ _ _ _ _ _ _ _ CF), (ca_mesh _ _ _ _ _ _ _ _ _ _ _ _ CF). destruct ca_world as (m & d & CR & CMP & RD). destruct PB, CF. split.
    - intros (Hr & Hc & Ha). destruct (gid_ex sm pv np m ltb d t bo_mesh bo_tets ca_partition0 CR CMP RD r c Hr Hc) as (g & HG). split; auto. split; auto.
      destruct (gid_cell sm pv np m ltb d t bo_mesh bo_tets ca_partition0 CR CMP RD r c g Hr HG) as (_ & _ & sc & _ & _ & _ & HS & _). eauto.
    - intros (Hr & Ha & g & sc & HG & _). destruct (gid_cell sm pv np m ltb d t bo_mesh bo_tets ca_partition0 CR CMP RD r c g Hr HG) as (_ & _ & _ & _ & _ & _ & _ & _ & Hc & _). auto.
  Qed.
  Lemma ca_onto g sc : SM_cell sm g = Some sc -> exists r c, r < np /\ getLGCell (t r) c = Some g.
  Proof. destruct ca_world as (m & d & CR & CMP & RD). destruct PB, CF. intros H. exact (gid_onto sm pv np m ltb d t bo_mesh bo_tets ca_partition0 CR CMP RD g sc H). Qed.
  Lemma ca_gather (val : nat -> nat -> nat -> value T) r c g a : r < np -> getLGCell (t r) c = Some g -> gather np t val a g = val r c a.
  Proof. destruct ca_world as (m & d & CR & CMP & RD). destruct PB, CF. intros Hr HG. eapply (gather_ok sm pv np m ltb d t); eauto. Qed.
  Variables (gs : gaussElim) (nG : nat) (pr : nat -> nat -> nat -> N) (src : nat -> nat -> nat -> nat -> nat -> T).
  Notation R1 := (withSourceA A R0 gs nG geo sigmaT pr src).
  Lemma ca_good : good_run R1.
  Proof.
    destruct ca_world as (m & d & CR & CMP & RD). pose proof ca_cells as SZ. unfold good_run. cbn [u_ranks u_angles u_mesh u_mate u_threads u_psize withSourceA]. destruct PB, CF.
    rewrite ca_ranks0, ca_angles0, ca_mesh0, ca_mate0. split; [apply ok_fit; eapply bsys; eauto|]. split; auto. split; auto.
    intros r Hr. eapply N.le_lt_trans; [|exact ca_size0]. apply N.mul_le_mono_r. cbn. pose proof (cells_le sm pv np m ltb d t bo_mesh bo_tets ca_partition0 CR CMP RD nA SZ r Hr).
    assert (nA * tm_nCells (t r) * 4 <= nA * length (sm_cells sm) * 4) by (apply Nat.mul_le_mono_r, Nat.mul_le_mono_l; auto). lia.
  Qed.
  Lemma ca_acyclic : b_acyclic A sm dec om nA -> racyclic R1.
  Proof.
    intros AC. destruct ca_world as (m & d & CR & CMP & RD). unfold racyclic. cbn [u_ranks u_angles u_mesh u_mate u_dir u_comm withSourceA]. destruct PB, CF. rewrite ca_dir0, ca_comm0, ca_ranks0, ca_angles0, ca_mesh0, ca_mate0. eapply bacyclic; eauto.
  Qed.
  Lemma ca_sweep (Q : nat -> N -> block T) psi S : (forall r c g a v G, r < np -> a < nA -> getLGCell (t r) c = Some g -> v < 4 -> G < nG -> src r c a v G = Q a g v G) ->
    sweepEnds A R0 gs nG geo sigmaT pr src psi S -> b_sweep A sm dec om gs nG sigma nA Q (gather np t (fun r => r_val (g_r S r))).
  Proof.
    intros SR (bnd & S0 & I & H & F). pose proof (end_solution R1 _ bnd ca_good S (run_inv R1 _ bnd ca_good S0 S I H) F) as SO. cbn [u_dir u_comm u_ranks u_angles u_mesh u_data u_mate withSourceA] in SO.
    destruct ca_world as (m & d & CR & CMP & RD). pose proof ca_cells as SZ. destruct PB, CF. rewrite ca_dir0, ca_comm0, ca_ranks0, ca_angles0, ca_mesh0, ca_mate0 in SO. 
    eapply (bsolution sm pv np m ltb d t); eauto.
  Qed.
End Config.

(** C66: the sweep never deadlocks and always can be brought to its end, in any arithmetic in which the computed signs of the two sides of
    each face differ and make no cycles (size-then-data exchange, a positive limit of steps). *)
Theorem C66_ends : forall T (A : arith T) sm dec om nA sigma pv np ltb t R0 sigmaT, bits_ok A sm dec om nA -> configuredA A sm dec om nA sigma pv np ltb t R0 sigmaT ->
  u_mpi R0 = TychoTwoSided -> u_max R0 > 0 ->
  forall gs nG pr src psi bnd, let R1 := withSourceA A R0 gs nG (fun r => viewGeo A dec om (t r)) sigmaT pr src in let val := fun r c a => Some (psi r c a) in
  (exists S0, starts R1 val bnd S0) /\ (forall S0 S, starts R1 val bnd S0 -> reaches R1 S0 S -> exists S', reaches R1 S S' /\ sweepEnds A R0 gs nG (fun r => viewGeo A dec om (t r)) sigmaT pr src psi S') /\
  ~ exists h : nat -> gst (value T) (block T), starts R1 val bnd (h 0) /\ forall i, exists r l, rstep R1 r (h i) l (h (S i)).
Proof.
  intros T A sm dec om nA sigma pv np ltb t R0 sigmaT PB CF HM HX gs nG pr src psi bnd R1 val.
  pose proof (ca_good A sm dec om nA sigma PB pv np ltb t R0 sigmaT CF gs nG pr src) as G. pose proof (ca_acyclic A sm dec om nA sigma PB pv np ltb t R0 sigmaT CF gs nG pr src (bo_acyclic _ _ _ _ _ PB)) as AC.
  assert (EX : exchanges R1) by (right; cbn; destruct CF; auto). assert (MX : u_max R1 > 0) by exact HX.
  destruct (C30_finishes _ _ R1 val bnd G EX MX AC) as (K1 & K2). split; [exact K1|]. split; [|exact (C30_no_infinite_run _ _ R1 val bnd G EX MX AC)].
  intros S0 S I H. destruct (K2 S0 S I H) as (S' & H1 & H2 & F). exists S'. split; auto. exists bnd, S0. auto.
Qed.

(** C66: what the ranks hold at the end is, in every cell, the value of the recursion over the serial mesh, in which ranks do not occur. *)
Theorem C66_sweep : forall T (A : arith T) sm dec om nA sigma pv np ltb t R0 sigmaT, bits_ok A sm dec om nA -> configuredA A sm dec om nA sigma pv np ltb t R0 sigmaT ->
  forall gs nG pr (Q : nat -> N -> block T) src psi S,
  (forall r c g a v G, r < np -> a < nA -> getLGCell (t r) c = Some g -> v < 4 -> G < nG -> src r c a v G = Q a g v G) ->
  sweepEnds A R0 gs nG (fun r => viewGeo A dec om (t r)) sigmaT pr src psi S ->
  (exists Val, b_sweep A sm dec om gs nG sigma nA Q Val) /\
  forall Val, b_sweep A sm dec om gs nG sigma nA Q Val -> forall r c g a, r < np -> a < nA -> getLGCell (t r) c = Some g -> vsame nG (r_val (g_r S r) c a) (Val a g).
Proof.
  intros T A sm dec om nA sigma pv np ltb t R0 sigmaT PB CF gs nG pr Q src psi S SR SW.
  pose proof (ca_sweep A sm dec om nA sigma PB pv np ltb t R0 sigmaT CF gs nG pr src Q psi S SR SW) as B. split; [eauto|]. intros Val BV r c g a Hr Ha HG.
  rewrite <- (ca_gather A sm dec om nA sigma PB pv np ltb t R0 sigmaT CF (fun r => r_val (g_r S r)) r c g a Hr HG).
  destruct (proj1 (ca_valid A sm dec om nA sigma PB pv np ltb t R0 sigmaT CF r c a)) as (_ & _ & g' & sc & HG' & HS).
  { destruct (ca_world A sm dec om nA sigma PB pv np ltb t R0 sigmaT CF) as (m & d & CR & CMP & RD). destruct PB as [[bo_mesh bo_tets bo_signs] bo_acyclic], CF.
    destruct (gid_cell sm pv np m ltb d t bo_mesh bo_tets ca_partition0 CR CMP RD r c g Hr HG) as (_ & _ & _ & _ & _ & _ & _ & _ & Hc & _).
    unfold valid. rewrite ca_ranks0, ca_angles0, ca_mesh0. auto. }
  assert (g' = g) by congruence. subst g'.
  destruct (ca_world A sm dec om nA sigma PB pv np ltb t R0 sigmaT CF) as (m & d & CR & CMP & RD). destruct PB as [[bo_mesh bo_tets bo_signs] bo_acyclic], CF.
  exact (bunique sm pv np m ltb d t bo_mesh bo_tets ca_partition0 CR CMP RD A dec om nA gs nG sigma Q Q _ _ bo_acyclic ltac:(reflexivity) B BV a g sc Ha HS).
Qed.

(** Two runs on the same serial mesh. *)
Section Two.
  Context {T : Type} (A : arith T) (sm : smesh) (dec : N -> T) (om : nat -> q3 T) (nA : nat) (sigma : N -> T) (PB : bits_ok A sm dec om nA).
  Context (pv1 : list N) (np1 : nat) (ltb1 : N -> N -> bool) (t1 : nat -> tmesh) (R1 : run (value T) (block T)) (sigma1 : nat -> nat -> T) (CF1 : configuredA A sm dec om nA sigma pv1 np1 ltb1 t1 R1 sigma1).
  Context (pv2 : list N) (np2 : nat) (ltb2 : N -> N -> bool) (t2 : nat -> tmesh) (R2 : run (value T) (block T)) (sigma2 : nat -> nat -> T) (CF2 : configuredA A sm dec om nA sigma pv2 np2 ltb2 t2 R2 sigma2).
  Variables (nG : nat).
  (** Equal in every global cell. *)
  Definition psi_agree (psi1 psi2 : nat -> nat -> nat -> nat -> nat -> T) : Prop := forall r c q d h a v G, r < np1 -> q < np2 -> getLGCell (t1 r) c = Some h -> getLGCell (t2 q) d = Some h ->
    a < nA -> v < 4 -> G < nG -> psi1 r c a v G = psi2 q d a v G.
  Definition phi_agree (phi1 phi2 : nat -> nat -> nat -> nat -> T) : Prop := forall r c q d h v G, r < np1 -> q < np2 -> getLGCell (t1 r) c = Some h -> getLGCell (t2 q) d = Some h ->
    v < 4 -> G < nG -> phi1 r c v G = phi2 q d v G.
  Lemma two_sweeps gs pr1 pr2 src1 src2 psi1 psi2 S1 S2 : psi_agree src1 src2 ->
    sweepEnds A R1 gs nG (fun r => viewGeo A dec om (t1 r)) sigma1 pr1 src1 psi1 S1 -> sweepEnds A R2 gs nG (fun r => viewGeo A dec om (t2 r)) sigma2 pr2 src2 psi2 S2 ->
    forall r c q d h a, r < np1 -> q < np2 -> getLGCell (t1 r) c = Some h -> getLGCell (t2 q) d = Some h -> a < nA -> vsame nG (r_val (g_r S1 r) c a) (r_val (g_r S2 q) d a).
  Proof using PB CF1 CF2.
    intros AG W1 W2 r c q d h a Hr Hq H1 H2 Ha.
    set (Q := fun a h v G => getBlock A (gather np1 t1 (fun r c a => Some (src1 r c a)) a h) v G).
    assert (Q1 : forall r c g a v G, r < np1 -> a < nA -> getLGCell (t1 r) c = Some g -> v < 4 -> G < nG -> src1 r c a v G = Q a g v G).
    { intros r0 c0 g a0 v G L La HG Lv LG. unfold Q. rewrite (ca_gather A sm dec om nA sigma PB pv1 np1 ltb1 t1 R1 sigma1 CF1 _ r0 c0 g a0 L HG). reflexivity. }
    assert (Q2 : forall r c g a v G, r < np2 -> a < nA -> getLGCell (t2 r) c = Some g -> v < 4 -> G < nG -> src2 r c a v G = Q a g v G).
    { intros q0 d0 g a0 v G L La HG Lv LG. destruct (ca_world A sm dec om nA sigma PB pv2 np2 ltb2 t2 R2 sigma2 CF2) as (m & dd & CR & CMP & RD).
      destruct (gid_cell sm pv2 np2 m ltb2 dd t2 (bo_mesh _ _ _ _ _ PB) (bo_tets _ _ _ _ _ PB) (ca_partition _ _ _ _ _ _ _ _ _ _ _ _ CF2) CR CMP RD q0 d0 g L HG) as (_ & _ & sc & _ & _ & _ & HS & _).
      destruct (ca_onto A sm dec om nA sigma PB pv1 np1 ltb1 t1 R1 sigma1 CF1 g sc HS) as (r0 & c0 & L0 & HG0). rewrite <- (AG r0 c0 q0 d0 g a0 v G) by auto. now apply Q1. }
    destruct (C66_sweep T A sm dec om nA sigma pv1 np1 ltb1 t1 R1 sigma1 PB CF1 gs nG pr1 Q src1 psi1 S1 Q1 W1) as ((Val & B) & K1).
    destruct (C66_sweep T A sm dec om nA sigma pv2 np2 ltb2 t2 R2 sigma2 PB CF2 gs nG pr2 Q src2 psi2 S2 Q2 W2) as (_ & K2).
    eapply vsame_trans; [exact (K1 Val B r c h a Hr Ha H1)|]. apply vsame_sym. exact (K2 Val B q d h a Hq Ha H2).
  Qed.
  Lemma two_full gs pr1 pr2 src1 src2 psi1 psi2 psi1' psi2' : psi_agree src1 src2 ->
    fullSweepA A R1 gs nG (fun r => viewGeo A dec om (t1 r)) sigma1 pr1 src1 psi1 psi1' -> fullSweepA A R2 gs nG (fun r => viewGeo A dec om (t2 r)) sigma2 pr2 src2 psi2 psi2' -> psi_agree psi1' psi2'.
  Proof using PB CF1 CF2.
    intros AG (S1 & W1 & _ & ->) (S2 & W2 & _ & ->) r c q d h a v G Hr Hq H1 H2 Ha Hv HG. apply (vsame_get A nG); auto. exact (two_sweeps gs pr1 pr2 src1 src2 psi1 psi2 S1 S2 AG W1 W2 r c q d h a Hr Hq H1 H2 Ha).
  Qed.
  Notation nC1 := (fun r => rm_nCells (u_mesh R1 r)).
  Notation nC2 := (fun r => rm_nCells (u_mesh R2 r)).
  Lemma in1 r c h : r < np1 -> getLGCell (t1 r) c = Some h -> c < rm_nCells (u_mesh R1 r).
  Proof using PB CF1.
    intros Hr HG. destruct (ca_world A sm dec om nA sigma PB pv1 np1 ltb1 t1 R1 sigma1 CF1) as (m & d & CR & CMP & RD). destruct PB as [[bo_mesh bo_tets bo_signs] bo_acyclic], CF1.
    destruct (gid_cell sm pv1 np1 m ltb1 d t1 bo_mesh bo_tets ca_partition0 CR CMP RD r c h Hr HG) as (_ & _ & _ & _ & _ & _ & _ & _ & Hc & _). rewrite ca_mesh0. exact Hc.
  Qed.
  Lemma in2' r c h : r < np2 -> getLGCell (t2 r) c = Some h -> c < rm_nCells (u_mesh R2 r).
  Proof using PB CF2.
    intros Hr HG. destruct (ca_world A sm dec om nA sigma PB pv2 np2 ltb2 t2 R2 sigma2 CF2) as (m & d & CR & CMP & RD). destruct PB as [[bo_mesh bo_tets bo_signs] bo_acyclic], CF2.
    destruct (gid_cell sm pv2 np2 m ltb2 d t2 bo_mesh bo_tets ca_partition0 CR CMP RD r c h Hr HG) as (_ & _ & _ & _ & _ & _ & _ & _ & Hc & _). rewrite ca_mesh0. exact Hc.
  Qed.
  Lemma two_flux wt psi1 psi2 : psi_agree psi1 psi2 -> phi_agree (gPsiToPhi A nA nG wt nC1 psi1) (gPsiToPhi A nA nG wt nC2 psi2).
  Proof using PB CF1 CF2.
    intros AG r c q d h v G Hr Hq H1 H2 Hv HG. unfold gPsiToPhi. rewrite !psiToPhi_eq, (proj2 (in_inside nG _ c v G)), (proj2 (in_inside nG _ d v G)); [|split; eauto using in2'|split; eauto using in1].
    assert (E : forall l x, (forall a, In a l -> a < nA) -> fold_left (fun s a => aadd A s (amul A (psi1 r c a v G) (wt a))) l x = fold_left (fun s a => aadd A s (amul A (psi2 q d a v G) (wt a))) l x).
    { induction l as [|a l IH]; intros x L; [reflexivity|]. cbn [fold_left]. rewrite (AG r c q d h a v G) by (auto; apply L; now left). apply IH. intros b Hb. apply L. now right. }
    apply E. intros a Ha. apply in_seq in Ha. lia.
  Qed.
  Lemma two_total pi sS1 sS2 sigmaS src1 src2 phi1 phi2 tot1 tot2 :
    (forall r c h, r < np1 -> getLGCell (t1 r) c = Some h -> sS1 r c = sigmaS h) -> (forall q d h, q < np2 -> getLGCell (t2 q) d = Some h -> sS2 q d = sigmaS h :> T) ->
    psi_agree src1 src2 -> phi_agree phi1 phi2 ->
    psi_agree (gTotal A pi nA nG nC1 sS1 src1 phi1 tot1) (gTotal A pi nA nG nC2 sS2 src2 phi2 tot2).
  Proof using PB CF1 CF2.
    intros E1 E2 AS AP r c q d h a v G Hr Hq H1 H2 Ha Hv HG. unfold gTotal. rewrite !total_eq, (proj2 (in_inside nG _ c v G)), (proj2 (in_inside nG _ d v G)); [|split; eauto using in2'|split; eauto using in1].
    destruct (Nat.ltb_spec a nA); [|lia]. cbn [andb]. rewrite (E1 r c h Hr H1), (E2 q d h Hq H2), (AS r c q d h a v G), (AP r c q d h v G) by auto. reflexivity.
  Qed.
  Lemma loop_le {X} (B : arith X) pi' nA' nG' wt' nC' sS' gsum' sweep' im em src' i e psi tot pn po i' psi' pn' po' e' :
    fixedPointLoop B pi' nA' nG' wt' nC' sS' gsum' sweep' im em src' i e psi tot pn po i' psi' pn' po' e' -> (i <= i')%N.
  Proof using. induction 1; lia. Qed.
End Two.

(** C66: so two runs of the same sweep on any partitions, numbers of ranks and threads, priorities and message sizes end with the same bits in every cell
    (and if an assertion of the cell solver fails in one, it fails in the same cells in the other). *)
Theorem C66_partition_independent : forall T (A : arith T) sm dec om nA sigma, bits_ok A sm dec om nA ->
  forall pv1 np1 ltb1 t1 R1 sigma1 pr1 psi1 pv2 np2 ltb2 t2 R2 sigma2 pr2 psi2 gs nG src1 src2 S1 S2,
  configuredA A sm dec om nA sigma pv1 np1 ltb1 t1 R1 sigma1 -> configuredA A sm dec om nA sigma pv2 np2 ltb2 t2 R2 sigma2 -> psi_agree nA np1 t1 np2 t2 nG src1 src2 ->
  sweepEnds A R1 gs nG (fun r => viewGeo A dec om (t1 r)) sigma1 pr1 src1 psi1 S1 -> sweepEnds A R2 gs nG (fun r => viewGeo A dec om (t2 r)) sigma2 pr2 src2 psi2 S2 ->
  forall r c q d h a, r < np1 -> q < np2 -> getLGCell (t1 r) c = Some h -> getLGCell (t2 q) d = Some h -> a < nA -> vsame nG (r_val (g_r S1 r) c a) (r_val (g_r S2 q) d a).
Proof.
  intros T A sm dec om nA sigma PB pv1 np1 ltb1 t1 R1 sigma1 pr1 psi1 pv2 np2 ltb2 t2 R2 sigma2 pr2 psi2 gs nG src1 src2 S1 S2 CF1 CF2 AG W1 W2.
  exact (two_sweeps A sm dec om nA sigma PB pv1 np1 ltb1 t1 R1 sigma1 CF1 pv2 np2 ltb2 t2 R2 sigma2 CF2 nG gs pr1 pr2 src1 src2 psi1 psi2 S1 S2 AG W1 W2).
Qed.

(** C66: and so do two runs of source iteration that stop after the same number of iterations. (The error that decides when to stop is summed over
    ranks, so the number may differ: [C66_error_refuted].) *)
Theorem C66_source_iteration : forall T (A : arith T) sm dec om nA sigma, bits_ok A sm dec om nA ->
  forall pv1 np1 ltb1 t1 R1 sigma1 pr1 sS1 gsum1 iterMax1 errMax1 pv2 np2 ltb2 t2 R2 sigma2 pr2 sS2 gsum2 iterMax2 errMax2 gs nG pi sigmaS wt src1 src2 psi1 psi2,
  configuredA A sm dec om nA sigma pv1 np1 ltb1 t1 R1 sigma1 -> configuredA A sm dec om nA sigma pv2 np2 ltb2 t2 R2 sigma2 ->
  (forall r c h, r < np1 -> getLGCell (t1 r) c = Some h -> sS1 r c = sigmaS h) -> (forall q d h, q < np2 -> getLGCell (t2 q) d = Some h -> sS2 q d = sigmaS h) ->
  psi_agree nA np1 t1 np2 t2 nG src1 src2 -> psi_agree nA np1 t1 np2 t2 nG psi1 psi2 ->
  forall iters psi1' phiN1 phiO1 e1 psi2' phiN2 phiO2 e2,
  sourceIterationA A R1 gs nG (fun r => viewGeo A dec om (t1 r)) sigma1 pr1 pi sS1 wt gsum1 iterMax1 errMax1 src1 psi1 iters psi1' phiN1 phiO1 e1 ->
  sourceIterationA A R2 gs nG (fun r => viewGeo A dec om (t2 r)) sigma2 pr2 pi sS2 wt gsum2 iterMax2 errMax2 src2 psi2 iters psi2' phiN2 phiO2 e2 ->
  psi_agree nA np1 t1 np2 t2 nG psi1' psi2' /\ phi_agree np1 t1 np2 t2 nG phiN1 phiN2 /\ phi_agree np1 t1 np2 t2 nG phiO1 phiO2.
Proof.
  intros T A sm dec om nA sigma PB pv1 np1 ltb1 t1 R1 sigma1 pr1 sS1 gsum1 iterMax1 errMax1 pv2 np2 ltb2 t2 R2 sigma2 pr2 sS2 gsum2 iterMax2 errMax2 gs nG pi sigmaS wt src1 src2 psi1 psi2 CF1 CF2 ES1 ES2 AS AP iters psi1' phiN1 phiO1 e1 psi2' phiN2 phiO2 e2.
  unfold sourceIterationA, fixedPoint. rewrite (ca_angles _ _ _ _ _ _ _ _ _ _ _ _ CF1), (ca_angles _ _ _ _ _ _ _ _ _ _ _ _ CF2). intros L1 L2.
  pose proof (two_flux A sm dec om nA sigma PB pv1 np1 ltb1 t1 R1 sigma1 CF1 pv2 np2 ltb2 t2 R2 sigma2 CF2 nG wt) as TF.
  pose proof (two_total A sm dec om nA sigma PB pv1 np1 ltb1 t1 R1 sigma1 CF1 pv2 np2 ltb2 t2 R2 sigma2 CF2 nG pi sS1 sS2 sigmaS) as TT.
  pose proof (two_full A sm dec om nA sigma PB pv1 np1 ltb1 t1 R1 sigma1 CF1 pv2 np2 ltb2 t2 R2 sigma2 CF2 nG gs pr1 pr2) as TS.
  assert (K : forall i x1 psi1 tot1 n1 o1 i' psi1' n1' o1' e1, fixedPointLoop A pi nA nG wt (fun r => rm_nCells (u_mesh R1 r)) sS1 gsum1 (fullSweepA A R1 gs nG (fun r => viewGeo A dec om (t1 r)) sigma1 pr1) iterMax1 errMax1 src1 i x1 psi1 tot1 n1 o1 i' psi1' n1' o1' e1 ->
    forall x2 psi2 tot2 n2 o2 psi2' n2' o2' e2, psi_agree nA np1 t1 np2 t2 nG psi1 psi2 -> phi_agree np1 t1 np2 t2 nG n1 n2 -> phi_agree np1 t1 np2 t2 nG o1 o2 ->
    fixedPointLoop A pi nA nG wt (fun r => rm_nCells (u_mesh R2 r)) sS2 gsum2 (fullSweepA A R2 gs nG (fun r => viewGeo A dec om (t2 r)) sigma2 pr2) iterMax2 errMax2 src2 i x2 psi2 tot2 n2 o2 i' psi2' n2' o2' e2 ->
    psi_agree nA np1 t1 np2 t2 nG psi1' psi2' /\ phi_agree np1 t1 np2 t2 nG n1' n2' /\ phi_agree np1 t1 np2 t2 nG o1' o2').
  { clear -AS ES1 ES2 TF TT TS. intros i x1 psi1 tot1 n1 o1 i' psi1' n1' o1' e1 L1. induction L1 as [i x1 psi1 tot1 n1 o1 _|i x1 psi1 tot1 n1 o1 psi1' i' psi1'' n1' o1' e1 _ total1 SW phi1 L1 IH]; intros x2 psi2 tot2 n2 o2 psi2' n2' o2' e2 AP PN PO L2.
    - inversion L2; subst; [auto|]. match goal with H : fixedPointLoop _ _ _ _ _ _ _ _ _ _ _ _ (N.succ _) _ _ _ _ _ _ _ _ _ _ |- _ => apply loop_le in H end. lia.
    - pose proof (loop_le _ _ _ _ _ _ _ _ _ _ _ _ _ _ _ _ _ _ _ _ _ _ _ L1) as LE. inversion L2 as [? ? ? ? ? ? B E1 E2 E3 E4 E5|? ? ? ? ? ? psi2'' ? ? ? ? ? B total2 SW2 phi2 L2']; subst; [lia|].
      pose proof (TT src1 src2 n1 n2 tot1 tot2 ES1 ES2 AS PN) as AT. pose proof (TS _ _ _ _ _ _ AT SW SW2) as AP'. exact (IH _ _ _ _ _ _ _ _ _ AP' (TF _ _ AP') PN L2'). }
  refine (K _ _ _ _ _ _ _ _ _ _ _ L1 _ _ _ _ _ _ _ _ _ AP (TF _ _ AP) _ L2). intros r c q d h v G _ _ _ _ _ _. reflexivity.
Qed.
Print Assumptions C66_ends. Print Assumptions C66_sweep. Print Assumptions C66_partition_independent. Print Assumptions C66_source_iteration.
