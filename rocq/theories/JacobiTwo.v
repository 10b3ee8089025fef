(** C79: two runs on the same partitioned mesh do the same. *)
From Coq Require Import Reals Permutation.
From Verif Require Import Prelude Bytes LayoutModel PsiFileModel PsiFileSpec DeckModel MeshModel MeshSpec CreateModel CreateSpec CreateProofs TychoModel TychoSpec TychoProofs TychoMeshProofs TychoCreatedProofs GeometryModel GaussModel TransportModel.
From Verif Require Import TraverseModel TraverseSpec TraverseRun PropertiesTraverse SweepModel CommModel CommProofs BlockModel BlockProofs FluxModel FluxProofs PropertiesFlux ProblemModel ViewModel ViewSpec ViewProofs ViewSysProofs PropertiesView BitsModel BitsSpec BitsProofs PropertiesBits MainModel MainSpec MainProofs.
From Verif Require Import JacobiModel JacobiSpec JacobiProofs JacobiRun.

Section Two.
  Context {T : Type} (A : arith T) (dec : N -> T) (enc : T -> N) (ltb : N -> N -> bool) (pi : T).
  Context (sm : smesh) (pv : list N) (np : nat) (cfg1 cfg2 : config T) (q : angles T) (threads1 threads2 : nat).
  Notation nA := (q_num q).
  Notation om := (q_omega q).
  Notation wt := (q_weight q).
  Notation nG1 := (N.to_nat (cNGroups cfg1)). Notation nG2 := (N.to_nat (cNGroups cfg2)).
  Context (PB : fit_ok A sm dec om nA) (PV : partition_vector_ok sm pv np) (SM : mesh_small sm np) (CMP : exists decR, compares sm decR ltb) (TH1 : 0 < threads1) (TH2 : 0 < threads2) (NP : 0 < np).
  Context (HG1 : 0 < nG1) (HG2 : 0 < nG2) (HA0 : 0 < nA) (HC0 : 0 < length (sm_cells sm)).
  Context (SZ1 : (N.of_nat (nA * length (sm_cells sm) * 4) * (24 * cNGroups cfg1) < INT_MAX)%N) (SZ2 : (N.of_nat (nA * length (sm_cells sm) * 4) * (24 * cNGroups cfg2) < INT_MAX)%N).
  Context (t1 t2 : nat -> tmesh) (RD1 : program_reads sm pv np ltb t1) (RD2 : program_reads sm pv np ltb t2) (ET : forall r, r < np -> t1 r = t2 r).
  Context (xs1 xs2 : nat -> list T * list T) (XS1 : forall r, r < np -> createCrossSections (tm_material (t1 r)) (cSigmaT1 cfg1) (cSigmaS1 cfg1) (cSigmaT2 cfg1) (cSigmaS2 cfg1) = Some (xs1 r))
    (XS2 : forall r, r < np -> createCrossSections (tm_material (t2 r)) (cSigmaT1 cfg2) (cSigmaS1 cfg2) (cSigmaT2 cfg2) (cSigmaS2 cfg2) = Some (xs2 r)).
  Context (SR : same_run cfg1 cfg2) (pr1 pr2 : nat -> nat -> nat -> N) (gsum1 gsum2 : (nat -> T) -> T).
  Context (GS : forall x y, (forall r, r < np -> x r = y r) -> gsum1 x = gsum2 y).
  Notation R1 := (traverser A dec cfg1 q t1 np threads1). Notation R2 := (traverser A dec cfg2 q t2 np threads2).
  Notation ge1 := (gaussOf (cGauss cfg1)). Notation ge2 := (gaussOf (cGauss cfg2)).
  Notation nC1 := (fun r => rm_nCells (u_mesh R1 r)). Notation nC2 := (fun r => rm_nCells (u_mesh R2 r)).
  Notation sT1 := (fun r c => nth c (fst (xs1 r)) (azero A)). Notation sT2 := (fun r c => nth c (fst (xs2 r)) (azero A)).
  Notation sS1 := (fun r c => nth c (snd (xs1 r)) (azero A)). Notation sS2 := (fun r c => nth c (snd (xs2 r)) (azero A)).
  Notation geo1 := (fun r => viewGeo A dec om (t1 r)). Notation geo2 := (fun r => viewGeo A dec om (t2 r)).
  Notation source1 := (fun r => hatSourceA A dec om (t1 r) (xs1 r)). Notation source2 := (fun r => hatSourceA A dec om (t2 r) (xs2 r)).
  Notation GPsi := (nat -> nat -> nat -> nat -> nat -> T).
  Notation Vals := (nat -> N -> value T).
  Notation sim1 := (sim A dec sm np cfg1 q t1). Notation sim2 := (sim A dec sm np cfg2 q t2).
  Notation phi_ok1 := (phi_ok np cfg1 t1). Notation phi_ok2 := (phi_ok np cfg2 t2).
  Notation src_ok1 := (src_ok np cfg1 q t1). Notation src_ok2 := (src_ok np cfg2 q t2).
  Notation em1 := (j_emission A sm dec om pi (by_material A sm (cSigmaT1 cfg1) (cSigmaT2 cfg1)) (by_material A sm (cSigmaS1 cfg1) (cSigmaS2 cfg1))).
  Notation em2 := (j_emission A sm dec om pi (by_material A sm (cSigmaT1 cfg2) (cSigmaT2 cfg2)) (by_material A sm (cSigmaS1 cfg2) (cSigmaS2 cfg2))).
  Lemma em_same F : em2 F = em1 F.
  Proof. now rewrite (sr_t1 _ _ SR), (sr_t2 _ _ SR), (sr_s1 _ _ SR), (sr_s2 _ _ SR). Qed.
  Lemma has_cell r c : r < np -> c < nC1 r -> exists g, getLGCell (t1 r) c = Some g.
  Proof.
    intros Hr Hc. pose proof (conf A dec ltb sm pv np cfg1 q threads1 PB PV SM CMP TH1 HG1 HA0 HC0 SZ1 t1 RD1 xs1 XS1) as CF.
    destruct (proj1 (ca_valid A sm dec om nA _ PB pv np ltb t1 _ _ CF r c 0)) as (_ & _ & g & _ & HG & _); [|eauto]. split; [exact Hr|]. split; [exact Hc|exact HA0].
  Qed.
  Lemma cells_same r : r < np -> nC1 r = nC2 r.
  Proof. intros Hr. cbn. now rewrite (ET r Hr). Qed.
  Definition psame (psi1 psi2 : GPsi) : Prop := forall r c a v G, r < np -> c < nC1 r -> a < nA -> v < 4 -> G < nG1 -> psi1 r c a v G = psi2 r c a v G.
  Lemma sims_same psi1 bnd1 psi2 bnd2 V L : sim1 psi1 bnd1 V L -> sim2 psi2 bnd2 V L -> psame psi1 psi2.
  Proof.
    intros (H1 & _) (H2 & _) r c a v G Hr Hc Ha Hv HG. destruct (has_cell r c Hr Hc) as (g & Hg). rewrite (H1 r c g a v G Hr Hg Ha Hv HG). symmetry. apply (H2 r c g a v G); auto; [now rewrite <- ET|]. now rewrite <- (sr_groups _ _ SR).
  Qed.
  Lemma fold_ext {X} (f g : T -> X -> T) l : (forall s x, In x l -> f s x = g s x) -> forall s, fold_left f l s = fold_left g l s.
  Proof. intros H. induction l as [|x l IH]; intros s; [reflexivity|]. cbn [fold_left]. rewrite (H s x) by now left. apply IH. intros s' y Hy. apply H. now right. Qed.
  Lemma entries_same r : r < np -> psiEntries R1 nG1 r = psiEntries R2 nG2 r.
  Proof. intros Hr. unfold psiEntries. pose proof (cells_same r Hr) as E. cbn beta in E. rewrite E, (sr_groups _ _ SR). reflexivity. Qed.
  Lemma in_entries r c a v G : In (c, a, v, G) (psiEntries R1 nG1 r) -> c < nC1 r /\ a < nA /\ v < 4 /\ G < nG1.
  Proof. unfold psiEntries. rewrite !in_prod_iff, !in_seq. intros (((H1 & H2) & H3) & H4). change (u_angles R1) with nA in H2. cbn beta. lia. Qed.
  Lemma psiRel_same p1 p2 psi1 psi2 : psame p1 p2 -> psame psi1 psi2 -> psiRelError A R1 nG1 gsum1 p1 psi1 = psiRelError A R2 nG2 gsum2 p2 psi2.
  Proof.
    intros H1 H2. unfold psiRelError. f_equal; apply GS; intros r Hr.
    - unfold psiErrorSum. rewrite <- (entries_same r Hr). apply fold_ext. intros s (((c, a), v), G) HI. destruct (in_entries r c a v G HI) as (Hc & Ha & Hv & HG). now rewrite (H1 r c a v G), (H2 r c a v G).
    - unfold psiNormSum. rewrite <- (entries_same r Hr). apply fold_ext. intros s (((c, a), v), G) HI. destruct (in_entries r c a v G HI) as (Hc & Ha & Hv & HG). now rewrite (H2 r c a v G).
  Qed.
  Lemma rel_same phi1 old1 phi2 old2 F F0 : phi_ok1 phi1 F -> phi_ok2 phi2 F -> phi_ok1 old1 F0 -> phi_ok2 old2 F0 ->
    relError A nG1 nC1 gsum1 phi1 old1 = relError A nG2 nC2 gsum2 phi2 old2.
  Proof.
    intros H1 H2 K1 K2. unfold relError.
    assert (E : forall r, r < np -> forall c v G, c < nC1 r -> v < 4 -> G < nG1 -> phi1 r c v G = phi2 r c v G /\ old1 r c v G = old2 r c v G).
    { intros r Hr c v G Hc Hv HG. destruct (has_cell r c Hr Hc) as (g & Hg). rewrite (H1 r c g v G), (K1 r c g v G) by auto. split; symmetry; [apply H2|apply K2]; auto; try (now rewrite <- ET); now rewrite <- (sr_groups _ _ SR). }
    f_equal; apply GS; intros r Hr; pose proof (cells_same r Hr) as EC; cbn beta in EC.
    - unfold errorSum. cbn beta. rewrite <- EC, <- (sr_groups _ _ SR). apply fold_ext. intros s ((c, v), G) HI. unfold tri in HI. rewrite !in_prod_iff, !in_seq in HI. destruct (E r Hr c v G) as (-> & ->); [cbn beta; lia..|reflexivity].
    - unfold normSum. cbn beta. rewrite <- EC, <- (sr_groups _ _ SR). apply fold_ext. intros s ((c, v), G) HI. unfold tri in HI. rewrite !in_prod_iff, !in_seq in HI. destruct (E r Hr c v G) as (-> & _); [cbn beta; lia..|reflexivity].
  Qed.
  (** One sim, two values that agree. *)
  Lemma sim_same psi bnd V V' L : sim2 psi bnd V L -> full sm q V' -> same_values sm nA nG1 V' V -> sim2 psi bnd V' L.
  Proof.
    intros (H & F & X) F' E. split; [|split; auto]. intros r c g a v G Hr Hg Ha Hv HG. rewrite (H r c g a v G Hr Hg Ha Hv HG).
    destruct (cell_of A dec ltb sm pv np q PB PV SM CMP t2 RD2 r c g Hr Hg) as (sc & HS & _). specialize (E a g sc Ha HS). specialize (F a g sc Ha HS). specialize (F' a g sc Ha HS). destruct (V a g), (V' a g); try congruence. cbn in E |- *. symmetry. apply E; auto. now rewrite (sr_groups _ _ SR).
  Qed.
  Lemma local_two src1 src2 F psi1 bnd1 psi2 bnd2 V L psi1' bnd1' psi2' bnd2' : src_ok1 src1 (em1 F) -> src_ok2 src2 (em2 F) -> sim1 psi1 bnd1 V L -> sim2 psi2 bnd2 V L ->
    localSweepA A R1 ge1 nG1 geo1 sT1 pr1 src1 psi1 bnd1 psi1' bnd1' -> localSweepA A R2 ge2 nG2 geo2 sT2 pr2 src2 psi2 bnd2 psi2' bnd2' -> exists V', sim1 psi1' bnd1' V' L /\ sim2 psi2' bnd2' V' L.
  Proof.
    intros S1 S2 I1 I2 L1 L2.
    destruct (local_ok A dec ltb sm pv np cfg1 q threads1 PB PV SM CMP TH1 HG1 HA0 HC0 SZ1 t1 RD1 xs1 XS1 pr1 src1 (em1 F) psi1 bnd1 psi1' bnd1' V L S1 I1 L1) as (V1 & J1 & F1 & I1').
    destruct (local_ok A dec ltb sm pv np cfg2 q threads2 PB PV SM CMP TH2 HG2 HA0 HC0 SZ2 t2 RD2 xs2 XS2 pr2 src2 (em2 F) psi2 bnd2 psi2' bnd2' V L S2 I2 L2) as (V2 & J2 & F2 & I2').
    exists V1. split; [exact I1'|]. apply (sim_same psi2' bnd2' V2 V1 L I2' F1). rewrite (em_same F) in J2. rewrite <- (sr_gauss _ _ SR), <- (sr_groups _ _ SR), <- (sr_t1 _ _ SR), <- (sr_t2 _ _ SR) in J2.
    destruct (world A dec ltb sm pv np q PB PV SM CMP t1 RD1) as (m & d & CR & CP & RR). pose proof PB as [OK TT SG].
    pose proof (local_parts A dec ltb sm pv np cfg1 q threads1 PB PV SM CMP TH1 HG1 HA0 HC0 SZ1 t1 RD1 xs1 XS1 pr1 src1 psi1 bnd1 psi1' bnd1' L1) as PA.
    eapply (j_unique sm pv np m ltb d t1 OK TT PV CR CP RR A dec om nA) with (tg := same_part pv) (tg' := same_part pv) (L := L) (L' := L); eauto using cells_ok.
    intros a0 g0 sc0 _ _. destruct (L a0 g0); cbn; auto.
  Qed.
  Lemma comm_two psi1 bnd1 psi2 bnd2 bnd1' bnd2' V L : sim1 psi1 bnd1 V L -> sim2 psi2 bnd2 V L -> commAllA A R1 ge1 nG1 geo1 sT1 pr1 psi1 bnd1 bnd1' -> commAllA A R2 ge2 nG2 geo2 sT2 pr2 psi2 bnd2 bnd2' -> sim1 psi1 bnd1' V V /\ sim2 psi2 bnd2' V V.
  Proof.
    intros I1 I2 C1 C2. split.
    - exact (comm_ok A dec ltb sm pv np cfg1 q threads1 PB PV SM CMP TH1 HG1 HA0 HC0 SZ1 t1 RD1 xs1 XS1 pr1 psi1 bnd1 bnd1' V L I1 C1).
    - exact (comm_ok A dec ltb sm pv np cfg2 q threads2 PB PV SM CMP TH2 HG2 HA0 HC0 SZ2 t2 RD2 xs2 XS2 pr2 psi2 bnd2 bnd2' V L I2 C2).
  Qed.
  Notation jl1 := (jacobiLoop A R1 ge1 nG1 geo1 sT1 pr1 gsum1 (cDdIterMax cfg1) (cDdErrMax cfg1)). Notation jl2 := (jacobiLoop A R2 ge2 nG2 geo2 sT2 pr2 gsum2 (cDdIterMax cfg2) (cDdErrMax cfg2)).
  Definition both (psi1 bnd1 psi2 bnd2 : GPsi) : Prop := exists V L, sim1 psi1 bnd1 V L /\ sim2 psi2 bnd2 V L.
  Lemma both_same psi1 bnd1 psi2 bnd2 : both psi1 bnd1 psi2 bnd2 -> psame psi1 psi2.
  Proof. intros (V & L & I1 & I2). exact (sims_same _ _ _ _ V L I1 I2). Qed.
  Lemma limit_same i : N.ltb i (cDdIterMax cfg1) = N.ltb i (cDdIterMax cfg2).
  Proof. now rewrite (sr_dditer _ _ SR). Qed.
  Lemma stop_same p1 p2 psi1 psi2 : psame p1 p2 -> psame psi1 psi2 -> agt A (cDdErrMax cfg1) (psiRelError A R1 nG1 gsum1 p1 psi1) = agt A (cDdErrMax cfg2) (psiRelError A R2 nG2 gsum2 p2 psi2).
  Proof. intros H1 H2. now rewrite (psiRel_same p1 p2 psi1 psi2 H1 H2), (sr_dderr _ _ SR). Qed.
  Lemma jacobi_two src1 src2 F : src_ok1 src1 (em1 F) -> src_ok2 src2 (em2 F) -> forall iter p1 psi1 bnd1 ops1 psi1' bnd1', jl1 src1 iter p1 psi1 bnd1 ops1 psi1' bnd1' ->
    forall p2 psi2 bnd2 ops2 psi2' bnd2', jl2 src2 iter p2 psi2 bnd2 ops2 psi2' bnd2' -> psame p1 p2 -> both psi1 bnd1 psi2 bnd2 -> ops1 = ops2 /\ both psi1' bnd1' psi2' bnd2'.
  Proof.
    intros S1 S2 iter p1 psi1 bnd1 ops1 psi1' bnd1' J. induction J as [iter p1 psi1 bnd1 B|iter p1 psi1 bnd1 psi1' bnd1' B LS ST|iter p1 psi1 bnd1 q1 c1 d1 ops1 psi1' bnd1' B LS ST CO J IH]; intros p2 psi2 bnd2 ops2 psi2' bnd2' J2 PS (V & L & I1 & I2);
      rewrite limit_same in B; inversion J2 as [i' p' x b B2|i' p' x b x' b' B2 LS2 ST2|i' p' x b x1 b1 b2 o x' b' B2 LS2 ST2 CO2 J2']; subst; try congruence.
    - split; [reflexivity|]. exists V, L. auto.
    - split; [reflexivity|]. destruct (local_two src1 src2 F _ _ _ _ V L _ _ _ _ S1 S2 I1 I2 LS LS2) as (V' & K). exists V', L. exact K.
    - exfalso. destruct (local_two src1 src2 F _ _ _ _ V L _ _ _ _ S1 S2 I1 I2 LS LS2) as (V' & K1 & K2). rewrite (stop_same _ _ _ _ PS (sims_same _ _ _ _ _ _ K1 K2)) in ST. congruence.
    - exfalso. destruct (local_two src1 src2 F _ _ _ _ V L _ _ _ _ S1 S2 I1 I2 LS LS2) as (V' & K1 & K2). rewrite (stop_same _ _ _ _ PS (sims_same _ _ _ _ _ _ K1 K2)) in ST. congruence.
    - destruct (local_two src1 src2 F _ _ _ _ V L _ _ _ _ S1 S2 I1 I2 LS LS2) as (V' & K1 & K2). destruct (comm_two _ _ _ _ _ _ V' L K1 K2 CO CO2) as (K1' & K2').
      destruct (IH _ _ _ _ _ _ J2' (sims_same _ _ _ _ _ _ K1 K2) (ex_intro _ V' (ex_intro _ V' (conj K1' K2')))) as (-> & Z). split; [reflexivity|exact Z].
  Qed.
  Definition sweeps_two (sw1 sw2 : GPsi -> GPsi -> GPsi -> list op -> GPsi -> GPsi -> Prop) : Prop := forall src1 src2 F psi1 bnd1 ops1 psi1' bnd1' psi2 bnd2 ops2 psi2' bnd2',
    src_ok1 src1 (em1 F) -> src_ok2 src2 (em2 F) -> both psi1 bnd1 psi2 bnd2 -> sw1 src1 psi1 bnd1 ops1 psi1' bnd1' -> sw2 src2 psi2 bnd2 ops2 psi2' bnd2' -> ops1 = ops2 /\ both psi1' bnd1' psi2' bnd2'.
  Notation fl1 sw := (fixedLoop A R1 nG1 pi sS1 wt gsum1 sw (cIterMax cfg1) (cErrMax cfg1) source1). Notation fl2 sw := (fixedLoop A R2 nG2 pi sS2 wt gsum2 sw (cIterMax cfg2) (cErrMax cfg2) source2).
  Definition phis (phi1 phi2 : nat -> nat -> nat -> nat -> T) : Prop := exists F, phi_ok1 phi1 F /\ phi_ok2 phi2 F.
  Lemma flux_both psi1 bnd1 psi2 bnd2 : both psi1 bnd1 psi2 bnd2 -> phis (gPsiToPhi A nA nG1 wt nC1 psi1) (gPsiToPhi A nA nG2 wt nC2 psi2).
  Proof.
    intros (V & L & I1 & I2). exists (b_flux A nA wt V). split.
    - exact (flux_ok A dec enc ltb pi sm pv np cfg1 q threads1 PB PV SM CMP TH1 NP HG1 HA0 HC0 SZ1 t1 RD1 xs1 XS1 psi1 V (proj1 I1)).
    - exact (flux_ok A dec enc ltb pi sm pv np cfg2 q threads2 PB PV SM CMP TH2 NP HG2 HA0 HC0 SZ2 t2 RD2 xs2 XS2 psi2 V (proj1 I2)).
  Qed.
  Lemma total_both phi1 phi2 F tot1 tot2 : phi_ok1 phi1 F -> phi_ok2 phi2 F -> src_ok1 (gTotal A pi nA nG1 nC1 sS1 source1 phi1 tot1) (em1 F) /\ src_ok2 (gTotal A pi nA nG2 nC2 sS2 source2 phi2 tot2) (em2 F).
  Proof.
    intros H1 H2. split.
    - exact (total_src A dec enc ltb pi sm pv np cfg1 q threads1 PB PV SM CMP TH1 NP HG1 HA0 HC0 SZ1 t1 RD1 xs1 XS1 phi1 F tot1 H1).
    - exact (total_src A dec enc ltb pi sm pv np cfg2 q threads2 PB PV SM CMP TH2 NP HG2 HA0 HC0 SZ2 t2 RD2 xs2 XS2 phi2 F tot2 H2).
  Qed.
  Lemma fixed_two sw1 sw2 : sweeps_two sw1 sw2 -> forall iter e psi1 bnd1 tot1 phi1 ops1 psi1' bnd1', fl1 sw1 iter e psi1 bnd1 tot1 phi1 ops1 psi1' bnd1' ->
    forall psi2 bnd2 tot2 phi2 ops2 psi2' bnd2', fl2 sw2 iter e psi2 bnd2 tot2 phi2 ops2 psi2' bnd2' -> both psi1 bnd1 psi2 bnd2 -> phis phi1 phi2 -> ops1 = ops2 /\ both psi1' bnd1' psi2' bnd2'.
  Proof.
    intros SW iter e psi1 bnd1 tot1 phi1 ops1 psi1' bnd1' J. induction J as [iter e psi1 bnd1 tot1 phi1 B|iter e psi1 bnd1 tot1 phi1 ops psi1a bnd1a ops1 psi1' bnd1' B tt SS ph J IH]; intros psi2 bnd2 tot2 phi2 ops2 psi2' bnd2' J2 BO PH;
      rewrite (sr_iter _ _ SR), (sr_err _ _ SR) in B; inversion J2 as [i' e' x b tt2 ph2 B2|i' e' x b tt2 ph2 o x1 b1 o' x' b' B2 tt3 SS2 ph3 J2']; subst; try congruence.
    - split; [reflexivity|exact BO].
    - destruct PH as (F & P1 & P2). destruct (total_both phi1 phi2 F tot1 tot2 P1 P2) as (K1 & K2). destruct (SW _ _ F _ _ _ _ _ _ _ _ _ _ K1 K2 BO SS SS2) as (-> & BO1). pose proof (flux_both _ _ _ _ BO1) as (F' & Q1 & Q2).
      assert (ER : relError A nG2 nC2 gsum2 ph3 phi2 = relError A nG1 nC1 gsum1 ph phi1) by (symmetry; apply (rel_same ph phi1 ph3 phi2 F' F); auto). rewrite ER in J2'.
      destruct (IH _ _ _ _ _ _ _ J2' BO1 (ex_intro _ F' (conj Q1 Q2))) as (-> & Z). split; [reflexivity|exact Z].
  Qed.
  Lemma fixedA_two sw1 sw2 psi1 bnd1 ops1 psi1' bnd1' psi2 bnd2 ops2 psi2' bnd2' : sweeps_two sw1 sw2 -> both psi1 bnd1 psi2 bnd2 ->
    fixedA A R1 nG1 pi sS1 wt gsum1 sw1 (cIterMax cfg1) (cErrMax cfg1) source1 psi1 bnd1 ops1 psi1' bnd1' -> fixedA A R2 nG2 pi sS2 wt gsum2 sw2 (cIterMax cfg2) (cErrMax cfg2) source2 psi2 bnd2 ops2 psi2' bnd2' ->
    ops1 = ops2 /\ both psi1' bnd1' psi2' bnd2'.
  Proof.
    intros SW BO (o1 & -> & J1) (o2 & -> & J2). destruct (fixed_two sw1 sw2 SW _ _ _ _ _ _ _ _ _ J1 _ _ _ _ _ _ _ J2 BO (flux_both _ _ _ _ BO)) as (-> & Z). auto.
  Qed.
  Lemma jacobi_sweeps_two : sweeps_two (jacobiSweep A R1 ge1 nG1 geo1 sT1 pr1 gsum1 (cDdIterMax cfg1) (cDdErrMax cfg1)) (jacobiSweep A R2 ge2 nG2 geo2 sT2 pr2 gsum2 (cDdIterMax cfg2) (cDdErrMax cfg2)).
  Proof. intros src1 src2 F psi1 bnd1 ops1 psi1' bnd1' psi2 bnd2 ops2 psi2' bnd2' S1 S2 BO J1 J2. exact (jacobi_two src1 src2 F S1 S2 _ _ _ _ _ _ _ J1 _ _ _ _ _ _ J2 (both_same _ _ _ _ BO) BO). Qed.
  Lemma outer_sweeps_two : sweeps_two (outerSweep A R1 ge1 nG1 geo1 sT1 pr1) (outerSweep A R2 ge2 nG2 geo2 sT2 pr2).
  Proof.
    intros src1 src2 F psi1 bnd1 ops1 psi1' bnd1' psi2 bnd2 ops2 psi2' bnd2' S1 S2 (V & L & I1 & I2) (-> & L1) (-> & L2). split; [reflexivity|].
    destruct (local_two src1 src2 F _ _ _ _ V L _ _ _ _ S1 S2 I1 I2 L1 L2) as (V' & K). exists V', L. exact K.
  Qed.
  Notation ol1 := (outerLoopA A R1 ge1 nG1 geo1 sT1 pr1 pi sS1 wt gsum1 (cDdIterMax cfg1) (cDdErrMax cfg1) (cIterMax cfg1) (cErrMax cfg1) source1).
  Notation ol2 := (outerLoopA A R2 ge2 nG2 geo2 sT2 pr2 pi sS2 wt gsum2 (cDdIterMax cfg2) (cDdErrMax cfg2) (cIterMax cfg2) (cErrMax cfg2) source2).
  Lemma outer_two : forall iter p1 psi1 bnd1 ops1 psi1', ol1 iter p1 psi1 bnd1 ops1 psi1' -> forall p2 psi2 bnd2 ops2 psi2', ol2 iter p2 psi2 bnd2 ops2 psi2' -> psame p1 p2 -> both psi1 bnd1 psi2 bnd2 -> ops1 = ops2 /\ psame psi1' psi2'.
  Proof.
    intros iter p1 psi1 bnd1 ops1 psi1' J. induction J as [iter p1 psi1 bnd1 B|iter p1 psi1 bnd1 ops1 psi1' bnd1' B FX ST|iter p1 psi1 bnd1 oa q1 c1 d1 ops1 psi1' B FX ST CO J IH]; intros p2 psi2 bnd2 ops2 psi2' J2 PS BO;
      rewrite limit_same in B; inversion J2 as [i' p' x b B2|i' p' x b o x' b' B2 FX2 ST2|i' p' x b o x1 b1 b2 o' x' B2 FX2 ST2 CO2 J2']; subst; try congruence.
    - split; [reflexivity|]. exact (both_same _ _ _ _ BO).
    - destruct (fixedA_two _ _ _ _ _ _ _ _ _ _ _ _ outer_sweeps_two BO FX FX2) as (-> & Z). split; [reflexivity|exact (both_same _ _ _ _ Z)].
    - exfalso. destruct (fixedA_two _ _ _ _ _ _ _ _ _ _ _ _ outer_sweeps_two BO FX FX2) as (_ & Z). rewrite (stop_same _ _ _ _ PS (both_same _ _ _ _ Z)) in ST. congruence.
    - exfalso. destruct (fixedA_two _ _ _ _ _ _ _ _ _ _ _ _ outer_sweeps_two BO FX FX2) as (_ & Z). rewrite (stop_same _ _ _ _ PS (both_same _ _ _ _ Z)) in ST. congruence.
    - destruct (fixedA_two _ _ _ _ _ _ _ _ _ _ _ _ outer_sweeps_two BO FX FX2) as (-> & V & L & K1 & K2). destruct (comm_two _ _ _ _ _ _ V L K1 K2 CO CO2) as (K1' & K2').
      destruct (IH _ _ _ _ _ J2' (sims_same _ _ _ _ _ _ K1 K2) (ex_intro _ V (ex_intro _ V (conj K1' K2')))) as (-> & Z). split; [reflexivity|exact Z].
  Qed.
  Notation si1 := (siLoopA A R1 ge1 nG1 geo1 sT1 pr1 pi sS1 wt gsum1 (cDdIterMax cfg1) (cDdErrMax cfg1) source1). Notation si2 := (siLoopA A R2 ge2 nG2 geo2 sT2 pr2 pi sS2 wt gsum2 (cDdIterMax cfg2) (cDdErrMax cfg2) source2).
  Lemma si_two : forall iter phi1 psi1 bnd1 tot1 ops1 psi1', si1 iter phi1 psi1 bnd1 tot1 ops1 psi1' -> forall phi2 psi2 bnd2 tot2 ops2 psi2', si2 iter phi2 psi2 bnd2 tot2 ops2 psi2' -> phis phi1 phi2 -> both psi1 bnd1 psi2 bnd2 -> ops1 = ops2 /\ psame psi1' psi2'.
  Proof.
    assert (STEP : forall phi1 psi1 bnd1 tot1 phi2 psi2 bnd2 tot2 q1 c1 d1 q2 c2 d2, phis phi1 phi2 -> both psi1 bnd1 psi2 bnd2 ->
      localSweepA A R1 ge1 nG1 geo1 sT1 pr1 (gTotal A pi nA nG1 nC1 sS1 source1 phi1 tot1) psi1 bnd1 q1 c1 -> localSweepA A R2 ge2 nG2 geo2 sT2 pr2 (gTotal A pi nA nG2 nC2 sS2 source2 phi2 tot2) psi2 bnd2 q2 c2 ->
      commAllA A R1 ge1 nG1 geo1 sT1 pr1 q1 c1 d1 -> commAllA A R2 ge2 nG2 geo2 sT2 pr2 q2 c2 d2 ->
      both q1 d1 q2 d2 /\ phis (gPsiToPhi A nA nG1 wt nC1 q1) (gPsiToPhi A nA nG2 wt nC2 q2) /\
      agt A (cDdErrMax cfg1) (relError A nG1 nC1 gsum1 (gPsiToPhi A nA nG1 wt nC1 q1) phi1) = agt A (cDdErrMax cfg2) (relError A nG2 nC2 gsum2 (gPsiToPhi A nA nG2 wt nC2 q2) phi2)).
    { intros phi1 psi1 bnd1 tot1 phi2 psi2 bnd2 tot2 q1 c1 d1 q2 c2 d2 (F & P1 & P2) (V & L & I1 & I2) L1 L2 C1 C2. destruct (total_both phi1 phi2 F tot1 tot2 P1 P2) as (K1 & K2).
      destruct (local_two _ _ F _ _ _ _ V L _ _ _ _ K1 K2 I1 I2 L1 L2) as (V' & M1 & M2). destruct (comm_two _ _ _ _ _ _ V' L M1 M2 C1 C2) as (M1' & M2').
      assert (BO : both q1 d1 q2 d2) by (exists V', V'; auto). split; [exact BO|]. pose proof (flux_both _ _ _ _ BO) as (F' & Q1 & Q2). split; [exists F'; auto|]. rewrite (sr_dderr _ _ SR). f_equal. apply (rel_same _ _ _ _ F' F); auto. }
    intros iter phi1 psi1 bnd1 tot1 ops1 psi1' J. induction J as [iter phi1 psi1 bnd1 tot1 B|iter phi1 psi1 bnd1 tot1 q1 c1 d1 B LS CO ST|iter phi1 psi1 bnd1 tot1 q1 c1 d1 ops1 psi1' B LS CO ST J IH]; intros phi2 psi2 bnd2 tot2 ops2 psi2' J2 PH BO;
      rewrite limit_same in B; inversion J2 as [i' p' x b tt B2|i' p' x b tt x' b1 b2 B2 LS2 CO2 ST2|i' p' x b tt x1 b1 b2 o x' B2 LS2 CO2 ST2 J2']; subst; try congruence.
    - split; [reflexivity|exact (both_same _ _ _ _ BO)].
    - destruct (STEP _ _ _ _ _ _ _ _ _ _ _ _ _ _ PH BO LS LS2 CO CO2) as (Z & _). split; [reflexivity|exact (both_same _ _ _ _ Z)].
    - exfalso. destruct (STEP _ _ _ _ _ _ _ _ _ _ _ _ _ _ PH BO LS LS2 CO CO2) as (_ & _ & E). discriminate (eq_trans (eq_sym ST) (eq_trans E ST2)).
    - exfalso. destruct (STEP _ _ _ _ _ _ _ _ _ _ _ _ _ _ PH BO LS LS2 CO CO2) as (_ & _ & E). discriminate (eq_trans (eq_sym ST) (eq_trans E ST2)).
    - destruct (STEP _ _ _ _ _ _ _ _ _ _ _ _ _ _ PH BO LS LS2 CO CO2) as (Z & PP & _). destruct (IH _ _ _ _ _ _ J2' PP Z) as (-> & Y). split; [reflexivity|exact Y].
  Qed.
  Lemma both_zero : both (zeroP A) (zeroP A) (zeroP A) (zeroP A).
  Proof. do 2 eexists. split; apply sim_zero. Qed.
  Lemma solve_two ops1 psi1 ops2 psi2 : solveBlock A dec pi cfg1 q t1 np threads1 xs1 pr1 gsum1 ops1 psi1 -> solveBlock A dec pi cfg2 q t2 np threads2 xs2 pr2 gsum2 ops2 psi2 -> ops1 = ops2 /\ psame psi1 psi2.
  Proof.
    unfold solveBlock. rewrite <- (sr_sweep _ _ SR). destruct (cSweep cfg1); try contradiction.
    - intros (_ & b1 & J1) (_ & b2 & J2). destruct (fixedA_two _ _ _ _ _ _ _ _ _ _ _ _ jacobi_sweeps_two both_zero J1 J2) as (-> & Z). split; [reflexivity|exact (both_same _ _ _ _ Z)].
    - intros (_ & J1) (_ & J2). exact (outer_two _ _ _ _ _ _ J1 _ _ _ _ _ J2 (both_same _ _ _ _ both_zero) both_zero).
    - intros J1 J2. apply (si_two _ _ _ _ _ _ _ J1 _ _ _ _ _ _ J2); [|exact both_zero]. exists (fun _ _ _ => azero A). split; intros r c g v G _ _ _ _; reflexivity.
  Qed.
End Two.
