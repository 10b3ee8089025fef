(** C79: the solvers on the ranks do what the log says on the serial mesh. *)
From Coq Require Import Reals Permutation.
From Verif Require Import Prelude Bytes LayoutModel PsiFileModel PsiFileSpec DeckModel MeshModel MeshSpec CreateModel CreateSpec CreateProofs TychoModel TychoSpec TychoProofs TychoMeshProofs TychoCreatedProofs GeometryModel GaussModel TransportModel.
From Verif Require Import TraverseModel TraverseSpec TraverseRun PropertiesTraverse SweepModel CommModel CommProofs BlockModel BlockProofs FluxModel FluxProofs PropertiesFlux ProblemModel ViewModel ViewSpec ViewProofs ViewSysProofs PropertiesView BitsModel BitsSpec BitsProofs PropertiesBits MainModel MainSpec MainProofs PropertiesHang.
From Verif Require Import JacobiModel JacobiSpec JacobiProofs.

Section Run.
  Context {T : Type} (A : arith T) (dec : N -> T) (enc : T -> N) (ltb : N -> N -> bool) (pi : T).
  Context (sm : smesh) (pv : list N) (np : nat) (cfg : config T) (q : angles T) (threads : nat).
  Notation nG := (N.to_nat (cNGroups cfg)).
  Notation nA := (q_num q).
  Notation om := (q_omega q).
  Notation wt := (q_weight q).
  Context (PB : fit_ok A sm dec om nA) (PV : partition_vector_ok sm pv np) (SM : mesh_small sm np) (CMP : exists decR, compares sm decR ltb) (TH : 0 < threads) (NP : 0 < np).
  Context (HG0 : 0 < nG) (HA0 : 0 < nA) (HC0 : 0 < length (sm_cells sm)) (SZ : (N.of_nat (nA * length (sm_cells sm) * 4) * (24 * cNGroups cfg) < INT_MAX)%N).
  Context (t : nat -> tmesh) (RD : program_reads sm pv np ltb t).
  Context (xs : nat -> list T * list T) (XS : forall r, r < np -> createCrossSections (tm_material (t r)) (cSigmaT1 cfg) (cSigmaS1 cfg) (cSigmaT2 cfg) (cSigmaS2 cfg) = Some (xs r)).
  Notation sigT := (by_material A sm (cSigmaT1 cfg) (cSigmaT2 cfg)).
  Notation sigS := (by_material A sm (cSigmaS1 cfg) (cSigmaS2 cfg)).
  Notation R0 := (traverser A dec cfg q t np threads).
  Notation gh := (ghost A dec sm np cfg q threads t).
  Notation ge := (gaussOf (cGauss cfg)).
  Notation nCells := (fun r => rm_nCells (u_mesh R0 r)).
  Notation sT := (fun r c => nth c (fst (xs r)) (azero A)).
  Notation sS := (fun r c => nth c (snd (xs r)) (azero A)).
  Notation geo := (fun r => viewGeo A dec om (t r)).
  Notation source := (fun r => hatSourceA A dec om (t r) (xs r)).
  Notation M := (fun r => viewMesh A dec om (t r)).
  Notation mt := (mateOf sm np t).
  Notation GPsi := (nat -> nat -> nat -> nat -> nat -> T).
  Notation Vals := (nat -> N -> value T).
  Notation holds := (holds A np cfg q t).
  Notation emission := (j_emission A sm dec om pi sigT sigS).
  Notation jsweep := (j_sweep A sm dec om nA ge nG sigT (same_part pv)).
  Notation follows := (follows A sm dec om nA wt pi ge nG sigT sigS (same_part pv)).

  Definition full (V : Vals) : Prop := forall a g sc, a < nA -> SM_cell sm g = Some sc -> V a g <> None.
  Definition bnd_ok (bnd : GPsi) (lag : GPsi) : Prop := forall r c f p c' f' a, mt (r, c, f) = Some (p, c', f') -> p <> r -> a < nA -> rm_out (M r) a c f = false ->
    bnd r (rm_side (M r) c f) a = sweepGetData A geo p c' f' a (Some (lag p c' a)).
  (** The ranks hold the angular flux [V] and the side data of [L]. *)
  Definition sim (psi : GPsi) (bnd : GPsi) (V L : Vals) : Prop := holds psi V /\ full V /\ full L /\ exists lag, holds lag L /\ bnd_ok bnd lag.
  Definition phi_ok (phi : nat -> nat -> nat -> nat -> T) (F : N -> nat -> nat -> T) : Prop := forall r c g v G, r < np -> getLGCell (t r) c = Some g -> v < 4 -> G < nG -> phi r c v G = F g v G.
  Definition src_ok (src : GPsi) (Q : nat -> N -> block T) : Prop := forall r c g a v G, r < np -> a < nA -> getLGCell (t r) c = Some g -> v < 4 -> G < nG -> src r c a v G = Q a g v G.

  Lemma block_ok pr src : block_run (localRun A gh ge nG geo sT pr src).
  Proof.
    pose proof (conf A dec ltb sm pv np cfg q threads PB PV SM CMP TH HG0 HA0 HC0 SZ t RD xs XS) as CF.
    destruct (system_fit A dec ltb sm pv np cfg q PB PV SM CMP HG0 SZ t RD) as (SYS & _). split; [split|split; reflexivity]; [exact SYS|].
    exact (ca_good A sm dec om nA _ PB pv np ltb t _ _ CF ge nG pr src).
  Qed.
  (** A rank without communication waits for its own cells only. *)
  Lemma local_acyclic_iff pr src : racyclic (localRun A gh ge nG geo sT pr src) <-> parts_acyclic A sm dec om nA (same_part pv).
  Proof.
    destruct (world A dec ltb sm pv np q PB PV SM CMP t RD) as (m & d & CR & CP & R1). pose proof PB as [OK TT SG]. split.
    - intros (lvl & L). exists (fun a g => match gather np t (fun r c a => Some (fun _ _ => lvl r c a)) a g with Some b => b 0 0 | None => 0 end).
      intros a g lf h Ha (f & sf & O & AC & NI) TG B.
      assert (HS : exists sc, SM_cell sm g = Some sc) by (destruct O as (sc & ? & _); eauto). destruct HS as (sc & HS).
      assert (Hl : lf < 4). { destruct O as (sc' & _ & _ & _ & Hl & _). exact Hl. }
      destruct (gid_onto sm pv np m ltb d t OK TT PV CR CP R1 g sc HS) as (r & c & Hr & HG).
      destruct (gid_cell sm pv np m ltb d t OK TT PV CR CP R1 r c g Hr HG) as (_ & _ & _ & _ & _ & _ & _ & _ & Hc & _).
      destruct (face_cases sm pv np m ltb d t OK TT PV CR CP R1 r c g lf Hr Hl HG) as (n & sf' & O' & K).
      destruct (opp_fun sm pv np m ltb d t OK TT PV CR CP R1 _ _ _ _ _ _ O' O) as (-> & ->). rewrite AC in K.
      destruct K as [(E & _)|(_ & p & c' & f' & Hm & HH)]; [congruence|].
      assert (Hp : p < np). { apply (mate_iff sm pv np m ltb d t OK TT PV CR CP R1) in Hm. now destruct Hm as (_ & Hp & _). }
      rewrite (together_ok sm pv np m ltb d t OK TT PV CR CP R1 r c g p c' h Hr Hp HG HH) in TG. apply Nat.eqb_eq in TG. subst p.
      rewrite (gather_ok sm pv np m ltb d t OK TT PV CR CP R1 (fun _ : N => 0) (fun _ : nat => Q3 0 0 0) (fun _ _ => 0) (fun _ => 0) (fun _ _ _ _ _ => 0) (fun _ _ _ => 0%N) _ r c' h a Hr HH), (gather_ok sm pv np m ltb d t OK TT PV CR CP R1 (fun _ : N => 0) (fun _ : nat => Q3 0 0 0) (fun _ _ => 0) (fun _ => 0) (fun _ _ _ _ _ => 0) (fun _ _ _ => 0%N) _ r c g a Hr HG).
      apply L; auto. split; auto. split; [exact Hc|]. exists lf, f'. split; auto. split; [exact Hm|]. split; [|now right]. unfold isIncoming.
      pose proof (bout_ok sm pv np m ltb d t OK TT PV CR CP R1 A dec om r a c g lf Hr Hl HG) as E. cbn in E |- *. rewrite E, B. reflexivity.
    - intros (lvl & LV). exists (fun r c a => match getLGCell (t r) c with Some g => lvl a g | None => 0 end).
      intros a r c p c' Ha (Hr & Hc & f & f' & L & H & IN & SR). destruct SR as [X|X]; [discriminate X|subst p]. cbn in Hr, Ha, H.
      apply (mate_iff sm pv np m ltb d t OK TT PV CR CP R1) in H. destruct H as (_ & Hq & _ & L' & g & h & n & sf & HG & HH & O & O' & NE & AC & _). rewrite HG, HH.
      destruct (gid_cell sm pv np m ltb d t OK TT PV CR CP R1 r c' h Hq HH) as (_ & _ & _ & _ & _ & _ & _ & _ & _ & NI). assert (NX : s_next sm g f h) by (exists n, sf; auto).
      apply (LV a g f h Ha NX); [rewrite (together_ok sm pv np m ltb d t OK TT PV CR CP R1 r c g r c' h Hr Hr HG HH); apply Nat.eqb_refl|].
      pose proof (bout_ok sm pv np m ltb d t OK TT PV CR CP R1 A dec om r a c g f Hr L HG) as E. unfold isIncoming in IN. destruct (b_out A sm dec om a g f); [|reflexivity]. cbn in IN, E. rewrite E in IN. discriminate.
  Qed.
  (** So a sweep that ends shows that no cell waits for itself. *)
  Lemma local_parts pr src psi bnd psi' bnd' : localSweepA A R0 ge nG geo sT pr src psi bnd psi' bnd' -> parts_acyclic A sm dec om nA (same_part pv).
  Proof.
    intros (val & (S0 & S & I & H & F & _) & _). apply (local_acyclic_iff pr src).
    exact (C76_ends_acyclic _ _ (localRun A gh ge nG geo sT pr src) _ _ S0 S (proj2 (proj1 (block_ok pr src))) I H F).
  Qed.
  Lemma local_val pr src Q psi bnd val bnd' V L : src_ok src Q -> sim psi bnd V L ->
    sweepLocal (localRun A gh ge nG geo sT pr src) (fun r c a => Some (psi r c a)) bnd val bnd' ->
    jsweep Q L (gather np t val) /\ (forall r, r < np -> bnd' r = bnd r).
  Proof.
    intros SR (_ & _ & FL & lag & HL & BN) SW. destruct (sweep_local _ (block_ok pr src) _ _ _ _ SW) as (SO & EB). split; [|exact EB].
    destruct (world A dec ltb sm pv np q PB PV SM CMP t RD) as (m & d & CR & CP & R1). pose proof PB as [OK TT SG].
    refine (j_solution sm pv np m ltb d t OK TT PV CR CP R1 A dec om nA (cells_ok sm cfg q HG0 SZ) ge nG sT sigT src pr (fun r c g Hr HG => proj1 (sig_ok A dec ltb sm pv np cfg q PB PV SM CMP t RD xs XS r c g Hr HG))
      Q (fun r c a => Some (lag r c a)) val bnd L SR _ _ SO).
    - intros r c f p c' f' a Hm NE Ha Ho. exact (BN r c f p c' f' a Hm NE Ha Ho).
    - intros r c g a Hr Ha HG. destruct (cell_of A dec ltb sm pv np q PB PV SM CMP t RD r c g Hr HG) as (sc & HS & _). pose proof (FL a g sc Ha HS) as FA. destruct (L a g) as [b|] eqn:EL; [|congruence].
      intros v G Hv HGr. rewrite (HL r c g a v G Hr HG Ha Hv HGr), EL. reflexivity.
  Qed.
  Lemma local_ok pr src Q psi bnd psi' bnd' V L : src_ok src Q -> sim psi bnd V L -> localSweepA A R0 ge nG geo sT pr src psi bnd psi' bnd' ->
    exists V', jsweep Q L V' /\ full V' /\ sim psi' bnd' V' L.
  Proof.
    intros SR SI (val & SW & NN & ->). destruct (local_val pr src Q psi bnd val bnd' V L SR SI SW) as (JS & EB). exists (gather np t val). split; [exact JS|].
    pose proof (conf A dec ltb sm pv np cfg q threads PB PV SM CMP TH HG0 HA0 HC0 SZ t RD xs XS) as CF.
    assert (FV : full (gather np t val)).
    { intros a g sc Ha HS. destruct (ca_onto A sm dec om nA _ PB pv np ltb t _ _ CF g sc HS) as (r & c & Hr & HG). rewrite (ca_gather A sm dec om nA _ PB pv np ltb t _ _ CF _ r c g a Hr HG).
      apply NN. apply (ca_valid A sm dec om nA _ PB pv np ltb t _ _ CF). eauto 6. }
    split; [exact FV|]. destruct SI as (_ & _ & FL & lag & HL & BN). split; [|split; [exact FV|split; [exact FL|exists lag; split; [exact HL|]]]].
    - intros r c g a v G Hr HG Ha Hv HGr. now rewrite (ca_gather A sm dec om nA _ PB pv np ltb t _ _ CF _ r c g a Hr HG).
    - intros r c f p c' f' a Hm NE Ha Ho. rewrite <- (BN r c f p c' f' a Hm NE Ha Ho). destruct (block_ok pr src) as ((SYS & _) & _). destruct (so_range _ _ _ _ SYS r c f _ Hm) as (Hr & _). now rewrite (EB r Hr).
  Qed.
  Lemma comm_ok pr psi bnd bnd' V L : sim psi bnd V L -> commAllA A R0 ge nG geo sT pr psi bnd bnd' -> sim psi bnd' V V.
  Proof.
    intros (HV & FV & _ & _) CO. split; [exact HV|]. split; [exact FV|]. split; [exact FV|]. exists psi. split; [exact HV|]. intros r c f p c' f' a Hm NE Ha Ho.
    exact (exchange_ok (fun _ _ => azero A) _ (block_ok pr (fun _ _ _ _ _ => azero A)) (fun r c a => Some (psi r c a)) bnd bnd' CO r c f p c' f' a Hm NE Ha Ho).
  Qed.
  Lemma total_src phi F tot : phi_ok phi F -> src_ok (gTotal A pi nA nG nCells sS source phi tot) (emission F).
  Proof.
    intros H r c g a v G Hr Ha HG Hv HGr. destruct (cell_of A dec ltb sm pv np q PB PV SM CMP t RD r c g Hr HG) as (sc & HS & Hc). unfold gTotal. rewrite total_eq. rewrite (proj2 (in_inside nG _ c v G)); [|cbn; auto].
    destruct (Nat.ltb_spec a nA); [|lia]. cbn [andb]. unfold j_emission. rewrite (source_ok A dec ltb sm pv np cfg q PB PV SM CMP t RD xs XS r c g a v G Hr HG Hv).
    destruct (sig_ok A dec ltb sm pv np cfg q PB PV SM CMP t RD xs XS r c g Hr HG) as (_ & ->). now rewrite (H r c g v G Hr HG Hv HGr).
  Qed.
  Lemma flux_ok psi V : holds psi V -> phi_ok (gPsiToPhi A nA nG wt nCells psi) (b_flux A nA wt V).
  Proof.
    intros H r c g v G Hr HG Hv HGr. destruct (cell_of A dec ltb sm pv np q PB PV SM CMP t RD r c g Hr HG) as (sc & HS & Hc). unfold gPsiToPhi. rewrite psiToPhi_eq. rewrite (proj2 (in_inside nG _ c v G)); [|cbn; auto].
    unfold b_flux. assert (E : forall l x, (forall a, In a l -> a < nA) -> fold_left (fun s a => aadd A s (amul A (psi r c a v G) (wt a))) l x = fold_left (fun s a => aadd A s (amul A (getBlock A (V a g) v G) (wt a))) l x).
    { induction l as [|b l IH]; intros x L; [reflexivity|]. cbn [fold_left]. rewrite (H r c g b v G) by (auto; apply L; now left). apply IH. intros b' Hb. apply L. now right. }
    apply E. intros b Hb. apply in_seq in Hb. lia.
  Qed.

  Variables (pr : nat -> nat -> nat -> N) (gsum : (nat -> T) -> T).
  Notation jloop := (jacobiLoop A R0 ge nG geo sT pr gsum (cDdIterMax cfg) (cDdErrMax cfg)).
  Lemma jacobi_ok src F : src_ok src (emission F) -> forall iter psi0 psi bnd ops psi' bnd', jloop src iter psi0 psi bnd ops psi' bnd' -> forall V L, sim psi bnd V L ->
    exists V' L', follows ops (mkJ V L F) (mkJ V' L' F) /\ sim psi' bnd' V' L'.
  Proof.
    intros SR iter psi0 psi bnd ops psi' bnd' J. induction J as [iter psi0 psi bnd B|iter psi0 psi bnd psi' bnd' B LS ST|iter psi0 psi bnd psi1 bnd1 bnd2 ops psi' bnd' B LS ST CO J IH]; intros V L SI.
    - exists V, L. split; [constructor|exact SI].
    - destruct (local_ok pr src (emission F) psi bnd psi' bnd' V L SR SI LS) as (V' & JS & FV & SI'). exists V', L. split; [|exact SI']. econstructor; [exact JS|exact FV|constructor].
    - destruct (local_ok pr src (emission F) psi bnd psi1 bnd1 V L SR SI LS) as (V1 & JS & FV & SI1). pose proof (comm_ok pr psi1 bnd1 bnd2 V1 L SI1 CO) as SI2.
      destruct (IH V1 V1 SI2) as (V' & L' & FO & SI'). exists V', L'. split; [|exact SI']. econstructor; [exact JS|exact FV|]. constructor. exact FO.
  Qed.
  Notation floop sweep := (fixedLoop A R0 nG pi sS wt gsum sweep (cIterMax cfg) (cErrMax cfg) source).
  (** What a sweep of a sweeper has to do. *)
  Definition sweeps_ok (sweep : GPsi -> GPsi -> GPsi -> list op -> GPsi -> GPsi -> Prop) : Prop := forall src F psi bnd ops psi' bnd' V L, src_ok src (emission F) -> sim psi bnd V L -> sweep src psi bnd ops psi' bnd' ->
    exists V' L', follows ops (mkJ V L F) (mkJ V' L' F) /\ sim psi' bnd' V' L'.
  Lemma fixed_ok sweep : sweeps_ok sweep -> forall iter e psi bnd tot phi ops psi' bnd', floop sweep iter e psi bnd tot phi ops psi' bnd' -> forall V L F, sim psi bnd V L -> phi_ok phi F ->
    exists V' L' F', follows ops (mkJ V L F) (mkJ V' L' F') /\ sim psi' bnd' V' L'.
  Proof.
    intros SW iter e psi bnd tot phi ops psi' bnd' J. induction J as [iter e psi bnd tot phi B|iter e psi bnd tot phi ops1 psi1 bnd1 ops psi' bnd' B tot1 SS phi1 J IH]; intros V L F SI PH.
    - exists V, L, F. split; [constructor|exact SI].
    - destruct (SW tot1 F psi bnd ops1 psi1 bnd1 V L (total_src phi F tot PH) SI SS) as (V1 & L1 & FO1 & SI1). destruct (IH V1 L1 (b_flux A nA wt V1) SI1 (flux_ok psi1 V1 (proj1 SI1))) as (V' & L' & F' & FO & SI').
      exists V', L', F'. split; [|exact SI']. eapply follows_app; [exact FO1|]. constructor. exact FO.
  Qed.
  Lemma fixedA_ok sweep psi bnd ops psi' bnd' V L F : sweeps_ok sweep -> fixedA A R0 nG pi sS wt gsum sweep (cIterMax cfg) (cErrMax cfg) source psi bnd ops psi' bnd' -> sim psi bnd V L ->
    exists V' L' F', follows ops (mkJ V L F) (mkJ V' L' F') /\ sim psi' bnd' V' L'.
  Proof.
    intros SW (ops' & -> & J) SI. destruct (fixed_ok sweep SW _ _ _ _ _ _ _ _ _ J V L (b_flux A nA wt V) SI (flux_ok psi V (proj1 SI))) as (V' & L' & F' & FO & SI'). exists V', L', F'. split; [constructor; exact FO|exact SI'].
  Qed.
  Lemma jacobi_sweeps : sweeps_ok (jacobiSweep A R0 ge nG geo sT pr gsum (cDdIterMax cfg) (cDdErrMax cfg)).
  Proof. intros src F psi bnd ops psi' bnd' V L SR SI J. exact (jacobi_ok src F SR _ _ _ _ _ _ _ J V L SI). Qed.
  Lemma outer_sweeps : sweeps_ok (outerSweep A R0 ge nG geo sT pr).
  Proof.
    intros src F psi bnd ops psi' bnd' V L SR SI (-> & LS). destruct (local_ok pr src (emission F) psi bnd psi' bnd' V L SR SI LS) as (V' & JS & FV & SI'). exists V', L. split; [|exact SI']. econstructor; [exact JS|exact FV|constructor].
  Qed.
  Notation oloop := (outerLoopA A R0 ge nG geo sT pr pi sS wt gsum (cDdIterMax cfg) (cDdErrMax cfg) (cIterMax cfg) (cErrMax cfg) source).
  Lemma outer_ok : forall iter psi0 psi bnd ops psi', oloop iter psi0 psi bnd ops psi' -> forall V L F, sim psi bnd V L -> exists s, follows ops (mkJ V L F) s /\ holds psi' (j_val s).
  Proof.
    intros iter psi0 psi bnd ops psi' J. induction J as [iter psi0 psi bnd B|iter psi0 psi bnd ops psi' bnd' B FX ST|iter psi0 psi bnd ops1 psi1 bnd1 bnd2 ops psi' B FX ST CO J IH]; intros V L F SI.
    - eexists. split; [constructor|exact (proj1 SI)].
    - destruct (fixedA_ok _ psi bnd ops psi' bnd' V L F outer_sweeps FX SI) as (V' & L' & F' & FO & SI'). eexists. split; [exact FO|exact (proj1 SI')].
    - destruct (fixedA_ok _ psi bnd ops1 psi1 bnd1 V L F outer_sweeps FX SI) as (V1 & L1 & F1 & FO & SI1). destruct (IH V1 V1 F1 (comm_ok pr psi1 bnd1 bnd2 V1 L1 SI1 CO)) as (s & FO' & H). exists s. split; [|exact H].
      eapply follows_app; [exact FO|]. constructor. exact FO'.
  Qed.
  Notation siloop := (siLoopA A R0 ge nG geo sT pr pi sS wt gsum (cDdIterMax cfg) (cDdErrMax cfg) source).
  Lemma si_ok : forall iter phi psi bnd tot ops psi', siloop iter phi psi bnd tot ops psi' -> forall V L F, sim psi bnd V L -> phi_ok phi F -> exists s, follows ops (mkJ V L F) s /\ holds psi' (j_val s).
  Proof.
    intros iter phi psi bnd tot ops psi' J. induction J as [iter phi psi bnd tot B|iter phi psi bnd tot psi' bnd1 bnd2 B LS CO ST|iter phi psi bnd tot psi1 bnd1 bnd2 ops psi' B LS CO ST J IH]; intros V L F SI PH.
    - eexists. split; [constructor|exact (proj1 SI)].
    - destruct (local_ok pr _ (emission F) psi bnd psi' bnd1 V L (total_src phi F tot PH) SI LS) as (V1 & JS & FV & SI1). eexists. split; [econstructor; [exact JS|exact FV|]; constructor; constructor; constructor|exact (proj1 SI1)].
    - destruct (local_ok pr _ (emission F) psi bnd psi1 bnd1 V L (total_src phi F tot PH) SI LS) as (V1 & JS & FV & SI1). destruct (IH V1 V1 (b_flux A nA wt V1) (comm_ok pr psi1 bnd1 bnd2 V1 L SI1 CO) (flux_ok psi1 V1 (proj1 SI1))) as (s & FO & H).
      exists s. split; [|exact H]. econstructor; [exact JS|exact FV|]. constructor. constructor. exact FO.
  Qed.
  Lemma sim_zero : sim (zeroP A) (zeroP A) (j_val (j_zero A)) (j_lag (j_zero A)).
  Proof.
    assert (H : holds (zeroP A) (fun _ _ => Some (fun _ _ => azero A))) by (intros r c g a v G _ _ _ _ _; reflexivity).
    split; [exact H|]. split; [discriminate|]. split; [discriminate|]. exists (zeroP A). split; [exact H|]. intros r c f p c' f' a _ _ _ _. reflexivity.
  Qed.
  Lemma solve_block_ok ops psi : solveBlock A dec pi cfg q t np threads xs pr gsum ops psi -> exists s, follows ops (j_zero A) s /\ holds psi (j_val s).
  Proof.
    unfold solveBlock. destruct (cSweep cfg); try contradiction.
    - intros (_ & bnd & J). destruct (fixedA_ok _ _ _ _ _ _ _ _ (j_phi (j_zero A)) jacobi_sweeps J sim_zero) as (V' & L' & F' & FO & SI). eexists. split; [exact FO|exact (proj1 SI)].
    - intros (_ & J). exact (outer_ok _ _ _ _ _ _ J _ _ _ sim_zero).
    - intros J. apply (si_ok _ _ _ _ _ _ _ J _ _ _ sim_zero). intros r c g v G _ _ _ _. reflexivity.
  Qed.

  (** A sweep never fails a check of the cell solver. *)
  Definition can_sweep : Prop := cGauss cfg <> GE_Original \/ forall ops s, follows ops (j_zero A) s -> exists V, jsweep (emission (j_phi s)) (j_lag s) V /\ full V.
  Context (MC : (0 < cMaxCellsPerStep cfg)%N) (PA : parts_acyclic A sm dec om nA (same_part pv)) (CS : can_sweep).
  Lemma follows_snoc ops s s1 l : follows ops (j_zero A) s -> follows l s s1 -> follows (ops ++ l) (j_zero A) s1.
  Proof. apply follows_app. Qed.
  Lemma local_ex src F psi bnd V L ops : src_ok src (emission F) -> sim psi bnd V L -> follows ops (j_zero A) (mkJ V L F) -> exists psi' bnd', localSweepA A R0 ge nG geo sT pr src psi bnd psi' bnd'.
  Proof.
    intros SR SI FO. destruct (sweep_total _ (block_ok pr src) (fun r c a => Some (psi r c a)) bnd) as (val & bnd' & SW); [cbn; lia|now apply local_acyclic_iff|].
    do 2 eexists. exists val. split; [exact SW|]. split; [|reflexivity].
    destruct (local_val pr src (emission F) psi bnd val bnd' V L SR SI SW) as (JS & _).
    pose proof (conf A dec ltb sm pv np cfg q threads PB PV SM CMP TH HG0 HA0 HC0 SZ t RD xs XS) as CF.
    intros r c a HV. pose proof (proj1 (ca_valid A sm dec om nA _ PB pv np ltb t _ _ CF r c a) HV) as (Hr & Ha & g & sc & HG & HS).
    rewrite <- (ca_gather A sm dec om nA _ PB pv np ltb t _ _ CF _ r c g a Hr HG).
    destruct CS as [NO|CA].
    - destruct (JS a g sc Ha HS) as (psiB & c2f & _ & _ & E). intros X. rewrite X in E. destruct (solve _ _ _ _ _ _ _ _ _ _ _) eqn:ES in E; [exact E|]. revert ES. apply solve_some. destruct (cGauss cfg); cbn; congruence.
    - destruct (CA _ _ FO) as (V' & JS' & FV). cbn [j_phi j_lag] in JS'.
      destruct (world A dec ltb sm pv np q PB PV SM CMP t RD) as (m & d & CR & CP & R1). pose proof PB as [OK TT SG].
      assert (SMV : same_values sm nA nG V' (gather np t val)).
      { eapply (j_unique sm pv np m ltb d t OK TT PV CR CP R1 A dec om nA) with (tg := same_part pv) (tg' := same_part pv) (L := L) (L' := L); eauto using cells_ok.
        - intros a0 g0 sc0 _ _. destruct (L a0 g0); cbn; auto. }
      specialize (SMV a g sc Ha HS). specialize (FV a g sc Ha HS). destruct (V' a g); [|congruence]. destruct (gather np t val a g); [discriminate|destruct SMV].
  Qed.
  Lemma comm_ex psi bnd : exists bnd', commAllA A R0 ge nG geo sT pr psi bnd bnd'.
  Proof. exact (exchange_total (fun _ _ => azero A) _ (block_ok pr (fun _ _ _ _ _ => azero A)) (fun r c a => Some (psi r c a)) bnd). Qed.

  Lemma jacobi_ex src F : src_ok src (emission F) -> forall k iter psi0 psi bnd V L pre, N.to_nat (cDdIterMax cfg) - N.to_nat iter = k -> sim psi bnd V L -> follows pre (j_zero A) (mkJ V L F) ->
    exists ops psi' bnd', jloop src iter psi0 psi bnd ops psi' bnd'.
  Proof.
    intros SR. induction k as [|k IH]; intros iter psi0 psi bnd V L pre EK SI FO.
    - do 3 eexists. apply ja_limit. destruct (N.ltb_spec iter (cDdIterMax cfg)); [lia|reflexivity].
    - assert (B : N.ltb iter (cDdIterMax cfg) = true) by (destruct (N.ltb_spec iter (cDdIterMax cfg)); [reflexivity|lia]).
      destruct (local_ex src F psi bnd V L pre SR SI FO) as (psi1 & bnd1 & LS). destruct (local_ok pr src (emission F) psi bnd psi1 bnd1 V L SR SI LS) as (V1 & JS & FV & SI1).
      destruct (agt A (cDdErrMax cfg) (psiRelError A R0 nG gsum psi0 psi1)) eqn:ST; [do 3 eexists; eapply ja_break; eauto|].
      destruct (comm_ex psi1 bnd1) as (bnd2 & CO). pose proof (comm_ok pr psi1 bnd1 bnd2 V1 L SI1 CO) as SI2.
      destruct (IH (N.succ iter) psi1 psi1 bnd2 V1 V1 (pre ++ [OSweep; OExchange])) as (ops & psi' & bnd' & J); [lia|exact SI2|eapply follows_snoc; [exact FO|]; econstructor; [exact JS|exact FV|]; constructor; constructor|].
      do 3 eexists. eapply ja_next; eauto.
  Qed.
  Definition sweeps_ex (sweep : GPsi -> GPsi -> GPsi -> list op -> GPsi -> GPsi -> Prop) : Prop := forall src F psi bnd V L pre, src_ok src (emission F) -> sim psi bnd V L -> follows pre (j_zero A) (mkJ V L F) -> exists ops psi' bnd', sweep src psi bnd ops psi' bnd'.
  Lemma fixed_ex sweep : sweeps_ok sweep -> sweeps_ex sweep -> forall k iter e psi bnd tot phi V L F pre, N.to_nat (cIterMax cfg) - N.to_nat iter = k -> sim psi bnd V L -> phi_ok phi F -> follows pre (j_zero A) (mkJ V L F) ->
    exists ops psi' bnd' V' L' F', floop sweep iter e psi bnd tot phi ops psi' bnd' /\ sim psi' bnd' V' L' /\ follows (pre ++ ops) (j_zero A) (mkJ V' L' F').
  Proof.
    intros SO SX. induction k as [|k IH]; intros iter e psi bnd tot phi V L F pre EK SI PH FO.
    - do 6 eexists. split; [apply fl_end; destruct (N.ltb_spec iter (cIterMax cfg)); [lia|reflexivity]|]. rewrite app_nil_r. split; eauto.
    - destruct (N.ltb iter (cIterMax cfg) && agt A e (cErrMax cfg)) eqn:B; [|do 6 eexists; split; [apply fl_end; exact B|]; rewrite app_nil_r; split; eauto].
      destruct (SX _ F psi bnd V L pre (total_src phi F tot PH) SI FO) as (ops1 & psi1 & bnd1 & SS). destruct (SO _ F psi bnd ops1 psi1 bnd1 V L (total_src phi F tot PH) SI SS) as (V1 & L1 & FO1 & SI1).
      destruct (IH (N.succ iter) (relError A nG nCells gsum (gPsiToPhi A nA nG wt nCells psi1) phi) psi1 bnd1 (gTotal A pi nA nG nCells sS source phi tot) (gPsiToPhi A nA nG wt nCells psi1) V1 L1 (b_flux A nA wt V1) (pre ++ ops1 ++ [OFlux])) as (ops & psi' & bnd' & V' & L' & F' & J & SI' & FO');
        [lia|exact SI1|exact (flux_ok psi1 V1 (proj1 SI1))|eapply follows_snoc; [exact FO|]; eapply follows_app; [exact FO1|]; constructor; constructor|].
      do 6 eexists. split; [eapply fl_next; [exact B|exact SS|exact J]|]. split; [exact SI'|]. rewrite <- !app_assoc in FO'. exact FO'.
  Qed.
  Lemma fixedA_ex sweep psi bnd V L F pre : sweeps_ok sweep -> sweeps_ex sweep -> sim psi bnd V L -> follows pre (j_zero A) (mkJ V L F) ->
    exists ops psi' bnd' V' L' F', fixedA A R0 nG pi sS wt gsum sweep (cIterMax cfg) (cErrMax cfg) source psi bnd ops psi' bnd' /\ sim psi' bnd' V' L' /\ follows (pre ++ ops) (j_zero A) (mkJ V' L' F').
  Proof.
    intros SO SX SI FO. destruct (fixed_ex sweep SO SX (N.to_nat (cIterMax cfg)) 0%N (aone A) psi bnd (fun _ _ _ _ _ => azero A) (gPsiToPhi A nA nG wt nCells psi) V L (b_flux A nA wt V) (pre ++ [OFlux])) as (ops & psi' & bnd' & V' & L' & F' & J & SI' & FO');
      [cbn; lia|exact SI|exact (flux_ok psi V (proj1 SI))|eapply follows_snoc; [exact FO|]; constructor; constructor|].
    exists (OFlux :: ops), psi', bnd', V', L', F'. split; [exists ops; split; [reflexivity|exact J]|]. split; [exact SI'|]. rewrite <- app_assoc in FO'. exact FO'.
  Qed.
  Lemma jacobi_sweeps_ex : sweeps_ex (jacobiSweep A R0 ge nG geo sT pr gsum (cDdIterMax cfg) (cDdErrMax cfg)).
  Proof. intros src F psi bnd V L pre SR SI FO. exact (jacobi_ex src F SR _ 1%N psi psi bnd V L pre eq_refl SI FO). Qed.
  Lemma outer_sweeps_ex : sweeps_ex (outerSweep A R0 ge nG geo sT pr).
  Proof. intros src F psi bnd V L pre SR SI FO. destruct (local_ex src F psi bnd V L pre SR SI FO) as (psi' & bnd' & LS). exists [OSweep], psi', bnd'. split; [reflexivity|exact LS]. Qed.
  Lemma outer_ex : forall k iter psi0 psi bnd V L F pre, N.to_nat (cDdIterMax cfg) - N.to_nat iter = k -> sim psi bnd V L -> follows pre (j_zero A) (mkJ V L F) -> exists ops psi', oloop iter psi0 psi bnd ops psi'.
  Proof.
    induction k as [|k IH]; intros iter psi0 psi bnd V L F pre EK SI FO.
    - do 2 eexists. apply oa_limit. destruct (N.ltb_spec iter (cDdIterMax cfg)); [lia|reflexivity].
    - assert (B : N.ltb iter (cDdIterMax cfg) = true) by (destruct (N.ltb_spec iter (cDdIterMax cfg)); [reflexivity|lia]).
      destruct (fixedA_ex _ psi bnd V L F pre outer_sweeps outer_sweeps_ex SI FO) as (ops1 & psi1 & bnd1 & V1 & L1 & F1 & FX & SI1 & FO1).
      destruct (agt A (cDdErrMax cfg) (psiRelError A R0 nG gsum psi0 psi1)) eqn:ST; [do 2 eexists; eapply oa_break; eauto|].
      destruct (comm_ex psi1 bnd1) as (bnd2 & CO). pose proof (comm_ok pr psi1 bnd1 bnd2 V1 L1 SI1 CO) as SI2.
      destruct (IH (N.succ iter) psi1 psi1 bnd2 V1 V1 F1 ((pre ++ ops1) ++ [OExchange])) as (ops & psi' & J); [lia|exact SI2|eapply follows_snoc; [exact FO1|]; constructor; constructor|].
      do 2 eexists. eapply oa_next; eauto.
  Qed.
  Lemma si_ex : forall k iter phi psi bnd tot V L F pre, N.to_nat (cDdIterMax cfg) - N.to_nat iter = k -> sim psi bnd V L -> phi_ok phi F -> follows pre (j_zero A) (mkJ V L F) -> exists ops psi', siloop iter phi psi bnd tot ops psi'.
  Proof.
    induction k as [|k IH]; intros iter phi psi bnd tot V L F pre EK SI PH FO.
    - do 2 eexists. apply sa_limit. destruct (N.ltb_spec iter (cDdIterMax cfg)); [lia|reflexivity].
    - assert (B : N.ltb iter (cDdIterMax cfg) = true) by (destruct (N.ltb_spec iter (cDdIterMax cfg)); [reflexivity|lia]).
      destruct (local_ex _ F psi bnd V L pre (total_src phi F tot PH) SI FO) as (psi1 & bnd1 & LS). destruct (local_ok pr _ (emission F) psi bnd psi1 bnd1 V L (total_src phi F tot PH) SI LS) as (V1 & JS & FV & SI1).
      destruct (comm_ex psi1 bnd1) as (bnd2 & CO). pose proof (comm_ok pr psi1 bnd1 bnd2 V1 L SI1 CO) as SI2.
      destruct (agt A (cDdErrMax cfg) (relError A nG nCells gsum (gPsiToPhi A nA nG wt nCells psi1) phi)) eqn:ST; [do 2 eexists; eapply sa_break; eauto|].
      destruct (IH (N.succ iter) (gPsiToPhi A nA nG wt nCells psi1) psi1 bnd2 (gTotal A pi nA nG nCells sS source phi tot) V1 V1 (b_flux A nA wt V1) (pre ++ [OSweep; OFlux; OExchange])) as (ops & psi' & J);
        [lia|exact SI2|exact (flux_ok psi1 V1 (proj1 SI1))|eapply follows_snoc; [exact FO|]; econstructor; [exact JS|exact FV|]; constructor; constructor; constructor|].
      do 2 eexists. eapply sa_next; eauto.
  Qed.
  Lemma solve_block_ex : cSweep cfg = PBJ \/ cSweep cfg = PBJOuter \/ cSweep cfg = PBJSI -> cUseSI cfg = true -> exists ops psi, solveBlock A dec pi cfg q t np threads xs pr gsum ops psi.
  Proof.
    intros SW SI. unfold solveBlock. destruct SW as [E|[E|E]]; rewrite E.
    - destruct (fixedA_ex _ _ _ _ _ (j_phi (j_zero A)) [] jacobi_sweeps jacobi_sweeps_ex sim_zero (fo_nil _ _ _ _ _ _ _ _ _ _ _ _ _)) as (ops & psi & bnd & _ & _ & _ & J & _). exists ops, psi. split; [exact SI|]. exists bnd. exact J.
    - destruct (outer_ex _ 1%N (zeroP A) _ _ _ _ (j_phi (j_zero A)) [] eq_refl sim_zero (fo_nil _ _ _ _ _ _ _ _ _ _ _ _ _)) as (ops & psi & J). exists ops, psi. split; [exact SI|exact J].
    - destruct (si_ex _ 1%N (fun _ _ _ _ => azero A) _ _ (zeroP A) _ _ (j_phi (j_zero A)) [] eq_refl sim_zero) as (ops & psi & J); [intros r c g v G _ _ _ _; reflexivity|constructor|]. exists ops, psi. exact J.
  Qed.
End Run.
