(** Proofs for C72: whatever the sweeper, a sweep solves the transport equation; source iteration and Krylov over any such sweep. *)
From Coq Require Import Reals Lra Permutation.
From Verif Require Import Prelude Bytes MeshModel MeshSpec CreateModel CreateSpec CreateProofs DeckModel TychoModel TychoSpec GeometryModel GeometrySpec GaussModel TransportModel TransportSpec SweepProofs TraverseModel TraverseSpec TraverseRun SweepModel FluxModel FluxSpec SourceModel SourceSpec SourceProofs EnergySpec
  PropertiesFlux PropertiesSource EnergyProofs PropertiesEnergy SchurModel SchurSpec SchurProofs PropertiesSchur CommModel BlockModel BlockProofs PbjModel ViewModel ViewSpec ViewProofs ViewSysProofs ViewEqProofs PropertiesView BitsModel BitsSpec BitsProofs PropertiesBits MainModel MainSpec MainProofs MainTransport MainAllModel MainAllMpi MainAllSpec.
From Verif Require PropertiesBlock BlockSpec PropertiesOrig OrigModel ProblemModel BitsProofs.

Section Any.
  Context {X : Type}.
  Variables (node : nat -> nat -> nat -> X) (R0 : run (value R) (block R)) (nG : nat) (geo : nat -> rgeo R) (sigmaT : nat -> nat -> R) (pi : R) (wt : nat -> R) (sigmaS : nat -> nat -> R).
  Notation GPsi := (nat -> nat -> nat -> nat -> nat -> R).
  Notation GPhi := (nat -> nat -> nat -> nat -> R).
  Notation teq := (transport_eq node R0 nG geo sigmaT).
  Notation nC := (fun r => rm_nCells (u_mesh R0 r)).
  Hypothesis OK : transport_ok node R0 geo sigmaT.
  Variables (sweep : bool -> GPsi -> GPsi -> GPsi -> Prop) (Q : GPsi).
  Hypothesis SWE : forall z src psi psi', sweep z src psi psi' -> teq src psi'.
  Lemma krylov_any (ksp : GPhi -> GPhi -> Prop) psi psi' :
    (forall b x, ksp b x -> exists b', (exists psi s psi' s', lhsOperator Rops pi (u_angles R0) nG wt nC sigmaS sweep x psi s b' psi' s') /\ samePhi R0 nG b' b) ->
    krylov Rops pi (u_angles R0) nG wt nC sigmaS sweep ksp Q psi psi' -> scattering_eq node R0 nG geo sigmaT pi sigmaS wt Q psi'.
  Proof.
    intros KE (psiB & x & psi2 & tmp & SB & KS & SF). destruct (KE _ _ KS) as (b' & (psi0 & src & psi1 & src' & (ES & S1 & EB)) & SP).
    pose proof (SWE _ _ _ _ SB) as DB. pose proof (SWE _ _ _ _ S1) as D1. pose proof (SWE _ _ _ _ SF) as DF.
    set (S := fun (r c a v G : nat) => (sigmaS r c / (4 * pi) * x r c v G)%R).
    assert (D1' : teq S psi1).
    { eapply (eq_ext node R0 nG geo sigmaT OK); [|intros r c a v G _ _ _; reflexivity|exact D1]. intros r c a v G (Hr & Hc & Ha) Hv HG. rewrite ES.
      rewrite (proj1 (C42_phiToPsi R _ _ _ _ _ c a v G)) by auto. exact (proj2 (proj1 (C42_operatorS R Rops pi nG (rm_nCells (u_mesh R0 r)) (sigmaS r) (x r) (x r) c v G) ltac:(auto))). }
    pose proof (eq_lin node R0 nG geo sigmaT OK Q S psiB psi1 1 1 DB D1') as DS.
    assert (PS : same R0 nG psi' (fun r c a v G => 1 * psiB r c a v G + 1 * psi1 r c a v G)%R).
    { eapply (eq_unique node R0 nG geo sigmaT OK); [|exact DS]. eapply (eq_ext node R0 nG geo sigmaT OK); [|intros r c a v G _ _ _; reflexivity|exact DF].
      intros r c a v G VA Hv HG. rewrite total_same by auto. unfold scattered, S. lra. }
    assert (FX : forall r c v G, r < u_ranks R0 -> c < rm_nCells (u_mesh R0 r) -> v < 4 -> G < nG -> scalarFlux R0 wt psi' r c v G = x r c v G).
    { intros r c v G Hr Hc Hv HG. rewrite (flux_ext R0 nG wt _ _ r c v G PS) by auto. rewrite flux_lin. specialize (SP r c v G Hr Hc Hv HG). rewrite EB in SP. cbn [asub Rops] in SP.
      rewrite (flux_same R0 nG wt psi1) in SP by auto. rewrite (flux_same R0 nG wt psiB) in SP by auto. lra. }
    unfold scattering_eq. eapply (eq_ext node R0 nG geo sigmaT OK); [|intros r c a v G _ _ _; reflexivity|exact DF].
    intros r c a v G VA Hv HG. rewrite total_same by auto. cbv beta. pose proof VA as (Hr & Hc & Ha). f_equal. now rewrite FX.
  Qed.
  Local Open Scope R_scope.
  Lemma si_any k gsum sol iterMax errMax psi iters psi' phiNew phiOld error : scattering_ok node R0 geo sigmaT pi wt k sigmaS -> scattering_eq node R0 nG geo sigmaT pi sigmaS wt Q sol ->
    fixedPoint Rops pi (u_angles R0) nG wt nC sigmaS gsum (sweep false) iterMax errMax Q psi iters psi' phiNew phiOld error ->
    (iters <= iterMax)%N /\ forall G, (G < nG)%nat -> fluxNorm R0 geo sigmaT (minus (scalarFlux R0 wt psi') (scalarFlux R0 wt sol)) G <=
      (k ^ N.to_nat iters) * (k ^ N.to_nat iters) * fluxNorm R0 geo sigmaT (minus (scalarFlux R0 wt psi) (scalarFlux R0 wt sol)) G.
  Proof.
    intros SO SE H. destruct (so_ratio _ _ _ _ _ _ _ _ SO) as (K0 & _).
    assert (L : forall iter er psi total pn po iters psi' phiNew phiOld error, pn = gPsiToPhi Rops (u_angles R0) nG wt nC psi -> (iter <= iterMax)%N ->
      fixedPointLoop Rops pi (u_angles R0) nG wt nC sigmaS gsum (sweep false) iterMax errMax Q iter er psi total pn po iters psi' phiNew phiOld error ->
      (iter <= iters <= iterMax)%N /\ forall G, (G < nG)%nat -> fluxNorm R0 geo sigmaT (minus (scalarFlux R0 wt psi') (scalarFlux R0 wt sol)) G <= (k ^ N.to_nat (iters - iter)) * (k ^ N.to_nat (iters - iter)) * fluxNorm R0 geo sigmaT (minus (scalarFlux R0 wt psi) (scalarFlux R0 wt sol)) G).
    { clear H. intros i er p t pn po i' p' pn' po' er' EP LI H. induction H as [iter er0 p0 t0 pn0 po0 E|iter er0 p0 t0 pn0 po0 p1 i' p' pn' po' er' E total1 SW phi1 H IH].
      - split; [lia|]. intros G HG. rewrite N.sub_diag. simpl pow. lra.
      - assert (LI' : (N.succ iter <= iterMax)%N). { apply Bool.andb_true_iff in E. destruct E as (E & _). apply N.ltb_lt in E. lia. }
        destruct (IH eq_refl LI') as (I1 & I2). split; [lia|]. intros G HG. specialize (I2 G HG). eapply Rle_trans; [exact I2|]. replace (N.to_nat (i' - iter)) with (S (N.to_nat (i' - N.succ iter))) by lia.
        assert (C : fluxNorm R0 geo sigmaT (minus (scalarFlux R0 wt p1) (scalarFlux R0 wt sol)) G <= k * k * fluxNorm R0 geo sigmaT (minus pn0 (scalarFlux R0 wt sol)) G).
        { apply (contraction node R0 nG geo sigmaT pi wt k sigmaS SO Q pn0 (scalarFlux R0 wt sol) p1 sol G HG); [|exact SE].
          eapply (eq_ext node R0 nG geo sigmaT OK); [apply total_same|intros ? ? ? ? ? _ _ _; reflexivity|]. exact (SWE _ _ _ _ SW). }
        subst pn0.
        rewrite (norm_ext R0 geo sigmaT (minus (gPsiToPhi Rops (u_angles R0) nG wt nC p0) (scalarFlux R0 wt sol)) (minus (scalarFlux R0 wt p0) (scalarFlux R0 wt sol))) in C
          by (intros r c v Hr Hc Hv; unfold minus; now rewrite (flux_same R0 nG wt p0) by auto).
        set (m := N.to_nat (i' - N.succ iter)) in *. simpl pow. set (km := k ^ m) in *. assert (0 <= km) by now apply pow_le.
        apply Rle_trans with (km * km * (k * k * fluxNorm R0 geo sigmaT (minus (scalarFlux R0 wt p0) (scalarFlux R0 wt sol)) G)); [apply Rmult_le_compat_l; [now apply Rmult_le_pos|auto]|right; ring]. }
    destruct (L _ _ _ _ _ _ _ _ _ _ _ eq_refl (N.le_0_l _) H) as ((_ & K1) & K). rewrite N.sub_0_r in K. auto.
  Qed.
End Any.

(** Levels on a finite set can be taken below its size. *)
Lemma level_below {X : Type} (l : list X) (lvl : X -> nat) : exists lvl', forall x y, In x l -> In y l -> (lvl y < lvl x -> lvl' y < lvl' x) /\ lvl' x < length l.
Proof.
  set (below := fun x => filter (fun z => lvl z <? lvl x) l). exists (fun x => length (below x)). intros x y Hx Hy. assert (LT : forall (p q : X -> bool) m w, In w m -> (forall z, p z = true -> q z = true) -> p w = false -> q w = true -> length (filter p m) < length (filter q m)).
  { intros p q m w I PQ P0 Q1.
    assert (LE : forall m, length (filter p m) <= length (filter q m)). { induction m0 as [|z m0 IH]; cbn; [lia|]. destruct (p z) eqn:E; [rewrite (PQ z E); cbn; lia|]. destruct (q z); cbn; lia. }
    induction m as [|z m IH]; [destruct I|]. cbn. destruct I as [->|I].
    - rewrite P0, Q1. cbn. specialize (LE m). lia.
    - specialize (IH I). destruct (p z) eqn:E; [rewrite (PQ z E); cbn; lia|]. destruct (q z); cbn; lia. }
  split.
  - intros L. apply (LT _ _ l y Hy).
    + intros z. rewrite !Nat.ltb_lt. lia.
    + apply Nat.ltb_irrefl.
    + now apply Nat.ltb_lt.
  - assert (E : length (filter (fun _ => true) l) = length l). { clear. induction l as [|z l IH]; [reflexivity|]. cbn. now rewrite IH. }
    rewrite <- E. apply (LT _ _ l x Hx); [auto|apply Nat.ltb_irrefl|reflexivity].
Qed.

Section Pbj.
  Context {X : Type}.
  Variables (node : nat -> nat -> nat -> X) (R0 : run (value R) (block R)) (g : gaussElim) (nG : nat) (geo : nat -> rgeo R) (sigmaT : nat -> nat -> R) (pr : nat -> nat -> nat -> N).
  Hypothesis OK : transport_ok node R0 geo sigmaT.
  Notation cells := (flat_map (fun r => map (pair r) (seq 0 (rm_nCells (u_mesh R0 r)))) (seq 0 (u_ranks R0))).
  Lemma in_cells r c : In (r, c) cells <-> r < u_ranks R0 /\ c < rm_nCells (u_mesh R0 r).
  Proof.
    rewrite in_flat_map. split.
    - intros (r' & Hr & Hc). apply in_map_iff in Hc. destruct Hc as (c' & E & Hc). injection E as -> ->. apply in_seq in Hr, Hc. lia.
    - intros (Hr & Hc). exists r. split; [apply in_seq; lia|]. apply in_map. apply in_seq. lia.
  Qed.
  (** The path to a cell crosses fewer interfaces than there are cells. *)
  Lemma crossings_below src r c a n : valid (u_ranks R0) (u_angles R0) (u_mesh R0) r c a -> BlockSpec.crossings (blockRun R0 g nG geo sigmaT pr src) a (r, c) n -> n < length cells.
  Proof.
    intros (Hr & Hc & Ha) C. destruct (full_acyclic node R0 geo sigmaT OK) as (lvl & LV). destruct (level_below cells (fun x => lvl (fst x) (snd x) a)) as (lv & K).
    assert (I : In (r, c) cells) by (apply in_cells; auto). destruct (K (r, c) (r, c) I I) as (_ & B). enough (n <= lv (r, c)) by lia. clear B. clear Hr Hc.
    revert I. generalize (r, c) C. clear r c C. intros x C. induction C as [x|y x n C IH U]; intros I; [lia|]. pose proof U as U0. destruct x as (r, c), y as (q, c'). cbn [u_ranks u_mesh u_mate blockRun] in U.
    assert (Iy : In (q, c') cells).
    { destruct U as (_ & _ & f & f' & _ & Hm & _). apply in_cells. pose proof (to_sys _ _ _ _ OK) as SY. pose proof (so_sym _ _ _ _ SY _ _ Hm) as Hb. destruct (so_range _ _ _ _ SY _ _ _ _ Hb) as (A & B & _). auto. }
    specialize (IH Iy). pose proof (LV a r c q c' Ha U) as L. destruct (K (r, c) (q, c') I Iy) as (K1 & _). cbn [fst snd] in K1. specialize (K1 L). cbn [fst]. destruct (q =? r); lia.
  Qed.
  (** Block Jacobi that never accepts and runs long enough does complete sweeps. *)
  Lemma loop_count src stop mx it p0 p b p' b' n : (forall p q, stop p q = false) -> pbjLoop noBlock (blockRun R0 g nG geo sigmaT pr src) stop mx it p0 p b p' b' n -> n = mx - it.
  Proof. intros NS H. induction H as [|it p0 p b p1 b1 L SW ST|]; [lia| |lia]. rewrite NS in ST. discriminate. Qed.
  Lemma pbj_any src stop mx psi bnd val bnd' n : (forall p q, stop p q = false) -> length cells < mx ->
    pbjSweep noBlock (blockRun R0 g nG geo sigmaT pr src) stop mx psi bnd val bnd' n -> transport_eq node R0 nG geo sigmaT src (readPsi val).
  Proof.
    intros NS L H. pose proof (loop_count src stop mx 1 psi psi bnd val bnd' n NS H) as E.
    destruct (sweep_exists node R0 g nG geo sigmaT pr OK src (fun _ _ _ _ _ => 0%R)) as (psi' & SW). pose proof (sweep_eq node R0 g nG geo sigmaT pr OK _ _ _ SW) as T. destruct SW as (bnd0 & S0 & S & ST & RE & EN & EP).
    assert (SP : PropertiesBlock.same_problem (blockRun R0 g nG geo sigmaT pr src) (withSource R0 g nG geo sigmaT pr src)).
    { split; [exact (block_ok node R0 g nG geo sigmaT pr OK src)|]. split; [exact (to_good _ _ _ _ OK)|]. split; [exact (to_acyclic _ _ _ _ OK)|]. split; [exact (to_dir _ _ _ _ OK)|]. split; [exact (to_comm _ _ _ _ OK)|]. repeat split. }
    eapply (eq_ext node R0 nG geo sigmaT OK); [intros ? ? ? ? ? _ _ _; reflexivity| |exact T]. intros r c a v G VA Hv HG. rewrite EP. unfold readPsi.
    rewrite (PropertiesBlock.C43_crossings _ _ noBlock _ _ stop mx psi bnd val bnd' n _ _ _ _ SP H ST RE EN r c a VA); [reflexivity|]. intros m C. pose proof (crossings_below src r c a m VA C). lia.
  Qed.
End Pbj.

Section Run.
  Context (dec : N -> R) (ltb : N -> N -> bool) (pi tol : R) (sm : smesh) (pv : list N) (np : nat) (cfg : config R) (q : angles R) (threads : nat).
  Notation GPsi := (nat -> nat -> nat -> nat -> nat -> R).
  Notation GPhi := (nat -> nat -> nat -> nat -> R).
  Notation GVec := (nat -> N -> R).
  Notation nG := (N.to_nat (cNGroups cfg)).
  Notation nA := (q_num q).
  Notation om := (q_omega q).
  Notation wt := (q_weight q).
  Notation nCs := (length (sm_cells sm)).
  Notation ge := (gaussOf (cGauss cfg)).
  Notation sigT := (by_material Rops sm (cSigmaT1 cfg) (cSigmaT2 cfg)).
  Notation sigS := (by_material Rops sm (cSigmaS1 cfg) (cSigmaS2 cfg)).
  Context (PB : problem_ok sm dec nA om sigT) (BO : bits_ok Rops sm dec om nA) (PV : partition_vector_ok sm pv np) (SM : mesh_small sm np) (CMP : compares sm dec ltb) (TH : 0 < threads) (NP : 0 < np).
  Context (HG0 : 0 < nG) (HA0 : 0 < nA) (HC0 : 0 < nCs) (SZ : (N.of_nat (nA * nCs * 4) * (24 * cNGroups cfg) < INT_MAX)%N) (MX : (0 < cMaxCellsPerStep cfg)%N).
  Context (t : nat -> tmesh) (RD : program_reads sm pv np ltb t).
  Context (xs : nat -> list R * list R) (XS : forall r, r < np -> ProblemModel.createCrossSections (tm_material (t r)) (cSigmaT1 cfg) (cSigmaS1 cfg) (cSigmaT2 cfg) (cSigmaS2 cfg) = Some (xs r)).
  Notation R0 := (traverser Rops dec cfg q t np threads).
  Notation geo := (fun r => viewGeo Rops dec om (t r)).
  Notation sT := (fun r c => nth c (fst (xs r)) 0%R).
  Notation sS := (fun r c => nth c (snd (xs r)) 0%R).
  Notation nC := (fun r => rm_nCells (viewMesh Rops dec om (t r))).
  Notation unknowns := (fun r => getPsiBoundSize nA nG (viewMesh Rops dec om (t r))).
  Definition runT : run (value R) (block R) := reRun TraverseModel.TychoTwoSided (mateOf sm np t) R0.
  Lemma CE : exists decR, compares sm decR ltb.
  Proof. eauto. Qed.
  Lemma confT : configured sm dec nA om sigT pv np ltb t runT sT.
  Proof.
    constructor; auto.
    - constructor; try reflexivity; auto.
      + cbn. clear -MX. lia.
      + cbn. rewrite (psize sm cfg q HA0 HC0 SZ). clear -HG0. lia.
      + cbn [runT reRun u_psize traverser]. rewrite (psize sm cfg q HA0 HC0 SZ). exact SZ.
    - intros r c g Hr HG. exact (proj1 (sig_ok Rops dec ltb sm pv np cfg q BO PV SM CE t RD xs XS r c g Hr HG)).
  Qed.
  Notation teq := (transport_eq (nodeOf sm t) runT nG geo sT).
  Lemma okT : transport_ok (nodeOf sm t) runT geo sT.
  Proof. exact (cfg_transport _ _ _ _ _ PB _ _ _ _ _ _ confT). Qed.
  Lemma verticesT : face_vertices runT geo.
  Proof. exact (cfg_vertices _ _ _ _ _ PB _ _ _ _ _ _ confT). Qed.
  Lemma one1 : (N.of_nat (nA * nCs * 4) * 1 < INT_MAX)%N.
  Proof. eapply N.le_lt_trans; [|exact SZ]. apply N.mul_le_mono_l. clear -HG0. lia. Qed.
  Lemma small1 : mesh_small sm 1.
  Proof. destruct SM as (A & B & C & D). split; auto. split; auto. split; auto. clear -NP D. lia. Qed.
  Lemma serial_eq src psi' Val : (forall r c g a v G, r < np -> getLGCell (t r) c = Some g -> a < nA -> v < 4 -> G < nG -> psi' r c a v G = getBlock Rops (Val a g) v G) ->
    b_sweep Rops sm dec om ge nG sigT nA (fun a g v G => gatherField np t src a G g v) Val -> teq src psi'.
  Proof.
    intros H B. destruct (one_rank sm dec nA om sigT PB small1 1%N eq_refl one1) as (t1 & R1 & s1 & C1).
    pose proof (sweep_transport sm dec nA om sigT PB 1%N eq_refl one1 t1 R1 s1 C1 ge nG _ _ B) as T.
    refine (proj2 (cfg_equation _ _ _ _ _ PB _ _ _ _ _ _ confT nG src _ psi' _ (cfg_gather _ _ _ _ _ PB _ _ _ _ _ _ confT nG src) _) T). exact H.
  Qed.
  Lemma src_gather src r c g a v G : r < np -> a < nA -> getLGCell (t r) c = Some g -> v < 4 -> G < nG -> src r c a v G = gatherField np t src a G g v.
  Proof. intros Hr Ha HG Hv HGr. exact (cfg_gather _ _ _ _ _ PB _ _ _ _ _ _ confT nG src r c g a v G Hr HG Ha Hv HGr). Qed.
  (** ** Sweeps *)
  Lemma sweeper_eq pr sweep src psi psi' : (cSweep cfg = OriginalTycho1 \/ cSweep cfg = OriginalTycho2 -> beyond_tol Rops sm dec om nA tol) ->
    sweeper Rops dec tol cfg q t np threads xs pr sweep -> sweep src psi psi' -> teq src psi'.
  Proof.
    intros CL SW K. pose proof (conf Rops dec ltb sm pv np cfg q threads BO PV SM CE TH HG0 HA0 HC0 SZ t RD xs XS) as CF.
    assert (TY : forall ty sched, cSweep cfg = OriginalTycho1 \/ cSweep cfg = OriginalTycho2 -> schedules Rops dec tol cfg q t np threads pr sched -> tychoSweep Rops dec tol ty cfg q t np threads xs pr sched src psi psi' -> teq src psi').
    { intros ty sched NT SC (rv & n & S & RE & EN & NN & ->). destruct (system Rops dec ltb sm pv np cfg q BO PV SM CE HG0 SZ t RD) as (SYS & SD & AC).
      pose proof (PropertiesOrig.C64_result np nA threads _ _ (mateOf sm np t) _ _ sched _ _ TH SYS SD (tolerance Rops dec ltb sm pv np cfg q BO PV SM CE t RD tol CL NT) AC SC ty rv _ _ n S RE EN) as SO.
      apply (serial_eq src _ (gather np t (fun r => OrigModel.o_val (OrigModel.os S r)))).
      - intros r c g a v G Hr HG Ha Hv HGr. now rewrite (ca_gather Rops sm dec om nA _ BO pv np ltb t _ _ CF _ r c g a Hr HG).
      - destruct (world Rops dec ltb sm pv np q BO PV SM CE t RD) as (m & d & CR & CP & R1). pose proof BO as [[OK TT SG] AC1].
        refine (BitsProofs.bsolution sm pv np m ltb d t OK TT PV CR CP R1 Rops dec om nA (cells_ok sm cfg q HG0 SZ) ge nG sT sigT src pr (fun r c g Hr HG => proj1 (sig_ok Rops dec ltb sm pv np cfg q BO PV SM CE t RD xs XS r c g Hr HG)) _ _ _ _ SO).
        intros r c g a v G Hr Ha HG Hv HGr. now apply src_gather. }
    unfold sweeper in SW. destruct (cSweep cfg) eqn:E in SW; try contradiction.
    - destruct SW as (sched & SC & ->). eapply TY; eauto.
    - destruct SW as (sched & SC & ->). eapply TY; eauto.
    - subst sweep. destruct K as (S & SW & NN & ->). apply (serial_eq src _ (gather np t (fun r => r_val (g_r S r)))).
      + intros r c g a v G Hr HG Ha Hv HGr. now rewrite (ca_gather Rops sm dec om nA _ BO pv np ltb t _ _ CF _ r c g a Hr HG).
      + refine (ca_sweep Rops sm dec om nA _ BO pv np ltb t _ _ CF ge nG pr src _ psi S _ SW). intros r c g a v G Hr Ha HG Hv HGr. now apply src_gather.
  Qed.
  Context (kspPhi : (GPhi -> GPhi -> Prop) -> GPhi -> GPhi -> Prop) (kspVec : (GVec -> GVec -> Prop) -> GVec -> GVec -> Prop)
    (kspBoth : (GVec -> GPhi -> GVec -> GPhi -> Prop) -> GVec -> GPhi -> GVec -> GPhi -> Prop).
  Context (KS : exact_solver np nG nC unknowns kspPhi kspVec kspBoth).
  Lemma schur_eq pr src psi psi' : sweepSchur dec kspVec cfg q t np threads xs pr src psi psi' -> teq src psi'.
  Proof.
    intros (prev & prev' & H). apply (schurSweep_mpi _ _ _ _ _ _ TraverseModel.TychoTwoSided (mateOf sm np t) _ (schurExact runT ge nG geo sT pr)) in H.
    - exact (proj1 (schur_sweep (nodeOf sm t) runT ge nG geo sT pr okT verticesT _ _ _ _ _ H)).
    - intros b x K. destruct (xs_vec _ _ _ _ _ _ _ KS _ _ _ K) as (b' & (p & bd & b0 & p' & bd' & OP) & E). exists p, bd, b0, b', p', bd'. split; [now apply schurOp_mpi|exact E].
  Qed.
  Lemma cells_total : length (flat_map (fun r => map (pair r) (seq 0 (rm_nCells (u_mesh runT r)))) (seq 0 (u_ranks runT))) = nCs.
  Proof.
    rewrite <- (seq_length nCs 0), <- (map_length N.of_nat (seq 0 nCs)), <- (Permutation_length (lg_perm Rops dec (fun _ => 0%N) ltb pi sm pv np cfg q threads BO PV SM CE TH NP HG0 HA0 HC0 SZ t RD)).
    cbn [runT reRun u_ranks u_mesh traverser]. assert (K : forall l, (forall r, In r l -> r < np) -> length (flat_map (fun r => map (pair r) (seq 0 (rm_nCells (viewMesh Rops dec om (t r))))) l) = length (concat (map (fun r => tm_lGCells (t r)) l))).
    { induction l as [|r l IH]; intros H; [reflexivity|]. cbn [flat_map map concat]. rewrite !app_length, map_length, seq_length, (lg_length Rops dec ltb sm pv np q BO PV SM CE t RD r) by (apply H; now left). f_equal. apply IH. intros r' Hr. apply H. now right. }
    apply K. intros r Hr. apply in_seq in Hr. lia.
  Qed.
  Lemma nostop pq : (cDdErrMax cfg <= 0)%R -> forall p, psiStop dec cfg q t np p pq = false.
  Proof.
    intros D p. unfold psiStop. set (e := l1Psi dec cfg q t np (fun r c a v G => readPsi p r c a v G - readPsi pq r c a v G)%R). set (n := l1Psi dec cfg q t np (readPsi pq)). destruct (Req_EM_T n 0) as [|N]; [reflexivity|]. destruct (Rlt_dec (e / n) (cDdErrMax cfg)) as [L|]; [|reflexivity]. exfalso.
    assert (P : forall f, (0 <= l1Psi dec cfg q t np f)%R).
    { intros f. unfold l1Psi. apply lsum_nonneg. intros r _. apply lsum_nonneg. intros [[[c a] v] G] _. apply Rabs_pos. }
    pose proof (P (fun r c a v G => readPsi p r c a v G - readPsi pq r c a v G)%R) as E0. pose proof (P (readPsi pq)) as N0. fold e in E0. fold n in N0.
    assert (0 <= e / n)%R; [|lra]. apply Rmult_le_pos; [auto|]. apply Rlt_le, Rinv_0_lt_compat. lra.
  Qed.
  Lemma pbj_eq pr src psi psi' : exhaustive nCs cfg -> sweepPBJ dec cfg q t np threads xs pr src psi psi' -> teq src psi'.
  Proof.
    intros (D & L) (bnd & val & bnd' & n & H & ->). apply (pbj_mpi _ _ _ _ _ _ TraverseModel.TychoTwoSided (mateOf sm np t)) in H.
    refine (pbj_any (nodeOf sm t) runT ge nG geo sT pr okT src _ _ _ bnd val bnd' n _ _ H).
    - intros p p'. now apply nostop.
    - rewrite cells_total. clear -L. lia.
  Qed.
  (** ** Solvers *)
  Context (CL : cSweep cfg = OriginalTycho1 \/ cSweep cfg = OriginalTycho2 -> beyond_tol Rops sm dec om nA tol).
  Notation seq_ := (scattering_eq (nodeOf sm t) runT nG geo sT pi sS wt).
  Notation src0 := (source dec q t xs).
  Lemma sweeper_all pr sweep src psi psi' : sweeper Rops dec tol cfg q t np threads xs pr sweep -> sweep src psi psi' -> teq src psi'.
  Proof.
    intros SW. apply (sweeper_eq pr sweep src psi psi'); [exact CL|exact SW].
  Qed.
  (** The sweep that the iterations of a deck use. *)
  Lemma whole_eq pr gsum its psi : whole_sweeps nCs cfg -> solveAll dec pi tol kspPhi kspVec kspBoth cfg q t np threads xs pr gsum its psi ->
    exists sweep : bool -> GPsi -> GPsi -> GPsi -> Prop, iterative dec pi kspPhi cfg q t xs gsum sweep src0 zeroSource its psi /\ forall z s p p', sweep z s p p' -> teq s p'.
  Proof.
    intros W H. unfold whole_sweeps in W. unfold solveAll in H. destruct (cSweep cfg) eqn:E in W, H; try contradiction.
    - destruct H as (sweep & SW & I). exists (fun _ => sweep). split; [exact I|]. intros _ s p p'. now apply (sweeper_all pr).
    - destruct H as (sweep & SW & I). exists (fun _ => sweep). split; [exact I|]. intros _ s p p'. now apply (sweeper_all pr).
    - destruct H as (sweep & SW & I). exists (fun _ => sweep). split; [exact I|]. intros _ s p p'. now apply (sweeper_all pr).
    - eexists. split; [exact H|]. intros z s p p'. now apply pbj_eq.
    - eexists. split; [exact H|]. intros z s p p'. now apply schur_eq.
  Qed.
  Lemma kspPhi_any (sweep : bool -> GPsi -> GPsi -> GPsi -> Prop) b x : kspPhi (fun x b => exists psi s psi' s', lhsOperator Rops pi nA nG wt nC sS sweep x psi s b psi' s') b x ->
    exists b', (exists psi s psi' s', lhsOperator Rops pi (u_angles runT) nG wt (fun r => rm_nCells (u_mesh runT r)) sS sweep x psi s b' psi' s') /\ samePhi runT nG b' b.
  Proof. intros K. exact (xs_phi _ _ _ _ _ _ _ KS _ _ _ K). Qed.
  (** The inner Krylov solves of the outer methods. *)
  Lemma inner_eq pr gsum src bnd psi psi' : cUseSI cfg = false -> inner dec pi kspPhi cfg q t np threads xs pr gsum src bnd psi psi' -> local_scattering (nodeOf sm t) runT nG geo sT pi sS wt src bnd psi'.
  Proof.
    intros U (its & H). unfold iterative in H. rewrite U in H. apply (inner_krylov (nodeOf sm t) runT ge nG geo sT pr okT verticesT pi wt sS src bnd psi psi').
    assert (SW : forall z s p p', sweepWith dec cfg q t np threads xs pr bnd z s p p' -> innerSweep runT ge nG geo sT pr bnd z s p p') by (intros z s p p' (b' & L); exists b'; now apply lsweep_mpi).
    destruct H as (psiB & x & psi2 & tmp & SB & KP & SF). exists psiB, x, psi2, tmp. split; [now apply SW|]. split; [|now apply SW].
    destruct (kspPhi_any _ _ _ KP) as (b' & (p0 & s & p1 & s1 & E & L & B) & SP). exists p0, s, p1, s1, b'. split; [|exact SP]. split; [exact E|]. split; [now apply SW|exact B].
  Qed.
  Context (k : R) (SC : s_scatters sm nA sigT pi wt k sigS) (K1 : (k < 1)%R).
  Lemma sigS_ok r c g : r < np -> getLGCell (t r) c = Some g -> sS r c = sigS g.
  Proof. intros Hr HG. exact (proj2 (sig_ok Rops dec ltb sm pv np cfg q BO PV SM CE t RD xs XS r c g Hr HG)). Qed.
  Lemma scatterT : scattering_ok (nodeOf sm t) runT geo sT pi wt k sS.
  Proof. exact (cfg_scatters _ _ _ _ _ PB _ _ _ _ _ _ confT pi wt k sS sigS sigS_ok SC). Qed.
  Lemma direct_eq pr gsum its psi : direct nCs cfg -> solveAll dec pi tol kspPhi kspVec kspBoth cfg q t np threads xs pr gsum its psi -> seq_ src0 psi.
  Proof.
    intros [E|(U & [W|E])] H.
    - unfold solveAll in H. rewrite E in H. apply (krylovSolve_mpi _ _ _ _ _ _ TraverseModel.TychoTwoSided (mateOf sm np t) _ _ _ _ (schurKrylovExact runT ge nG geo sT pr pi wt sS)) in H.
      + exact (schur_krylov (nodeOf sm t) runT ge nG geo sT pr okT verticesT pi wt sS _ _ H).
      + intros b f x y K. destruct (xs_both _ _ _ _ _ _ _ KS _ _ _ _ _ K) as (b' & f' & (p & bd & ph & s & b0 & p' & bd' & OP) & E1 & E2). exists p, bd, ph, s, b0, b', f', p', bd'. split; [now apply krylovOp_mpi|]. split; [exact E1|exact E2].
    - destruct (whole_eq pr gsum its psi W H) as (sweep & I & SW). unfold iterative in I. rewrite U in I.
      exact (krylov_any (nodeOf sm t) runT nG geo sT pi wt sS okT sweep src0 SW _ zeroSource psi (kspPhi_any sweep) I).
    - unfold solveAll in H. rewrite E in H. set (inn := inner dec pi kspPhi cfg q t np threads xs pr gsum) in *.
      apply (outerSolve_mpi _ _ _ _ _ _ TraverseModel.TychoTwoSided (mateOf sm np t) inn inn _ (schurOuterExact runT ge nG geo sT pr inn)) in H; [|auto|].
      + apply (C61_outer _ (nodeOf sm t) runT ge nG geo sT pr pi wt k sS scatterT K1 verticesT inn src0 psi); [|exact H]. intros s b p p'. now apply inner_eq.
      + intros b x K. destruct (xs_vec _ _ _ _ _ _ _ KS _ _ _ K) as (b' & (p & bd & b0 & p' & bd' & OP) & E1). exists p, bd, b0, b', p', bd'. split; [|exact E1]. revert OP. apply outerOp_mpi. auto.
  Qed.
  Lemma si_eq pr gsum its psi sol : cUseSI cfg = true -> whole_sweeps nCs cfg -> solveAll dec pi tol kspPhi kspVec kspBoth cfg q t np threads xs pr gsum its psi -> seq_ src0 sol ->
    (its <= cIterMax cfg)%N /\ forall G, G < nG -> (fluxNorm runT geo sT (minus (scalarFlux runT wt psi) (scalarFlux runT wt sol)) G <=
      (k ^ N.to_nat its) * (k ^ N.to_nat its) * fluxNorm runT geo sT (minus (scalarFlux runT wt zeroSource) (scalarFlux runT wt sol)) G)%R.
  Proof.
    intros U W H SE. destruct (whole_eq pr gsum its psi W H) as (sweep & I & SW). unfold iterative in I. rewrite U in I. destruct I as (pn & po & e & FP).
    exact (si_any (nodeOf sm t) runT nG geo sT pi wt sS okT sweep src0 SW k gsum sol _ _ zeroSource its psi pn po e scatterT SE FP).
  Qed.
End Run.
