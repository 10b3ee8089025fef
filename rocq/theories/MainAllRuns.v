(** Proofs for C72: every solver that a deck can name reaches its end. *)
From Coq Require Import Reals Lra Permutation.
From Verif Require Import Prelude Bytes MeshModel MeshSpec CreateModel CreateSpec CreateProofs DeckModel TychoModel TychoSpec GeometryModel GeometrySpec GaussModel TransportModel TransportSpec SweepProofs TraverseModel TraverseSpec TraverseRun SweepModel PropertiesSweep FluxModel FluxSpec SourceModel SourceSpec SourceProofs EnergySpec
  PropertiesFlux PropertiesSource EnergyProofs PropertiesEnergy SchurModel SchurSpec SchurProofs PropertiesSchur CommModel BlockModel BlockProofs PbjModel ViewModel ViewSpec ViewProofs ViewSysProofs ViewEqProofs PropertiesView BitsModel BitsSpec BitsProofs PropertiesBits BlockEnergyProofs PropertiesBlockEnergy MainModel MainSpec MainProofs MainTransport MainAllModel MainAllMpi MainAllSpec MainAllProofs.
From Verif Require PropertiesBlock BlockSpec PropertiesOrig OrigModel ProblemModel BitsProofs.

Section Any.
  Variables (R0 : run (value R) (block R)) (nG : nat) (pi : R) (wt : nat -> R) (sigmaS : nat -> nat -> R).
  Notation GPsi := (nat -> nat -> nat -> nat -> nat -> R).
  Notation GPhi := (nat -> nat -> nat -> nat -> R).
  Notation nC := (fun r => rm_nCells (u_mesh R0 r)).
  Notation nA := (u_angles R0).
  (** Source iteration ends if its sweeps do. *)
  Lemma fixedPoint_total gsum (sweep : GPsi -> GPsi -> GPsi -> Prop) iterMax errMax Q psi : (forall s p, exists p', sweep s p p') ->
    exists its psi' pn po e, fixedPoint Rops pi nA nG wt nC sigmaS gsum sweep iterMax errMax Q psi its psi' pn po e.
  Proof.
    intros TOT. unfold fixedPoint.
    assert (K : forall k i e psi tot n o, N.to_nat iterMax - N.to_nat i = k -> exists its psi' pn po e', fixedPointLoop Rops pi nA nG wt nC sigmaS gsum sweep iterMax errMax Q i e psi tot n o its psi' pn po e').
    { induction k as [|k IH]; intros i e p tot n o Ek.
      - do 5 eexists. apply fp_end. destruct (N.ltb_spec i iterMax); [lia|reflexivity].
      - destruct (N.ltb i iterMax && agt Rops e errMax) eqn:B; [|do 5 eexists; apply fp_end; exact B].
        destruct (TOT (gTotal Rops pi nA nG nC sigmaS Q n tot) p) as (p1 & SW).
        destruct (IH (N.succ i) (relError Rops nG nC gsum (gPsiToPhi Rops nA nG wt nC p1) n) p1 (gTotal Rops pi nA nG nC sigmaS Q n tot) (gPsiToPhi Rops nA nG wt nC p1) n ltac:(lia)) as (its & p' & n' & o' & e' & L).
        exists its, p', n', o', e'. eapply fp_next; [exact B|exact SW|exact L]. }
    eapply K. reflexivity.
  Qed.
  (** A Krylov solve ends if its sweeps do and solve linear equations for which the problem with scattering has a solution. *)
  Section Krylov.
    Variables (sweep : bool -> GPsi -> GPsi -> GPsi -> Prop) (eqF eqZ : GPsi -> GPsi -> Prop).
    Hypothesis TOT : forall z s p, exists p', sweep z s p p'.
    Hypothesis SF : forall s p p', sweep false s p p' -> eqF s p'.
    Hypothesis SZ : forall s p p', sweep true s p p' -> eqZ s p'.
    Hypothesis EF : forall Q Q' p, same R0 nG Q Q' -> eqF Q p -> eqF Q' p.
    Hypothesis EZ : forall Q Q' p, same R0 nG Q Q' -> eqZ Q p -> eqZ Q' p.
    Hypothesis LIN : forall Q S p p1, eqF Q p -> eqZ S p1 -> eqF (fun r c a v G => Q r c a v G + S r c a v G)%R (fun r c a v G => p r c a v G + p1 r c a v G)%R.
    Hypothesis UNI : forall Q p p', eqF Q p -> eqF Q p' -> same R0 nG p p'.
    Variable ksp : (GPhi -> GPhi -> Prop) -> GPhi -> GPhi -> Prop.
    Hypothesis KC : forall (op : GPhi -> GPhi -> Prop) b, (exists x b', op x b' /\ samePhi R0 nG b' b) -> exists x, ksp op b x.
    Lemma krylov_total Q psi sol : eqF (fun r c a v G => scattered pi (sigmaS r c) (Q r c a v G) (scalarFlux R0 wt sol r c v G)) sol ->
      exists psi', krylov Rops pi nA nG wt nC sigmaS sweep (ksp (fun x b => exists psi s psi' s', lhsOperator Rops pi nA nG wt nC sigmaS sweep x psi s b psi' s')) Q psi psi'.
    Proof.
      intros DS. destruct (TOT false Q psi) as (psiB & SB). set (op := fun x b => exists psi s psi' s', lhsOperator Rops pi nA nG wt nC sigmaS sweep x psi s b psi' s').
      assert (KX : exists x, ksp op (gPsiToPhi Rops nA nG wt nC psiB) x).
      { apply KC. set (x := scalarFlux R0 wt sol). set (src' := fun r => phiToPsi nA nG (nC r) (operatorSAliased Rops pi nG (nC r) (sigmaS r) (x r)) (Q r)).
        destruct (TOT true src' Q) as (psi1 & S1). exists x. eexists. split; [exists Q, Q, psi1, src'; split; [reflexivity|]; split; [exact S1|reflexivity]|].
        set (S := fun (r c a v G : nat) => (sigmaS r c / (4 * pi) * x r c v G)%R).
        assert (D1 : eqZ S psi1).
        { apply (EZ src'); [|exact (SZ _ _ _ S1)]. intros r c a v G (Hr & Hc & Ha) Hv HG. unfold src'.
          rewrite (proj1 (C42_phiToPsi R _ _ _ _ _ c a v G)) by auto. exact (proj2 (proj1 (C42_operatorS R Rops pi nG (rm_nCells (u_mesh R0 r)) (sigmaS r) (x r) (x r) c v G) ltac:(auto))). }
        pose proof (LIN _ _ _ _ (SF _ _ _ SB) D1) as DL.
        assert (PS : same R0 nG sol (fun r c a v G => psiB r c a v G + psi1 r c a v G)%R).
        { eapply UNI; [exact DS|]. eapply EF; [|exact DL]. intros r c a v G _ _ _. unfold scattered, S, x. reflexivity. }
        intros r c v G Hr Hc Hv HG. cbn [asub Rops]. rewrite (flux_same R0 nG wt psi1), (flux_same R0 nG wt psiB) by auto. unfold x. rewrite (flux_ext R0 nG wt _ _ r c v G PS) by auto.
        pose proof (flux_lin R0 wt psiB psi1 1 1 r c v G) as FL. assert (E : scalarFlux R0 wt (fun r c a v G => psiB r c a v G + psi1 r c a v G)%R r c v G = scalarFlux R0 wt (fun r c a v G => 1 * psiB r c a v G + 1 * psi1 r c a v G)%R r c v G).
        { apply (flux_ext R0 nG wt); auto. intros ? ? ? ? ? _ _ _. lra. }
        rewrite E, FL. lra. }
      destruct KX as (x & KX). destruct (TOT false (gTotal Rops pi nA nG nC sigmaS Q x Q) psi) as (psi' & SL). exists psi', psiB, x, psi, Q. split; [exact SB|]. split; [exact KX|exact SL].
    Qed.
  End Krylov.
End Any.

Section Run.
  Context (dec : N -> R) (ltb : N -> N -> bool) (pi tol : R) (sm : smesh) (pv : list N) (np : nat) (cfg : config R) (q : angles R) (threads : nat).
  Notation GPsi := (nat -> nat -> nat -> nat -> nat -> R).
  Notation GPhi := (nat -> nat -> nat -> nat -> R).
  Notation GVec := (nat -> N -> R).
  Notation nG := (N.to_nat (cNGroups cfg)).
  Notation nA := (q_num q).
  Notation om := (q_omega q).
  Notation wt := (q_weight q).
  Notation nCs := (length (sm_cells sm)).
  Notation ge := (gaussOf (cGauss cfg)).
  Notation sigT := (by_material Rops sm (cSigmaT1 cfg) (cSigmaT2 cfg)).
  Notation sigS := (by_material Rops sm (cSigmaS1 cfg) (cSigmaS2 cfg)).
  Context (PB : problem_ok sm dec nA om sigT) (BO : bits_ok Rops sm dec om nA) (PV : partition_vector_ok sm pv np) (SM : mesh_small sm np) (CMP : compares sm dec ltb) (TH : 0 < threads) (NP : 0 < np).
  Context (HG0 : 0 < nG) (HA0 : 0 < nA) (HC0 : 0 < nCs) (SZ : (N.of_nat (nA * nCs * 4) * (24 * cNGroups cfg) < INT_MAX)%N) (MX : (0 < cMaxCellsPerStep cfg)%N).
  Context (t : nat -> tmesh) (RD : program_reads sm pv np ltb t).
  Context (xs : nat -> list R * list R) (XS : forall r, r < np -> ProblemModel.createCrossSections (tm_material (t r)) (cSigmaT1 cfg) (cSigmaS1 cfg) (cSigmaT2 cfg) (cSigmaS2 cfg) = Some (xs r)).
  Notation R0 := (traverser Rops dec cfg q t np threads).
  Notation R1 := (runT dec sm np cfg q threads t).
  Notation geo := (fun r => viewGeo Rops dec om (t r)).
  Notation sT := (fun r c => nth c (fst (xs r)) 0%R).
  Notation sS := (fun r c => nth c (snd (xs r)) 0%R).
  Notation nC := (fun r => rm_nCells (viewMesh Rops dec om (t r))).
  Notation unknowns := (fun r => getPsiBoundSize nA nG (viewMesh Rops dec om (t r))).
  Notation node := (nodeOf sm t).
  Notation TS := TraverseModel.TychoTwoSided.
  Notation mt := (mateOf sm np t).
  Notation OKT := (okT dec ltb sm pv np cfg q threads PB BO PV SM CMP TH HG0 HA0 HC0 SZ MX t RD xs XS).
  Notation FVT := (verticesT dec ltb sm pv np cfg q threads PB BO PV SM CMP TH HG0 HA0 HC0 SZ MX t RD xs XS).
  Notation CFG := (confT dec ltb sm pv np cfg q threads BO PV SM CMP TH HG0 HA0 HC0 SZ MX t RD xs XS).
  (** The interface unknowns of a rank fit into a 32-bit index, since the messages do. *)
  Lemma fitsT : vectors_fit R1 nG.
  Proof.
    intros r l Hr ND I. cbn in Hr.
    set (box := list_prod (list_prod (list_prod (list_prod (seq 0 nA) (seq 0 (tm_nCells (t r)))) (seq 0 4)) (seq 0 3)) (seq 0 nG)).
    assert (L : length l <= length box).
    { apply NoDup_incl_length; [exact ND|]. intros [[[[a c] f] fv] G] IU. destruct (I _ IU) as ((r' & c' & f' & Hm & _) & Ha & Hv & HG).
      destruct (so_range _ _ _ _ (to_sys _ _ _ _ OKT) _ _ _ _ Hm) as (_ & Hc & Hf). unfold box. repeat apply in_prod; apply in_seq; split; try lia; try exact Ha; try exact Hc. }
    assert (E : length box = nA * tm_nCells (t r) * 4 * 3 * nG) by (unfold box; rewrite !prod_length, !seq_length; reflexivity).
    pose proof (nc_le Rops dec (fun _ => 0%N) ltb pi sm pv np cfg q threads BO PV SM (CE dec ltb sm CMP) TH NP HG0 HA0 HC0 SZ t RD r Hr) as LE.
    assert (LB : length box <= nA * nCs * 4 * (24 * nG)).
    { rewrite E. clear -LE HG0. assert (nA * tm_nCells (t r) <= nA * nCs) by (apply Nat.mul_le_mono_l; exact LE). revert H. generalize (nA * tm_nCells (t r)), (nA * nCs). intros x y H. nia. }
    assert (N.of_nat (nA * nCs * 4 * (24 * nG)) = (N.of_nat (nA * nCs * 4) * (24 * cNGroups cfg))%N) by lia. clear -H LB L SZ. lia.
  Qed.
  (** ** Sweeps *)
  Lemma confA : configuredA Rops sm dec om nA sigT pv np ltb t R1 sT.
  Proof.
    pose proof (conf Rops dec ltb sm pv np cfg q threads BO PV SM (CE dec ltb sm CMP) TH HG0 HA0 HC0 SZ t RD xs XS) as [A1 A2 A3 A4 A5 A6 A7 A8 A9 A10 A11 A12 A13 A14]. constructor; auto.
  Qed.
  (** In exact arithmetic no check of the cell solver fails. *)
  Lemma traverseT pr src psi : exists S, sweepEnds Rops R1 ge nG geo sT pr src psi S /\ forall r c a, valid np nA (fun r => viewMesh Rops dec om (t r)) r c a -> r_val (g_r S r) c a <> None.
  Proof.
    destruct (sweep_exists node R1 ge nG geo sT pr OKT src psi) as (psi' & bnd0 & S0 & S & ST & RE & EN & _). exists S. split; [exists bnd0, S0; split; [exact ST|]; split; [exact RE|exact EN]|].
    exact (proj1 (C57_global_dg _ node ge geo sT nG src pr (withSource R1 ge nG geo sT pr src) _ bnd0 S0 S eq_refl (to_dir _ _ _ _ OKT) (to_comm _ _ _ _ OKT) (to_good _ _ _ _ OKT) (to_acyclic _ _ _ _ OKT) (to_geo _ _ _ _ OKT) (to_sigma _ _ _ _ OKT) ST RE EN)).
  Qed.
  Lemma no_failureT src val : b_sweep Rops sm dec om ge nG sigT nA (fun a g v G => gatherField np t src a G g v) (gather np t val) ->
    forall r c a, valid np nA (fun r => viewMesh Rops dec om (t r)) r c a -> val r c a <> None.
  Proof.
    intros B r c a V. destruct (traverseT (fun _ _ _ => 0%N) src src) as (S & SW & NN). specialize (NN r c a V). apply (ca_valid Rops sm dec om nA _ BO pv np ltb t _ _ confA) in V. destruct V as (Hr & Ha & g & sc & HG & HS).
    destruct (C66_sweep R Rops sm dec om nA sigT pv np ltb t R1 sT BO confA ge nG (fun _ _ _ => 0%N) _ src src S (fun r c g a v G Hr Ha HG Hv HGr => cfg_gather _ _ _ _ _ PB _ _ _ _ _ _ CFG nG src r c g a v G Hr HG Ha Hv HGr) SW) as (_ & K).
    specialize (K _ B r c g a Hr Ha HG). rewrite (ca_gather Rops sm dec om nA _ BO pv np ltb t _ _ confA val r c g a Hr HG) in K. intros E. rewrite E in K. destruct (r_val (g_r S r) c a); [exact K|congruence].
  Qed.
  Context (CL : cSweep cfg = OriginalTycho1 \/ cSweep cfg = OriginalTycho2 -> beyond_tol Rops sm dec om nA tol).
  Lemma sweeper_total pr : ready cfg -> exists sweep, sweeper Rops dec tol cfg q t np threads xs pr sweep /\ forall s p, exists p', sweep s p p'.
  Proof.
    intros RY. unfold sweeper. unfold ready in RY.
    assert (TY : forall ty sched, cSweep cfg = OriginalTycho1 \/ cSweep cfg = OriginalTycho2 -> schedules Rops dec tol cfg q t np threads pr sched -> forall s p, exists p', tychoSweep Rops dec tol ty cfg q t np threads xs pr sched s p p').
    { intros ty sched NT SC s p. destruct (system Rops dec ltb sm pv np cfg q BO PV SM (CE dec ltb sm CMP) HG0 SZ t RD) as (SYS & SD & AC).
      pose proof (tolerance Rops dec ltb sm pv np cfg q BO PV SM (CE dec ltb sm CMP) t RD tol CL NT) as NG.
      destruct (PropertiesOrig.C64_completes np nA threads _ (sweepData Rops ge nG geo sT s pr) mt _ _ sched _ _ TH SYS SD NG AC SC ty true (fun r c a => Some (p r c a)) (fun _ _ _ _ _ => 0%R) 0 _ (OrigModel.oreach_refl _ _ _ _ _ _ _)) as (n & S & RE & EN).
      eexists. exists true, n, S. split; [exact RE|]. split; [exact EN|]. split; [|reflexivity].
      pose proof (PropertiesOrig.C64_result np nA threads _ _ mt _ _ sched _ _ TH SYS SD NG AC SC ty true _ _ n S RE EN) as SO. apply (no_failureT s).
      destruct (world Rops dec ltb sm pv np q BO PV SM (CE dec ltb sm CMP) t RD) as (m & d & CR & CP & RR). pose proof BO as [[OK TT SG] AC1].
      refine (BitsProofs.bsolution sm pv np m ltb d t OK TT PV CR CP RR Rops dec om nA (cells_ok sm cfg q HG0 SZ) ge nG sT sigT s pr (fun r c g Hr HG => proj1 (sig_ok Rops dec ltb sm pv np cfg q BO PV SM (CE dec ltb sm CMP) t RD xs XS r c g Hr HG)) _ _ _ _ SO).
      intros r c g a v G Hr Ha HG Hv HGr. exact (cfg_gather _ _ _ _ _ PB _ _ _ _ _ _ CFG nG s r c g a v G Hr HG Ha Hv HGr). }
    destruct (cSweep cfg) eqn:E in RY |- *; try contradiction.
    - destruct (schedules_ex Rops dec (fun _ => 0%N) ltb sm pv np cfg q threads BO PV SM (CE dec ltb sm CMP) TH NP HG0 HA0 HC0 SZ t RD xs XS tol CL pr ltac:(auto) RY) as (s & HS). eexists. split; [exists s; split; [exact HS|reflexivity]|]. apply (TY _ s); auto.
    - destruct (schedules_ex Rops dec (fun _ => 0%N) ltb sm pv np cfg q threads BO PV SM (CE dec ltb sm CMP) TH NP HG0 HA0 HC0 SZ t RD xs XS tol CL pr ltac:(auto) RY) as (s & HS). eexists. split; [exists s; split; [exact HS|reflexivity]|]. apply (TY _ s); auto.
    - destruct RY as (HM & _). eexists. split; [reflexivity|]. intros s p. destruct (traverseT pr s p) as (S & SW & NN). eexists. exists S. split; [|split; [exact NN|reflexivity]].
      unfold sweepEnds, withSourceA in SW |- *. cbn [u_dir u_comm u_mpi u_ranks u_angles u_threads u_max u_psize u_mesh u_mate traverser]. rewrite HM. exact SW.
  Qed.
  Lemma pbj_total pr src psi : exists psi', sweepPBJ dec cfg q t np threads xs pr src psi psi'.
  Proof.
    pose proof (block_ok node R1 ge nG geo sT pr OKT src) as BK.
    destruct (loop_total noBlock _ BK (psiStop dec cfg q t np) (N.to_nat (cDdIterMax cfg)) 1 (fun r c a => Some (psi r c a)) (fun r c a => Some (psi r c a)) zeroBound) as (val & bnd & n & L).
    { exact (to_max _ _ _ _ OKT). } { apply (local_acyclic _ BK). exact (full_acyclic node R1 geo sT OKT). }
    exists (readPsi val), zeroBound, val, bnd, n. split; [|reflexivity]. apply (pbj_mpi _ _ _ _ _ _ TS mt). exact L.
  Qed.
  Lemma sweepWith_total pr bnd z src psi : exists psi', sweepWith dec cfg q t np threads xs pr bnd z src psi psi'.
  Proof.
    destruct (local_sweep_exists node R1 ge nG geo sT pr OKT src psi (if z then zeroBound else bnd)) as (psi' & bnd' & L). exists psi', bnd'. apply (lsweep_mpi _ _ _ _ _ _ TS mt). exact L.
  Qed.
  Context (kspPhi : (GPhi -> GPhi -> Prop) -> GPhi -> GPhi -> Prop) (kspVec : (GVec -> GVec -> Prop) -> GVec -> GVec -> Prop)
    (kspBoth : (GVec -> GPhi -> GVec -> GPhi -> Prop) -> GVec -> GPhi -> GVec -> GPhi -> Prop).
  Context (KC : complete_solver np nG nC unknowns kspPhi kspVec kspBoth).
  Lemma schur_total pr src psi : exists psi', sweepSchur dec kspVec cfg q t np threads xs pr src psi psi'.
  Proof.
    destruct (schur_solvable node R1 ge nG geo sT pr OKT FVT fitsT src psi zeroBound) as (_ & _ & psi1 & b1 & b2 & b0 & b & x0 & _ & _ & _ & _ & L & C & P & S & _).
    assert (KX : exists x, kspVec (fun x b => exists psi bnd b0 psi' bnd', schurOp R0 ge nG geo sT pr x psi bnd b0 b psi' bnd') b x).
    { apply (cs_vec _ _ _ _ _ _ _ KC). destruct S as (p & bd & b0' & b' & p' & bd' & OP & SV). exists x0, b'. split; [|exact SV]. exists p, bd, b0', p', bd'. apply (schurOp_mpi _ _ _ _ _ _ TS mt). exact OP. }
    destruct KX as (x & KX). destruct (unpack_exists node R1 nG geo sT OKT fitsT x zeroBound) as (bx & U). destruct (local_sweep_exists node R1 ge nG geo sT pr OKT src psi bx) as (psi' & b5 & L5).
    exists psi', zeroBound, bx, psi1, b1, b2, b0, b, x, psi, zeroBound, bx, b5. split; [apply (lsweep_mpi _ _ _ _ _ _ TS mt); exact L|]. split; [exact C|]. split; [exact P|]. split; [exact KX|]. split; [exact U|]. split; [exact U|].
    apply (lsweep_mpi _ _ _ _ _ _ TS mt). exact L5.
  Qed.
  (** ** Solvers *)
  Context (k : R) (SC : s_scatters sm nA sigT pi wt k sigS) (K1 : (k < 1)%R).
  Notation SOT := (scatterT dec ltb pi sm pv np cfg q threads PB BO PV SM CMP TH HG0 HA0 HC0 SZ MX t RD xs XS k SC).
  Lemma iterative_total gsum sweep src psi : (forall z s p, exists p', sweep z s p p') -> (cUseSI cfg = true \/ forall z s p p', sweep z s p p' -> transport_eq node R1 nG geo sT s p') ->
    exists its psi', iterative dec pi kspPhi cfg q t xs gsum sweep src psi its psi'.
  Proof.
    intros TOT EQ. unfold iterative. destruct (cUseSI cfg) eqn:U.
    - destruct (fixedPoint_total R1 nG pi wt sS gsum (sweep false) (cIterMax cfg) (cErrMax cfg) src psi (TOT false)) as (its & psi' & pn & po & e & FP). exists its, psi', pn, po, e. exact FP.
    - destruct EQ as [EQ|EQ]; [discriminate|]. destruct (C62_well_posed _ node R1 nG geo sT pi wt k sS src SOT K1) as ((sol & S) & _). exists 0%N. unfold krylovWith.
      refine (krylov_total R1 nG pi wt sS sweep (transport_eq node R1 nG geo sT) (transport_eq node R1 nG geo sT) TOT (EQ false) (EQ true) _ _ _ _ kspPhi (cs_phi _ _ _ _ _ _ _ KC) src psi sol S).
      + intros Q Q' p SQ D. eapply (eq_ext node R1 nG geo sT OKT); [exact SQ|intros ? ? ? ? ? _ _ _; reflexivity|exact D].
      + intros Q Q' p SQ D. eapply (eq_ext node R1 nG geo sT OKT); [exact SQ|intros ? ? ? ? ? _ _ _; reflexivity|exact D].
      + intros Q S1 p p1 D D1. pose proof (eq_lin node R1 nG geo sT OKT _ _ _ _ 1 1 D D1) as DL. eapply (eq_ext node R1 nG geo sT OKT); [| |exact DL]; intros ? ? ? ? ? _ _ _; cbv beta; lra.
      + exact (eq_unique node R1 nG geo sT OKT).
  Qed.
  Lemma inner_total pr gsum src bnd psi : exists psi', inner dec pi kspPhi cfg q t np threads xs pr gsum src bnd psi psi'.
  Proof.
    unfold inner. destruct (cUseSI cfg) eqn:U.
    - destruct (iterative_total gsum (sweepWith dec cfg q t np threads xs pr bnd) src psi (sweepWith_total pr bnd) (or_introl U)) as (its & psi' & I). eauto.
    - unfold iterative. rewrite U. destruct (lsc_exists node R1 ge nG geo sT pr OKT FVT pi wt k sS SOT K1 src bnd) as (sol & S).
      assert (SW : forall z s p p', sweepWith dec cfg q t np threads xs pr bnd z s p p' -> local_eq node R1 nG geo sT s (if z then zeroBound else bnd) p').
      { intros z s p p' (b' & L). apply (lsweep_mpi _ _ _ _ _ _ TS mt) in L. exact (proj1 (sweep_leq node R1 ge nG geo sT pr OKT _ _ _ _ _ L)). }
      assert (EX : forall Q Q' b p, same R1 nG Q Q' -> local_eq node R1 nG geo sT Q b p -> local_eq node R1 nG geo sT Q' b p).
      { intros Q Q' b p SQ D. eapply (local_ext node R1 nG geo sT OKT FVT); [exact SQ| | |exact D]; red; intros; reflexivity. }
      destruct (krylov_total R1 nG pi wt sS (sweepWith dec cfg q t np threads xs pr bnd) (fun s p => local_eq node R1 nG geo sT s bnd p) (fun s p => local_eq node R1 nG geo sT s zeroBound p)
        (sweepWith_total pr bnd) (SW false) (SW true) (fun Q Q' p => EX Q Q' bnd p) (fun Q Q' p => EX Q Q' zeroBound p)) with (ksp := kspPhi) (Q := src) (psi := psi) (sol := sol) as (psi' & K).
      + intros Q S1 p p1 D D1. pose proof (local_lin node R1 nG geo sT OKT _ _ _ _ _ _ 1 1 D D1) as DL. eapply (local_ext node R1 nG geo sT OKT FVT); [| | |exact DL]; red; intros; cbv beta; unfold zeroBound; try (destruct u as [[[[? ?] ?] ?] ?]; cbn); lra.
      + intros Q p p'. exact (local_unique node R1 nG geo sT OKT FVT Q bnd p p').
      + exact (cs_phi _ _ _ _ _ _ _ KC).
      + exact S.
      + exists psi', 0%N. exact K.
  Qed.
  Lemma bouter_total pr gsum src stop mx : exists val bnd n, blockOuter R0 ge nG geo sT pr (inner dec pi kspPhi cfg q t np threads xs pr gsum src) stop mx val bnd n.
  Proof.
    unfold blockOuter. generalize zeroPsi at 1. generalize zeroPsi. generalize (@zeroBound). generalize 1. intros i. remember (mx - i)%nat as m eqn:Em. revert i Em. induction m as [|m IH]; intros i Em bnd psi psi0.
    - exists psi, bnd, 0%nat. constructor. lia.
    - destruct (inner_total pr gsum src bnd (readPsi psi)) as (p1 & I). set (psi1 := fun r c a => Some (p1 r c a) : value R).
      destruct (stop psi0 psi1) eqn:ST; [exists psi1, bnd, 1%nat; eapply outer_break; [lia| |exact ST]; split; [exact I|reflexivity]|].
      pose proof (block_ok node R1 ge nG geo sT pr OKT zeroSource) as BK. destruct (exchange_total noBlock _ BK psi1 bnd) as (bnd2 & EX).
      destruct (IH (S i) ltac:(lia) bnd2 psi1 psi1) as (val & b' & n & H). exists val, b', (S n). eapply outer_next with (psi1 := psi1); [lia|split; [exact I|reflexivity]|exact ST| |exact H].
      apply (exchange_mpi _ _ _ _ _ _ TS mt). exact EX.
  Qed.
  Definition ready_all : Prop := match cSweep cfg with
    | TraverseGraph => cMpi cfg = DeckModel.TychoTwoSided
    | OriginalTycho1 | OriginalTycho2 => (cMaxCellsPerStep cfg mod 4294967296 <> 0)%N
    | PBJ => cUseSI cfg = true \/ exhaustive nCs cfg
    | SchurOuter => cUseSI cfg = false
    | _ => True
    end.
  Context (KS : exact_solver np nG nC unknowns kspPhi kspVec kspBoth).
  Notation src0 := (source dec q t xs).
  Lemma solve_total pr gsum : ready_all -> exists its psi, solveAll dec pi tol kspPhi kspVec kspBoth cfg q t np threads xs pr gsum its psi.
  Proof.
    intros RY.
    assert (GR : ready cfg -> (exists sweep, sweeper Rops dec tol cfg q t np threads xs pr sweep) -> exists its psi sweep, sweeper Rops dec tol cfg q t np threads xs pr sweep /\ iterative dec pi kspPhi cfg q t xs gsum (fun _ => sweep) src0 zeroSource its psi).
    { intros RD' _. destruct (sweeper_total pr RD') as (sweep & SW & TOT). destruct (iterative_total gsum (fun _ => sweep) src0 zeroSource (fun _ => TOT)) as (its & psi & I); [|exists its, psi, sweep; auto].
      right. intros _ s p p' W. exact (sweeper_eq dec ltb tol sm pv np cfg q threads PB BO PV SM CMP TH NP HG0 HA0 HC0 SZ MX t RD xs XS pr sweep s p p' CL SW W). }
    assert (GR' : ready cfg -> exists its psi sweep, sweeper Rops dec tol cfg q t np threads xs pr sweep /\ iterative dec pi kspPhi cfg q t xs gsum (fun _ => sweep) src0 zeroSource its psi).
    { intros RD'. apply GR; [exact RD'|]. destruct (sweeper_total pr RD') as (sweep & SW & _). eauto. }
    clear GR. unfold ready in GR'. unfold ready_all in RY. unfold solveAll. destruct (cSweep cfg) eqn:E in RY, GR' |- *.
    - exact (GR' RY).
    - exact (GR' RY).
    - exact (GR' (conj RY MX)).
    - apply iterative_total; [intros _; apply pbj_total|]. destruct RY as [RY|RY]; [now left|]. right. intros _ s p p'.
      exact (pbj_eq dec ltb pi sm pv np cfg q threads PB BO PV SM CMP TH NP HG0 HA0 HC0 SZ MX t RD xs XS pr s p p' RY).
    - destruct (bouter_total pr gsum src0 (psiStop dec cfg q t np) (N.to_nat (cDdIterMax cfg))) as (val & bnd & n & B). exists (N.of_nat n), (readPsi val), val, bnd, n. auto.
    - destruct (C63_runs _ node R1 nG geo sT pi wt k sS SOT ge pr src0 src0 (l1Stop R0 nG (cDdErrMax cfg)) (N.to_nat (cDdIterMax cfg))) as (phi & val & bnd & n & B).
      exists (N.of_nat n), (readPsi val), src0, phi, val, bnd, n. split; [|auto]. apply (si_mpi _ _ _ _ _ _ TS mt). exact B.
    - apply iterative_total; [intros _; apply schur_total|]. right. intros _ s p p'.
      exact (schur_eq dec ltb sm pv np cfg q threads PB BO PV SM CMP TH HG0 HA0 HC0 SZ MX t RD xs XS kspPhi kspVec kspBoth KS pr s p p').
    - exists 0%N. set (inn := inner dec pi kspPhi cfg q t np threads xs pr gsum).
      destruct (outer_solvable node R1 ge nG geo sT pr OKT FVT fitsT pi wt k sS SOT K1 inn src0) as (_ & psi1 & b1 & b0 & b & x0 & _ & _ & _ & I & C & P & S & _).
      { intros s b p p'. exact (inner_eq dec ltb pi sm pv np cfg q threads PB BO PV SM CMP TH HG0 HA0 HC0 SZ MX t RD xs XS kspPhi kspVec kspBoth KS pr gsum s b p p' RY). } { apply inner_total. }
      assert (KX : exists x, kspVec (fun x b => exists psi bnd b0 psi' bnd', schurOuterOp R0 ge nG geo sT pr inn x psi bnd b0 b psi' bnd') b x).
      { apply (cs_vec _ _ _ _ _ _ _ KC). destruct S as (p & bd & b0' & b' & p' & bd' & OP & SV). exists x0, b'. split; [|exact SV]. exists p, bd, b0', p', bd'. revert OP. apply (outerOp_mpi' _ _ _ _ _ _ TS mt). auto. }
      destruct KX as (x & KX). destruct (unpack_exists node R1 nG geo sT OKT fitsT x zeroBound) as (bx & U). destruct (inner_total pr gsum src0 bx zeroSource) as (psi' & I').
      exists psi', psi1, b1, b0, b, x, zeroSource, zeroBound, bx. split; [exact I|]. split; [exact C|]. split; [exact P|]. split; [exact KX|]. split; [exact U|exact I'].
    - exists 0%N.
      destruct (krylov_solvable node R1 ge nG geo sT pr OKT FVT fitsT pi wt k sS SOT K1 src0) as (_ & psi1 & b1 & b2 & b0 & b & x0 & xp0 & _ & _ & _ & _ & L & C & P & S & _).
      assert (KX : exists x xp, kspBoth (fun x xphi b bphi => exists psi bnd phi src b0 psi' bnd', schurKrylovOp R0 ge nG geo sT pr pi wt sS x xphi psi bnd phi src b0 b bphi psi' bnd') b (gPsiToPhi Rops nA nG wt nC psi1) x xp).
      { apply (cs_both _ _ _ _ _ _ _ KC). destruct S as (p & bd & ph & s & b0' & b' & f' & p' & bd' & OP & SV & SP). exists x0, xp0, b', f'. split; [|split; [exact SV|exact SP]].
        exists p, bd, ph, s, b0', p', bd'. apply (krylovOp_mpi _ _ _ _ _ _ TS mt). exact OP. }
      destruct KX as (x & xp & KX). destruct (unpack_exists node R1 nG geo sT OKT fitsT x zeroBound) as (bx & U).
      destruct (local_sweep_exists node R1 ge nG geo sT pr OKT (fun r => calcTotalSourceAliased Rops pi nA nG (nC r) (fun c => nth c (snd (xs r)) 0%R) (src0 r) (xp r)) zeroSource bx) as (psi' & b5 & L5).
      exists psi', psi1, b1, b2, b0, b, x, xp, zeroSource, zeroBound, bx, b5. split; [apply (lsweep_mpi _ _ _ _ _ _ TS mt); exact L|]. split; [exact C|]. split; [exact P|]. split; [exact KX|]. split; [exact U|].
      apply (lsweep_mpi _ _ _ _ _ _ TS mt). exact L5.
  Qed.
End Run.
