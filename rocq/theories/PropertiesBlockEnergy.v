(** C63: the block Jacobi solvers with scattering converge geometrically. *)
From Coq Require Import Reals Lra.
From Verif Require Import Prelude Bytes MeshModel GeometryModel GaussModel TransportModel TransportSpec TransportProofs.
From Verif Require Import AngleModel TraverseModel TraverseSpec TraverseRun PropertiesTraverse SweepModel SweepSpec SweepProofs PropertiesSweep FluxModel FluxSpec FluxProofs PropertiesFlux SourceModel SourceSpec SourceProofs PropertiesSource.
From Verif Require Import CommModel BlockModel BlockProofs SchurModel SchurSpec SchurProofs EnergySpec EnergyProofs PropertiesEnergy PropertiesSchur PbjModel BlockEnergyProofs.
Local Open Scope R_scope.

Section Pbj.
  Context {X : Type}.
  Variables (node : nat -> nat -> nat -> X) (R0 : run (value R) (block R)) (g : gaussElim) (nG : nat) (geo : nat -> rgeo R) (sigmaT : nat -> nat -> R) (pr : nat -> nat -> nat -> N) (pi : R) (wt : nat -> R) (k : R) (sigmaS : nat -> nat -> R).
  Hypothesis SO : scattering_ok node R0 geo sigmaT pi wt k sigmaS.
  Hypothesis FVS : face_vertices R0 geo.
  Hypothesis K1 : k < 1.
  Let OK := so_transport _ _ _ _ _ _ _ _ SO.
  Let FM := so_faces _ _ _ _ _ _ _ _ SO.
  Let W := so_weights _ _ _ _ _ _ _ _ SO.
  Let SC := so_ratio _ _ _ _ _ _ _ _ SO.
  Notation GPsi := (nat -> nat -> nat -> nat -> nat -> R).
  Notation GPhi := (nat -> nat -> nat -> nat -> R).
  Notation leq := (local_eq node R0 nG geo sigmaT).
  Notation nC := (fun r => rm_nCells (u_mesh R0 r)).
  Notation nA := (u_angles R0).
  Notation psiNorm := (psiNorm R0 geo sigmaT wt).
  Notation fluxNorm := (fluxNorm R0 geo sigmaT).
  Notation flux := (scalarFlux R0 wt).
  Notation wsum := (overAngles (u_angles R0) wt (fun _ => 1)).
  Notation ex := (exchanged R0 nG geo).
  Notation energyOf := (energyOf R0 geo sigmaT wt k).
  Notation brun := (blockRun R0 g nG geo sigmaT pr).
  Notation phiOf := (fun psi => gPsiToPhi Rops nA nG wt nC (readPsi psi)).
  Definition less (p q : GPsi) : GPsi := fun r c a v G => p r c a v G - q r c a v G.

  Lemma c_pos : 0 < 1 - k * k.
  Proof. destruct SC as (K0 & _). assert (k * k <= k * 1) by (apply Rmult_le_compat_l; lra). lra. Qed.
  Lemma w_pos : 0 < wsum. Proof. apply W. Qed.
  Lemma flux_less p q r c v G : flux (less p q) r c v G = minus (flux p) (flux q) r c v G.
  Proof. unfold minus. rewrite <- (Rmult_1_l (flux p r c v G)). replace (1 * flux p r c v G - flux q r c v G) with (1 * flux p r c v G + -1 * flux q r c v G) by ring. rewrite <- flux_lin. unfold scalarFlux, overAngles, less. apply lsum_ext. intros; ring. Qed.
  Lemma sweep_any src val bnd val' bnd' : sweepLocal (brun src) val bnd val' bnd' -> leq src bnd (readPsi val') /\ (forall r, (r < u_ranks R0)%nat -> bnd' r = bnd r).
  Proof.
    intros SW. destruct (sweep_local _ (block_ok node R0 g nG geo sigmaT pr OK src) _ _ _ _ SW) as (SOL & EB). split; [|exact EB].
    intros r c a G VA HG. destruct (cell_dg g geo sigmaT nG src pr false (u_ranks R0) nA (u_mesh R0) (u_mate R0) node (to_geo _ _ _ _ OK) (to_sigma _ _ _ _ OK) bnd val' SOL r c a VA) as (_ & D). eexists. split; [|exact (D G HG)].
    intros f j Hf Hj NE NO. cbn beta. unfold entering, seen, isIncoming. rewrite (flow_in node R0 geo sigmaT OK r c a f VA Hf NO). cbn [negb]. destruct (u_mate R0 (r, c, f)) as [[[q c'] f']|] eqn:Hm; [|reflexivity].
    destruct (Nat.eqb_spec q r) as [->|N]; [|reflexivity]. destruct (gf_local _ _ _ _ _ _ _ _ _ _ _ _ (to_geo _ _ _ _ OK) r c f c' f' j Hm Hj NE) as (L1 & L2 & L3).
    eexists. split; [exact L1|]. split; [exact L2|]. split; [exact L3|reflexivity].
  Qed.
  Lemma exchange_any src val bnd bnd' : exchange noBlock (brun src) val bnd bnd' -> ex (readPsi val) bnd'.
  Proof.
    intros H r c f q c' f' a fv G Hm N Ha O Hfv HG. pose proof (exchange_ok noBlock _ (block_ok node R0 g nG geo sigmaT pr OK src) _ _ _ H r c f q c' f' a Hm N Ha O) as E. apply (f_equal (fun b => b fv G)) in E. exact E.
  Qed.
  Lemma zero_ex : ex (readPsi zeroPsi) zeroBound.
  Proof. intros r c f q c' f' a fv G _ _ _ _ _ _. reflexivity. Qed.

  Section Solution.
    Variables (Q sol : GPsi).
    Hypothesis SE : scattering_eq node R0 nG geo sigmaT pi sigmaS wt Q sol.
    Notation err psi := (less (readPsi psi) sol).
    Lemma sol_local : exists b, ex sol b /\ leq (fun r c a v G => scattered pi (sigmaS r c) (Q r c a v G) (flux sol r c v G)) b sol.
    Proof.
      destruct (comm_exists node R0 g nG geo sigmaT pr OK sol zeroBound) as (b & CB). apply (comm_exchanged node R0 g nG geo sigmaT pr OK) in CB. exists b. split; [auto|]. now apply (local_global node R0 nG geo sigmaT OK FVS).
    Qed.
    (** The error of a sweep with source from [phi0] and data of [psi0] at the interfaces. *)
    Lemma err_step phi0 psi0 bnd psi1 : leq (fun r c a v G => scattered pi (sigmaS r c) (Q r c a v G) (phi0 r c v G)) bnd psi1 -> ex psi0 bnd ->
      exists b, leq (fun r c _ v G => sigmaS r c / (4 * pi) * minus phi0 (flux sol) r c v G) b (less psi1 sol) /\ ex (less psi0 sol) b.
    Proof.
      intros D E. destruct sol_local as (b & EB & DB). pose proof (local_lin node R0 nG geo sigmaT OK _ _ _ _ _ _ 1 (-1) D DB) as L. pose proof (exchanged_lin R0 nG geo _ _ _ _ 1 (-1) E EB) as EL.
      eexists. split.
      - eapply (local_ext node R0 nG geo sigmaT OK FVS); [| |  |exact L]; [|intros r u _ _; reflexivity|]; intros r c a v G _ _ _; unfold less, scattered, minus; ring.
      - eapply (exchanged_psi node R0 nG geo sigmaT OK FVS); [|exact EL]. intros r c a v G _ _ _. unfold less. ring.
    Qed.
    Lemma energy_eq val G : (G < nG)%nat -> energyOf (minus (phiOf val) (flux sol)) (err val) G = energyOf (flux (err val)) (err val) G.
    Proof.
      intros HG. unfold BlockEnergyProofs.energyOf. f_equal. f_equal. apply (norm_ext R0 geo sigmaT). intros r c v Hr Hc Hv. rewrite flux_less. unfold minus. f_equal. exact (flux_same R0 nG wt (readPsi val) r c v G Hr Hc Hv HG).
    Qed.
    Lemma si_step t phi0 val0 bnd val1 bnd1 : sweepLocal (brun (gTotal Rops pi nA nG nC sigmaS Q phi0 t)) val0 bnd val1 bnd1 -> ex (readPsi val0) bnd -> forall G, (G < nG)%nat ->
      (1 - k * k) * (wsum * psiNorm (err val1) G) + energyOf (minus (phiOf val1) (flux sol)) (err val1) G <= energyOf (minus phi0 (flux sol)) (err val0) G.
    Proof.
      intros SW E G HG. destruct (sweep_any _ _ _ _ _ SW) as (D & _).
      assert (D' : leq (fun r c a v G => scattered pi (sigmaS r c) (Q r c a v G) (phi0 r c v G)) bnd (readPsi val1)).
      { eapply (local_ext node R0 nG geo sigmaT OK FVS); [apply total_same|intros r u _ _; reflexivity|apply same_refl|exact D]. }
      destruct (err_step _ _ _ _ D' E) as (b & L & EL). pose proof (step_decrease node R0 nG geo sigmaT OK FVS FM pi wt W k sigmaS SC _ b _ _ G L EL HG) as S.
      rewrite (energy_eq val1 G HG). exact S.
    Qed.
  End Solution.

  (** The rate. *)
  Notation c := (1 - k * k).
  Lemma rate : exists rho C, 0 < rho < 1 /\ 0 < C /\ rho * c <= C /\
    (forall e G, energyOf (flux e) e G <= C * (wsum * psiNorm e G)) /\
    (forall P E E', c * P + E' <= E -> E' <= C * P -> E' <= rho * E).
  Proof.
    destruct (energy_psi node R0 geo sigmaT OK pi wt W k) as (C & C0 & HC). pose proof c_pos as CP. set (c := c) in *. assert (CI : 0 < / (C + c)) by (apply Rinv_0_lt_compat; lra).
    assert (CC : 0 < C * C) by now apply Rmult_lt_0_compat.
    exists (C / (C + c)), C. split; [split; [apply Rmult_lt_0_compat; lra|apply Rmult_lt_reg_r with (C + c); [lra|]; unfold Rdiv; rewrite Rmult_assoc, Rinv_l by lra; lra]|]. split; [auto|]. split.
    { apply Rmult_le_reg_r with (C + c); [lra|]. replace (C / (C + c) * c * (C + c)) with (C * c) by (field; lra). lra. }
    split; [exact HC|]. intros P E E' H H'.
    apply Rmult_le_reg_r with (C + c); [lra|]. replace (C / (C + c) * E * (C + c)) with (C * E) by (field; lra).
    assert (A1 : c * E' <= c * (C * P)) by (apply Rmult_le_compat_l; lra). assert (A2 : C * (c * P + E') <= C * E) by (apply Rmult_le_compat_l; lra). lra.
  Qed.
  Section Run.
    Variables (rho C : R).
    Hypothesis R01 : 0 < rho < 1.
    Hypothesis HC : forall e G, energyOf (flux e) e G <= C * (wsum * psiNorm e G).
    Hypothesis HR : forall P E E', c * P + E' <= E -> E' <= C * P -> E' <= rho * E.
    Variables (Q sol t : GPsi).
    Hypothesis SE : scattering_eq node R0 nG geo sigmaT pi sigmaS wt Q sol.
    Notation err psi := (less (readPsi psi) sol).
    Notation err0 phi := (minus phi (flux sol)).
    Notation Rof := (fun phi0 => brun (gTotal Rops pi nA nG nC sigmaS Q phi0 t)).
    (** Bound on the state: flux, psi. *)
    Definition within (B : nat -> R) phi psi := forall G, (G < nG)%nat -> c * rho * (wsum * psiNorm (err psi) G) <= B G /\ energyOf (err0 phi) (err psi) G <= B G.
    Lemma within_step B phi0 val0 bnd val1 bnd1 : sweepLocal (Rof phi0) val0 bnd val1 bnd1 -> ex (readPsi val0) bnd -> within B phi0 val0 -> within (fun G => rho * B G) (phiOf val1) val1.
    Proof.
      intros SW E H G HG. destruct (H G HG) as (_ & H2). pose proof (si_step Q sol SE t phi0 val0 bnd val1 bnd1 SW E G HG) as S. pose proof c_pos as CP. pose proof w_pos as WP.
      pose proof (energy_eq sol val1 G HG) as EQ. cbv beta in S, EQ |- *. rewrite EQ in S. rewrite EQ.
      specialize (HR _ _ _ S (HC _ _)). assert (A : rho * energyOf (err0 phi0) (err val0) G <= rho * B G) by (apply Rmult_le_compat_l; lra). split; [|lra].
      pose proof (energyOf_pos node R0 geo sigmaT OK pi wt W k (flux (err val1)) (err val1) G) as E0.
      replace (c * rho * (wsum * psiNorm (err val1) G)) with (rho * (c * (wsum * psiNorm (err val1) G))) by ring. eapply Rle_trans; [|exact A]. apply Rmult_le_compat_l; lra.
    Qed.
    Lemma within_run stop mx iter phi0 psi bnd phi' psi' bnd' n : siLoop noBlock Rof phiOf stop mx iter phi0 psi bnd phi' psi' bnd' n -> ex (readPsi psi) bnd ->
      forall B, within B phi0 psi -> within (fun G => rho ^ n * B G) phi' psi' /\ ((0 < n)%nat -> phi' = phiOf psi').
    Proof.
      intros H. induction H as [iter phi0 psi bnd NL|iter phi0 psi bnd psi' bnd1 bnd' LT SW EX ST|iter phi0 psi bnd psi1 bnd1 bnd2 phi' psi' bnd' n LT SW EX ST H IH]; intros E B HB.
      - split; [|lia]. intros G HG. simpl pow. rewrite Rmult_1_l. now apply HB.
      - split; [|reflexivity]. intros G HG. rewrite pow_1. eapply within_step; eauto.
      - pose proof (within_step _ _ _ _ _ _ SW E HB) as W1. destruct (IH (exchange_any _ _ _ _ EX) _ W1) as (I1 & I2). split.
        + intros G HG. specialize (I1 G HG). simpl pow. replace (rho * rho ^ n * B G) with (rho ^ n * (rho * B G)) by ring. exact I1.
        + intros _. destruct n as [|n]; [|apply I2; lia]. inversion H; subst; reflexivity.
    Qed.
    Lemma start_norm G : psiNorm (err zeroPsi) G = psiNorm sol G.
    Proof.
      unfold EnergySpec.psiNorm. apply lsum_ext. intros [r c'] _. f_equal. apply lsum_ext. intros a _. f_equal. unfold less, readPsi, zeroPsi. cbn [getBlock]. unfold massForm, sum4. field.
    Qed.
    Lemma start_within : rho * c <= C -> within (fun G => C * (wsum * psiNorm sol G)) zeroPhi zeroPsi.
    Proof.
      intros RC G HG. pose proof w_pos as WP. pose proof (psiNorm_pos node R0 geo sigmaT OK pi wt W sol G) as P0. split.
      - rewrite start_norm, (Rmult_comm c). apply Rmult_le_compat_r; [now apply Rmult_le_pos; [lra|]|auto].
      - rewrite <- start_norm. eapply Rle_trans; [|apply HC]. right. unfold BlockEnergyProofs.energyOf. f_equal. f_equal. apply (norm_ext R0 geo sigmaT). intros r c' v _ _ _. rewrite flux_less. unfold minus. f_equal.
        unfold scalarFlux, overAngles, zeroPhi, readPsi, zeroPsi. cbn [getBlock]. rewrite (lsum_ext _ _ (fun _ => 0 * 0)) by (intros; ring). rewrite lsum_scal. ring.
    Qed.
    (** The loop runs to the limit if the test never accepts. *)
    Lemma nostop_run stop mx iter phi0 psi bnd phi' psi' bnd' n : siLoop noBlock Rof phiOf stop mx iter phi0 psi bnd phi' psi' bnd' n -> ex (readPsi psi) bnd ->
      within (fun _ => 0) phi0 psi -> (forall p q, (forall G, (G < nG)%nat -> wsum * psiNorm (err q) G <= 0) -> stop p (phiOf q) = false) -> n = (mx - iter)%nat.
    Proof.
      intros H E HB NS. induction H as [iter phi0 psi bnd NL|iter phi0 psi bnd psi' bnd1 bnd' LT SW EX ST|iter phi0 psi bnd psi1 bnd1 bnd2 phi' psi' bnd' n LT SW EX ST H IH]; [lia| |].
      all: pose proof (within_step _ _ _ _ _ _ SW E HB) as W1.
      - exfalso. rewrite NS in ST; [discriminate|]. intros G HG. destruct (W1 G HG) as (A & _). rewrite Rmult_0_r in A. pose proof c_pos. apply Rmult_le_reg_l with (c * rho); [apply Rmult_lt_0_compat; lra|lra].
      - rewrite (IH (exchange_any _ _ _ _ EX)); [lia|]. intros G HG. specialize (W1 G HG). cbv beta in W1. rewrite Rmult_0_r in W1. exact W1.
    Qed.
    (** The loop ends when the state is within [eta], if the test accepts fluxes that are that close to the solution. *)
    Variables (stop : GPhi -> GPhi -> bool) (eta : nat -> R).
    Definition close (phi : GPhi) : Prop := exists psi, (forall r c v G, (r < u_ranks R0)%nat -> (c < nC r)%nat -> (v < 4)%nat -> (G < nG)%nat -> phi r c v G = flux (readPsi psi) r c v G) /\ forall G, (G < nG)%nat -> c * rho * (wsum * psiNorm (err psi) G) <= eta G.
    Hypothesis ST0 : forall p q, close p -> close q -> stop p q = true.
    Hypothesis ETA : forall G, 0 <= eta G.
    Lemma stop_run mx iter phi0 psi bnd phi' psi' bnd' n : siLoop noBlock Rof phiOf stop mx iter phi0 psi bnd phi' psi' bnd' n -> ex (readPsi psi) bnd ->
      (forall r c v G, (r < u_ranks R0)%nat -> (c < nC r)%nat -> (v < 4)%nat -> (G < nG)%nat -> phi0 r c v G = flux (readPsi psi) r c v G) ->
      forall j B, within B phi0 psi -> (forall G, (G < nG)%nat -> rho ^ j * B G <= eta G) -> (n <= j + 1)%nat.
    Proof.
      intros H. induction H as [iter phi0 psi bnd NL|iter phi0 psi bnd psi' bnd1 bnd' LT SW EX ST|iter phi0 psi bnd psi1 bnd1 bnd2 phi' psi' bnd' n LT SW EX ST H IH]; intros E EP j B HB HJ; [lia|lia|].
      pose proof (within_step _ _ _ _ _ _ SW E HB) as W1.
      assert (EP1 : forall r c v G, (r < u_ranks R0)%nat -> (c < nC r)%nat -> (v < 4)%nat -> (G < nG)%nat -> phiOf psi1 r c v G = flux (readPsi psi1) r c v G) by (intros; now apply (flux_same R0 nG wt (readPsi psi1))).
      destruct j as [|j].
      - exfalso. rewrite ST0 in ST; [discriminate| |].
        + exists psi. split; [auto|]. intros G HG. specialize (HJ G HG). simpl pow in HJ. destruct (HB G HG). lra.
        + exists psi1. split; [auto|]. intros G HG. specialize (HJ G HG). simpl pow in HJ. destruct (W1 G HG) as (A & _). eapply Rle_trans; [exact A|].
          destruct (Rle_lt_dec 0 (B G)) as [B0|B0]; [apply Rle_trans with (1 * B G); [apply Rmult_le_compat_r; lra|lra]|].
          specialize (ETA G). apply Rle_trans with 0; [|auto]. rewrite <- (Rmult_0_r rho). apply Rmult_le_compat_l; lra.
      - specialize (IH (exchange_any _ _ _ _ EX) EP1 j _ W1). enough (n <= j + 1)%nat by lia. apply IH. intros G HG. specialize (HJ G HG). simpl pow in HJ. lra.
    Qed.
  End Run.
  (** psi bounds the entries of the flux. *)
  Lemma uniform {A} (l : list A) (P : A -> R -> Prop) : (forall x B B', P x B -> B <= B' -> P x B') -> (forall x, In x l -> exists B, 0 < B /\ P x B) -> exists B, 0 < B /\ forall x, In x l -> P x B.
  Proof.
    intros MN. induction l as [|x l IH]; intros H; [exists 1; split; [lra|intros ? []]|]. destruct (H x (or_introl eq_refl)) as (B1 & P1 & H1). destruct (IH (fun y Hy => H y (or_intror Hy))) as (B2 & P2 & H2).
    exists (B1 + B2). split; [lra|]. intros y [<-|I]; [apply (MN _ B1); [auto|lra]|apply (MN _ B2); [auto|lra]].
  Qed.
  Lemma entry_bound : exists B, 0 < B /\ forall e r c v G, (r < u_ranks R0)%nat -> (c < nC r)%nat -> (v < 4)%nat -> flux e r c v G * flux e r c v G <= B * (wsum * psiNorm e G).
  Proof.
    destruct (uniform (sites R0) (fun x B => forall (p : GPhi) G, let '(r, c, v) := x in p r c v G * p r c v G <= B * fluxNorm p G)) as (B & B0 & H).
    - intros [[r c] v] B B' H L p G. specialize (H p G). cbv beta iota in *. pose proof (norm_nonneg node R0 geo sigmaT pi wt k sigmaS SO p G) as N0. apply Rle_trans with (B * fluxNorm p G); [auto|]. apply Rmult_le_compat_r; auto.
    - intros [[r c] v] I. apply sites_In in I as (Hr & Hc & Hv). destruct (norm_entry node R0 geo sigmaT pi wt k sigmaS SO r c v Hr Hc Hv) as (B & B0 & H). exists B. split; auto.
    - exists B. split; [auto|]. intros e r c v G Hr Hc Hv. specialize (H (r, c, v) ltac:(apply sites_In; auto) (flux e) G). cbv beta iota in H. eapply Rle_trans; [exact H|]. apply Rmult_le_compat_l; [lra|]. apply (flux_psi node R0 geo sigmaT OK pi wt W).
  Qed.
  (** ** The L1 test *)
  Notation l1 := (l1 R0 nG).
  Lemma l1_tri f h j : (forall r c v G, (r < u_ranks R0)%nat -> (c < nC r)%nat -> (v < 4)%nat -> (G < nG)%nat -> Rabs (f r c v G) <= Rabs (h r c v G) + Rabs (j r c v G)) -> l1 f <= l1 h + l1 j.
  Proof.
    intros H. unfold PbjModel.l1. rewrite <- lsum_plus. apply lsum_le. intros r Hr. rewrite <- lsum_plus. apply lsum_le. intros [[c v] G] I. unfold entriesPhi in I. apply in_prod_iff in I as (I & HG). apply in_prod_iff in I as (Hc & Hv).
    apply in_seq in Hr, Hc, Hv, HG. apply H; lia.
  Qed.
  Lemma l1_zero f : (forall r c v G, (r < u_ranks R0)%nat -> (c < nC r)%nat -> (v < 4)%nat -> (G < nG)%nat -> f r c v G = 0) -> l1 f = 0.
  Proof.
    intros H. unfold PbjModel.l1. rewrite (lsum_ext _ _ (fun _ => 0 * 0)); [rewrite lsum_scal; ring|]. intros r Hr. rewrite (lsum_ext _ _ (fun _ => 0 * 0)); [rewrite lsum_scal; ring|]. intros [[c v] G] I. unfold entriesPhi in I. apply in_prod_iff in I as (I & HG). apply in_prod_iff in I as (Hc & Hv).
    apply in_seq in Hr, Hc, Hv, HG. rewrite H by lia. rewrite Rabs_R0. ring.
  Qed.
  Lemma l1_const d : 0 <= d -> l1 (fun _ _ _ _ => d) = d * l1 (fun _ _ _ _ => 1).
  Proof.
    intros D. unfold PbjModel.l1. rewrite <- lsum_scal. apply lsum_ext. intros r _. rewrite <- lsum_scal. apply lsum_ext. intros [[c v] G] _. rewrite Rabs_R1, Rabs_pos_eq by auto. ring.
  Qed.
  Lemma l1_nonneg f : 0 <= l1 f.
  Proof. apply lsum_nonneg. intros r _. apply lsum_nonneg. intros [[c v] G] _. apply Rabs_pos. Qed.
  Lemma l1_le f d : 0 <= d -> (forall r c v G, (r < u_ranks R0)%nat -> (c < nC r)%nat -> (v < 4)%nat -> (G < nG)%nat -> Rabs (f r c v G) <= d) -> l1 f <= d * l1 (fun _ _ _ _ => 1).
  Proof.
    intros D H. rewrite <- l1_const by auto. rewrite <- (Rplus_0_r (l1 (fun _ _ _ _ => d))). rewrite <- (l1_zero (fun _ _ _ _ => 0)) by auto. apply l1_tri. intros r c v G Hr Hc Hv HG. rewrite Rabs_R0, Rplus_0_r, (Rabs_pos_eq d) by auto. now apply H.
  Qed.
  Lemma l1_entry f r c v G : (r < u_ranks R0)%nat -> (c < nC r)%nat -> (v < 4)%nat -> (G < nG)%nat -> Rabs (f r c v G) <= l1 f.
  Proof.
    intros Hr Hc Hv HG. unfold PbjModel.l1. set (h := fun r => lsum (entriesPhi R0 nG r) (fun cvG => let '(c, v, G) := cvG in Rabs (f r c v G))).
    assert (A : lsum [(c, v, G)] (fun cvG => let '(c, v, G) := cvG in Rabs (f r c v G)) <= h r).
    { apply lsum_incl; [repeat constructor; auto|intros ? [<-|[]]; apply in_prod; [apply in_prod|]; apply in_seq; lia|intros [[c1 v1] G1] _; apply Rabs_pos]. }
    assert (B : lsum [r] h <= lsum (seq 0 (u_ranks R0)) h).
    { apply lsum_incl; [repeat constructor; auto|intros ? [<-|[]]; apply in_seq; lia|]. intros r1 _. apply lsum_nonneg. intros [[c1 v1] G1] _. apply Rabs_pos. }
    unfold lsum at 1 in A. unfold lsum at 1 in B. cbn [fold_right] in A, B. lra.
  Qed.
  (** Close to a flux that is not zero, the test accepts. *)
  Lemma l1_accepts phi ddErrMax : 0 < ddErrMax -> 0 < l1 phi -> exists d, 0 < d /\ forall p q,
    (forall r c v G, (r < u_ranks R0)%nat -> (c < nC r)%nat -> (v < 4)%nat -> (G < nG)%nat -> Rabs (p r c v G - phi r c v G) <= d) ->
    (forall r c v G, (r < u_ranks R0)%nat -> (c < nC r)%nat -> (v < 4)%nat -> (G < nG)%nat -> Rabs (q r c v G - phi r c v G) <= d) -> l1Stop R0 nG ddErrMax p q = true.
  Proof.
    intros E0 S0. set (S := l1 phi) in *. set (M := l1 (fun _ _ _ _ => 1)). pose proof (l1_nonneg (fun _ _ _ _ => 1)) as M0. fold M in M0. set (d := S * ddErrMax / (2 * (2 + ddErrMax) * (M + 1))).
    assert (D0 : 0 < d). { unfold d. apply Rmult_lt_0_compat; [now apply Rmult_lt_0_compat|]. apply Rinv_0_lt_compat. apply Rmult_lt_0_compat; lra. }
    exists d. split; [auto|]. intros p q HP HQ. pose proof (l1_le (fun r c v G => p r c v G - phi r c v G) d ltac:(lra) HP) as LP. pose proof (l1_le (fun r c v G => q r c v G - phi r c v G) d ltac:(lra) HQ) as LQ. fold M in LP, LQ.
    assert (T1 : l1 (fun r c v G => q r c v G - p r c v G) <= l1 (fun r c v G => q r c v G - phi r c v G) + l1 (fun r c v G => p r c v G - phi r c v G)).
    { apply l1_tri. intros r c v G _ _ _ _. replace (q r c v G - p r c v G) with ((q r c v G - phi r c v G) + - (p r c v G - phi r c v G)) by ring. eapply Rle_trans; [apply Rabs_triang|]. rewrite Rabs_Ropp. lra. }
    assert (T2 : S <= l1 q + l1 (fun r c v G => q r c v G - phi r c v G)).
    { apply l1_tri. intros r c v G _ _ _ _. replace (phi r c v G) with (q r c v G + - (q r c v G - phi r c v G)) at 1 by ring. eapply Rle_trans; [apply Rabs_triang|]. rewrite Rabs_Ropp. lra. }
    assert (DM : d * (M + 1) * (2 + ddErrMax) = S * ddErrMax / 2) by (unfold d; field; lra).
    assert (DM2 : d * M * (2 + ddErrMax) < S * ddErrMax). { assert (0 < S * ddErrMax) by now apply Rmult_lt_0_compat. assert (0 < d * (2 + ddErrMax)) by (apply Rmult_lt_0_compat; lra). lra. }
    assert (DM3 : d * M < S). { apply Rmult_lt_reg_r with (2 + ddErrMax); [lra|]. assert (0 < S * 2) by lra. lra. }
    unfold l1Stop. destruct (Req_EM_T (l1 q) 0) as [Z|NZ]; [lra|]. assert (Q0 : 0 < l1 q) by (pose proof (l1_nonneg q); lra).
    destruct (Rlt_dec _ _) as [|NL]; [reflexivity|]. exfalso. apply NL. apply Rmult_lt_reg_r with (l1 q); [auto|]. unfold Rdiv. rewrite Rmult_assoc, Rinv_l, Rmult_1_r by auto.
    assert (A : ddErrMax * (S - d * M) <= ddErrMax * l1 q) by (apply Rmult_le_compat_l; lra). lra.
  Qed.

  (** ** Exact solves on every rank *)
  Notation passedAll := (passedAll R0 geo wt).
  Notation lsc := (local_scattering node R0 nG geo sigmaT pi sigmaS wt).
  Lemma outer_rate : exists rho B, 0 < rho < 1 /\ 0 < B /\ rho * c <= B /\ (forall e G, passedAll e G <= B * psiNorm e G) /\ (forall P E E', c * P + E' <= E -> E' <= B * P -> E' <= rho * E).
  Proof.
    destruct (trace_all node R0 geo sigmaT OK pi wt W) as (B & B0 & HB). pose proof c_pos as CP. set (c := c) in *. assert (CI : 0 < / (B + c)) by (apply Rinv_0_lt_compat; lra).
    assert (CC : 0 < B * B) by now apply Rmult_lt_0_compat.
    exists (B / (B + c)), B. split; [split; [apply Rmult_lt_0_compat; lra|apply Rmult_lt_reg_r with (B + c); [lra|]; unfold Rdiv; rewrite Rmult_assoc, Rinv_l by lra; lra]|]. split; [auto|]. split.
    { apply Rmult_le_reg_r with (B + c); [lra|]. replace (B / (B + c) * c * (B + c)) with (B * c) by (field; lra). lra. }
    split; [exact HB|]. intros P E E' H H'.
    apply Rmult_le_reg_r with (B + c); [lra|]. replace (B / (B + c) * E * (B + c)) with (B * E) by (field; lra).
    assert (A1 : c * E' <= c * (B * P)) by (apply Rmult_le_compat_l; lra). assert (A2 : B * (c * P + E') <= B * E) by (apply Rmult_le_compat_l; lra). lra.
  Qed.
  Lemma outer_step Q sol bnd psi0 psi1 : scattering_eq node R0 nG geo sigmaT pi sigmaS wt Q sol -> lsc Q bnd psi1 -> ex psi0 bnd -> forall G, (G < nG)%nat ->
    c * psiNorm (less psi1 sol) G + passedAll (less psi1 sol) G <= passedAll (less psi0 sol) G.
  Proof.
    intros SE D E G HG. destruct (err_step Q sol SE (flux psi1) psi0 bnd psi1 D E) as (b & L & EL). apply (outer_decrease node R0 nG geo sigmaT OK FVS FM pi wt W k sigmaS SC b (less psi0 sol) (less psi1 sol) G); auto.
    eapply (local_ext node R0 nG geo sigmaT OK FVS); [|intros r u _ _; reflexivity|apply same_refl|exact L]. intros r c' a v G' _ _ _. cbv beta. now rewrite flux_less.
  Qed.
  Lemma outer_run rho B Q sol (inner : (nat -> nat -> nat -> nat -> nat -> R) -> GPsi -> GPsi -> Prop) stop mx iter psi0 psi bnd psi' bnd' n : 0 < rho < 1 -> (forall e G, passedAll e G <= B * psiNorm e G) -> (forall P E E', c * P + E' <= E -> E' <= B * P -> E' <= rho * E) ->
    scattering_eq node R0 nG geo sigmaT pi sigmaS wt Q sol -> (forall b p p', inner b p p' -> lsc Q b p') ->
    outerLoop noBlock (brun zeroSource) (fun psi bnd psi' bnd' => inner bnd (readPsi psi) (readPsi psi') /\ bnd' = bnd) stop mx iter psi0 psi bnd psi' bnd' n -> ex (readPsi psi) bnd ->
    forall A G, (G < nG)%nat -> c * rho * psiNorm (less (readPsi psi) sol) G <= A -> passedAll (less (readPsi psi) sol) G <= A -> c * rho * psiNorm (less (readPsi psi') sol) G <= rho ^ n * A.
  Proof.
    intros R01 HB HR SE IN H. pose proof c_pos as CP.
    assert (ST : forall bnd p p1 A G, (G < nG)%nat -> ex p bnd -> lsc Q bnd p1 -> passedAll (less p sol) G <= A -> c * rho * psiNorm (less p1 sol) G <= rho * A /\ passedAll (less p1 sol) G <= rho * A).
    { intros b p p1 A G HG E D HA. pose proof (outer_step Q sol b p p1 SE D E G HG) as S. pose proof (HR _ _ _ S (HB _ _)) as S2. assert (S3 : rho * passedAll (less p sol) G <= rho * A) by (apply Rmult_le_compat_l; lra). split; [|lra].
      pose proof (passedAll_pos R0 geo pi wt W (less p1 sol) G). replace (c * rho * psiNorm (less p1 sol) G) with (rho * (c * psiNorm (less p1 sol) G)) by ring. eapply Rle_trans; [|exact S3]. apply Rmult_le_compat_l; lra. }
    induction H as [iter psi0 psi bnd NL|iter psi0 psi bnd psi' bnd' LT SW STP|iter psi0 psi bnd psi1 bnd1 bnd2 psi' bnd' n LT SW STP X0 H IH]; intros E A G HG A1 A2.
    - simpl pow. lra.
    - destruct SW as (I & _). rewrite pow_1. now apply (ST bnd (readPsi psi)); auto; apply IN in I.
    - destruct SW as (I & ->). apply IN in I. destruct (ST _ _ _ _ G HG E I A2) as (B1 & B2). specialize (IH (exchange_any _ _ _ _ X0) _ G HG B1 B2). simpl pow. lra.
  Qed.
End Pbj.

(** ** C63 *)
Notation GPsi := (nat -> nat -> nat -> nat -> nat -> R).
Notation GPhi := (nat -> nat -> nat -> nat -> R).
(** C63: block Jacobi with one source iteration and one exchange per step converges to the solution on the whole mesh, with a rate that depends
    only on meshes, cross sections and quadrature: not on the source, the schedule, the error test or the number of iterations. *)
Theorem C63_converges : forall X (node : nat -> nat -> nat -> X) R0 nG geo sigmaT pi wt k sigmaS, scattering_ok node R0 geo sigmaT pi wt k sigmaS -> k < 1 -> face_vertices R0 geo ->
  exists rho C, 0 < rho < 1 /\ 0 < C /\ forall g pr (Q sol t : GPsi) stop ddIterMax phi psi bnd n, scattering_eq node R0 nG geo sigmaT pi sigmaS wt Q sol ->
  blockSI R0 g nG geo sigmaT pr pi sigmaS wt Q t stop ddIterMax phi psi bnd n ->
  forall G, (G < nG)%nat ->
    psiNorm R0 geo sigmaT wt (less (readPsi psi) sol) G <= C * rho ^ n * psiNorm R0 geo sigmaT wt sol G /\
    forall r c v, (r < u_ranks R0)%nat -> (c < rm_nCells (u_mesh R0 r))%nat -> (v < 4)%nat ->
      phi r c v G = scalarFlux R0 wt (readPsi psi) r c v G /\ (phi r c v G - scalarFlux R0 wt sol r c v G) ^ 2 <= C * rho ^ n * psiNorm R0 geo sigmaT wt sol G.
Proof.
  intros X node R0 nG geo sigmaT pi wt k sigmaS SO K1 FVS. destruct (rate node R0 geo sigmaT pi wt k sigmaS SO K1) as (rho & C & R01 & C0 & RC & HC & HR).
  destruct (entry_bound node R0 geo sigmaT pi wt k sigmaS SO) as (B & B0 & HB). pose proof (c_pos node R0 geo sigmaT pi wt k sigmaS SO K1) as CP. pose proof (w_pos node R0 geo sigmaT pi wt k sigmaS SO) as WP.
  set (c := 1 - k * k) in *. set (w := overAngles _ _ _) in *. set (D := C / (c * rho)).
  assert (CR : 0 < c * rho) by (apply Rmult_lt_0_compat; lra). assert (D0 : 0 < D) by now apply Rdiv_lt_0_compat. assert (BW : 0 < B * w) by now apply Rmult_lt_0_compat.
  exists rho, (D * (1 + B * w)). split; [auto|]. split; [apply Rmult_lt_0_compat; lra|]. intros g pr Q sol t stop mx phi psi bnd n SE H G HG.
  destruct (within_run node R0 g nG geo sigmaT pr pi wt k sigmaS SO FVS K1 rho C R01 HC HR Q sol t SE _ _ _ _ _ _ _ _ _ _ H (zero_ex R0 nG geo) _ (start_within node R0 nG geo sigmaT pi wt k sigmaS SO rho C HC sol RC)) as (WI & PH).
  destruct (WI G HG) as (P1 & _). fold c w in P1. set (P := psiNorm R0 geo sigmaT wt (less (readPsi psi) sol) G) in *. set (P0 := psiNorm R0 geo sigmaT wt sol G) in *.
  assert (PP : 0 <= P0) by (apply (psiNorm_pos node R0 geo sigmaT (so_transport _ _ _ _ _ _ _ _ SO) pi wt (so_weights _ _ _ _ _ _ _ _ SO))).
  assert (RN : 0 < rho ^ n) by (apply pow_lt; lra).
  assert (A : P <= D * rho ^ n * P0).
  { apply Rmult_le_reg_l with (c * rho * w); [now apply Rmult_lt_0_compat|]. unfold D. replace (c * rho * w * (C / (c * rho) * rho ^ n * P0)) with (rho ^ n * (C * (w * P0))) by (field; lra). lra. }
  assert (RP : 0 <= rho ^ n * P0) by (apply Rmult_le_pos; lra).
  assert (DRP : 0 <= D * rho ^ n * P0) by (rewrite Rmult_assoc; apply Rmult_le_pos; lra).
  assert (DBW : 0 <= B * w * (D * rho ^ n * P0)) by (apply Rmult_le_pos; lra).
  split; [apply Rle_trans with (1 := A); lra|].
  intros r c' v Hr Hc Hv. assert (E : phi r c' v G = scalarFlux R0 wt (readPsi psi) r c' v G).
  { destruct n as [|n]; [inversion H; subst; unfold zeroPhi, scalarFlux, overAngles, readPsi, zeroPsi; cbn [getBlock]; rewrite (lsum_ext _ _ (fun _ => 0 * 0)) by (intros; ring); rewrite lsum_scal; ring|].
    rewrite PH by lia. cbv beta. now apply flux_same. }
  split; [exact E|]. rewrite E. pose proof (flux_less R0 wt (readPsi psi) sol r c' v G) as FL. unfold minus in FL. rewrite <- FL. pose proof (HB (less (readPsi psi) sol) r c' v G Hr Hc Hv) as F. fold P w in F. simpl pow. rewrite Rmult_1_r.
  eapply Rle_trans; [exact F|]. assert (A2 : B * w * P <= B * w * (D * rho ^ n * P0)) by (apply Rmult_le_compat_l; lra). lra.
Qed.
(** C63: with the error test of the code and a solution that is not zero everywhere the number of sweeps is bounded, whatever the iteration limit. *)
Theorem C63_stops : forall X (node : nat -> nat -> nat -> X) R0 nG geo sigmaT pi wt k sigmaS, scattering_ok node R0 geo sigmaT pi wt k sigmaS -> k < 1 -> face_vertices R0 geo ->
  forall (Q sol : GPsi) ddErrMax r0 c0 v0 G0, scattering_eq node R0 nG geo sigmaT pi sigmaS wt Q sol -> 0 < ddErrMax ->
  (r0 < u_ranks R0)%nat -> (c0 < rm_nCells (u_mesh R0 r0))%nat -> (v0 < 4)%nat -> (G0 < nG)%nat -> scalarFlux R0 wt sol r0 c0 v0 G0 <> 0 ->
  exists N, forall g pr (t : GPsi) ddIterMax phi psi bnd n, blockSI R0 g nG geo sigmaT pr pi sigmaS wt Q t (l1Stop R0 nG ddErrMax) ddIterMax phi psi bnd n -> (n <= N)%nat.
Proof.
  intros X node R0 nG geo sigmaT pi wt k sigmaS SO K1 FVS Q sol eps r0 c0 v0 G0 SE E0 Hr0 Hc0 Hv0 HG0 NZ. destruct (rate node R0 geo sigmaT pi wt k sigmaS SO K1) as (rho & C & R01 & C0 & RC & HC & HR).
  destruct (entry_bound node R0 geo sigmaT pi wt k sigmaS SO) as (B & B0 & HB). pose proof (c_pos node R0 geo sigmaT pi wt k sigmaS SO K1) as CP. pose proof (w_pos node R0 geo sigmaT pi wt k sigmaS SO) as WP.
  destruct (l1_accepts R0 nG (fun _ _ _ => 0%N) (scalarFlux R0 wt sol) eps E0) as (d & D0 & HD).
  { eapply Rlt_le_trans; [|apply (l1_entry R0 nG (fun _ _ _ => 0%N) (scalarFlux R0 wt sol) r0 c0 v0 G0); auto]. now apply Rabs_pos_lt. }
  set (c := 1 - k * k) in *. set (w := overAngles _ _ _) in *. assert (CR : 0 < c * rho) by (apply Rmult_lt_0_compat; lra).
  set (eta := d * d * (c * rho) / B). assert (ET : 0 < eta). { unfold eta. apply Rdiv_lt_0_compat; [|auto]. apply Rmult_lt_0_compat; [now apply Rmult_lt_0_compat|auto]. }
  set (Bn := fun G => C * (w * psiNorm R0 geo sigmaT wt sol G)). destruct (list_bound (seq 0 nG) Bn) as (M & M0 & HM).
  destruct (pow_lt_1_zero rho ltac:(rewrite Rabs_pos_eq; lra) (eta / M) ltac:(now apply Rdiv_lt_0_compat)) as (j & Hj). specialize (Hj j (Nat.le_refl j)). rewrite Rabs_pos_eq in Hj by (apply pow_le; lra).
  exists (j + 1)%nat. intros g pr t mx phi psi bnd n H.
  refine (stop_run node R0 g nG geo sigmaT pr pi wt k sigmaS SO FVS K1 rho C R01 HC HR Q sol t SE (l1Stop R0 nG eps) (fun _ => eta) _ _ _ _ _ _ _ _ _ _ _ H (zero_ex R0 nG geo) _ j Bn (start_within node R0 nG geo sigmaT pi wt k sigmaS SO rho C HC sol RC) _).
  - assert (CL : forall p, close R0 nG geo sigmaT wt k rho sol (fun _ => eta) p -> forall r c v G, (r < u_ranks R0)%nat -> (c < rm_nCells (u_mesh R0 r))%nat -> (v < 4)%nat -> (G < nG)%nat -> Rabs (p r c v G - scalarFlux R0 wt sol r c v G) <= d).
    { intros p (ps & EP & HP) r c' v G Hr Hc Hv HG. rewrite EP by auto. pose proof (flux_less R0 wt (readPsi ps) sol r c' v G) as FL. unfold minus in FL. rewrite <- FL.
      pose proof (HB (less (readPsi ps) sol) r c' v G Hr Hc Hv) as F. specialize (HP G HG). fold c w in HP, F. set (P := w * _) in *. set (x := scalarFlux R0 wt (less _ _) _ _ _ _) in *.
      apply Rsqr_incr_0; [|apply Rabs_pos|lra]. rewrite <- Rsqr_abs. unfold Rsqr. eapply Rle_trans; [exact F|]. apply Rmult_le_reg_l with (c * rho / B); [now apply Rdiv_lt_0_compat|].
      replace (c * rho / B * (B * P)) with (c * rho * P) by (field; lra). replace (c * rho / B * (d * d)) with eta by (unfold eta; field; lra). exact HP. }
    intros p q Hp Hq. apply HD; intros; now apply CL.
  - intros G. lra.
  - intros r c' v G _ _ _ _. unfold zeroPhi, scalarFlux, overAngles, readPsi, zeroPsi. cbn [getBlock]. rewrite (lsum_ext _ _ (fun _ => 0 * 0)) by (intros; ring). rewrite lsum_scal. ring.
  - intros G HG. assert (BM : Bn G <= M) by (apply HM, in_seq; lia). assert (B00 : 0 <= Bn G).
    { unfold Bn. apply Rmult_le_pos; [lra|]. apply Rmult_le_pos; [lra|]. apply (psiNorm_pos node R0 geo sigmaT (so_transport _ _ _ _ _ _ _ _ SO) pi wt (so_weights _ _ _ _ _ _ _ _ SO)). }
    apply Rle_trans with (eta / M * M); [|right; field; lra]. apply Rmult_le_compat; auto; [apply pow_le|]; lra.
Qed.
(** C63, a finding: with a source that is zero the quotient of the error test is 0/0 and the loop does all its iterations. *)
Theorem C63_zero_refuted : forall X (node : nat -> nat -> nat -> X) R0 nG geo sigmaT pi wt k sigmaS, scattering_ok node R0 geo sigmaT pi wt k sigmaS -> k < 1 -> face_vertices R0 geo ->
  forall g pr (t : GPsi) ddErrMax ddIterMax phi psi bnd n, blockSI R0 g nG geo sigmaT pr pi sigmaS wt (fun _ _ _ _ _ => 0) t (l1Stop R0 nG ddErrMax) ddIterMax phi psi bnd n -> n = (ddIterMax - 1)%nat.
Proof.
  intros X node R0 nG geo sigmaT pi wt k sigmaS SO K1 FVS g pr t eps mx phi psi bnd n H. destruct (rate node R0 geo sigmaT pi wt k sigmaS SO K1) as (rho & C & R01 & C0 & RC & HC & HR).
  destruct (entry_bound node R0 geo sigmaT pi wt k sigmaS SO) as (B & B0 & HB). set (Q := fun _ _ _ _ _ : nat => 0) in *. pose proof (so_transport _ _ _ _ _ _ _ _ SO) as OK.
  assert (FZ : forall r c v G, scalarFlux R0 wt Q r c v G = 0). { intros. unfold scalarFlux, overAngles, Q. rewrite (lsum_ext _ _ (fun _ => 0 * 0)) by (intros; ring). rewrite lsum_scal. ring. }
  assert (SE : scattering_eq node R0 nG geo sigmaT pi sigmaS wt Q Q).
  { destruct (C62_well_posed X node R0 nG geo sigmaT pi wt k sigmaS Q SO K1) as ((s & S) & U). unfold scattering_eq in S. pose proof (eq_lin node R0 nG geo sigmaT OK _ _ _ _ 0 0 S S) as Z.
    eapply (eq_ext node R0 nG geo sigmaT OK); [| |exact Z]; intros r c a v G _ _ _; cbv beta; [|unfold Q; ring]. rewrite FZ. unfold scattered, Q. ring. }
  assert (PZ : forall G, psiNorm R0 geo sigmaT wt Q G = 0).
  { intros G. unfold psiNorm. rewrite (lsum_ext _ _ (fun _ => 0 * 0)); [rewrite lsum_scal; ring|]. intros [r c] _. rewrite (lsum_ext _ _ (fun _ => 0 * 0)); [rewrite lsum_scal; ring|]. intros a _. unfold Q, massForm, sum4. field. }
  apply (nostop_run node R0 g nG geo sigmaT pr pi wt k sigmaS SO FVS K1 rho C R01 HC HR Q Q t SE _ _ _ _ _ _ _ _ _ _ H (zero_ex R0 nG geo)).
  - intros G HG. destruct (start_within node R0 nG geo sigmaT pi wt k sigmaS SO rho C HC Q RC G HG) as (A1 & A2). rewrite PZ, !Rmult_0_r in A1, A2. auto.
  - intros p q HQ. unfold l1Stop. assert (L : l1 R0 nG (gPsiToPhi Rops (u_angles R0) nG wt (fun r => rm_nCells (u_mesh R0 r)) (readPsi q)) = 0).
    { apply (l1_zero R0 nG (fun _ _ _ => 0%N)). intros r c v G Hr Hc Hv HG. rewrite (flux_same R0 nG wt (readPsi q) r c v G Hr Hc Hv HG). pose proof (flux_less R0 wt (readPsi q) Q r c v G) as FL. unfold minus in FL. rewrite FZ, Rminus_0_r in FL. rewrite <- FL.
      pose proof (HB (less (readPsi q) Q) r c v G Hr Hc Hv) as F. specialize (HQ G HG). set (x := scalarFlux R0 wt _ r c v G) in *.
      assert (B * (overAngles (u_angles R0) wt (fun _ => 1) * psiNorm R0 geo sigmaT wt (less (readPsi q) Q) G) <= B * 0) by (apply Rmult_le_compat_l; lra).
      pose proof (Rle_0_sqr x) as S0. unfold Rsqr in S0. assert (x * x = 0) by lra. now apply Rsqr_0_uniq. }
    cbv zeta beta. rewrite L. destruct (Req_EM_T 0 0); [reflexivity|contradiction].
Qed.
(** C63: the solver always comes to an end: there is an execution, for every error test and iteration limit. *)
Theorem C63_runs : forall X (node : nat -> nat -> nat -> X) R0 nG geo sigmaT pi wt k sigmaS, scattering_ok node R0 geo sigmaT pi wt k sigmaS ->
  forall g pr (Q t : GPsi) stop ddIterMax, exists phi psi bnd n, blockSI R0 g nG geo sigmaT pr pi sigmaS wt Q t stop ddIterMax phi psi bnd n.
Proof.
  intros X node R0 nG geo sigmaT pi wt k sigmaS SO g pr Q t stop mx. pose proof (so_transport _ _ _ _ _ _ _ _ SO) as OK. unfold blockSI. generalize zeroPhi, zeroPsi, (@zeroBound). generalize 1%nat.
  set (phiOf := fun psi => gPsiToPhi Rops (u_angles R0) nG wt (fun r => rm_nCells (u_mesh R0 r)) (readPsi psi)). clearbody phiOf.
  intros i. remember (mx - i)%nat as m eqn:Em. revert i Em. induction m as [|m IH]; intros i Em phi psi bnd.
  - exists phi, psi, bnd, 0%nat. constructor. lia.
  - set (src := gTotal Rops pi (u_angles R0) nG (fun r => rm_nCells (u_mesh R0 r)) sigmaS Q phi t). pose proof (block_ok node R0 g nG geo sigmaT pr OK src) as BO.
    destruct (sweep_total _ BO psi bnd) as (psi1 & bnd1 & SW). { exact (to_max _ _ _ _ OK). } { apply (local_acyclic _ BO). exact (full_acyclic node R0 geo sigmaT OK). }
    destruct (exchange_total noBlock _ BO psi1 bnd1) as (bnd2 & EX). set (phi1 := phiOf psi1).
    destruct (stop phi phi1) eqn:ST.
    + exists phi1, psi1, bnd2, 1%nat. eapply si_break; eauto; lia.
    + destruct (IH (S i) ltac:(lia) phi1 psi1 bnd2) as (p' & s' & b' & n & H). exists p', s', b', (S n). eapply si_next; eauto; lia.
Qed.
(** C63: a step that changes neither the flux nor the data at the interfaces has found the solution. *)
Theorem C63_stationary : forall X (node : nat -> nat -> nat -> X) R0 nG geo sigmaT pi wt k sigmaS, scattering_ok node R0 geo sigmaT pi wt k sigmaS -> face_vertices R0 geo ->
  forall g pr (Q t : GPsi) phi psi bnd psi1 bnd1 bnd2,
  sweepLocal (blockRun R0 g nG geo sigmaT pr (gTotal Rops pi (u_angles R0) nG (fun r => rm_nCells (u_mesh R0 r)) sigmaS Q phi t)) psi bnd psi1 bnd1 ->
  exchange noBlock (blockRun R0 g nG geo sigmaT pr (gTotal Rops pi (u_angles R0) nG (fun r => rm_nCells (u_mesh R0 r)) sigmaS Q phi t)) psi1 bnd1 bnd2 ->
  (forall r c v G, (r < u_ranks R0)%nat -> (c < rm_nCells (u_mesh R0 r))%nat -> (v < 4)%nat -> (G < nG)%nat -> gPsiToPhi Rops (u_angles R0) nG wt (fun r => rm_nCells (u_mesh R0 r)) (readPsi psi1) r c v G = phi r c v G) ->
  (forall r u, (r < u_ranks R0)%nat -> is_unknown (u_angles R0) nG (u_mesh R0) (u_mate R0) r u -> at_unknown (u_mesh R0) r (bnd2 r) u = at_unknown (u_mesh R0) r (bnd r) u) ->
  scattering_eq node R0 nG geo sigmaT pi sigmaS wt Q (readPsi psi1).
Proof.
  intros X node R0 nG geo sigmaT pi wt k sigmaS SO FVS g pr Q t phi psi bnd psi1 bnd1 bnd2 SW EX SP SB. pose proof (so_transport _ _ _ _ _ _ _ _ SO) as OK.
  destruct (sweep_any node R0 g nG geo sigmaT pr pi wt k sigmaS SO _ _ _ _ _ SW) as (D & _).
  pose proof (exchange_any node R0 g nG geo sigmaT pr pi wt k sigmaS SO _ _ _ _ EX) as E2. apply (exchanged_bnd node R0 nG geo sigmaT OK _ _ bnd) in E2; [|exact SB].
  apply (local_global node R0 nG geo sigmaT OK FVS _ _ _ E2). eapply (local_ext node R0 nG geo sigmaT OK FVS); [|intros r u _ _; reflexivity|apply same_refl|exact D].
  intros r c a v G (Hr & Hc & Ha) Hv HG. rewrite total_same by (auto; repeat split; auto). cbv beta. f_equal. rewrite <- SP by auto. now apply flux_same.
Qed.
(** C63: the outer block iteration, with a solve on each rank that is exact for the data at its interfaces (a Krylov solve: [C63_outer_krylov]), converges geometrically too. *)
Theorem C63_outer : forall X (node : nat -> nat -> nat -> X) R0 nG geo sigmaT pi wt k sigmaS, scattering_ok node R0 geo sigmaT pi wt k sigmaS -> k < 1 -> face_vertices R0 geo ->
  exists rho C, 0 < rho < 1 /\ 0 < C /\ forall g pr (Q sol : GPsi) (inner : GPsi -> GPsi -> GPsi -> Prop) stop ddIterMax psi bnd n, scattering_eq node R0 nG geo sigmaT pi sigmaS wt Q sol ->
  (forall b p p', inner b p p' -> local_scattering node R0 nG geo sigmaT pi sigmaS wt Q b p') ->
  blockOuter R0 g nG geo sigmaT pr inner stop ddIterMax psi bnd n ->
  forall G, (G < nG)%nat -> psiNorm R0 geo sigmaT wt (less (readPsi psi) sol) G <= C * rho ^ n * psiNorm R0 geo sigmaT wt sol G.
Proof.
  intros X node R0 nG geo sigmaT pi wt k sigmaS SO K1 FVS. destruct (outer_rate node R0 geo sigmaT pi wt k sigmaS SO K1) as (rho & B & R01 & B0 & RB & HB & HR). pose proof (c_pos node R0 geo sigmaT pi wt k sigmaS SO K1) as CP.
  set (c := 1 - k * k) in *. assert (CR : 0 < c * rho) by (apply Rmult_lt_0_compat; lra).
  exists rho, (B / (c * rho)). split; [auto|]. split; [now apply Rdiv_lt_0_compat|]. intros g pr Q sol inner stop mx psi bnd n SE IN H G HG.
  pose proof (start_norm R0 geo sigmaT wt sol G) as SN. set (P0 := psiNorm R0 geo sigmaT wt sol G) in *.
  assert (PP : 0 <= P0) by (apply (psiNorm_pos node R0 geo sigmaT (so_transport _ _ _ _ _ _ _ _ SO) pi wt (so_weights _ _ _ _ _ _ _ _ SO))).
  pose proof (outer_run node R0 g nG geo sigmaT pr pi wt k sigmaS SO FVS K1 rho B Q sol inner stop mx 1%nat _ _ _ _ _ _ R01 HB HR SE IN H (zero_ex R0 nG geo) (B * P0) G HG) as OR. fold c in OR.
  rewrite SN in OR. specialize (OR ltac:(rewrite (Rmult_comm c); apply Rmult_le_compat_r; lra) ltac:(rewrite <- SN; apply HB)).
  apply Rmult_le_reg_l with (c * rho); [auto|]. replace (c * rho * (B / (c * rho) * rho ^ n * P0)) with (rho ^ n * (B * P0)) by (field; lra). exact OR.
Qed.
Theorem C63_outer_krylov : forall X (node : nat -> nat -> nat -> X) R0 nG geo sigmaT pi wt k sigmaS, scattering_ok node R0 geo sigmaT pi wt k sigmaS -> k < 1 -> face_vertices R0 geo ->
  exists rho C, 0 < rho < 1 /\ 0 < C /\ forall g pr (Q sol : GPsi) stop ddIterMax psi bnd n, scattering_eq node R0 nG geo sigmaT pi sigmaS wt Q sol ->
  let nC := fun r => rm_nCells (u_mesh R0 r) in
  let exact b := fun rhs x => exists psi s psi' s' b', lhsOperator Rops pi (u_angles R0) nG wt nC sigmaS (innerSweep R0 g nG geo sigmaT pr b) x psi s b' psi' s' /\ samePhi R0 nG b' rhs in
  blockOuter R0 g nG geo sigmaT pr (fun b p p' => krylov Rops pi (u_angles R0) nG wt nC sigmaS (innerSweep R0 g nG geo sigmaT pr b) (exact b) Q p p') stop ddIterMax psi bnd n ->
  forall G, (G < nG)%nat -> psiNorm R0 geo sigmaT wt (less (readPsi psi) sol) G <= C * rho ^ n * psiNorm R0 geo sigmaT wt sol G.
Proof.
  intros X node R0 nG geo sigmaT pi wt k sigmaS SO K1 FVS. destruct (C63_outer X node R0 nG geo sigmaT pi wt k sigmaS SO K1 FVS) as (rho & C & R01 & C0 & H). exists rho, C. split; [auto|]. split; [auto|].
  intros g pr Q sol stop mx psi bnd n SE nC exact0 HB. apply (H g pr Q sol _ stop mx psi bnd n SE) with (2 := HB). intros b p p' HK. eapply inner_krylov; eauto using so_transport.
Qed.
Example C63_ex : scattering_ok tetNode tetRun tetGeo (fun _ _ => 1%R) PI (fun _ => 2 * PI)%R (/ 2) (fun _ _ => / 2)%R /\ / 2 < 1 /\ face_vertices tetRun tetGeo.
Proof. destruct C61_ex as (A & B & _). split; [exact A|]. split; [lra|exact B]. Qed.
Print Assumptions C63_converges. Print Assumptions C63_stops. Print Assumptions C63_zero_refuted. Print Assumptions C63_runs. Print Assumptions C63_stationary. Print Assumptions C63_outer. Print Assumptions C63_outer_krylov.
