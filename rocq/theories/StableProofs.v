(** The transport equation is linear, and its solution is bounded by the source. *)
From Coq Require Import Reals Lra Permutation.
From Verif Require Import Prelude Bytes MeshModel MeshSpec CreateModel CreateSpec TychoModel TychoSpec GeometryModel GeometrySpec GaussModel TransportModel TransportSpec AngleModel TraverseModel TraverseSpec TraverseRun SweepModel SweepSpec FluxModel FluxSpec PropertiesFlux SourceModel SourceSpec SourceProofs EnergySpec EnergyProofs PropertiesEnergy
  ViewModel ViewSpec ViewProofs ViewEqProofs PropertiesView StableSpec.
Local Open Scope R_scope.

Lemma mass_young V x y s : 0 < V -> 0 < s -> massForm V x y <= / 2 * (/ s * massForm V x x) + / 2 * (s * massForm V y y).
Proof.
  intros HV HS. pose proof (mass_nonneg V (fun i => s * y i - x i) HV) as P. rewrite mass_polar in P. assert (E : massForm V y x = massForm V x y) by (unfold massForm, sum4; field). rewrite E in P.
  apply Rmult_le_reg_l with (2 * s); [lra|]. replace (2 * s * (/ 2 * (/ s * massForm V x x) + / 2 * (s * massForm V y y))) with (massForm V x x + s * s * massForm V y y) by (field; lra). lra.
Qed.
Section Run.
  Context {X : Type} (node : nat -> nat -> nat -> X) (R0 : run (value R) (block R)) (nG : nat) (geo : nat -> rgeo R) (sigmaT : nat -> nat -> R).
  Context (OK : transport_ok node R0 geo sigmaT) (FM : faces_match R0 geo).
  Notation teq := (transport_eq node R0 nG geo sigmaT).
  Notation vol r c := (rg_volume (geo r) c).
  Lemma vol_pos r c : In (r, c) (cells R0) -> 0 < vol r c.
  Proof. intros I. apply cells_In in I as (? & ?). pose proof (gf_volume _ _ _ _ _ _ _ _ _ _ _ _ (to_geo _ _ _ _ OK) r c). auto. Qed.
  Lemma sig_pos r c : In (r, c) (cells R0) -> 0 < sigmaT r c.
  Proof. intros I. apply cells_In in I as (? & ?). apply (to_sigma _ _ _ _ OK); auto. Qed.
  Lemma inner_young (q e : nat -> nat -> nat -> R) s : 0 < s ->
    lsum (cells R0) (fun rc => let '(r, c) := rc in massForm (vol r c) (q r c) (e r c)) <=
    / (2 * s) * lsum (cells R0) (fun rc => let '(r, c) := rc in / sigmaT r c * massForm (vol r c) (q r c) (q r c)) + s / 2 * lsum (cells R0) (fun rc => let '(r, c) := rc in sigmaT r c * massForm (vol r c) (e r c) (e r c)).
  Proof.
    intros HS. rewrite <- !lsum_scal, <- lsum_plus. apply lsum_le. intros [r c] I. pose proof (vol_pos r c I) as VP. pose proof (sig_pos r c I) as SP.
    pose proof (mass_young (vol r c) (q r c) (e r c) (s * sigmaT r c) VP ltac:(apply Rmult_lt_0_compat; lra)) as H.
    replace (/ (2 * s) * (/ sigmaT r c * massForm (vol r c) (q r c) (q r c))) with (/ 2 * (/ (s * sigmaT r c) * massForm (vol r c) (q r c) (q r c))) by (field; lra). lra.
  Qed.
  Lemma run_stable Q e a G : teq Q e -> (a < u_angles R0)%nat -> (G < nG)%nat ->
    fluxNorm R0 geo sigmaT (fun r c v G => e r c a v G) G <= fluxNorm R0 geo (fun r c => / sigmaT r c) (fun r c v G => Q r c a v G) G.
  Proof.
    intros D Ha HG. pose proof (energy node R0 nG geo sigmaT OK FM Q e a G D Ha HG) as E. pose proof (inner_young (fun r c v => Q r c a v G) (fun r c v => e r c a v G) 1 Rlt_0_1) as Y. cbv beta in Y. unfold fluxNorm. lra.
  Qed.
  Context (pi : R) (wt : nat -> R) (k : R) (sigmaS : nat -> nat -> R).
  Context (W : weights_ok R0 pi wt) (SC : scatters R0 sigmaT pi wt k sigmaS).
  Notation wsum := (overAngles (u_angles R0) wt (fun _ => 1)).
  Lemma self_scattering e G : lsum (cells R0) (fun rc => let '(r, c) := rc in massForm (vol r c) (fun v => sigmaS r c / (4 * pi) * scalarFlux R0 wt e r c v G) (fun v => scalarFlux R0 wt e r c v G)) <= k * psiNorm R0 geo sigmaT wt e G.
  Proof.
    destruct W as (P0 & _ & W0). destruct SC as (K0 & SB). apply Rmult_le_reg_l with wsum; auto. apply Rle_trans with (k * fluxNorm R0 geo sigmaT (scalarFlux R0 wt e) G).
    - unfold fluxNorm. rewrite <- !lsum_scal. apply lsum_le. intros [r c] I. pose proof (vol_pos r c I) as VP. apply cells_In in I as (Hr & Hc). destruct (SB r c Hr Hc) as (S0 & S1).
      set (x := fun v => scalarFlux R0 wt e r c v G). pose proof (mass_nonneg (vol r c) x VP) as MP.
      replace (massForm (vol r c) (fun v => sigmaS r c / (4 * pi) * scalarFlux R0 wt e r c v G) x) with (sigmaS r c / (4 * pi) * massForm (vol r c) x x) by (unfold massForm, sum4, x; field; lra).
      replace (wsum * (sigmaS r c / (4 * pi) * massForm (vol r c) x x)) with (wsum / (4 * pi) * sigmaS r c * massForm (vol r c) x x) by (field; lra). rewrite <- Rmult_assoc. now apply Rmult_le_compat_r.
    - pose proof (flux_psi node R0 geo sigmaT OK pi wt W e G) as F. replace (wsum * (k * psiNorm R0 geo sigmaT wt e G)) with (k * (wsum * psiNorm R0 geo sigmaT wt e G)) by ring. now apply Rmult_le_compat_l.
  Qed.
  Lemma run_stable_scattering Q e G : k < 1 -> scattering_eq node R0 nG geo sigmaT pi sigmaS wt Q e -> (G < nG)%nat ->
    (1 - k) * (1 - k) * psiNorm R0 geo sigmaT wt e G <= psiNorm R0 geo (fun r c => / sigmaT r c) wt Q G.
  Proof.
    intros K1 D HG. set (sc := fun r c v G => sigmaS r c / (4 * pi) * scalarFlux R0 wt e r c v G).
    assert (E1 : psiNorm R0 geo sigmaT wt e G <= lsum (seq 0 (u_angles R0)) (fun a => wt a * lsum (cells R0) (fun rc => let '(r, c) := rc in massForm (vol r c) (fun v => Q r c a v G) (fun v => e r c a v G))) +
      lsum (seq 0 (u_angles R0)) (fun a => wt a * lsum (cells R0) (fun rc => let '(r, c) := rc in massForm (vol r c) (fun v => sc r c v G) (fun v => e r c a v G)))).
    { rewrite psi_angles, <- lsum_plus. apply lsum_le. intros a Ia. rewrite <- Rmult_plus_distr_l, <- lsum_plus. apply Rmult_le_compat_l; [destruct W as (_ & WP & _); apply in_seq in Ia; apply WP; lia|]. apply in_seq in Ia.
      eapply Rle_trans; [apply (energy node R0 nG geo sigmaT OK FM _ e a G D); [lia|auto]|]. right. apply lsum_ext. intros [r c] _. unfold scattered, sc, massForm, sum4. field. destruct W; lra. }
    rewrite (source_angles R0 geo wt sc e G) in E1. pose proof (self_scattering e G) as SS.
    assert (E2 : lsum (seq 0 (u_angles R0)) (fun a => wt a * lsum (cells R0) (fun rc => let '(r, c) := rc in massForm (vol r c) (fun v => Q r c a v G) (fun v => e r c a v G))) <=
      / (2 * (1 - k)) * psiNorm R0 geo (fun r c => / sigmaT r c) wt Q G + (1 - k) / 2 * psiNorm R0 geo sigmaT wt e G).
    { rewrite !psi_angles, <- !lsum_scal, <- lsum_plus. apply lsum_le. intros a Ia. pose proof (inner_young (fun r c v => Q r c a v G) (fun r c v => e r c a v G) (1 - k) ltac:(lra)) as Y. cbv beta in Y.
      assert (WP : 0 <= wt a) by (destruct W as (_ & WP & _); apply in_seq in Ia; apply WP; lia). apply (Rmult_le_compat_l _ _ _ WP) in Y. eapply Rle_trans; [exact Y|]. right. ring. }
    set (P := psiNorm R0 geo sigmaT wt e G) in *. set (S := psiNorm R0 geo (fun r c => / sigmaT r c) wt Q G) in *.
    assert (E3 : P <= / (2 * (1 - k)) * S + (1 - k) / 2 * P + k * P) by (unfold sc in E1; clear -E1 E2 SS; lra).
    apply (Rmult_le_compat_l (2 * (1 - k))) in E3; [|lra]. replace (2 * (1 - k) * (/ (2 * (1 - k)) * S + (1 - k) / 2 * P + k * P)) with (S + (1 - k) * (1 - k) * P + 2 * (1 - k) * k * P) in E3 by (field; lra). lra.
  Qed.
End Run.
