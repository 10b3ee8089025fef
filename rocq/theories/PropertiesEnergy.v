(** C62: source iteration converges, at the rate of the scattering ratio; the scattering problem has one solution. *)
From Coq Require Import Reals Lra Permutation.
From Verif Require TychoProofs.
From Verif Require Import Prelude Bytes MeshModel GeometryModel GaussModel TransportModel TransportSpec.
From Verif Require Import AngleModel TraverseModel TraverseSpec TraverseRun PropertiesTraverse SweepModel SweepSpec SweepProofs PropertiesSweep FluxModel FluxSpec FluxProofs PropertiesFlux SourceModel SourceSpec SourceProofs PropertiesSource EnergySpec EnergyProofs QuadratureModel QuadratureSpec PropertiesQuadrature.
Local Open Scope R_scope.

(** The mesh, the quadrature and the cross sections of a problem with scattering ratio at most [k]. *)
Record scattering_ok {X} (node : nat -> nat -> nat -> X) R0 geo sigmaT pi wt k sigmaS : Prop := {
  so_transport : transport_ok node R0 geo sigmaT;
  so_faces : faces_match R0 geo;
  so_weights : weights_ok R0 pi wt;
  so_ratio : scatters R0 sigmaT pi wt k sigmaS }.

Section Energy.
  Context {X : Type}.
  Variables (node : nat -> nat -> nat -> X) (R0 : run (value R) (block R)) (nG : nat) (geo : nat -> rgeo R) (sigmaT : nat -> nat -> R) (pi : R) (wt : nat -> R) (k : R) (sigmaS : nat -> nat -> R).
  Hypothesis SO : scattering_ok node R0 geo sigmaT pi wt k sigmaS.
  Let OK := so_transport _ _ _ _ _ _ _ _ SO.
  Notation GPsi := (nat -> nat -> nat -> nat -> nat -> R).
  Notation GPhi := (nat -> nat -> nat -> nat -> R).
  Notation teq := (transport_eq node R0 nG geo sigmaT).
  Notation nC := (fun r => rm_nCells (u_mesh R0 r)).
  Notation norm := (fluxNorm R0 geo sigmaT).
  Notation flux := (scalarFlux R0 wt).
  Definition minus (p q : GPhi) : GPhi := fun r c v G => p r c v G - q r c v G.
  Lemma norm_ext p q G : (forall r c v, (r < u_ranks R0)%nat -> (c < nC r)%nat -> (v < 4)%nat -> p r c v G = q r c v G) -> norm p G = norm q G.
  Proof. intros E. unfold fluxNorm. apply lsum_ext. intros [r c] I. apply cells_In in I as (Hr & Hc). unfold massForm, sum4. now rewrite !E by (auto; lia). Qed.
  Lemma cell_pos r c (x : nat -> R) : (r < u_ranks R0)%nat -> (c < nC r)%nat -> 0 <= sigmaT r c * massForm (rg_volume (geo r) c) x x.
  Proof.
    intros Hr Hc. pose proof (to_sigma _ _ _ _ OK r c Hr Hc). pose proof (gf_volume _ _ _ _ _ _ _ _ _ _ _ _ (to_geo _ _ _ _ OK) r c Hr Hc). apply Rmult_le_pos; [lra|now apply mass_nonneg].
  Qed.
  Lemma norm_nonneg p G : 0 <= norm p G.
  Proof. unfold fluxNorm. apply lsum_nonneg. intros [r c] I. apply cells_In in I as (Hr & Hc). now apply cell_pos. Qed.
  (** The norm bounds every entry. *)
  Lemma norm_entry r c v : (r < u_ranks R0)%nat -> (c < nC r)%nat -> (v < 4)%nat -> exists B, 0 < B /\ forall p G, p r c v G * p r c v G <= B * norm p G.
  Proof.
    intros Hr Hc Hv. pose proof (to_sigma _ _ _ _ OK r c Hr Hc) as SP. pose proof (gf_volume _ _ _ _ _ _ _ _ _ _ _ _ (to_geo _ _ _ _ OK) r c Hr Hc) as VP.
    set (w := sigmaT r c * (rg_volume (geo r) c / 20)). assert (W0 : 0 < w) by (apply Rmult_lt_0_compat; lra). exists (/ w). split; [now apply Rinv_0_lt_compat|]. intros p G.
    apply Rmult_le_reg_l with w; auto. replace (w * (/ w * fluxNorm R0 geo sigmaT p G)) with (fluxNorm R0 geo sigmaT p G) by (field; lra).
    apply Rle_trans with (sigmaT r c * massForm (rg_volume (geo r) c) (fun v => p r c v G) (fun v => p r c v G)).
    - unfold massForm. match goal with |- _ <= _ * (_ * ?y) => replace (sigmaT r c * (rg_volume (geo r) c / 20 * y)) with (w * y) by (unfold w; ring) end. apply Rmult_le_compat_l; [lra|]. unfold sum4. pose proof (Rle_0_sqr (p r c 0%nat G)); pose proof (Rle_0_sqr (p r c 1%nat G)); pose proof (Rle_0_sqr (p r c 2%nat G)); pose proof (Rle_0_sqr (p r c 3%nat G)).
      pose proof (Rle_0_sqr (p r c 0%nat G + p r c 1%nat G + p r c 2%nat G + p r c 3%nat G)). unfold Rsqr in *. destruct v as [|[|[|[|v]]]]; [lra..|lia].
    - unfold fluxNorm. assert (I : In (r, c) (cells R0)) by now apply cells_In. set (h := fun rc : nat * nat => let '(r, c) := rc in sigmaT r c * massForm (rg_volume (geo r) c) (fun v => p r c v G) (fun v => p r c v G)).
      change (h (r, c) <= lsum (cells R0) h). replace (h (r, c)) with (lsum [(r, c)] h) by (cbn [lsum fold_right]; ring).
      apply lsum_incl; [repeat constructor; auto|intros ? [<-|[]]; auto|]. intros [r1 c1] I1. apply cells_In in I1 as (? & ?). now apply cell_pos.
  Qed.
  Lemma norm_zero p G : norm p G <= 0 -> forall r c v, (r < u_ranks R0)%nat -> (c < nC r)%nat -> (v < 4)%nat -> p r c v G = 0.
  Proof.
    intros Z r c v Hr Hc Hv. destruct (norm_entry r c v Hr Hc Hv) as (B & BP & H). specialize (H p G). destruct (Req_dec (p r c v G) 0) as [|N]; auto. exfalso.
    assert (0 < p r c v G * p r c v G) by (apply Rsqr_pos_lt in N; exact N). assert (B * norm p G <= B * 0) by (apply Rmult_le_compat_l; lra). lra.
  Qed.
  (** (x + y)^2 <= (1 + t) x^2 + (1 + 1/t) y^2 *)
  Lemma norm_young p q t G : 0 < t -> norm (fun r c v G => p r c v G + q r c v G) G <= (1 + t) * norm p G + (1 + / t) * norm q G.
  Proof.
    intros T. unfold fluxNorm. rewrite <- !lsum_scal, <- lsum_plus. apply lsum_le. intros [r c] I. apply cells_In in I as (Hr & Hc).
    pose proof (to_sigma _ _ _ _ OK r c Hr Hc) as SP. pose proof (gf_volume _ _ _ _ _ _ _ _ _ _ _ _ (to_geo _ _ _ _ OK) r c Hr Hc) as VP. set (V := rg_volume (geo r) c) in *.
    set (x := fun v => p r c v G). set (y := fun v => q r c v G). change (fun v => p r c v G + q r c v G) with (fun v => x v + y v).
    pose proof (mass_nonneg V (fun i => t * x i - y i) VP) as N. rewrite mass_polar in N.
    assert (E : massForm V (fun v => x v + y v) (fun v => x v + y v) = massForm V x x + 2 * massForm V x y + massForm V y y) by (unfold massForm, sum4; field). rewrite E.
    assert (K : 2 * massForm V x y <= t * massForm V x x + / t * massForm V y y).
    { apply Rmult_le_reg_l with t; auto. replace (t * (t * massForm V x x + / t * massForm V y y)) with (t * t * massForm V x x + massForm V y y) by (field; lra). lra. }
    replace ((1 + t) * (sigmaT r c * massForm V x x) + (1 + / t) * (sigmaT r c * massForm V y y)) with (sigmaT r c * ((1 + t) * massForm V x x + (1 + / t) * massForm V y y)) by ring. apply Rmult_le_compat_l; lra.
  Qed.

  (** Two sweeps: the fluxes come closer by the factor [k]. *)
  Lemma contraction Q phi1 phi2 psi1 psi2 G : (G < nG)%nat ->
    teq (fun r c a v G => scattered pi (sigmaS r c) (Q r c a v G) (phi1 r c v G)) psi1 -> teq (fun r c a v G => scattered pi (sigmaS r c) (Q r c a v G) (phi2 r c v G)) psi2 ->
    norm (minus (flux psi1) (flux psi2)) G <= k * k * norm (minus phi1 phi2) G.
  Proof.
    intros HG D1 D2. pose proof (eq_lin node R0 nG geo sigmaT OK _ _ _ _ 1 (-1) D1 D2) as D.
    rewrite (norm_ext _ (flux (fun r c a v G => 1 * psi1 r c a v G + -1 * psi2 r c a v G))) by (intros; rewrite flux_lin; unfold minus; ring).
    apply (contract node R0 nG geo sigmaT OK (so_faces _ _ _ _ _ _ _ _ SO) pi wt (so_weights _ _ _ _ _ _ _ _ SO) k sigmaS (so_ratio _ _ _ _ _ _ _ _ SO)); auto.
    eapply (eq_ext node R0 nG geo sigmaT OK); [|intros ? ? ? ? ? _ _ _; reflexivity|exact D]. intros r c a v g _ _ _. unfold scattered, minus. ring.
  Qed.

  (** * Existence *)
  Lemma fin_choice {A B} (eq_dec : forall x y : A, {x = y} + {x <> y}) (b0 : B) (P : A -> B -> Prop) l : (forall x, In x l -> exists y, P x y) -> exists f, forall x, In x l -> P x (f x).
  Proof.
    induction l as [|x l IH]; intros H; [exists (fun _ => b0); intros ? []|]. destruct (H x (or_introl eq_refl)) as (y & Hy). destruct (IH (fun z Hz => H z (or_intror Hz))) as (f & Hf).
    exists (fun z => if eq_dec z x then y else f z). intros z Hz. destruct (eq_dec z x) as [->|]; auto. apply Hf. destruct Hz; [congruence|auto].
  Qed.
  Lemma geometric_cauchy (U : nat -> R) C : k < 1 -> 0 <= C -> (forall n, Rabs (U (S n) - U n) <= C * k ^ n) -> exists l, Un_cv U l.
  Proof.
    intros K1 C0 H. destruct (so_ratio _ _ _ _ _ _ _ _ SO) as (K0 & _).
    assert (T : forall p n, Rabs (U (n + p)%nat - U n) * (1 - k) <= C * k ^ n).
    { intros p n. enough (L : Rabs (U (n + p)%nat - U n) * (1 - k) <= C * k ^ n * (1 - k ^ p)).
      { eapply Rle_trans; [exact L|]. assert (0 <= C * k ^ n) by (apply Rmult_le_pos; [auto|now apply pow_le]). pose proof (pow_le k p K0). rewrite <- (Rmult_1_r (C * k ^ n)) at 2. apply Rmult_le_compat_l; lra. }
      induction p as [|p IH]; [rewrite Nat.add_0_r, Rminus_eq_0, Rabs_R0; simpl; lra|].
      specialize (H (n + p)%nat). replace (n + S p)%nat with (S (n + p)) by lia.
      assert (TR : Rabs (U (S (n + p)) - U n) <= Rabs (U (S (n + p)) - U (n + p)%nat) + Rabs (U (n + p)%nat - U n)) by (replace (U (S (n + p)) - U n) with ((U (S (n + p)) - U (n + p)%nat) + (U (n + p)%nat - U n)) by ring; apply Rabs_triang).
      apply Rle_trans with ((Rabs (U (S (n + p)) - U (n + p)%nat) + Rabs (U (n + p)%nat - U n)) * (1 - k)); [apply Rmult_le_compat_r; lra|]. rewrite Rmult_plus_distr_r.
      apply Rle_trans with (C * k ^ (n + p) * (1 - k) + C * k ^ n * (1 - k ^ p)); [apply Rplus_le_compat; [apply Rmult_le_compat_r; lra|auto]|]. rewrite pow_add. simpl pow. right. ring. }
    destruct (R_complete U) as (l & L); [|now exists l]. intros eps EP.
    destruct (pow_lt_1_zero k ltac:(rewrite Rabs_pos_eq; auto) (eps * (1 - k) / (2 * (C + 1)))) as (N & HN).
    { apply Rmult_lt_0_compat; [apply Rmult_lt_0_compat; lra|apply Rinv_0_lt_compat; lra]. }
    exists N. assert (B : forall m, (m >= N)%nat -> Rabs (U m - U N) < eps / 2).
    { intros m Hm. replace m with (N + (m - N))%nat by lia. specialize (T (m - N)%nat N). specialize (HN N (le_n N)). rewrite Rabs_pos_eq in HN by now apply pow_le.
      apply Rmult_lt_reg_r with (1 - k); [lra|]. eapply Rle_lt_trans; [exact T|]. apply Rle_lt_trans with ((C + 1) * k ^ N); [apply Rmult_le_compat_r; [now apply pow_le|lra]|].
      apply Rmult_lt_compat_l with (r := C + 1) in HN; [|lra]. eapply Rlt_le_trans; [exact HN|]. right. field. lra. }
    intros n m Hn Hm. unfold R_dist. replace (U n - U m) with ((U n - U N) - (U m - U N)) by ring. eapply Rle_lt_trans; [apply Rabs_triang|]. rewrite Rabs_Ropp. pose proof (B n Hn). pose proof (B m Hm). lra.
  Qed.
  Definition all : list (nat * nat * nat * nat) := list_prod (sites R0) (seq 0 nG).
  Lemma all_In r c v G : In (r, c, v, G) all <-> (r < u_ranks R0)%nat /\ (c < nC r)%nat /\ (v < 4)%nat /\ (G < nG)%nat.
  Proof. unfold all. rewrite in_prod_iff, sites_In, in_seq. split; intros H; [destruct H as ((? & ? & ?) & ?)|destruct H as (? & ? & ? & ?)]; repeat split; auto; lia. Qed.
  Definition entry_dec : forall x y : nat * nat * nat * nat, {x = y} + {x <> y}.
  Proof. repeat decide equality. Defined.
  Lemma indicator {A} (eq_dec : forall x y : A, {x = y} + {x <> y}) l f x : NoDup l -> In x l -> lsum l (fun b => f b * (if eq_dec b x then 1 else 0)) = f x.
  Proof.
    induction l as [|y l IH]; intros ND I; [destruct I|]. inversion ND as [|? ? NI ND']; subst. rewrite lsum_cons. destruct I as [->|I].
    - destruct (eq_dec x x) as [_|]; [|congruence]. rewrite (lsum_ext _ _ (fun _ => 0 * 0)); [rewrite lsum_scal; ring|]. intros z Hz. destruct (eq_dec z x) as [->|]; [contradiction|ring].
    - destruct (eq_dec y x) as [->|]; [contradiction|]. rewrite IH by auto. ring.
  Qed.
  Definition entry (p : GPhi) (b : nat * nat * nat * nat) : R := let '(r, c, v, G) := b in p r c v G.
  Lemma eq_sum (l : list (nat * nat * nat * nat)) (w : nat * nat * nat * nat -> R) (S0 : GPsi) (S : nat * nat * nat * nat -> GPsi) (p0 : GPsi) (p : nat * nat * nat * nat -> GPsi) : teq S0 p0 -> (forall b, In b l -> teq (S b) (p b)) ->
    teq (fun r c a v G => S0 r c a v G + lsum l (fun b => w b * S b r c a v G)) (fun r c a v G => p0 r c a v G + lsum l (fun b => w b * p b r c a v G)).
  Proof.
    intros D0. induction l as [|b l IH]; intros D.
    - eapply (eq_ext node R0 nG geo sigmaT OK); [| |exact D0]; intros r c a v G _ _ _; unfold lsum; cbn; ring.
    - pose proof (eq_lin node R0 nG geo sigmaT OK _ _ _ _ 1 (w b) (IH (fun z Hz => D z (or_intror Hz))) (D b (or_introl eq_refl))) as E.
      eapply (eq_ext node R0 nG geo sigmaT OK); [| |exact E]; intros r c a v G _ _ _; rewrite lsum_cons; ring.
  Qed.
  Lemma cv_const x : Un_cv (fun _ => x) x. Proof. intros e E. exists 0%nat. intros. unfold R_dist. rewrite Rminus_eq_0, Rabs_R0. exact E. Qed.
  Lemma cv_lsum {A} (l : list A) (U : A -> nat -> R) L : (forall b, In b l -> Un_cv (U b) (L b)) -> Un_cv (fun n => lsum l (fun b => U b n)) (lsum l L).
  Proof.
    induction l as [|b l IH]; intros H; [exact (cv_const 0)|]. rewrite lsum_cons. change (Un_cv (fun n => U b n + lsum l (fun b => U b n)) (L b + lsum l L)). apply CV_plus; [apply H; now left|apply IH; intros; apply H; now right].
  Qed.
  Lemma exists_solution Q : k < 1 -> exists psi, scattering_eq node R0 nG geo sigmaT pi sigmaS wt Q psi.
  Proof.
    intros K1. pose proof (so_ratio _ _ _ _ _ _ _ _ SO) as (K0 & _). destruct (eq_exists node R0 NoPivot nG geo sigmaT (fun _ _ _ => 0%N) OK Q) as (psiQ & DQ).
    set (unit := fun (b : nat * nat * nat * nat) (r c a v G : nat) => sigmaS r c / (4 * pi) * (if entry_dec b (r, c, v, G) then 1 else 0)).
    destruct (fin_choice entry_dec (fun _ _ _ _ _ => 0) (fun b p => teq (unit b) p) all) as (u & DU).
    { intros b _. exact (eq_exists node R0 NoPivot nG geo sigmaT (fun _ _ _ => 0%N) OK (unit b)). }
    set (solve := fun (p : GPhi) (r c a v G : nat) => psiQ r c a v G + lsum all (fun b => entry p b * u b r c a v G)).
    assert (DS : forall p, teq (fun r c a v G => scattered pi (sigmaS r c) (Q r c a v G) (p r c v G)) (solve p)).
    { intros p. eapply (eq_ext node R0 nG geo sigmaT OK); [|intros ? ? ? ? ? _ _ _; reflexivity|exact (eq_sum all (entry p) Q unit psiQ u DQ DU)].
      intros r c a v G (Hr & Hc & Ha) Hv HG. cbv beta. unfold scattered. f_equal. unfold unit. rewrite (lsum_ext _ _ (fun b => sigmaS r c / (4 * pi) * (entry p b * (if entry_dec b (r, c, v, G) then 1 else 0)))) by (intros; ring).
      rewrite lsum_scal. f_equal. rewrite (indicator entry_dec all (entry p) (r, c, v, G)); [reflexivity| |now apply all_In]. apply TychoProofs.NoDup_list_prod; [apply sites_nodup|apply seq_NoDup]. }
    set (F := fun p => flux (solve p)). set (ph := fix ph (n : nat) : GPhi := match n with O => fun _ _ _ _ => 0 | S n => F (ph n) end).
    assert (CN : forall n G, (G < nG)%nat -> norm (minus (ph (S n)) (ph n)) G <= (k ^ n * k ^ n) * norm (minus (ph 1%nat) (ph 0%nat)) G).
    { induction n as [|n IH]; intros G HG; [simpl pow; lra|]. eapply Rle_trans; [exact (contraction Q (ph (S n)) (ph n) _ _ G HG (DS _) (DS _))|].
      apply Rle_trans with (k * k * (k ^ n * k ^ n * norm (minus (ph 1%nat) (ph 0%nat)) G)); [apply Rmult_le_compat_l; [now apply Rmult_le_pos|auto]|]. simpl pow. right. ring. }
    destruct (fin_choice entry_dec 0 (fun b l => Un_cv (fun n => entry (ph n) b) l) all) as (lim & LIM).
    { intros [[[r c] v] G] I. apply all_In in I as (Hr & Hc & Hv & HG). destruct (norm_entry r c v Hr Hc Hv) as (B & BP & HB).
      set (M := B * norm (minus (ph 1%nat) (ph 0%nat)) G). assert (M0 : 0 <= M) by (apply Rmult_le_pos; [lra|apply norm_nonneg]).
      apply (geometric_cauchy _ (sqrt M)); auto; [apply sqrt_pos|]. intros n. cbn [entry].
      specialize (HB (minus (ph (S n)) (ph n)) G). unfold minus at 1 2 in HB. specialize (CN n G HG). apply Rsqr_incr_0_var; [|apply Rmult_le_pos; [apply sqrt_pos|now apply pow_le]].
      rewrite <- Rsqr_abs. unfold Rsqr. eapply Rle_trans; [exact HB|]. replace (sqrt M * k ^ n * (sqrt M * k ^ n)) with (sqrt M * sqrt M * (k ^ n * k ^ n)) by ring. rewrite sqrt_sqrt by auto.
      apply Rle_trans with (B * (k ^ n * k ^ n * norm (minus (ph 1%nat) (ph 0%nat)) G)); [apply Rmult_le_compat_l; lra|]. unfold M. right. ring. }
    set (phi := fun r c v G : nat => lim (r, c, v, G)). exists (solve phi). unfold scattering_eq.
    eapply (eq_ext node R0 nG geo sigmaT OK); [|intros ? ? ? ? ? _ _ _; reflexivity|exact (DS phi)]. intros r c a v G (Hr & Hc & Ha) Hv HG. cbv beta. f_equal.
    assert (IE : In (r, c, v, G) all) by now apply all_In.
    apply (UL_sequence (fun n => ph (S n) r c v G)).
    - intros e E. destruct (LIM _ IE e E) as (N & HN). exists N. intros n Hn. apply (HN (S n)). lia.
    - change (Un_cv (fun n => flux (solve (ph n)) r c v G) (flux (solve phi) r c v G)). unfold scalarFlux, overAngles. apply (cv_lsum _ (fun b n => wt b * solve (ph n) r c b v G) (fun b => wt b * solve phi r c b v G)).
      intros b _. apply CV_mult; [apply cv_const|]. unfold solve. apply CV_plus; [apply cv_const|]. apply (cv_lsum all (fun e n => entry (ph n) e * u e r c b v G) (fun e => entry phi e * u e r c b v G)).
      intros e Ie. apply CV_mult; [|apply cv_const]. destruct e as [[[r1 c1] v1] G1]. exact (LIM _ Ie).
  Qed.
End Energy.

(** C62: with non-negative quadrature weights adding up to 4 pi and sigma_s <= k sigma_t, one sweep brings the
    scalar flux closer to that of the solution by the factor k, in the L2 norm weighted with sigma_t. *)
Theorem C62_contraction : forall X (node : nat -> nat -> nat -> X) R0 g nG geo sigmaT pr pi wt k sigmaS Q, scattering_ok node R0 geo sigmaT pi wt k sigmaS ->
  forall sol phi t psi psi', scattering_eq node R0 nG geo sigmaT pi sigmaS wt Q sol ->
  fullSweep R0 g nG geo sigmaT pr (gTotal Rops pi (u_angles R0) nG (fun r => rm_nCells (u_mesh R0 r)) sigmaS Q phi t) psi psi' ->
  forall G, (G < nG)%nat -> fluxNorm R0 geo sigmaT (minus (scalarFlux R0 wt psi') (scalarFlux R0 wt sol)) G <= k * k * fluxNorm R0 geo sigmaT (minus phi (scalarFlux R0 wt sol)) G.
Proof.
  intros X node R0 g nG geo sigmaT pr pi wt k sigmaS Q SO sol phi t psi psi' SE SW G HG. pose proof (so_transport _ _ _ _ _ _ _ _ SO) as OK.
  apply (contraction node R0 nG geo sigmaT pi wt k sigmaS SO Q phi (scalarFlux R0 wt sol) psi' sol G HG); [|exact SE].
  eapply (eq_ext node R0 nG geo sigmaT OK); [apply total_same|intros ? ? ? ? ? _ _ _; reflexivity|]. eapply sweep_eq; eauto.
Qed.
(** C62: so after n iterations of fixedPoint the error is at most k^n times that of the flux it started from. *)
Theorem C62_iterations : forall X (node : nat -> nat -> nat -> X) R0 g nG geo sigmaT pr pi wt k sigmaS Q, scattering_ok node R0 geo sigmaT pi wt k sigmaS ->
  forall sol iterMax errMax psi iters psi' phiNew phiOld error, scattering_eq node R0 nG geo sigmaT pi sigmaS wt Q sol ->
  sourceIteration R0 g nG geo sigmaT pr pi sigmaS wt iterMax errMax Q psi iters psi' phiNew phiOld error ->
  forall G, (G < nG)%nat -> fluxNorm R0 geo sigmaT (minus (scalarFlux R0 wt psi') (scalarFlux R0 wt sol)) G <=
    (k ^ N.to_nat iters) * (k ^ N.to_nat iters) * fluxNorm R0 geo sigmaT (minus (scalarFlux R0 wt psi) (scalarFlux R0 wt sol)) G.
Proof.
  intros X node R0 g nG geo sigmaT pr pi wt k sigmaS Q SO sol iterMax errMax psi iters psi' phiNew phiOld error SE H G HG. destruct (so_ratio _ _ _ _ _ _ _ _ SO) as (K0 & _).
  assert (L : forall iter er psi total pn po iters psi' phiNew phiOld error, pn = gPsiToPhi Rops (u_angles R0) nG wt (fun r => rm_nCells (u_mesh R0 r)) psi ->
    fixedPointLoop Rops pi (u_angles R0) nG wt (fun r => rm_nCells (u_mesh R0 r)) sigmaS (rankSum R0) (fullSweep R0 g nG geo sigmaT pr) iterMax errMax Q iter er psi total pn po iters psi' phiNew phiOld error ->
    (iter <= iters)%N /\ fluxNorm R0 geo sigmaT (minus (scalarFlux R0 wt psi') (scalarFlux R0 wt sol)) G <= (k ^ N.to_nat (iters - iter)) * (k ^ N.to_nat (iters - iter)) * fluxNorm R0 geo sigmaT (minus (scalarFlux R0 wt psi) (scalarFlux R0 wt sol)) G).
  { clear H. intros i er p t pn po i' p' pn' po' er' EP H. induction H as [iter er0 p0 t0 pn0 po0 E|iter er0 p0 t0 pn0 po0 p1 i' p' pn' po' er' E total1 SW phi1 H IH].
    - split; [lia|]. rewrite N.sub_diag. simpl pow. lra.
    - destruct (IH eq_refl) as (I1 & I2). split; [lia|]. eapply Rle_trans; [exact I2|]. replace (N.to_nat (i' - iter)) with (S (N.to_nat (i' - N.succ iter))) by lia.
      pose proof (C62_contraction X node R0 g nG geo sigmaT pr pi wt k sigmaS Q SO sol _ _ _ _ SE SW G HG) as C. subst pn0.
      rewrite (norm_ext R0 geo sigmaT (minus (gPsiToPhi Rops (u_angles R0) nG wt (fun r => rm_nCells (u_mesh R0 r)) p0) (scalarFlux R0 wt sol)) (minus (scalarFlux R0 wt p0) (scalarFlux R0 wt sol))) in C
        by (intros r c v Hr Hc Hv; unfold minus; now rewrite (flux_same R0 nG wt p0) by auto).
      set (m := N.to_nat (i' - N.succ iter)) in *. simpl pow. set (km := k ^ m) in *. assert (0 <= km) by now apply pow_le.
      apply Rle_trans with (km * km * (k * k * fluxNorm R0 geo sigmaT (minus (scalarFlux R0 wt p0) (scalarFlux R0 wt sol)) G)); [apply Rmult_le_compat_l; [now apply Rmult_le_pos|auto]|right; ring]. }
  destruct (L _ _ _ _ _ _ _ _ _ _ _ eq_refl H) as (_ & K). rewrite N.sub_0_r in K. exact K.
Qed.
(** C62: and the last change of the flux bounds the error that is left: (1 - k) |error| <= k |change|. *)
Theorem C62_stopping : forall X (node : nat -> nat -> nat -> X) R0 g nG geo sigmaT pr pi wt k sigmaS Q, scattering_ok node R0 geo sigmaT pi wt k sigmaS -> k < 1 ->
  forall sol iterMax errMax psi iters psi' phiNew phiOld error, scattering_eq node R0 nG geo sigmaT pi sigmaS wt Q sol ->
  sourceIteration R0 g nG geo sigmaT pr pi sigmaS wt iterMax errMax Q psi iters psi' phiNew phiOld error -> (0 < iters)%N ->
  forall G, (G < nG)%nat -> (1 - k) * (1 - k) * fluxNorm R0 geo sigmaT (minus phiNew (scalarFlux R0 wt sol)) G <= k * k * fluxNorm R0 geo sigmaT (minus phiNew phiOld) G.
Proof.
  intros X node R0 g nG geo sigmaT pr pi wt k sigmaS Q SO K1 sol iterMax errMax psi iters psi' phiNew phiOld error SE H HI G HG. destruct (so_ratio _ _ _ _ _ _ _ _ SO) as (K0 & _). pose proof (so_transport _ _ _ _ _ _ _ _ SO) as OK.
  destruct (C41_residual X node R0 g nG geo sigmaT pr pi sigmaS wt Q OK iterMax errMax psi iters psi' phiNew phiOld error H HI) as (SP & DT & _).
  pose proof (contraction node R0 nG geo sigmaT pi wt k sigmaS SO Q phiOld (scalarFlux R0 wt sol) psi' sol G HG DT SE) as C.
  rewrite (norm_ext R0 geo sigmaT (minus (scalarFlux R0 wt psi') (scalarFlux R0 wt sol)) (minus phiNew (scalarFlux R0 wt sol))) in C by (intros r c v Hr Hc Hv; unfold minus; now rewrite (SP r c v G) by auto).
  set (e := fluxNorm R0 geo sigmaT (minus phiNew (scalarFlux R0 wt sol)) G) in *. pose proof (norm_nonneg node R0 geo sigmaT pi wt k sigmaS SO (minus phiNew phiOld) G) as D0. pose proof (norm_nonneg node R0 geo sigmaT pi wt k sigmaS SO (minus phiNew (scalarFlux R0 wt sol)) G) as E0. fold e in E0.
  destruct (Req_dec k 0) as [->|KN]; [rewrite !Rmult_0_l in *; lra|]. assert (KP : 0 < k) by lra. assert (T0 : 0 < (1 - k) / k) by (apply Rmult_lt_0_compat; [lra|now apply Rinv_0_lt_compat]).
  pose proof (norm_young node R0 geo sigmaT pi wt k sigmaS SO (minus phiNew (scalarFlux R0 wt sol)) (fun r c v G => - (minus phiNew phiOld r c v G)) ((1 - k) / k) G T0) as Y. fold e in Y.
  rewrite (norm_ext R0 geo sigmaT _ (minus phiOld (scalarFlux R0 wt sol))) in Y by (intros; unfold minus; ring).
  assert (EN : fluxNorm R0 geo sigmaT (fun r c v G => - minus phiNew phiOld r c v G) G = fluxNorm R0 geo sigmaT (minus phiNew phiOld) G) by (unfold fluxNorm; apply lsum_ext; intros [r c] _; unfold massForm, sum4; ring). rewrite EN in Y.
  set (d := fluxNorm R0 geo sigmaT (minus phiNew phiOld) G) in *. set (o := fluxNorm R0 geo sigmaT (minus phiOld (scalarFlux R0 wt sol)) G) in *.
  assert (Y' : k * k * o <= k * e + k * k / (1 - k) * d).
  { apply Rle_trans with (k * k * ((1 + (1 - k) / k) * e + (1 + / ((1 - k) / k)) * d)); [apply Rmult_le_compat_l; [now apply Rmult_le_pos|exact Y]|]. right. field. lra. }
  assert (Z : (1 - k) * e <= k * k / (1 - k) * d) by lra. apply (Rmult_le_compat_l (1 - k)) in Z; [|lra].
  replace ((1 - k) * (k * k / (1 - k) * d)) with (k * k * d) in Z by (field; lra). lra.
Qed.
(** C62: the scattering problem has exactly one solution if k < 1. *)
Theorem C62_well_posed : forall X (node : nat -> nat -> nat -> X) R0 nG geo sigmaT pi wt k sigmaS Q, scattering_ok node R0 geo sigmaT pi wt k sigmaS -> k < 1 ->
  (exists sol, scattering_eq node R0 nG geo sigmaT pi sigmaS wt Q sol) /\
  forall sol sol', scattering_eq node R0 nG geo sigmaT pi sigmaS wt Q sol -> scattering_eq node R0 nG geo sigmaT pi sigmaS wt Q sol' -> same R0 nG sol sol'.
Proof.
  intros X node R0 nG geo sigmaT pi wt k sigmaS Q SO K1. pose proof (so_transport _ _ _ _ _ _ _ _ SO) as OK. destruct (so_ratio _ _ _ _ _ _ _ _ SO) as (K0 & _). split; [eapply exists_solution; eauto|].
  intros sol sol' S1 S2. apply (eq_unique node R0 nG geo sigmaT OK) with (1 := S1). eapply (eq_ext node R0 nG geo sigmaT OK); [|intros ? ? ? ? ? _ _ _; reflexivity|exact S2].
  intros r c a v G (Hr & Hc & Ha) Hv HG. cbv beta. f_equal. pose proof (contraction node R0 nG geo sigmaT pi wt k sigmaS SO Q _ _ _ _ G HG S1 S2) as C.
  set (e := fluxNorm R0 geo sigmaT (minus (scalarFlux R0 wt sol) (scalarFlux R0 wt sol')) G) in *. pose proof (norm_nonneg node R0 geo sigmaT pi wt k sigmaS SO (minus (scalarFlux R0 wt sol) (scalarFlux R0 wt sol')) G) as E0. fold e in E0.
  assert (KK : k * k < 1) by (apply Rle_lt_trans with (k * 1); [apply Rmult_le_compat_l; lra|lra]).
  assert (Z : e <= 0). { destruct (Rle_lt_dec e 0) as [|P]; auto. exfalso. assert (k * k * e < 1 * e) by now apply Rmult_lt_compat_r. lra. }
  pose proof (norm_zero node R0 geo sigmaT pi wt k sigmaS SO _ G Z r c v Hr Hc Hv) as Q0. unfold minus in Q0. lra.
Qed.

(** The two tetrahedra on two ranks with scattering ratio 1/2: converges, by a factor of at least 2 per iteration. *)
Example C62_ex : scattering_ok tetNode tetRun tetGeo (fun _ _ => 1) PI (fun _ => 2 * PI) (/ 2) (fun _ _ => / 2).
Proof.
  constructor; [exact tet_transport| | |].
  - intros r c f q c' f' a Hm Ha. change (tetMate (r, c, f) = Some (q, c', f')) in Hm. apply tet_mate in Hm as (Hr & -> & -> & E). inversion E; subst. unfold sarea, farea, fom, tetGeo. cbn [rg_area rg_omN get4]. cbn in Ha.
    destruct r as [|[|r]]; [| |lia]; (destruct a as [|[|a]]; [| |lia]); cbn; lra.
  - split; [exact PI_RGT_0|]. pose proof PI_RGT_0. split; [intros; lra|]. unfold overAngles, lsum. cbn. lra.
  - split; [lra|]. intros. split; [lra|]. pose proof PI_RGT_0. unfold overAngles, lsum. cbn. right. field. lra.
Qed.
(** C62: the weights of every supported quadrature will do, and scattering below k sigma_t in every cell: the factor is k, up to
    the rounding of the tables (C46). *)
Theorem C62_quadrature : forall X (node : nat -> nat -> nat -> X) R0 geo sigmaT n q k sigmaS, quadrature n = Some q -> u_angles R0 = length q ->
  transport_ok node R0 geo sigmaT -> faces_match R0 geo -> 0 <= k ->
  (forall r c, (r < u_ranks R0)%nat -> (c < rm_nCells (u_mesh R0 r))%nat -> 0 <= sigmaS r c <= k * sigmaT r c) ->
  scattering_ok node R0 geo sigmaT PI (fun a => d_w (nth a q (mkDir 0 0 0 0))) (k * (1 + / 10 ^ 14)) sigmaS.
Proof.
  intros X node R0 geo sigmaT n q k sigmaS HQ HA OK FM K0 HS.
  assert (E : overAngles (u_angles R0) (fun a => d_w (nth a q (mkDir 0 0 0 0))) (fun _ => 1) = qsum q (fun _ _ _ => 1)).
  { rewrite HA. unfold overAngles, qsum. clear. induction q as [|d q IH]; [reflexivity|]. cbn [length map fold_right]. rewrite <- IH. rewrite <- cons_seq, lsum_cons, <- seq_shift, lsum_map. reflexivity. }
  destruct (C46_normalised n q HQ) as (N & _). destruct (C46_directions n q HQ) as (_ & P). pose proof PI_RGT_0 as PI0. assert (T : 0 < / 10 ^ 14) by (apply Rinv_0_lt_compat, pow_lt; lra).
  assert (T1 : / 10 ^ 14 <= 1). { rewrite <- Rinv_1. apply Rinv_le_contravar; [lra|]. apply pow_R1_Rle. lra. }
  set (s := qsum q (fun _ _ _ => 1)) in *. pose proof (Rle_abs (s - 4 * PI)) as N1. pose proof (Rle_abs (- (s - 4 * PI))) as N2. rewrite Rabs_Ropp in N2. assert (TP : 2 * PI * / 10 ^ 14 <= 2 * PI * 1) by (apply Rmult_le_compat_l; lra).
  constructor; auto.
  - split; [auto|]. rewrite E. split; [|cbv zeta in N; lra]. intros a Ha. left. apply P. apply nth_In. lia.
  - split; [apply Rmult_le_pos; lra|]. intros r c Hr Hc. destruct (HS r c Hr Hc) as (S0 & S1). split; [auto|]. rewrite E.
    assert (B : s / (4 * PI) <= 1 + / 10 ^ 14).
    { apply Rmult_le_reg_r with (4 * PI); [lra|]. unfold Rdiv. rewrite Rmult_assoc, Rinv_l, Rmult_1_r by lra. assert (0 <= 2 * PI * / 10 ^ 14) by (apply Rmult_le_pos; lra). cbv zeta in N. lra. }
    apply Rle_trans with ((1 + / 10 ^ 14) * sigmaS r c); [now apply Rmult_le_compat_r|].
    replace (k * (1 + / 10 ^ 14) * sigmaT r c) with ((1 + / 10 ^ 14) * (k * sigmaT r c)) by ring. apply Rmult_le_compat_l; lra.
Qed.
Print Assumptions C62_quadrature. Print Assumptions C62_contraction. Print Assumptions C62_iterations. Print Assumptions C62_stopping. Print Assumptions C62_well_posed.
