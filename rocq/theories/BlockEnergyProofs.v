(** Energy estimates for sweeps on every rank with data of the previous iteration at the interfaces; lemmas for
    PropertiesBlockEnergy. *)
From Coq Require Import Reals Lra.
From Verif Require Import Prelude Bytes MeshModel GeometryModel GaussModel TransportModel TransportSpec TransportProofs.
From Verif Require Import AngleModel TraverseModel TraverseSpec TraverseRun PropertiesTraverse SweepModel SweepSpec SweepProofs PropertiesSweep FluxModel FluxSpec FluxProofs PropertiesFlux SourceModel SourceSpec SourceProofs.
From Verif Require Import CommModel BlockModel BlockProofs SchurModel SchurSpec SchurProofs EnergySpec EnergyProofs PropertiesEnergy.
Local Open Scope R_scope.

#[local] Instance rle_transitive : RelationClasses.Transitive Rle := Rle_trans.

(** A finite list has an upper bound. *)
Lemma list_bound {A} (l : list A) (f : A -> R) : exists B, 0 < B /\ forall x, In x l -> f x <= B.
Proof.
  induction l as [|x l (B & B0 & H)]; [exists 1; split; [lra|intros ? []]|]. exists (B + Rabs (f x)). pose proof (Rabs_pos (f x)). split; [lra|].
  intros y [<-|I]; [pose proof (Rle_abs (f x)); lra|specialize (H y I); lra].
Qed.
(** The trace of a function on a face is bounded by the function. *)
Lemma trace_cell V f x : 0 < V -> faceForm f x x <= 20 / (3 * V) * massForm V x x.
Proof.
  intros HV. unfold massForm. replace (20 / (3 * V) * (V / 20 * (sum4 (fun i => x i * x i) + sum4 x * sum4 x))) with (/ 3 * (sum4 (fun i => x i * x i) + sum4 x * sum4 x)) by (field; lra).
  unfold faceForm, sumFace, sum4. pose proof (sq_pos (x 0%nat)); pose proof (sq_pos (x 1%nat)); pose proof (sq_pos (x 2%nat)); pose proof (sq_pos (x 3%nat)).
  pose proof (sq_pos (x 0%nat + x 1%nat + x 2%nat + x 3%nat)).
  pose proof (sq_pos (x 0%nat - x 1%nat)); pose proof (sq_pos (x 0%nat - x 2%nat)); pose proof (sq_pos (x 0%nat - x 3%nat)); pose proof (sq_pos (x 1%nat - x 2%nat)); pose proof (sq_pos (x 1%nat - x 3%nat)); pose proof (sq_pos (x 2%nat - x 3%nat)).
  destruct (Nat.eqb 0 f), (Nat.eqb 1 f), (Nat.eqb 2 f), (Nat.eqb 3 f); lra.
Qed.

Section BlockEnergy.
  Context {X : Type}.
  Variables (node : nat -> nat -> nat -> X) (R0 : run (value R) (block R)) (nG : nat) (geo : nat -> rgeo R) (sigmaT : nat -> nat -> R).
  Hypothesis OK : transport_ok node R0 geo sigmaT.
  Hypothesis FVS : face_vertices R0 geo.
  Hypothesis FM : faces_match R0 geo.
  Notation GPsi := (nat -> nat -> nat -> nat -> nat -> R).
  Notation GPhi := (nat -> nat -> nat -> nat -> R).
  Notation leq := (local_eq node R0 nG geo sigmaT).
  Notation nC := (fun r => rm_nCells (u_mesh R0 r)).
  Notation vol := (fun r c => rg_volume (geo r) c).
  Notation sites := (sites R0). Notation cells := (cells R0).

  (** The face lies between two ranks. *)
  Definition remote (x : nat * nat * nat) : bool := match u_mate R0 x with Some (q, _, _) => negb (q =? fst (fst x))%nat | None => false end.
  (** What leaves through a face. *)
  Definition outflow (e : GPsi) (a G : nat) (x : nat * nat * nat) : R := let '(r, c, f) := x in pp (sarea geo r a c f) * faceForm f (fun v => e r c a v G) (fun v => e r c a v G).
  (** What leaves ranks to other ranks. *)
  Definition passed (e : GPsi) (a G : nat) : R := lsum sites (fun x => if remote x then outflow e a G x else 0).
  Lemma outflow_pos e a G x : 0 <= outflow e a G x.
  Proof. destruct x as [[r c] f]. apply Rmult_le_pos; [|apply face_nonneg]. unfold pp. destruct (Rgt_dec _ _); lra. Qed.
  Lemma passed_pos e a G : 0 <= passed e a G.
  Proof. apply lsum_nonneg. intros x _. destruct (remote x); [apply outflow_pos|lra]. Qed.
  Lemma remote_mate x y : u_mate R0 x = Some y -> remote y = remote x.
  Proof.
    intros H. pose proof (so_sym _ _ _ _ (sys node R0 geo sigmaT OK) _ _ H) as H'. unfold remote. rewrite H, H'. destruct x as [[r c] f], y as [[q c'] f']. cbn [fst]. now rewrite Nat.eqb_sym.
  Qed.

  (** The energy estimate of one angle and group, with the data of [e0] at the interfaces. *)
  Lemma energy_local Q bnd e0 e a G : leq Q bnd e -> exchanged R0 nG geo e0 bnd -> (a < u_angles R0)%nat -> (G < nG)%nat ->
    lsum cells (fun rc => let '(r, c) := rc in sigmaT r c * massForm (vol r c) (fun v => e r c a v G) (fun v => e r c a v G)) + / 2 * passed e a G <=
    lsum cells (fun rc => let '(r, c) := rc in massForm (vol r c) (fun v => Q r c a v G) (fun v => e r c a v G)) + / 2 * passed e0 a G.
  Proof.
    intros D EX Ha HG. pose proof (to_geo _ _ _ _ OK) as GF. pose proof (sys node R0 geo sigmaT OK) as G1.
    set (h := fun y => if remote y then outflow e0 a G y else outflow e a G y).
    assert (h_pos : forall x, 0 <= h x) by (intros x; unfold h; destruct (remote x); apply outflow_pos).
    set (inn := fun x => match u_mate R0 x with Some y => h y | None => 0 end).
    assert (IO : lsum sites inn <= lsum sites h).
    { transitivity (lsum (mates R0) h); [right|apply lsum_incl; [eapply mates_nodup; eauto|eapply mates_incl; eauto|auto]]. unfold mates. rewrite lsum_flat. apply lsum_ext. intros x _. unfold inn. destruct (u_mate R0 x); unfold lsum; cbn; lra. }
    assert (CELL : forall r c, (r < u_ranks R0)%nat -> (c < nC r)%nat ->
      sigmaT r c * massForm (vol r c) (fun v => e r c a v G) (fun v => e r c a v G) + / 2 * lsum (seq 0 4) (fun f => outflow e a G (r, c, f)) <= massForm (vol r c) (fun v => Q r c a v G) (fun v => e r c a v G) + / 2 * lsum (seq 0 4) (fun f => inn (r, c, f))).
    { intros r c Hr Hc. assert (VA : okc R0 r c a) by (split; auto). destruct (D r c a G VA HG) as (nb & N & E).
      assert (Z : sum4 (sarea geo r a c) = 0) by exact (gf_closed _ _ _ _ _ _ _ _ _ _ _ _ GF r a c Hr Ha Hc).
      eapply Rle_trans; [|eapply Rle_trans; [exact (energy_cell _ _ _ _ _ _ Z E)|]]; [rewrite <- sum4_list; right; reflexivity|].
      apply Rplus_le_compat_l, Rmult_le_compat_l; [lra|]. rewrite sum4_list. apply lsum_le. intros f Hf. apply in_seq in Hf. assert (Hf4 : (f < 4)%nat) by lia. clear Hf.
      unfold nn. destruct (Rgt_dec 0 (sarea geo r a c f)) as [NEG|]; [|unfold inn; destruct (u_mate R0 (r, c, f)) as [y|]; [pose proof (h_pos y); lra|lra]].
      assert (NO : ~ sarea geo r a c f > 0) by lra.
      assert (AC : forall j, In j (faceVs f) -> entering node R0 geo bnd e r c a G f j (nb f j)). { intros j Hj. apply faceVs_In in Hj as (Hj & NE). now apply N. }
      unfold entering in AC. unfold inn. destruct (u_mate R0 (r, c, f)) as [[[q c'] f']|] eqn:Hm.
      - pose proof (so_sym _ _ _ _ G1 _ _ Hm) as Hb. destruct (so_range _ _ _ _ G1 _ _ _ _ Hb) as (Hq & Hc' & Hf').
        set (y := if (q =? r)%nat then e else e0).
        rewrite (face_move f f' (nb f) (fun v => y q c' a v G) (fun j k => node q c' k = node r c j)); auto.
        + assert (EH : h (q, c', f') = outflow y a G (q, c', f')). { unfold h, y. rewrite (remote_mate _ _ Hm). unfold remote. rewrite Hm. cbn [fst]. destruct (q =? r)%nat; reflexivity. }
          rewrite EH. unfold outflow, pp. rewrite (FM r c f q c' f' a Hm Ha) in *. destruct (Rgt_dec (sarea geo q a c' f') 0); [right; ring|lra].
        + intros j Hj. specialize (AC j Hj). apply faceVs_In in Hj as (Hj & NE). unfold y. destruct (Nat.eqb_spec q r) as [->|Nq].
          * destruct AC as (k & K1 & K2 & K3 & K4). exists k. split; [now apply faceVs_In|auto].
          * destruct (gf_remote _ _ _ _ _ _ _ _ _ _ _ _ GF r c f q c' f' j Hm Nq Hj NE) as (K1 & K2 & K3). eexists. split; [apply faceVs_In; split; [exact K1|exact K2]|]. split; [exact K3|].
            rewrite AC. apply EX; auto; [eapply flow_in; eauto|eapply FV; eauto].
        + cbv beta. intros j j' k Hj Hj' K1 K2. apply faceVs_In in Hj, Hj'. apply (to_nodes _ _ _ _ OK r c); [auto|auto|apply Hj|apply Hj'|congruence].
      - assert (Z0 : faceForm f (nb f) (nb f) = 0). { unfold faceForm. rewrite !sumFace_list. rewrite (lsum_ext _ _ (fun _ => 0 * 0)) by (intros j Hj; rewrite (AC j Hj); ring). rewrite (lsum_ext _ (nb f) (fun _ => 0 * 0)) by (intros j Hj; rewrite (AC j Hj); ring). rewrite lsum_scal. ring. }
        rewrite Z0. lra. }
    assert (H1 : lsum sites (outflow e a G) = passed e a G + lsum sites (fun x => if remote x then 0 else outflow e a G x)).
    { unfold passed. rewrite <- lsum_plus. apply lsum_ext. intros x _. destruct (remote x); lra. }
    assert (H2 : lsum sites h = passed e0 a G + lsum sites (fun x => if remote x then 0 else outflow e a G x)).
    { unfold passed. rewrite <- lsum_plus. apply lsum_ext. intros x _. unfold h. destruct (remote x); lra. }
    assert (P : lsum sites (outflow e a G) = lsum cells (fun rc => lsum (seq 0 4) (fun f => outflow e a G (rc, f)))) by apply lsum_prod.
    assert (P' : lsum sites inn = lsum cells (fun rc => lsum (seq 0 4) (fun f => inn (rc, f)))) by apply lsum_prod.
    pose proof (lsum_le cells (fun rc => (let '(r, c) := rc in sigmaT r c * massForm (vol r c) (fun v => e r c a v G) (fun v => e r c a v G)) + / 2 * lsum (seq 0 4) (fun f => outflow e a G (rc, f)))
      (fun rc => (let '(r, c) := rc in massForm (vol r c) (fun v => Q r c a v G) (fun v => e r c a v G)) + / 2 * lsum (seq 0 4) (fun f => inn (rc, f)))) as L.
    rewrite !lsum_plus, !lsum_scal in L. enough (K : forall x, In x cells -> _) by (specialize (L K); lra). intros [r c] I. apply cells_In in I as (Hr & Hc). now apply CELL.
  Qed.

  (** What is passed on is bounded by the flux. *)
  Lemma trace : exists B, 0 < B /\ forall e a G, (a < u_angles R0)%nat ->
    passed e a G <= B * lsum cells (fun rc => let '(r, c) := rc in sigmaT r c * massForm (vol r c) (fun v => e r c a v G) (fun v => e r c a v G)).
  Proof.
    destruct (list_bound (list_prod sites (seq 0 (u_angles R0))) (fun xa => let '(r, c, f, a) := xa in pp (sarea geo r a c f) * (20 / (3 * vol r c)) / sigmaT r c)) as (B & B0 & HB).
    exists (4 * B). split; [lra|]. intros e a G Ha. unfold passed.
    transitivity (lsum sites (outflow e a G)); [apply lsum_le; intros x _; pose proof (outflow_pos e a G x); destruct (remote x); lra|].
    assert (P : lsum sites (outflow e a G) = lsum cells (fun rc => lsum (seq 0 4) (fun f => outflow e a G (rc, f)))) by apply lsum_prod. rewrite P, <- lsum_scal. apply lsum_le.
    intros [r c] I. pose proof I as I'. apply cells_In in I' as (Hr & Hc). pose proof (to_sigma _ _ _ _ OK r c Hr Hc) as SP. pose proof (gf_volume _ _ _ _ _ _ _ _ _ _ _ _ (to_geo _ _ _ _ OK) r c Hr Hc) as VP.
    set (m := massForm (vol r c) (fun v => e r c a v G) (fun v => e r c a v G)). assert (M0 : 0 <= m) by (apply mass_nonneg; auto).
    assert (F : forall f, In f (seq 0 4) -> outflow e a G (r, c, f) <= B * (sigmaT r c * m)).
    { intros f Hf. assert (IN : In (r, c, f, a) (list_prod sites (seq 0 (u_angles R0)))) by (apply in_prod; [apply in_prod; auto|apply in_seq; lia]).
      specialize (HB _ IN). cbv beta iota in HB. unfold outflow. assert (P0 : 0 <= pp (sarea geo r a c f)) by (unfold pp; destruct (Rgt_dec _ _); lra).
      pose proof (trace_cell (vol r c) f (fun v => e r c a v G) VP) as T. cbv beta in T. fold m in T. apply (Rmult_le_compat_l (pp (sarea geo r a c f))) in T; [|auto]. eapply Rle_trans; [exact T|].
      apply (Rmult_le_compat_r (sigmaT r c * m)) in HB; [|apply Rmult_le_pos; lra]. eapply Rle_trans; [|exact HB]. right. field. lra. }
    change (lsum (seq 0 4) (fun f => outflow e a G (r, c, f)) <= 4 * B * (sigmaT r c * m)). eapply Rle_trans; [apply lsum_le; exact F|]. right. unfold lsum. cbn. ring.
  Qed.

  Variables (pi : R) (wt : nat -> R).
  Hypothesis W : weights_ok R0 pi wt.
  Notation wsum := (overAngles (u_angles R0) wt (fun _ => 1)).
  Notation psiNorm := (psiNorm R0 geo sigmaT wt).
  Notation fluxNorm := (fluxNorm R0 geo sigmaT).
  Notation flux := (scalarFlux R0 wt).
  Definition passedAll (e : GPsi) (G : nat) : R := lsum (seq 0 (u_angles R0)) (fun a => wt a * passed e a G).
  Lemma passedAll_pos e G : 0 <= passedAll e G.
  Proof. apply lsum_nonneg. intros a Ia. apply Rmult_le_pos; [now apply (wt_pos R0 pi wt W)|apply passed_pos]. Qed.
  Lemma trace_all : exists B, 0 < B /\ forall e G, passedAll e G <= B * psiNorm e G.
  Proof.
    destruct trace as (B & B0 & H). exists B. split; [auto|]. intros e G. rewrite psi_angles, <- lsum_scal. apply lsum_le. intros a Ia. pose proof (wt_pos R0 pi wt W a Ia) as W0. apply in_seq in Ia.
    specialize (H e a G ltac:(lia)). apply (Rmult_le_compat_l (wt a)) in H; [|auto]. lra.
  Qed.
  Lemma psiNorm_pos e G : 0 <= psiNorm e G.
  Proof.
    rewrite psi_angles. apply lsum_nonneg. intros a Ia. apply Rmult_le_pos; [now apply (wt_pos R0 pi wt W)|]. apply lsum_nonneg. intros [r c] I. apply cells_In in I as (Hr & Hc).
    pose proof (to_sigma _ _ _ _ OK r c Hr Hc) as SP. pose proof (gf_volume _ _ _ _ _ _ _ _ _ _ _ _ (to_geo _ _ _ _ OK) r c Hr Hc) as VP. apply Rmult_le_pos; [lra|now apply mass_nonneg].
  Qed.
  Lemma flux_local s bnd e0 e G : leq (fun r c _ v G => s r c v G) bnd e -> exchanged R0 nG geo e0 bnd -> (G < nG)%nat ->
    psiNorm e G + / 2 * passedAll e G <= lsum cells (fun rc => let '(r, c) := rc in massForm (vol r c) (fun v => s r c v G) (fun v => flux e r c v G)) + / 2 * passedAll e0 G.
  Proof.
    intros D EX HG. rewrite psi_angles, <- source_angles. unfold passedAll. rewrite <- !lsum_scal, <- !lsum_plus. apply lsum_le. intros a Ia. pose proof (wt_pos R0 pi wt W a Ia) as W0. apply in_seq in Ia.
    pose proof (energy_local _ bnd e0 e a G D EX ltac:(lia) HG) as E. apply (Rmult_le_compat_l (wt a)) in E; [|auto]. lra.
  Qed.

  Variables (k : R) (sigmaS : nat -> nat -> R).
  Hypothesis SC : scatters R0 sigmaT pi wt k sigmaS.
  (** A sweep on every rank, with the source of the flux [d] and interface data of [e0]. *)
  Lemma step_energy d bnd e0 e G : leq (fun r c _ v G => sigmaS r c / (4 * pi) * d r c v G) bnd e -> exchanged R0 nG geo e0 bnd -> (G < nG)%nat ->
    wsum * (psiNorm e G + passedAll e G) <= k * k * fluxNorm d G + wsum * passedAll e0 G.
  Proof.
    intros D EX HG. pose proof (flux_local (fun r c v G => sigmaS r c / (4 * pi) * d r c v G) bnd e0 e G D EX HG) as E. destruct W as (_ & _ & W0).
    pose proof (scatter_young node R0 geo sigmaT OK pi wt W k sigmaS SC d (flux e) G) as Y. pose proof (flux_psi node R0 geo sigmaT OK pi wt W e G) as F. apply (Rmult_le_compat_l wsum) in E; [|lra]. cbv beta in E. lra.
  Qed.
  Definition energyOf (d : GPhi) (e : GPsi) (G : nat) : R := k * k * fluxNorm d G + wsum * passedAll e G.
  Lemma step_decrease d bnd e0 e G : leq (fun r c _ v G => sigmaS r c / (4 * pi) * d r c v G) bnd e -> exchanged R0 nG geo e0 bnd -> (G < nG)%nat ->
    (1 - k * k) * (wsum * psiNorm e G) + energyOf (flux e) e G <= energyOf d e0 G.
  Proof.
    intros D EX HG. pose proof (step_energy d bnd e0 e G D EX HG) as E. pose proof (flux_psi node R0 geo sigmaT OK pi wt W e G) as F.
    apply (Rmult_le_compat_l (k * k)) in F; [|apply sq_pos]. unfold energyOf. lra.
  Qed.
  (** An exact solve on every rank, scattering included. *)
  Lemma outer_decrease bnd e0 e G : leq (fun r c _ v G => sigmaS r c / (4 * pi) * flux e r c v G) bnd e -> exchanged R0 nG geo e0 bnd -> (G < nG)%nat ->
    (1 - k * k) * psiNorm e G + passedAll e G <= passedAll e0 G.
  Proof.
    intros D EX HG. pose proof (step_decrease (flux e) bnd e0 e G D EX HG) as E. unfold energyOf in E. destruct W as (_ & _ & W0). apply Rmult_le_reg_l with wsum; [auto|]. lra.
  Qed.
  (** The energy of an iterate is bounded by its error: the decrease is geometric. *)
  Lemma energy_psi : exists C, 0 < C /\ forall e G, energyOf (flux e) e G <= C * (wsum * psiNorm e G).
  Proof.
    destruct trace_all as (B & B0 & H). exists (k * k + B). pose proof (sq_pos k). split; [lra|]. intros e G. specialize (H e G). pose proof (flux_psi node R0 geo sigmaT OK pi wt W e G) as F. destruct W as (_ & _ & W0).
    apply (Rmult_le_compat_l (k * k)) in F; [|apply sq_pos]. apply (Rmult_le_compat_l wsum) in H; [|lra]. unfold energyOf. lra.
  Qed.
  Lemma energyOf_pos d e G : 0 <= energyOf d e G.
  Proof.
    destruct W as (_ & _ & W0). unfold energyOf. apply Rplus_le_le_0_compat; apply Rmult_le_pos; [apply sq_pos| |lra|apply passedAll_pos].
    unfold EnergySpec.fluxNorm. apply lsum_nonneg. intros [r c] I. apply cells_In in I as (Hr & Hc).
    pose proof (to_sigma _ _ _ _ OK r c Hr Hc) as SP. pose proof (gf_volume _ _ _ _ _ _ _ _ _ _ _ _ (to_geo _ _ _ _ OK) r c Hr Hc) as VP. apply Rmult_le_pos; [lra|now apply mass_nonneg].
  Qed.
End BlockEnergy.
