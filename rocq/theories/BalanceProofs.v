(** Proofs for C75: particle balance over the whole mesh. *)
From Coq Require Import Reals Lra Permutation.
From Verif Require Import Prelude Bytes MeshModel MeshSpec CreateModel CreateSpec CreateProofs TychoModel TychoSpec GeometryModel GeometrySpec GaussModel TransportModel TransportSpec TransportProofs AngleModel TraverseModel TraverseSpec TraverseRun PropertiesTraverse SweepModel SweepSpec SweepProofs PropertiesSweep FluxModel FluxSpec FluxProofs PropertiesFlux SourceModel SourceSpec SourceProofs EnergySpec
  EnergyProofs PropertiesEnergy ViewModel ViewSpec ViewProofs ViewSysProofs ViewEqProofs PropertiesView MainTransport BalanceSpec.
Local Open Scope R_scope.
Notation sum4 := TransportSpec.sum4.

Lemma face_sum f f' x y (P : nat -> nat -> Prop) : (f < 4)%nat -> (f' < 4)%nat -> (forall j, In j (faceVs f) -> exists k, In k (faceVs f') /\ P j k /\ x j = y k) ->
  (forall j j' k, In j (faceVs f) -> In j' (faceVs f) -> P j k -> P j' k -> j = j') -> sumFace f x = sumFace f' y.
Proof.
  intros Hf Hf' H INJ. destruct (match_list _ _ H) as (m & F2).
  assert (ND : NoDup m). { eapply forall2_nodup; [exact F2|apply faceVs_nodup|]. cbv beta. intros j j' k Hj Hj' (_ & P1 & _) (_ & P2 & _). eapply INJ; eauto. }
  assert (IN : incl m (faceVs f')). { intros k Hk. destruct (forall2_in _ _ _ _ F2 Hk) as (j & _ & I & _). exact I. }
  assert (PM : Permutation m (faceVs f')). { apply NoDup_Permutation_bis; auto. rewrite <- (forall2_length _ _ _ F2), !faceVs_length; auto. }
  rewrite !sumFace_list, <- (lsum_perm _ _ _ PM). eapply forall2_lsum; [exact F2|]. cbv beta. intros j k (_ & _ & E). exact E.
Qed.
Lemma lsum_minus {A} (l : list A) f h : lsum l (fun x => f x - h x) = lsum l f - lsum l h.
Proof. unfold lsum. induction l as [|x l IH]; cbn; [lra|rewrite IH; lra]. Qed.
Lemma lsum_filter {A} (l : list A) (p : A -> bool) f : lsum (filter p l) f = lsum l (fun x => if p x then f x else 0).
Proof. unfold lsum. induction l as [|x l IH]; cbn; [reflexivity|]. destruct (p x); cbn; rewrite IH; lra. Qed.

Section Ranks.
  Context {X : Type}.
  Variables (node : nat -> nat -> nat -> X) (R0 : run (value R) (block R)) (nG : nat) (geo : nat -> rgeo R) (sigmaT : nat -> nat -> R).
  Hypothesis OK : transport_ok node R0 geo sigmaT.
  Hypothesis FM : faces_match R0 geo.
  Notation teq := (transport_eq node R0 nG geo sigmaT).
  Notation nC := (fun r => rm_nCells (u_mesh R0 r)).
  Notation vol := (fun r c => rg_volume (geo r) c).
  Definition leaves (e : nat -> nat -> nat -> nat -> nat -> R) (a G : nat) (x : nat * nat * nat) : R :=
    let '(r, c, f) := x in pp (sarea geo r a c f) * (sumFace f (fun v => e r c a v G) / 3).
  (** What enters the cells is what leaves the cells on the other side of their faces. *)
  Lemma mates_perm : Permutation (mates R0) (filter (fun x => match u_mate R0 x with Some _ => true | None => false end) (sites R0)).
  Proof.
    pose proof (to_sys _ _ _ _ OK) as G1. apply NoDup_Permutation; [eapply mates_nodup; eauto|apply NoDup_filter, sites_nodup|]. intros y. rewrite filter_In. split.
    - intros I. split; [eapply mates_incl; eauto|]. unfold mates in I. apply in_flat_map in I as (x & _ & I). destruct (u_mate R0 x) as [y'|] eqn:E; [|destruct I]. destruct I as [->|[]]. now rewrite (so_sym _ _ _ _ G1 _ _ E).
    - intros (I & H). destruct (u_mate R0 y) as [x|] eqn:E; [|discriminate]. unfold mates. apply in_flat_map. exists x. pose proof (so_sym _ _ _ _ G1 _ _ E) as E'. rewrite E'. split; [|now left].
      destruct x as [[r c] f]. apply sites_In. destruct (so_range _ _ _ _ G1 _ _ _ _ E') as (? & ? & ?). auto.
  Qed.
  Lemma balance_ranks Q e a G : teq Q e -> (a < u_angles R0)%nat -> (G < nG)%nat ->
    lsum (cells R0) (fun rc => let '(r, c) := rc in sigmaT r c * (vol r c * (sum4 (fun v => e r c a v G) / 4)) +
      sum4 (fun f => match u_mate R0 (r, c, f) with Some _ => 0 | None => leaves e a G (r, c, f) end)) =
    lsum (cells R0) (fun rc => let '(r, c) := rc in vol r c * (sum4 (fun v => Q r c a v G) / 4)).
  Proof.
    intros D Ha HG. pose proof (to_geo _ _ _ _ OK) as GF. pose proof (to_sys _ _ _ _ OK) as G1. cbv beta.
    set (out := leaves e a G). set (inn := fun x => match u_mate R0 x with Some y => out y | None => 0 end).
    assert (IO : lsum (sites R0) inn = lsum (sites R0) (fun x => match u_mate R0 x with Some _ => out x | None => 0 end)).
    { transitivity (lsum (mates R0) out).
      - unfold mates. rewrite lsum_flat. apply lsum_ext. intros x _. unfold inn. destruct (u_mate R0 x); unfold lsum; cbn; lra.
      - rewrite (lsum_perm _ _ out mates_perm), lsum_filter. apply lsum_ext. intros x _. now destruct (u_mate R0 x). }
    assert (CELL : forall r c, (r < u_ranks R0)%nat -> (c < nC r)%nat ->
      sigmaT r c * (vol r c * (sum4 (fun v => e r c a v G) / 4)) + lsum (seq 0 4) (fun f => out (r, c, f)) - lsum (seq 0 4) (fun f => inn (r, c, f)) = vol r c * (sum4 (fun v => Q r c a v G) / 4)).
    { intros r c Hr Hc. destruct (D r c a G) as (nb & N & E); [split; auto|auto|].
      assert (Z : sum4 (sarea geo r a c) = 0) by exact (gf_closed _ _ _ _ _ _ _ _ _ _ _ _ GF r a c Hr Ha Hc).
      rewrite <- (dg_balance _ _ _ _ _ _ Z E).
      assert (EO : outflow (sarea geo r a c) (fun v => e r c a v G) = lsum (seq 0 4) (fun f => out (r, c, f))). { unfold outflow. rewrite sum4_list. apply lsum_ext. intros f _. unfold out, leaves, pp. destruct (Rgt_dec _ 0); lra. }
      assert (EI : inflow (sarea geo r a c) nb = lsum (seq 0 4) (fun f => inn (r, c, f))).
      { unfold inflow. rewrite sum4_list. apply lsum_ext. intros f Hf. apply in_seq in Hf. assert (Hf4 : (f < 4)%nat) by lia. clear Hf.
        assert (AC : sarea geo r a c f < 0 -> forall j, In j (faceVs f) -> across node (u_mate R0) (fun r c a G v => e r c a v G) r c a G f j (nb f j)). { intros NEG j Hj. apply faceVs_In in Hj as (Hj & NE). apply N; auto. lra. }
        unfold across in AC. unfold inn. destruct (u_mate R0 (r, c, f)) as [[[q c'] f']|] eqn:Hm.
        - pose proof (so_sym _ _ _ _ G1 _ _ Hm) as Hb. destruct (so_range _ _ _ _ G1 _ _ _ _ Hb) as (Hq & Hc' & Hf').
          unfold out, leaves, pp. rewrite (FM r c f q c' f' a Hm Ha) in *. destruct (Rlt_dec (- sarea geo q a c' f') 0) as [NEG|NEG], (Rgt_dec (sarea geo q a c' f') 0) as [P|P]; try lra. specialize (AC NEG).
          replace (sumFace f (nb f)) with (sumFace f' (fun v => e q c' a v G)); [lra|]. symmetry.
          apply (face_sum f f' (nb f) (fun v => e q c' a v G) (fun j k => node q c' k = node r c j)); auto.
          + intros j Hj. destruct (AC j Hj) as (k & K1 & K2 & K3 & K4). exists k. split; [now apply faceVs_In|auto].
          + cbv beta. intros j j' k Hj Hj' K1 K2. apply faceVs_In in Hj, Hj'. apply (to_nodes _ _ _ _ OK r c); [auto|auto|apply Hj|apply Hj'|congruence].
        - destruct (Rlt_dec (sarea geo r a c f) 0) as [NEG|]; [|reflexivity]. specialize (AC NEG). rewrite sumFace_list, (lsum_ext _ (nb f) (fun _ => 0 * 0)) by (intros j Hj; rewrite (AC j Hj); ring). rewrite lsum_scal. lra. }
      rewrite <- EO, <- EI. lra. }
    unfold sites in IO. rewrite !lsum_prod in IO.
    rewrite (lsum_ext (cells R0) (fun rc => let '(r, c) := rc in vol r c * (sum4 (fun v => Q r c a v G) / 4))
      (fun rc => (let '(r, c) := rc in sigmaT r c * (vol r c * (sum4 (fun v => e r c a v G) / 4))) + lsum (seq 0 4) (fun f => out (rc, f)) - lsum (seq 0 4) (fun f => inn (rc, f))))
      by (intros [r c] I; apply cells_In in I as (Hr & Hc); symmetry; now apply CELL).
    rewrite lsum_minus, IO, <- lsum_minus. apply lsum_ext. intros [r c] _. rewrite (sum4_list (fun f => match u_mate R0 (r, c, f) with Some _ => 0 | None => out (r, c, f) end)).
    enough (K : lsum (seq 0 4) (fun f => match u_mate R0 (r, c, f) with Some _ => 0 | None => out (r, c, f) end) =
      lsum (seq 0 4) (fun f => out (r, c, f)) - lsum (seq 0 4) (fun f => match u_mate R0 (r, c, f) with Some _ => out (r, c, f) | None => 0 end)) by lra.
    rewrite <- lsum_minus. apply lsum_ext. intros f _. destruct (u_mate R0 (r, c, f)); lra.
  Qed.
End Ranks.

Lemma below_choice (P : nat -> R -> Prop) n : (forall a, (a < n)%nat -> exists x, P a x) -> exists f, forall a, (a < n)%nat -> P a (f a).
Proof.
  induction n as [|n IH]; intros H; [exists (fun _ => 0); intros; lia|]. destruct IH as (L & K); [intros a Ha; apply H; lia|]. destruct (H n ltac:(lia)) as (x & Hx).
  exists (fun a => if Nat.eqb a n then x else L a). intros a Ha. destruct (Nat.eqb_spec a n) as [->|NE]; [exact Hx|]. apply K. lia.
Qed.

Section Serial.
  Context (sm : smesh) (dec : N -> R) (nA : nat) (om : nat -> q3 R) (sigma : N -> R) (PB : problem_ok sm dec nA om sigma).
  Context (pv : list N) (np : nat) (ltb : N -> N -> bool) (t : nat -> tmesh) (R0 : run (value R) (block R)) (sigmaT : nat -> nat -> R).
  Context (CF : configured sm dec nA om sigma pv np ltb t R0 sigmaT).
  Notation geo := (fun r => viewGeo Rops dec om (t r)).
  Lemma cells_cell g sc : SM_cell sm g = Some sc <-> In g (s_cells sm) /\ SM_cell sm g = Some sc.
  Proof.
    split; [|tauto]. intros H. split; auto. unfold s_cells. apply in_map_iff. exists (N.to_nat g). split; [apply N2Nat.id|]. apply in_seq. split; [lia|]. apply nth_error_Some. unfold SM_cell in H. cbn. congruence.
  Qed.
  Lemma escapes_fun o psi g lf y y' : s_escapes sm dec o psi g lf y -> s_escapes sm dec o psi g lf y' -> y = y'.
  Proof.
    destruct (cfg _ _ _ _ _ PB _ _ _ _ _ _ CF) as (m & CR & RD). destruct CF, PB.
    intros [((h & H) & ->)|(H & x & SX & ->)] [((h' & H') & ->)|(H' & x' & SX' & ->)]; auto; [exfalso; eapply H'; eauto|exfalso; eapply H; eauto|].
    now rewrite (signed_fun sm pv np m ltb dec t pb_mesh pb_tets cf_partition CR cf_compares RD pb_solid o g lf x x' SX SX').
  Qed.
  Lemma leakage_fun o psi L L' : s_leakage sm dec o psi L -> s_leakage sm dec o psi L' -> L = L'.
  Proof.
    intros (y & H & ->) (y' & H' & ->). apply lsum_ext. intros g I. unfold s_cells in I. apply in_map_iff in I as (i & <- & I). apply in_seq in I. destruct I as (_ & I). cbn in I.
    destruct (nth_error (sm_cells sm) i) as [sc|] eqn:E; [|apply nth_error_None in E; lia]. assert (S : SM_cell sm (N.of_nat i) = Some sc) by (unfold SM_cell; now rewrite Nat2N.id).
    assert (K : forall lf, (lf < 4)%nat -> y (N.of_nat i) lf = y' (N.of_nat i) lf) by (intros lf L; eapply escapes_fun; eauto). unfold TransportSpec.sum4. rewrite !K by lia. reflexivity.
  Qed.
  Lemma cfg_sum h h' : (forall r c g, (r < np)%nat -> getLGCell (t r) c = Some g -> h (r, c) = h' g) -> lsum (cells R0) h = lsum (s_cells sm) h'.
  Proof. destruct (cfg _ _ _ _ _ PB _ _ _ _ _ _ CF) as (m & CR & RD). destruct CF. eapply sum_cells; eauto. Qed.
  Definition wayOut (e : nat -> nat -> nat -> nat -> nat -> R) (r c b f H : nat) : R := match u_mate R0 (r, c, f) with Some _ => 0 | None => leaves geo e b H (r, c, f) end.
  Lemma leakage_of nG psi a G : (a < nA)%nat -> (G < nG)%nat -> s_leakage sm dec (om a) (psi a G) (lsum (s_cells sm) (fun g => sum4 (gatherField np t (wayOut (scatterField t psi)) a G g))).
  Proof.
    intros Ha HG. pose proof (scatter_agree np t nA nG psi) as AP. pose proof (cf_run _ _ _ _ _ _ _ _ _ _ _ CF) as VR. set (e := scatterField t psi) in *.
    pose proof (cfg_gather _ _ _ _ _ PB _ _ _ _ _ _ CF nG (wayOut e)) as AW. set (W := gatherField np t (wayOut e)) in *.
    destruct (cfg _ _ _ _ _ PB _ _ _ _ _ _ CF) as (m & CR & RD).
    pose proof (pb_mesh _ _ _ _ _ PB) as MO. pose proof (pb_tets _ _ _ _ _ PB) as TT. pose proof (pb_solid _ _ _ _ _ PB) as SOL. pose proof (cf_partition _ _ _ _ _ _ _ _ _ _ _ CF) as PV. pose proof (cf_compares _ _ _ _ _ _ _ _ _ _ _ CF) as CMP.
    exists (W a G). split; [|reflexivity]. intros g sc lf HS L.
    destruct (gid_onto sm pv np m ltb dec t MO TT PV CR CMP RD g sc HS) as (r & c & Hr & HL).
    pose proof (AW r c g a lf G Hr HL Ha L HG) as EW. rewrite <- EW. unfold wayOut, s_escapes. rewrite (vr_mate _ _ _ _ _ _ VR).
    pose proof (mate_next sm pv np m ltb dec t MO TT PV CR CMP RD r c lf g Hr L HL) as K.
    destruct (mateOf sm np t (r, c, lf)) as [[[q' c'] f']|].
    - left. destruct K as (h & n & sf & _ & _ & K & _). split; [exists h; exact K|reflexivity].
    - right. split; [exact K|]. exists (sarea geo r a c lf). split; [exact (signed_ok sm pv np m ltb dec t MO TT PV CR CMP RD SOL om r a c g lf Hr L HL)|].
      unfold leaves. f_equal; [unfold pp, Rmax; destruct (Rgt_dec _ 0), (Rle_dec 0 _); lra|]. f_equal. unfold sumFace, TransportSpec.sum4.
      rewrite <- !(AP r c g a _ G Hr HL Ha) by (auto; lia). reflexivity.
  Qed.
  Lemma leakage_ex nG psi a G : (a < nA)%nat -> (G < nG)%nat -> exists L, s_leakage sm dec (om a) (psi a G) L.
  Proof. intros Ha HG. eexists. exact (leakage_of nG psi a G Ha HG). Qed.
  Lemma serial_balance nG Q psi a G : s_transport sm dec nA nG om sigma Q psi -> (a < nA)%nat -> (G < nG)%nat ->
    exists L, s_leakage sm dec (om a) (psi a G) L /\ s_integral sm dec (fun g v => sigma g * psi a G g v) + L = s_integral sm dec (Q a G).
  Proof.
    intros TE Ha HG. pose proof (cfg_transport _ _ _ _ _ PB _ _ _ _ _ _ CF) as OK. pose proof (cfg_faces _ _ _ _ _ PB _ _ _ _ _ _ CF) as FM.
    pose proof (scatter_agree np t nA nG Q) as AQ. pose proof (scatter_agree np t nA nG psi) as AP.
    pose proof (proj2 (cfg_equation _ _ _ _ _ PB _ _ _ _ _ _ CF nG _ _ _ _ AQ AP) TE) as EQ.
    pose proof (cf_run _ _ _ _ _ _ _ _ _ _ _ CF) as VR.
    pose proof (balance_ranks _ R0 nG geo sigmaT OK FM _ _ a G EQ ltac:(now rewrite (vr_angles _ _ _ _ _ _ VR)) HG) as B.
    eexists. split; [exact (leakage_of nG psi a G Ha HG)|].
    set (e := scatterField t psi) in *. set (q := scatterField t Q) in *.
    pose proof (cfg_gather _ _ _ _ _ PB _ _ _ _ _ _ CF nG (wayOut e)) as AW. set (W := gatherField np t (wayOut e)) in *.
    destruct (cfg _ _ _ _ _ PB _ _ _ _ _ _ CF) as (m & CR & RD).
    pose proof (pb_mesh _ _ _ _ _ PB) as MO. pose proof (pb_tets _ _ _ _ _ PB) as TT. pose proof (pb_solid _ _ _ _ _ PB) as SOL. pose proof (cf_partition _ _ _ _ _ _ _ _ _ _ _ CF) as PV. pose proof (cf_compares _ _ _ _ _ _ _ _ _ _ _ CF) as CMP.
      unfold s_integral. rewrite <- lsum_plus.
      rewrite (cfg_sum _ (fun g => s_volume sm dec g * (sum4 (fun v => sigma g * psi a G g v) / 4) + sum4 (W a G g))) in B.
      + rewrite (cfg_sum _ (fun g => s_volume sm dec g * (sum4 (Q a G g) / 4))) in B; [exact B|].
        intros r c g Hr HL. destruct (volume_view sm pv np m ltb dec t MO TT PV CR CMP RD SOL om r c g Hr HL) as (p & Kp & EV & _ & _). cbv beta iota. rewrite EV, <- (s_volume_eq sm dec g p Kp).
        unfold TransportSpec.sum4. rewrite !(AQ r c g a _ G Hr HL Ha) by (auto; lia). reflexivity.
      + intros r c g Hr HL. destruct (volume_view sm pv np m ltb dec t MO TT PV CR CMP RD SOL om r c g Hr HL) as (p & Kp & EV & _ & _). cbv beta iota. rewrite EV, <- (s_volume_eq sm dec g p Kp), (cf_sigma _ _ _ _ _ _ _ _ _ _ _ CF r c g Hr HL).
        unfold TransportSpec.sum4. rewrite !(AP r c g a _ G Hr HL Ha) by (auto; lia). rewrite <- !(AW r c g a _ G Hr HL Ha) by (auto; lia). unfold wayOut. lra.
  Qed.
  Lemma integral_plus f h : s_integral sm dec (fun g v => f g v + h g v) = s_integral sm dec f + s_integral sm dec h.
  Proof. unfold s_integral. rewrite <- lsum_plus. apply lsum_ext. intros g _. unfold TransportSpec.sum4. lra. Qed.
  Lemma integral_ext f h : (forall g v, f g v = h g v) -> s_integral sm dec f = s_integral sm dec h.
  Proof. intros E. unfold s_integral. apply lsum_ext. intros g _. unfold TransportSpec.sum4. now rewrite !E. Qed.
  Lemma integral_angles wt (f : nat -> N -> nat -> R) : overAngles nA wt (fun a => s_integral sm dec (f a)) = s_integral sm dec (fun g v => overAngles nA wt (fun a => f a g v)).
  Proof.
    unfold overAngles, s_integral. rewrite (lsum_ext (seq 0 nA) _ (fun a => lsum (s_cells sm) (fun g => wt a * (s_volume sm dec g * (sum4 (f a g) / 4))))) by (intros a _; now rewrite lsum_scal).
    rewrite lsum_swap. apply lsum_ext. intros g _. unfold TransportSpec.sum4.
    rewrite <- !lsum_plus. unfold Rdiv. rewrite (Rmult_comm (lsum _ _) (/ 4)), <- !lsum_scal. apply lsum_ext. intros a _. lra.
  Qed.
  (** Balance with the scattering source of another flux [old]. *)
  Lemma scattering_balance nG pi wt sigmaS Q old psi G : s_transport sm dec nA nG om sigma (fun a G g v => Q a G g v + sigmaS g / (4 * pi) * s_flux nA wt old G g v) psi -> (G < nG)%nat ->
    s_balance sm dec nA om sigma pi wt sigmaS Q psi G (overAngles nA wt (fun _ => 1) / (4 * pi) * s_integral sm dec (fun g v => sigmaS g * (s_flux nA wt old G g v - s_flux nA wt psi G g v))).
  Proof.
    intros TE HG.
    destruct (below_choice (fun a L => s_leakage sm dec (om a) (psi a G) L /\ s_integral sm dec (fun g v => sigma g * psi a G g v) + L = s_integral sm dec (fun g v => Q a G g v + sigmaS g / (4 * pi) * s_flux nA wt old G g v)) nA) as (L & HL).
    { intros a Ha. exact (serial_balance nG _ psi a G TE Ha HG). }
    exists L. split; [intros a Ha; now apply HL|].
    assert (E : overAngles nA wt (fun a => s_integral sm dec (fun g v => sigma g * psi a G g v)) + overAngles nA wt L = overAngles nA wt (fun a => s_integral sm dec (fun g v => Q a G g v + sigmaS g / (4 * pi) * s_flux nA wt old G g v))).
    { unfold overAngles. rewrite <- lsum_plus. apply lsum_ext. intros a I. apply in_seq in I. destruct (HL a ltac:(lia)) as (_ & <-). ring. }
    set (W := overAngles nA wt (fun _ => 1)).
    assert (E1 : overAngles nA wt (fun a => s_integral sm dec (fun g v => sigma g * psi a G g v)) = s_integral sm dec (fun g v => sigma g * s_flux nA wt psi G g v)).
    { rewrite integral_angles. apply integral_ext. intros g v. unfold s_flux, overAngles. rewrite <- lsum_scal. apply lsum_ext. intros; ring. }
    assert (E2 : overAngles nA wt (fun a => s_integral sm dec (fun g v => Q a G g v + sigmaS g / (4 * pi) * s_flux nA wt old G g v)) = overAngles nA wt (fun a => s_integral sm dec (Q a G)) + s_integral sm dec (fun g v => W / (4 * pi) * (sigmaS g * s_flux nA wt old G g v))).
    { rewrite !integral_angles, <- integral_plus. apply integral_ext. intros g v. unfold W, overAngles.
      rewrite (lsum_ext (seq 0 nA) (fun a => wt a * (Q a G g v + _)) (fun a => wt a * Q a G g v + sigmaS g / (4 * pi) * s_flux nA wt old G g v * (wt a * 1))) by (intros; ring). rewrite lsum_plus, lsum_scal. unfold Rdiv. ring. }
    assert (E3 : s_integral sm dec (fun g v => sigma g * s_flux nA wt psi G g v) = s_integral sm dec (fun g v => (sigma g - W / (4 * pi) * sigmaS g) * s_flux nA wt psi G g v) + s_integral sm dec (fun g v => W / (4 * pi) * (sigmaS g * s_flux nA wt psi G g v))).
    { rewrite <- integral_plus. apply integral_ext. intros. ring. }
    assert (E4 : W / (4 * pi) * s_integral sm dec (fun g v => sigmaS g * (s_flux nA wt old G g v - s_flux nA wt psi G g v)) + s_integral sm dec (fun g v => W / (4 * pi) * (sigmaS g * s_flux nA wt psi G g v)) = s_integral sm dec (fun g v => W / (4 * pi) * (sigmaS g * s_flux nA wt old G g v))).
    { unfold s_integral. rewrite <- lsum_scal, <- lsum_plus. apply lsum_ext. intros g _. unfold TransportSpec.sum4. lra. }
    lra.
  Qed.
End Serial.
