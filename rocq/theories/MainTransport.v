(** Proofs for C70: in exact arithmetic the sweeps of the serial mesh solve the transport equations. *)
From Coq Require Import Reals Lra.
From Verif Require Import Prelude Bytes MeshModel MeshSpec CreateModel CreateSpec CreateProofs TychoModel TychoSpec GeometryModel GeometrySpec GaussModel TransportModel TransportSpec SweepProofs TraverseModel TraverseSpec TraverseRun SweepModel FluxModel FluxSpec SourceModel SourceSpec SourceProofs EnergySpec
  PropertiesFlux EnergyProofs PropertiesEnergy ViewModel ViewSpec ViewProofs ViewSysProofs ViewEqProofs PropertiesView BitsModel BitsSpec BitsProofs PropertiesBits MainSpec.

Section Problem.
  Context (sm : smesh) (dec : N -> R) (nA : nat) (om : nat -> q3 R) (sigma : N -> R) (PB : problem_ok sm dec nA om sigma).
  Context (SM : mesh_small sm 1) (psize : N) (P0 : (0 < psize)%N) (SZ : (N.of_nat (nA * length (sm_cells sm) * 4) * psize < INT_MAX)%N).
  Definition below (x y : N) : bool := if Rlt_dec (dec x) (dec y) then true else false.
  Definition alone : list N := repeat 0%N (length (sm_cells sm)).
  (** The problem on one rank. *)
  Lemma one_rank : exists t R0 sT, configured sm dec nA om sigma alone 1 below t R0 sT.
  Proof.
    assert (CMP : compares sm dec below).
    { intros n n' s s' x y _ _ _ _. unfold below. destruct (Rlt_dec (dec x) (dec y)); split; intros; auto; try discriminate; try contradiction. }
    assert (PV : partition_vector_ok sm alone 1).
    { split; [apply repeat_length|]. split; [|reflexivity]. apply Forall_forall. intros x Hx. apply repeat_spec in Hx. subst x. reflexivity. }
    destruct (C65_reads sm alone 1 below dec (pb_mesh _ _ _ _ _ PB) (pb_tets _ _ _ _ _ PB) PV SM CMP) as (t & RD).
    exists t, (mkRun Forward true TychoTwoSided 1 nA 1 1 psize (fun r => viewMesh Rops dec om (t r)) (mkTdata _ _ (fun _ _ _ _ => None) (fun _ _ _ _ _ _ _ => 0%R) (fun _ _ _ _ _ _ _ => 0%R) (fun _ _ _ => 0%N)) (mateOf sm 1 t)),
      (fun r c => match getLGCell (t r) c with Some g => sigma g | None => 0%R end).
    constructor; auto.
    - constructor; try reflexivity; auto.
    - intros r c g _ H. now rewrite H.
  Qed.
  Context (t : nat -> tmesh) (R0 : run (value R) (block R)) (sT : nat -> nat -> R) (CF : configured sm dec nA om sigma alone 1 below t R0 sT).
  Lemma geometry : bits_ok Rops sm dec om nA /\ normals_ok Rops sm dec om nA.
  Proof.
    destruct (cfg _ _ _ _ _ PB _ _ _ _ _ _ CF) as (m & CR & RD). destruct PB as [OK TT SOL TR AC SG]. pose proof (cf_partition _ _ _ _ _ _ _ _ _ _ _ CF) as PV. pose proof (cf_compares _ _ _ _ _ _ _ _ _ _ _ CF) as CMP.
    assert (ON : forall g sc, SM_cell sm g = Some sc -> exists c, getLGCell (t 0) c = Some g).
    { intros g sc H. destruct (gid_onto sm alone 1 m below dec t OK TT PV CR CMP RD g sc H) as (r & c & Hr & HG). replace r with 0 in HG by lia. eauto. }
    assert (BO : forall a c g f, f < 4 -> getLGCell (t 0) c = Some g -> rm_out (viewMesh Rops dec om (t 0)) a c f = b_out Rops sm dec om a g f).
    { intros a c g f L HG. exact (bout_ok sm alone 1 m below dec t OK TT PV CR CMP RD Rops dec om 0 a c g f Nat.lt_0_1 L HG). }
    split; [constructor; [constructor; auto|]|].
    - intros a g lf h lf' f sf Ha O O' NE. pose proof O as (sc & HS & _ & _ & L & _). pose proof O' as (sc' & HS' & _ & _ & L' & _). destruct (ON g sc HS) as (c & HG), (ON h sc' HS') as (d & HH).
      rewrite <- (BO a c g lf L HG), <- (BO a d h lf' L' HH). apply (view_flow sm alone 1 m below dec t OK TT PV CR CMP RD SOL om nA TR 0 c lf 0 d lf' a); auto.
      apply (mate_iff sm alone 1 m below dec t OK TT PV CR CMP RD). split; [lia|]. split; [lia|]. split; auto. split; auto. exists g, h, f, sf.
      destruct (opp_two sm OK TT g lf h lf' f sf sf O O' (fun E => NE (eq_sym E))) as (_ & A1). destruct (opp_two sm OK TT h lf' g lf f sf sf O' O NE) as (_ & A2). auto 10.
    - destruct AC as (lvl & LV). exists lvl. intros a g lf h Ha NX B. pose proof NX as (f & sf & O & _). pose proof O as (sc & HS & _ & _ & L & _). destruct (ON g sc HS) as (c & HG).
      pose proof (signed_ok sm alone 1 m below dec t OK TT PV CR CMP RD SOL om 0 a c g lf Nat.lt_0_1 L HG) as SGN. pose proof (sarea_sign sm alone 1 m below dec t OK TT PV CR CMP RD SOL om 0 a c g lf Nat.lt_0_1 L HG) as SS.
      apply (LV a g lf h _ Ha NX SGN). pose proof (TR a g lf h _ Ha NX SGN) as NZ. change ((fun r => viewMesh Rops dec om (t r)) 0) with (viewMesh Rops dec om (t 0)) in SS. rewrite (BO a c g lf L HG), B in SS.
      set (x := sarea _ _ _ _ _) in *. clearbody x. destruct (Rtotal_order x 0) as [|[|G]]; [assumption|contradiction|]. destruct SS as (_ & SS). discriminate (SS G).
    - intros a g lf F P Ha L HF HP. assert (HS : exists sc, SM_cell sm g = Some sc) by (unfold b_cell in HP; destruct (SM_cell sm g); [eauto|discriminate]). destruct HS as (sc & HS). destruct (ON g sc HS) as (c & HG).
      destruct (face_geo sm alone 1 m below dec t OK TT PV CR CMP RD SOL 0 c g lf Nat.lt_0_1 L HG) as (f & sf & p & F' & n & _ & _ & _ & _ & EP & EF & EN & _).
      rewrite (bface sm alone 1 m below dec t OK TT PV CR CMP RD dec 0 c g lf Nat.lt_0_1 L HG), HF in EF. rewrite (bcell sm alone 1 m below dec t OK TT PV CR CMP RD dec 0 c g Nat.lt_0_1 HG), HP in EP.
      apply Some_inj in EF, EP. subst F' p. unfold omegaDotN. rewrite EN. discriminate.
  Qed.
  Lemma confA : configuredA Rops sm dec om nA sigma alone 1 below t R0 sT.
  Proof. destruct CF as [? ? ? ? [] ?]. constructor; eauto. Qed.
  (** A sweep of the serial mesh solves the transport equation. *)
  Lemma sweep_transport gs nG Q V : b_sweep Rops sm dec om gs nG sigma nA Q V -> s_transport sm dec nA nG om sigma (fun a G g v => Q a g v G) (fun a G g v => getBlock Rops (V a g) v G).
  Proof.
    intros B. destruct geometry as (BO & _). pose proof (cfg_transport _ _ _ _ _ PB _ _ _ _ _ _ CF) as OK. set (src := scatterField t (fun a G g v => Q a g v G)).
    pose proof (scatter_agree 1 t nA nG (fun a G g v => Q a g v G)) as SA. fold src in SA.
    destruct (sweep_exists _ R0 gs nG (fun r => viewGeo Rops dec om (t r)) sT (fun _ _ _ => 0%N) OK src (fun _ _ _ _ _ => 0%R)) as (psi' & SW). pose proof (sweep_eq _ R0 gs nG _ sT _ OK _ _ _ SW) as E.
    destruct SW as (bnd0 & S0 & S & ST & RE & EN & EP).
    assert (SE : sweepEnds Rops R0 gs nG (fun r => viewGeo Rops dec om (t r)) sT (fun _ _ _ => 0%N) src (fun _ _ _ _ _ => 0%R) S) by (exists bnd0, S0; auto).
    assert (SQ : forall r c g a v G, r < 1 -> a < nA -> getLGCell (t r) c = Some g -> v < 4 -> G < nG -> src r c a v G = Q a g v G).
    { intros r c g a v G Hr Ha HG Hv HGr. exact (SA r c g a v G Hr HG Ha Hv HGr). }
    destruct (C66_sweep R Rops sm dec om nA sigma alone 1 below t R0 sT BO confA gs nG (fun _ _ _ => 0%N) Q src _ S SQ SE) as (_ & K).
    refine (proj1 (cfg_equation _ _ _ _ _ PB _ _ _ _ _ _ CF nG src _ psi' _ SA _) E).
    intros r c g a v G Hr HG Ha Hv HGr. rewrite EP. exact (vsame_get Rops nG _ _ v G (K V B r c g a Hr Ha HG) Hv HGr).
  Qed.
  (** The contraction, on the serial mesh. *)
  Context (pi : R) (wt : nat -> R) (k : R) (sigmaS : N -> R).
  Notation field_of V := (fun (a G : nat) (g : N) (v : nat) => getBlock Rops (V a g) v G).
  Lemma emission_transport gs nG V V' : b_sweep Rops sm dec om gs nG sigma nA (b_emission Rops sm dec om nA wt pi sigma sigmaS V) V' ->
    s_transport sm dec nA nG om sigma (fun a G g v => scattered pi (sigmaS g) (b_source Rops sm dec om sigma sigmaS a g v G) (s_flux nA wt (field_of V) G g v)) (field_of V').
  Proof.
    intros B. pose proof (sweep_transport gs nG _ V' B) as T. unfold b_emission in T.
      assert (FX : forall g v G, b_flux Rops nA wt V g v G = s_flux nA wt (field_of V) G g v).
      { intros g v G1. unfold b_flux, s_flux, overAngles, lsum. cbn [aadd amul azero Rops].
        assert (K : forall l z, fold_left (fun s a => s + getBlock Rops (V a g) v G1 * wt a)%R l z = (z + fold_right (fun a s => wt a * getBlock Rops (V a g) v G1 + s) 0 l)%R) by (induction l as [|a l IHl]; intros z; cbn; [ring|rewrite IHl; ring]).
        rewrite K. ring. }
      intros a G1 g sc Ha HG1 HS. specialize (T a G1 g sc Ha HG1 HS). cbv beta in T. cbn [aadd amul adiv alit Rops] in T. unfold scattered.
        destruct T as (p & area & nb & T1 & T2 & T3 & T4). exists p, area, nb. split; auto. split; auto. split; auto. unfold dg in *. intros i Hi. specialize (T4 i Hi). unfold dg_row, sum4 in *. rewrite !FX in T4. exact T4.
  Qed.
  Context (SC : s_scatters sm nA sigma pi wt k sigmaS).
  Let sS := fun r c => match getLGCell (t r) c with Some g => sigmaS g | None => 0%R end.
  Lemma sS_ok r c g : r < 1 -> getLGCell (t r) c = Some g -> sS r c = sigmaS g.
  Proof. intros _ H. unfold sS. now rewrite H. Qed.
  Lemma flux_fields nG (psi : nat -> nat -> N -> nat -> R) r c g v G : r < 1 -> getLGCell (t r) c = Some g -> v < 4 -> G < nG -> scalarFlux R0 wt (scatterField t psi) r c v G = s_flux nA wt psi G g v.
  Proof.
    intros Hr HG Hv HGr. unfold scalarFlux, s_flux, overAngles. rewrite (vr_angles _ _ _ _ _ _ (cf_run _ _ _ _ _ _ _ _ _ _ _ CF)). apply lsum_ext. intros a Ha. apply in_seq in Ha. f_equal.
    apply (scatter_agree 1 t nA nG psi); auto; lia.
  Qed.
  Lemma serial_contraction nG Q phi psi sol G : G < nG -> s_transport sm dec nA nG om sigma (fun a G g v => scattered pi (sigmaS g) (Q a G g v) (phi G g v)) psi -> s_scattering sm dec nA nG om sigma pi wt sigmaS Q sol ->
    (s_norm sm dec sigma (fun G g v => s_flux nA wt psi G g v - s_flux nA wt sol G g v) G <= k * k * s_norm sm dec sigma (fun G g v => phi G g v - s_flux nA wt sol G g v) G)%R.
  Proof.
    intros HG H S. pose proof (cfg_scatters _ _ _ _ _ PB _ _ _ _ _ _ CF pi wt k sS sigmaS sS_ok SC) as SO. pose proof (scatter_agree 1 t nA nG) as SA.
    set (ph := fun r c v G => match getLGCell (t r) c with Some g => phi G g v | None => 0%R end).
    assert (D1 : transport_eq (nodeOf sm t) R0 nG (fun r => viewGeo Rops dec om (t r)) sT (fun r c a v G => scattered pi (sS r c) (scatterField t Q r c a v G) (ph r c v G)) (scatterField t psi)).
    { refine (proj2 (cfg_equation _ _ _ _ _ PB _ _ _ _ _ _ CF nG _ _ (scatterField t psi) psi _ (SA psi)) H). intros r c g a v G1 Hr Hg Ha Hv HG1. rewrite (SA Q r c g a v G1 Hr Hg Ha Hv HG1), (sS_ok r c g Hr Hg). unfold ph. now rewrite Hg. }
    assert (D2 : transport_eq (nodeOf sm t) R0 nG (fun r => viewGeo Rops dec om (t r)) sT (fun r c a v G => scattered pi (sS r c) (scatterField t Q r c a v G) (scalarFlux R0 wt (scatterField t sol) r c v G)) (scatterField t sol)).
    { refine (proj2 (cfg_equation _ _ _ _ _ PB _ _ _ _ _ _ CF nG _ _ (scatterField t sol) sol _ (SA sol)) S). intros r c g a v G1 Hr Hg Ha Hv HG1. rewrite (SA Q r c g a v G1 Hr Hg Ha Hv HG1), (sS_ok r c g Hr Hg). now rewrite (flux_fields nG sol r c g v G1). }
    pose proof (contraction _ R0 nG _ sT pi wt k sS SO (scatterField t Q) ph _ _ _ G HG D1 D2) as C.
    rewrite (cfg_norm _ _ _ _ _ PB _ _ _ _ _ _ CF _ (fun G g v => s_flux nA wt psi G g v - s_flux nA wt sol G g v)%R G) in C.
    2: { intros r c g v Hr Hg Hv. unfold minus. now rewrite (flux_fields nG psi r c g v G), (flux_fields nG sol r c g v G). }
    rewrite (cfg_norm _ _ _ _ _ PB _ _ _ _ _ _ CF _ (fun G g v => phi G g v - s_flux nA wt sol G g v)%R G) in C.
    2: { intros r c g v Hr Hg Hv. unfold minus. rewrite (flux_fields nG sol r c g v G) by auto. unfold ph. now rewrite Hg. }
    exact C.
  Qed.
  (** The solution with scattering exists and is unique. *)
  Lemma well_posed nG Q : (k < 1)%R -> exists sol, s_scattering sm dec nA nG om sigma pi wt sigmaS Q sol /\ forall sol', s_scattering sm dec nA nG om sigma pi wt sigmaS Q sol' -> s_same sm nA nG sol sol'.
  Proof.
    intros K1. destruct (C65_source_iteration _ _ _ _ _ _ _ _ _ _ _ PB CF pi wt k sigmaS sS SC K1 sS_ok NoPivot nG (fun _ _ _ => 0%N) Q) as (sol & H & U & _). eauto.
  Qed.
  (** After [n] sweeps. *)
  Lemma iterate_error gs nG n V sol G : (0 <= k)%R -> b_iterate Rops sm dec om nA wt pi gs nG sigma sigmaS n V -> s_scattering sm dec nA nG om sigma pi wt sigmaS (fun a G g v => b_source Rops sm dec om sigma sigmaS a g v G) sol -> G < nG ->
    (s_norm sm dec sigma (fun G g v => s_flux nA wt (field_of V) G g v - s_flux nA wt sol G g v) G <= k ^ n * k ^ n * s_norm sm dec sigma (fun G g v => s_flux nA wt sol G g v) G)%R.
  Proof.
    intros K0 I S HG. induction I as [|n V V' I IH B NN].
    - rewrite !pow_O, !Rmult_1_l. right. unfold s_norm. apply lsum_ext. intros g _. f_equal.
      assert (Z : forall v, s_flux nA wt (fun _ _ _ _ => 0%R) G g v = 0%R). { intros v. unfold s_flux, overAngles. rewrite (lsum_ext _ _ (fun a => 0 * wt a)%R) by (intros; ring). rewrite EnergyProofs.lsum_scal. ring. }
      unfold massForm, sum4. cbn [getBlock azero Rops]. rewrite !Z. ring.
    - pose proof (emission_transport gs nG V V' B) as T'.
      eapply Rle_trans; [exact (serial_contraction nG _ _ _ sol G HG T' S)|]. simpl pow. replace (k * k ^ n * (k * k ^ n) * s_norm sm dec sigma (fun G g v => s_flux nA wt sol G g v) G)%R
        with (k * k * (k ^ n * k ^ n * s_norm sm dec sigma (fun G g v => s_flux nA wt sol G g v) G))%R by ring. apply Rmult_le_compat_l; [now apply Rmult_le_pos|exact IH].
  Qed.
End Problem.
