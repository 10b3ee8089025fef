(** C75: particle balance over the whole mesh: the source is what is absorbed and what leaves through the outside. *)
From Coq Require Import Reals Lra Permutation String.
From Verif Require Import Prelude Bytes LayoutModel PsiFileModel PsiFileSpec DeckModel MeshModel MeshSpec CreateModel CreateSpec CreateProofs PropertiesCreate TychoModel TychoSpec GeometryModel GeometrySpec GaussModel TransportModel TransportSpec TraverseModel TraverseRun SweepModel SweepProofs FluxModel FluxSpec FluxProofs ProblemModel SourceModel SourceSpec PropertiesFlux EnergySpec EnergyProofs PropertiesEnergy
  ViewModel ViewSpec ViewProofs ViewSysProofs ViewEqProofs PropertiesView BitsModel BitsSpec BitsProofs PropertiesBits MainModel MainSpec MainProofs MainExact PropertiesMain PropertiesMainEx MainTransport PropertiesMainExact CommModel BlockModel SchurModel PbjModel MainAllModel MainAllMpi MainAllSpec MainAllProofs MainAllBlock MainAllRuns PropertiesMainAll PropertiesMainAllEx BalanceSpec BalanceProofs.

(** C75: after a sweep on any partition, in every angle and group, what the flux loses by collisions and what leaves through the outside of the mesh
    is the source. The leakage is determined by the flux. *)
Theorem C75_sweep : forall sm dec nA om sigma pv np ltb t R0 sigmaT, problem_ok sm dec nA om sigma -> configured sm dec nA om sigma pv np ltb t R0 sigmaT ->
  forall g nG pr (Q : nat -> nat -> N -> nat -> R) psi psi' a G, fullSweep R0 g nG (fun r => viewGeo Rops dec om (t r)) sigmaT pr (scatterField t Q) psi psi' -> a < nA -> G < nG ->
  let Psi := gatherField np t psi' in
  exists L, s_leakage sm dec (om a) (Psi a G) L /\ (forall L', s_leakage sm dec (om a) (Psi a G) L' -> L' = L) /\
    (s_integral sm dec (fun g v => sigma g * Psi a G g v) + L = s_integral sm dec (Q a G))%R.
Proof.
  intros sm dec nA om sigma pv np ltb t R0 sigmaT PB CF g nG pr Q psi psi' a G SW Ha HG Psi. destruct (C65_sweep _ _ _ _ _ _ _ _ _ _ _ PB CF g nG pr Q psi) as (_ & K). destruct (K _ SW) as (TE & _).
  destruct (serial_balance _ _ _ _ _ PB _ _ _ _ _ _ CF nG Q Psi a G TE Ha HG) as (L & SL & E). exists L. split; [exact SL|]. split; [|exact E].
  intros L' SL'. exact (leakage_fun _ _ _ _ _ PB _ _ _ _ _ _ CF _ _ _ _ SL' SL).
Qed.

(** C75: a solution of the equations with scattering is balanced in every group. *)
Theorem C75_scattering : forall sm dec nA nG om sigma pi wt sigmaS Q psi, problem_ok sm dec nA om sigma -> mesh_small sm 1 -> (N.of_nat (nA * List.length (sm_cells sm) * 4) < INT_MAX)%N ->
  s_scattering sm dec nA nG om sigma pi wt sigmaS Q psi -> forall G, G < nG -> s_balance sm dec nA om sigma pi wt sigmaS Q psi G 0.
Proof.
  intros sm dec nA nG om sigma pi wt sigmaS Q psi PB SM SZ0 S G HG. assert (SZ : (N.of_nat (nA * List.length (sm_cells sm) * 4) * 1 < INT_MAX)%N) by now rewrite N.mul_1_r.
  destruct (one_rank sm dec nA om sigma PB SM 1%N eq_refl SZ) as (t & R0 & sT & CF).
  destruct (scattering_balance _ _ _ _ _ PB _ _ _ _ _ _ CF nG pi wt sigmaS Q psi psi G S HG) as (L & HL & E). exists L. split; [exact HL|]. rewrite E. f_equal.
  match goal with |- (_ * ?x)%R = _ => assert (Z : x = 0%R) end; [|rewrite Z; ring]. unfold s_integral. rewrite (lsum_ext _ _ (fun _ => 0 * 0)%R) by (intros g _; unfold TransportSpec.sum4; lra). rewrite lsum_scal. ring.
Qed.

(** The balance of the deck: [imbalance] is what is missing or too much. *)
Definition deck_balance (dec : N -> R) (pi : R) (sm : smesh) (cfg : config R) (q : angles R) (psi : nat -> nat -> N -> nat -> R) : nat -> R -> Prop :=
  s_balance sm dec (q_num q) (q_omega q) (by_material Rops sm (cSigmaT1 cfg) (cSigmaT2 cfg)) pi (q_weight q) (by_material Rops sm (cSigmaS1 cfg) (cSigmaS2 cfg)) (deck_source dec sm cfg q) psi.
(** C75: a deck whose solver does not iterate: the flux in the output file is balanced, whatever the solver, the partition and the sweep. *)
Theorem C75_output : forall dec enc stod ltb quadrature pi tol kspPhi kspVec kspBoth fname deck sm cfg q k pv np threads mesh pr gsum its name f,
  runnable dec stod ltb quadrature pi tol fname deck sm cfg q k pv np threads mesh -> (k < 1)%R ->
  solves_exactly dec ltb cfg q mesh np kspPhi kspVec kspBoth -> direct (List.length (sm_cells sm)) cfg ->
  mainAll dec enc stod ltb quadrature pi tol kspPhi kspVec kspBoth fname deck mesh np threads pr gsum its (Some (name, f)) ->
  exists psi, (forall p, f p = nth_error (field_file enc sm cfg q psi) (N.to_nat p)) /\ forall G, G < N.to_nat (cNGroups cfg) -> deck_balance dec pi sm cfg q psi G 0.
Proof.
  intros dec enc stod ltb quadrature pi tol kspPhi kspVec kspBoth fname deck sm cfg q k pv np threads mesh pr gsum its name f RU K1 KS D M.
  destruct (C72_direct dec enc stod ltb quadrature pi tol kspPhi kspVec kspBoth _ _ _ _ _ _ _ _ _ _ RU K1 KS D) as (sol & S & _ & F). destruct (F _ _ _ _ _ M) as (_ & _ & FE). exists sol. split; [exact FE|].
  destruct RU as [SE LA CMP MX PB SC]. pose proof (one_small sm np (some_rank _ _ _ _ _ _ _ _ _ _ _ SE _ _ _ _ LA) (la_small _ _ _ _ _ _ LA)) as SM. pose proof (se_one _ _ _ _ _ _ _ _ _ SE) as SZ. rewrite N.mul_1_r in SZ.
  exact (C75_scattering _ _ _ _ _ _ _ _ _ _ _ PB SM SZ S).
Qed.

(** The size of the scalar flux that source iteration compares changes with. *)
Definition flux_size (sm : smesh) (cfg : config R) (phi : nat -> N -> nat -> R) : R :=
  lsum (s_cells sm) (fun g => lsum (seq 0 4) (fun v => lsum (seq 0 (N.to_nat (cNGroups cfg))) (fun G => Rabs (phi G g v)))).
Lemma total_size sm cfg f : MainSpec.s_total sm (N.to_nat (cNGroups cfg)) (fun g v G => Rabs (f G g v)) = flux_size sm cfg f.
Proof.
  assert (E : forall X (l : list X) h, fold_right Rplus 0%R (map h l) = lsum l h) by (intros X l h; unfold lsum; induction l; cbn; [reflexivity|now rewrite IHl]).
  unfold MainSpec.s_total, flux_size, s_cells. rewrite E, lsum_map. apply lsum_ext. intros g _. rewrite E. apply lsum_ext. intros v _. now rewrite E.
Qed.
Lemma total_ext sm n f h : (forall g v G, f g v G = h g v G) -> MainSpec.s_total sm n f = MainSpec.s_total sm n h.
Proof. intros E. unfold MainSpec.s_total. f_equal. apply map_ext. intros g. f_equal. apply map_ext. intros v. f_equal. apply map_ext. intros G. apply E. Qed.
Lemma lsum_abs {X} (l : list X) f : (Rabs (lsum l f) <= lsum l (fun x => Rabs (f x)))%R.
Proof. unfold lsum. induction l as [|x l IH]; cbn; [rewrite Rabs_R0; lra|]. eapply Rle_trans; [apply Rabs_triang|]. lra. Qed.
Lemma lsum_one {X} (l : list X) f x : In x l -> (forall y, 0 <= f y)%R -> (f x <= lsum l f)%R.
Proof. intros I P. unfold lsum. induction l as [|y l IH]; [destruct I|]. cbn. assert (0 <= fold_right (fun x s => f x + s) 0 l)%R by (clear -P; induction l as [|z l IH]; cbn; [lra|specialize (P z); lra]). destruct I as [->|I]; [lra|]. specialize (IH I). specialize (P y). lra. Qed.
Lemma volume_nonneg sm dec g : (0 <= s_volume sm dec g)%R.
Proof. unfold s_volume. destruct (SM_cell sm g) as [sc|]; [|lra]. cbn zeta. repeat match goal with |- context [s_point sm dec ?n] => destruct (s_point sm dec n); try lra end.
  match goal with |- context [Rabs ?x] => pose proof (Rabs_pos x) end. lra. Qed.
Lemma integral_size sm dec cfg (sS : N -> R) phi G B : G < N.to_nat (cNGroups cfg) -> (forall g sc, SM_cell sm g = Some sc -> 0 <= sS g /\ sS g * s_volume sm dec g / 4 <= B)%R ->
  (Rabs (s_integral sm dec (fun g v => sS g * phi G g v)) <= B * flux_size sm cfg phi)%R.
Proof.
  intros HG HB. unfold s_integral, flux_size. eapply Rle_trans; [apply lsum_abs|]. rewrite <- lsum_scal. apply lsum_le. intros g I.
  assert (S : exists sc, SM_cell sm g = Some sc). { unfold s_cells in I. apply in_map_iff in I as (i & <- & I). apply in_seq in I. unfold SM_cell. rewrite Nat2N.id. destruct (nth_error (sm_cells sm) i) as [sc|] eqn:E; [eauto|apply nth_error_None in E; lia]. }
  destruct S as (sc & S). destruct (HB g sc S) as (B0 & B1). pose proof (volume_nonneg sm dec g) as V0. set (V := s_volume sm dec g) in *. set (s := sS g) in *.
  assert (C0 : (0 <= s * V / 4)%R) by (pose proof (Rmult_le_pos _ _ B0 V0); lra).
  apply Rle_trans with (s * V / 4 * lsum (seq 0 4) (fun v => Rabs (phi G g v)))%R.
  - rewrite <- sum4_list. unfold TransportSpec.sum4. replace (V * ((s * phi G g 0%nat + s * phi G g 1%nat + s * phi G g 2%nat + s * phi G g 3%nat) / 4))%R with (s * V / 4 * (phi G g 0%nat + phi G g 1%nat + phi G g 2%nat + phi G g 3%nat))%R by field.
    rewrite Rabs_mult, (Rabs_pos_eq (s * V / 4)) by exact C0. apply Rmult_le_compat_l; [exact C0|]. repeat (eapply Rle_trans; [apply Rabs_triang|]; apply Rplus_le_compat_r). lra.
  - apply Rmult_le_compat; [exact C0|apply lsum_nonneg; intros; apply Rabs_pos|exact B1|]. apply lsum_le. intros v _. apply (lsum_one _ (fun G => Rabs (phi G g v))); [apply in_seq; lia|intros; apply Rabs_pos].
Qed.

(** C75: source iteration: after at least one sweep the flux in the output file is balanced up to the change of what is scattered in the last sweep.
    If the run stopped before iterMax, that is at most errMax times the size of the scalar flux, with a factor from the mesh and the material. *)
Theorem C75_iteration : forall dec enc stod ltb quadrature pi tol fname deck sm cfg q pv np threads mesh pr gsum iters name f,
  setting Rops dec stod quadrature tol fname deck sm cfg q -> launch ltb sm pv np threads mesh -> sums np gsum ->
  problem_ok sm dec (q_num q) (q_omega q) (by_material Rops sm (cSigmaT1 cfg) (cSigmaT2 cfg)) ->
  mainRun Rops dec enc stod ltb quadrature pi tol fname deck mesh np threads pr gsum iters (Some (name, f)) -> (0 < iters)%N ->
  exists psi old, let phi := s_flux (q_num q) (q_weight q) psi in let phi0 := s_flux (q_num q) (q_weight q) old in let sigmaS := by_material Rops sm (cSigmaS1 cfg) (cSigmaS2 cfg) in
    let W := overAngles (q_num q) (q_weight q) (fun _ => 1%R) in
    (forall p, f p = nth_error (field_file enc sm cfg q psi) (N.to_nat p)) /\
    (forall G, G < N.to_nat (cNGroups cfg) -> deck_balance dec pi sm cfg q psi G (W / (4 * pi) * s_integral sm dec (fun g v => sigmaS g * (phi0 G g v - phi G g v)))%R) /\
    forall B, (iters < cIterMax cfg)%N -> (0 < flux_size sm cfg phi)%R -> (forall g sc, SM_cell sm g = Some sc -> 0 <= sigmaS g /\ sigmaS g * s_volume sm dec g / 4 <= B)%R ->
    forall G, G < N.to_nat (cNGroups cfg) -> (Rabs (s_integral sm dec (fun g v => sigmaS g * (phi0 G g v - phi G g v))) <= B * (cErrMax cfg * flux_size sm cfg phi))%R.
Proof.
  intros dec enc stod ltb quadrature pi tol fname deck sm cfg q pv np threads mesh pr gsum iters name f SE LA GS PB M I0.
  destruct (C70_exact _ _ _ _ _ _ _ _ _ _ _ _ _ _ _ _ _ _ _ _ SE LA GS M) as (V & (e & R & ST) & _ & _ & FE).
  pose proof (one_small sm np (some_rank _ _ _ _ _ _ _ _ _ _ _ SE _ _ _ _ LA) (la_small _ _ _ _ _ _ LA)) as SM. pose proof (se_one _ _ _ _ _ _ _ _ _ SE) as SZ.
  destruct (one_rank sm dec _ _ _ PB SM 1%N eq_refl SZ) as (t & R0 & sT & CF).
  remember (N.to_nat iters) as n eqn:En. destruct R as [|n e U V R LT GT B NN]; [lia|].
  exists (fun a G g v => getBlock Rops (V a g) v G), (fun a G g v => getBlock Rops (U a g) v G). cbv zeta. split; [exact FE|].
  pose proof (emission_transport sm dec _ _ _ PB 1%N eq_refl SZ t R0 sT CF pi (q_weight q) _ _ _ U V B) as TE.
  split; [intros G HG; exact (scattering_balance _ _ _ _ _ PB _ _ _ _ _ _ CF _ pi (q_weight q) _ _ _ _ G TE HG)|].
  intros C IL FP HB G HG. destruct ST as [ST|ST]; [lia|].
  assert (FX : forall V g v G, b_flux Rops (q_num q) (q_weight q) V g v G = s_flux (q_num q) (q_weight q) (fun a G g v => getBlock Rops (V a g) v G) G g v).
  { intros V1 g v G1. unfold b_flux, s_flux, overAngles, lsum. cbn [aadd amul azero Rops].
    assert (K : forall l z, fold_left (fun s a => s + getBlock Rops (V1 a g) v G1 * q_weight q a)%R l z = (z + fold_right (fun a s => q_weight q a * getBlock Rops (V1 a g) v G1 + s) 0 l)%R) by (induction l as [|a l IHl]; intros z; cbn; [ring|rewrite IHl; ring]).
    rewrite K. ring. }
  set (psi := fun a G g v => getBlock Rops (V a g) v G) in *. set (old := fun a G g v => getBlock Rops (U a g) v G) in *.
  eapply Rle_trans; [exact (integral_size sm dec cfg _ (fun G g v => s_flux (q_num q) (q_weight q) old G g v - s_flux (q_num q) (q_weight q) psi G g v)%R G C HG HB)|].
  assert (C0 : (0 <= C)%R \/ sm_cells sm = []).
  { destruct (sm_cells sm) as [|sc l] eqn:E; [now right|left]. destruct (HB 0%N sc ltac:(unfold SM_cell; rewrite E; reflexivity)) as (X & Y). pose proof (Rmult_le_pos _ _ X (volume_nonneg sm dec 0%N)). lra. }
  destruct C0 as [C0|C0]; [|unfold flux_size, s_cells in FP; rewrite C0 in FP; cbn in FP; lra].
  apply Rmult_le_compat_l; [exact C0|]. unfold s_change in ST.
  rewrite (total_ext _ _ (fun g v G => Rabs (b_flux Rops (q_num q) (q_weight q) V g v G)) (fun g v G => Rabs (s_flux (q_num q) (q_weight q) psi G g v))) in ST by (intros; now rewrite FX).
  rewrite (total_ext _ _ (fun g v G => Rabs (b_flux Rops (q_num q) (q_weight q) V g v G - b_flux Rops (q_num q) (q_weight q) U g v G)) (fun g v G => Rabs (s_flux (q_num q) (q_weight q) old G g v - s_flux (q_num q) (q_weight q) psi G g v))) in ST by (intros; rewrite !FX; apply Rabs_minus_sym).
  rewrite (total_size sm cfg (s_flux (q_num q) (q_weight q) psi)), (total_size sm cfg (fun G g v => s_flux (q_num q) (q_weight q) old G g v - s_flux (q_num q) (q_weight q) psi G g v)%R) in ST.
  apply (Rmult_le_compat_r _ _ _ (Rlt_le _ _ FP)) in ST. unfold Rdiv in ST. rewrite Rmult_assoc, Rinv_l, Rmult_1_r in ST by lra. exact ST.
Qed.
(** The two tetrahedra of C65: on two ranks and on one, sweeps with source 1; a flux of 1 leaves through the outside; and the decks of C72. *)
Lemma C75_leaks L : s_leakage C12_mesh C65_dec (C65_om 0) (fun _ _ => 1%R) L -> (0 < L)%R.
Proof.
  intros (y & H & ->). destruct C65_ex as (PB & _ & (t & CF) & _). destruct (cfg _ _ _ _ _ PB _ _ _ _ _ _ CF) as (m & CR & RD).
  pose proof (pb_mesh _ _ _ _ _ PB) as MO. pose proof (pb_tets _ _ _ _ _ PB) as TT. pose proof (pb_solid _ _ _ _ _ PB) as SOL. pose proof (cf_partition _ _ _ _ _ _ _ _ _ _ _ CF) as PV. pose proof (cf_compares _ _ _ _ _ _ _ _ _ _ _ CF) as CMP.
  assert (C0 : exists sc, SM_cell C12_mesh 0 = Some sc) by (eexists; reflexivity). assert (C1 : exists sc, SM_cell C12_mesh 1 = Some sc) by (eexists; reflexivity). destruct C0 as (s0 & C0), C1 as (s1 & C1).
  assert (P : forall g sc lf, SM_cell C12_mesh g = Some sc -> lf < 4 -> (0 <= y g lf)%R).
  { intros g sc lf S L. destruct (H g sc lf S L) as [(_ & ->)|(_ & x & _ & ->)]; [lra|]. apply Rmult_le_pos; [apply Rmax_l|]. unfold sumFace, TransportSpec.sum4. destruct (0 =? lf), (1 =? lf), (2 =? lf), (3 =? lf); lra. }
  destruct (gid_onto C12_mesh _ 1 m _ C65_dec t MO TT PV CR CMP RD 0%N s0 C0) as (r & c & Hr & HL).
  pose proof (closed_view C12_mesh _ 1 m _ C65_dec t MO TT PV CR CMP RD SOL C65_om 1 ltac:(vm_compute; reflexivity) r 0 c 0%N Hr HL) as Z.
  pose proof (fun lf L => signed_ok C12_mesh _ 1 m _ C65_dec t MO TT PV CR CMP RD SOL C65_om r 0 c 0%N lf Hr L HL) as SX. set (x := sarea _ r 0 c) in *. clearbody x.
  assert (X0 : (x 0%nat < 0)%R).
  { assert (NX : s_next C12_mesh 0 0 1). { exists 0%N, (mkSface (Q2 0 1) (Q3 2 1 3))%N. split; [|split; [reflexivity|discriminate]]. eexists. split; [reflexivity|]. split; [cbn; auto|]. split; [reflexivity|]. split; [lia|].
      intros v n E. destruct v as [|[|[|[|v]]]]; cbn in E; try (apply Some_inj in E; subst n); cbn; [| | | |destruct v; discriminate]; (split; [intros [E|[E|[E|[]]]]; discriminate || lia|intros NE; first [now auto|lia]]). }
    destruct (C65_across _ _ _ _ NX (SX 0 ltac:(lia))) as [(_ & _ & K)|(K & _)]; [exact K|discriminate]. }
  assert (G : forall lf, lf < 4 -> (x lf <= y 0%N lf)%R).
  { intros lf L. pose proof (P 0%N s0 lf C0 L) as P0. destruct (H 0%N s0 lf C0 L) as [((h & NX) & E)|(_ & x' & S' & E)].
    - destruct (C65_across _ _ _ _ NX (SX lf L)) as [(_ & _ & K)|(K & _)]; [lra|discriminate].
    - rewrite (signed_fun C12_mesh _ 1 m _ C65_dec t MO TT PV CR CMP RD SOL _ _ _ _ _ S' (SX lf L)) in E. rewrite E. pose proof (Rmax_r 0 (x lf)).
      replace (sumFace lf (fun _ => 1%R) / 3)%R with 1%R; [lra|]. unfold sumFace, TransportSpec.sum4. destruct lf as [|[|[|[|lf]]]]; cbn; lra || lia. }
  unfold s_cells, lsum. cbn [C12_mesh sm_cells List.length seq map fold_right]. change (N.of_nat 0) with 0%N. change (N.of_nat 1) with 1%N. unfold TransportSpec.sum4 in *.
  pose proof (G 1 ltac:(lia)). pose proof (G 2 ltac:(lia)). pose proof (G 3 ltac:(lia)). pose proof (P 0%N s0 0 C0 ltac:(lia)).
  pose proof (P 1%N s1 0 C1 ltac:(lia)). pose proof (P 1%N s1 1 C1 ltac:(lia)). pose proof (P 1%N s1 2 C1 ltac:(lia)). pose proof (P 1%N s1 3 C1 ltac:(lia)). lra.
Qed.
Example C75_ex : (exists t, configured C12_mesh C65_dec 1 C65_om (fun _ => 1%R) [1; 0]%N 2 C65_ltb t (C65_run 2 t) (fun _ _ => 1%R) /\
    exists psi', fullSweep (C65_run 2 t) NoPivot 1 (fun r => viewGeo Rops C65_dec C65_om (t r)) (fun _ _ => 1%R) (fun _ _ _ => 0%N) (scatterField t (fun _ _ _ _ => 1%R)) (fun _ _ _ _ _ => 0%R) psi') /\
  (exists L, s_leakage C12_mesh C65_dec (C65_om 0) (fun _ _ => 1%R) L) /\ (forall L, s_leakage C12_mesh C65_dec (C65_om 0) (fun _ _ => 1%R) L -> 0 < L)%R /\
  (exists psi, s_scattering C12_mesh C65_dec 1 1 C65_om (fun _ => 1%R) PI (fun _ => 4 * PI)%R (fun _ => / 2)%R (fun _ _ _ _ => 1%R) psi) /\
  forall threads, 0 < threads -> exists mesh kspPhi kspVec kspBoth, let cfg := C72_cfg TraverseGraph false in
  runnable C65_dec C72_stod C65_ltb C72_quadrature PI (/ 10 ^ 10)%R [] (C72_deck TraverseGraph false) C12_mesh cfg C70R_q (/ 2)%R [1; 0]%N 2 threads mesh /\
  solves_exactly C65_dec C65_ltb cfg C70R_q mesh 2 kspPhi kspVec kspBoth /\ direct 2 cfg /\
  forall enc pr gsum, exists its f, mainAll C65_dec enc C72_stod C65_ltb C72_quadrature PI (/ 10 ^ 10)%R kspPhi kspVec kspBoth [] (C72_deck TraverseGraph false) mesh 2 threads pr gsum its (Some (str "out.psi", f)).
Proof.
  pose proof C65_ex as (PB & (t & CF) & (t1 & CF1) & SC). split; [|split; [|split; [|split]]].
  - exists t. split; [exact CF|]. exact (proj1 (C65_sweep _ _ _ _ _ _ _ _ _ _ _ PB CF NoPivot 1 (fun _ _ _ => 0%N) (fun _ _ _ _ => 1%R) (fun _ _ _ _ _ => 0%R))).
  - destruct (leakage_ex _ _ _ _ _ PB _ _ _ _ _ _ CF 1 (fun _ _ _ _ => 1%R) 0 0 ltac:(lia) ltac:(lia)) as (L & K). exists L. exact K.
  - exact C75_leaks.
  - destruct (C65_source_iteration _ _ _ _ _ _ _ _ _ _ _ PB CF1 PI (fun _ => 4 * PI)%R (/ 2)%R (fun _ => / 2)%R (fun _ _ => / 2)%R SC ltac:(lra) ltac:(auto) NoPivot 1 (fun _ _ _ => 0%N) (fun _ _ _ _ => 1%R)) as (sol & S & _). exists sol. exact S.
  - intros threads TH. destruct C72_ex as (_ & _ & _ & K). destruct (K threads TH) as (mesh & a & b & c & H). exists mesh, a, b, c. cbv zeta. destruct (H TraverseGraph false) as (H1 & H2 & _ & H3 & _ & _ & H4).
    split; [exact H1|]. split; [exact H2|]. split; [apply H3; [reflexivity|discriminate|discriminate]|]. apply H4. left. discriminate.
Qed.
(** Source iteration on the same mesh makes at least one sweep. *)
Example C75_iteration_ex : exists fname deck stod quadrature, setting Rops C65_dec stod quadrature (/ 10 ^ 10)%R fname deck C12_mesh C70R_cfg C70R_q /\
  problem_ok C12_mesh C65_dec (q_num C70R_q) (q_omega C70R_q) (by_material Rops C12_mesh (cSigmaT1 C70R_cfg) (cSigmaT2 C70R_cfg)) /\
  forall threads, 0 < threads -> exists mesh, launch C65_ltb C12_mesh [1; 0]%N 2 threads mesh /\
  exists gsum, sums 2 gsum /\ forall enc pr, exists iters f, mainRun Rops C65_dec enc stod C65_ltb quadrature PI (/ 10 ^ 10)%R fname deck mesh 2 threads pr gsum iters (Some (str "out.psi", f)) /\ (0 < iters)%N.
Proof.
  destruct C70_exact_ex as (fname & deck & stod & quadrature & SE & _ & PB & _ & _ & K). exists fname, deck, stod, quadrature. split; [exact SE|]. split; [exact PB|]. intros threads TH. destruct (K threads TH) as (mesh & LA & R). exists mesh. split; [exact LA|].
  exists (fun x => fold_right Rplus 0%R (map x (seq 0 2))). assert (GS : sums 2 (fun x => fold_right Rplus 0%R (map x (seq 0 2)))) by (intros x; reflexivity). split; [exact GS|].
  intros enc pr. destruct (R enc pr (fun x => fold_right Rplus 0%R (map x (seq 0 2)))) as (iters & f & M). exists iters, f. split; [exact M|].
  destruct (C70_exact _ _ _ _ _ _ _ _ _ _ _ _ _ _ _ _ _ _ _ _ SE LA GS M) as (V & (e & RN & ST) & _). destruct (N.eq_0_gt_0_cases iters) as [->|L]; [exfalso|exact L].
  change (N.to_nat 0) with 0 in *. remember 0 as z eqn:Ez. destruct RN as [|n e U V RN LT GT B NN]; [|lia]. clear -ST. unfold C70R_cfg in ST. cbn [cIterMax cErrMax] in ST. destruct ST as [ST|ST]; [vm_compute in ST; discriminate|lra].
Qed.
Print Assumptions C75_sweep. Print Assumptions C75_scattering. Print Assumptions C75_output. Print Assumptions C75_iteration.
