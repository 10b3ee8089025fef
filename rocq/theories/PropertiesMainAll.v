(** C72: the whole program with every solver the deck can name, in exact arithmetic. *)
From Coq Require Import Reals Lra Permutation String.
From Verif Require Import Prelude Bytes LayoutModel PsiFileModel PsiFileSpec DeckModel MeshModel MeshSpec CreateModel CreateSpec CreateProofs PropertiesCreate TychoModel TychoSpec GeometryModel GaussModel TransportModel TransportSpec TraverseModel TraverseRun SweepModel FluxModel FluxSpec ProblemModel SourceModel SourceSpec PropertiesFlux EnergySpec EnergyProofs PropertiesEnergy
  ViewModel ViewSpec ViewProofs ViewEqProofs PropertiesView BitsModel BitsSpec BitsProofs PropertiesBits MainModel MainSpec MainProofs MainExact PropertiesMain PropertiesMainEx MainTransport PropertiesMainExact CommModel BlockModel SchurModel PbjModel MainAllModel MainAllMpi MainAllSpec MainAllProofs MainAllBlock MainAllRuns.

(** The linear solver is exact for vectors of the sizes that the ranks of this run have. *)
Definition solves_exactly (dec : N -> R) ltb (cfg : config R) (q : angles R) (mesh : bytes) (np : nat) kspPhi kspVec kspBoth : Prop :=
  exact_solver np (N.to_nat (cNGroups cfg)) (fun r => tm_nCells (meshes dec ltb q mesh np r))
    (fun r => getPsiBoundSize (q_num q) (N.to_nat (cNGroups cfg)) (viewMesh Rops dec (q_omega q) (meshes dec ltb q mesh np r))) kspPhi kspVec kspBoth.
(** Two decks that pose the same equations; everything that selects or tunes a solver may differ. *)
Record same_equations (cfg cfg' : config R) : Prop := {
  sq_angles : cSnOrder cfg = cSnOrder cfg'; sq_groups : cNGroups cfg = cNGroups cfg';
  sq_t1 : cSigmaT1 cfg = cSigmaT1 cfg'; sq_s1 : cSigmaS1 cfg = cSigmaS1 cfg'; sq_t2 : cSigmaT2 cfg = cSigmaT2 cfg'; sq_s2 : cSigmaS2 cfg = cSigmaS2 cfg' }.

Section Parts.
  Context (dec : N -> R) (enc : R -> N) (stod : chars -> option R) (ltb : N -> N -> bool) (quadrature : N -> option (angles R)) (pi tol : R) (fname deck : chars) (sm : smesh) (cfg : config R) (q : angles R).
  Context (SE : setting Rops dec stod quadrature tol fname deck sm cfg q).
  Context (pv : list N) (np threads : nat) (mesh : bytes) (LA : launch ltb sm pv np threads mesh).
  Context (CMP : compares sm dec ltb) (MX : (0 < cMaxCellsPerStep cfg)%N).
  Notation sigT := (by_material Rops sm (cSigmaT1 cfg) (cSigmaT2 cfg)).
  Notation sigS := (by_material Rops sm (cSigmaS1 cfg) (cSigmaS2 cfg)).
  Context (PB : problem_ok sm dec (q_num q) (q_omega q) sigT).
  Notation t := (meshes dec ltb q mesh np).
  Notation xs := (sections cfg t np).
  Notation nG := (N.to_nat (cNGroups cfg)).
  Notation geo := (fun r => viewGeo Rops dec (q_omega q) (t r)).
  Notation sT := (fun r c => nth c (fst (xs r)) 0%R).
  Notation sS := (fun r c => nth c (snd (xs r)) 0%R).
  Context (HM : forall r, r < np -> createMesh Rops dec ltb q mesh np r <> None)
    (HX : forall r, r < np -> createCrossSections (tm_material (t r)) (cSigmaT1 cfg) (cSigmaS1 cfg) (cSigmaT2 cfg) (cSigmaS2 cfg) <> None).
  Lemma RD : program_reads sm pv np ltb t.
  Proof using LA HM.
    apply (reads_mesh Rops dec ltb sm q pv np threads mesh LA). intros r Hr. unfold meshes, onRanks. rewrite (proj2 (Nat.ltb_lt _ _) Hr). specialize (HM r Hr). destruct (createMesh Rops dec ltb q mesh np r); congruence.
  Qed.
  Lemma XS r : r < np -> createCrossSections (tm_material (t r)) (cSigmaT1 cfg) (cSigmaS1 cfg) (cSigmaT2 cfg) (cSigmaS2 cfg) = Some (xs r).
  Proof using HX.
    intros Hr. unfold sections at 1, onRanks. rewrite (proj2 (Nat.ltb_lt _ _) Hr). specialize (HX r Hr). destruct (createCrossSections (tm_material (t r)) (cSigmaT1 cfg) (cSigmaS1 cfg) (cSigmaT2 cfg) (cSigmaS2 cfg)); congruence.
  Qed.
  Lemma NP : 0 < np.
  Proof using SE LA. exact (some_rank Rops dec stod ltb quadrature tol fname deck sm cfg q SE pv np threads mesh LA). Qed.
  Lemma HG0 : 0 < nG.
  Proof using SE. pose proof (se_groups _ _ _ _ _ _ _ _ _ _ SE) as H. clear -H. lia. Qed.
  Lemma CL : cSweep cfg = OriginalTycho1 \/ cSweep cfg = OriginalTycho2 -> beyond_tol Rops sm dec (q_omega q) (q_num q) tol.
  Proof using SE. intros H. apply (se_tol _ _ _ _ _ _ _ _ _ _ SE). exact H. Qed.
  Definition runM : run (value R) (block R) := runT dec sm np cfg q threads t.
  Lemma confM : configured sm dec (q_num q) (q_omega q) sigT pv np ltb t runM sT.
  Proof using All.
    apply (confT dec ltb sm pv np cfg q threads (se_mesh _ _ _ _ _ _ _ _ _ _ SE) (la_partition _ _ _ _ _ _ LA) (la_small _ _ _ _ _ _ LA) CMP (la_threads _ _ _ _ _ _ LA) HG0
      (se_some _ _ _ _ _ _ _ _ _ _ SE) (se_cells _ _ _ _ _ _ _ _ _ _ SE) (se_size _ _ _ _ _ _ _ _ _ _ SE) MX t RD xs XS).
  Qed.
  Lemma sS_all r c g : r < np -> getLGCell (t r) c = Some g -> sS r c = sigS g.
  Proof using All. exact (sigS_ok dec ltb sm pv np cfg q (se_mesh _ _ _ _ _ _ _ _ _ _ SE) (la_partition _ _ _ _ _ _ LA) (la_small _ _ _ _ _ _ LA) CMP t RD xs XS r c g). Qed.
  Lemma source_deck : agree np t (q_num q) nG (source dec q t xs) (deck_source dec sm cfg q).
  Proof using All.
    intros r c g a v G Hr HG Ha Hv HGr. unfold source.
    exact (source_ok Rops dec ltb sm pv np cfg q (se_mesh _ _ _ _ _ _ _ _ _ _ SE) (la_partition _ _ _ _ _ _ LA) (la_small _ _ _ _ _ _ LA) (ex_intro _ dec CMP) t RD xs XS r c g a v G Hr HG Hv).
  Qed.
  Notation gf := (gatherField np t).
  Lemma gathered psi : agree np t (q_num q) nG psi (gf psi).
  Proof using All. exact (cfg_gather _ _ _ _ _ PB _ _ _ _ _ _ confM nG psi). Qed.
  Lemma scatter_deck psi Psi : agree np t (q_num q) nG psi Psi ->
    scattering_eq (nodeOf sm t) runM nG geo sT pi sS (q_weight q) (source dec q t xs) psi <-> deck_solution dec pi sm cfg q Psi.
  Proof using All. intros AG. exact (cfg_scattering _ _ _ _ _ PB _ _ _ _ _ _ confM nG pi (q_weight q) sS sigS _ _ _ _ sS_all source_deck AG). Qed.
  Lemma norm_deck psi psi' Psi Psi' G : G < nG -> agree np t (q_num q) nG psi Psi -> agree np t (q_num q) nG psi' Psi' ->
    fluxNorm runM geo sT (minus (scalarFlux runM (q_weight q) psi) (scalarFlux runM (q_weight q) psi')) G =
    deck_norm dec sm cfg (fun G g v => s_flux (q_num q) (q_weight q) Psi G g v - s_flux (q_num q) (q_weight q) Psi' G g v)%R G.
  Proof using All.
    intros HG A1 A2. apply (cfg_norm _ _ _ _ _ PB _ _ _ _ _ _ confM). intros r c h v Hr Hh Hv. unfold minus, scalarFlux, s_flux, overAngles. rewrite (vr_angles _ _ _ _ _ _ (cf_run _ _ _ _ _ _ _ _ _ _ _ confM)).
    f_equal; apply lsum_ext; intros a Ha; apply in_seq in Ha; f_equal; [apply A1|apply A2]; auto; lia.
  Qed.
  Lemma file_deck psi f : writePsi enc nG (q_num q) np t psi f -> forall p, f p = nth_error (field_file enc sm cfg q (gf psi)) (N.to_nat p).
  Proof using All.
    intros W. set (Val := fun a g => Some (fun v G => gf psi a G g v) : value R).
    assert (H : holds Rops np cfg q t psi Val) by (intros r c g a v G Hr HG Ha Hv HGr; exact (gathered psi r c g a v G Hr HG Ha Hv HGr)).
    exact (proj2 (write_ok Rops dec enc ltb pi sm pv np cfg q threads (se_mesh _ _ _ _ _ _ _ _ _ _ SE) (la_partition _ _ _ _ _ _ LA) (la_small _ _ _ _ _ _ LA) (ex_intro _ dec CMP) (la_threads _ _ _ _ _ _ LA) NP HG0
      (se_some _ _ _ _ _ _ _ _ _ _ SE) (se_cells _ _ _ _ _ _ _ _ _ _ SE) (se_size _ _ _ _ _ _ _ _ _ _ SE) t RD psi Val H) f W).
  Qed.
  Lemma file_ex psi : exists f, writePsi enc nG (q_num q) np t psi f.
  Proof using All.
    set (Val := fun a g => Some (fun v G => gf psi a G g v) : value R).
    assert (H : holds Rops np cfg q t psi Val) by (intros r c g a v G Hr HG Ha Hv HGr; exact (gathered psi r c g a v G Hr HG Ha Hv HGr)).
    exact (proj1 (write_ok Rops dec enc ltb pi sm pv np cfg q threads (se_mesh _ _ _ _ _ _ _ _ _ _ SE) (la_partition _ _ _ _ _ _ LA) (la_small _ _ _ _ _ _ LA) (ex_intro _ dec CMP) (la_threads _ _ _ _ _ _ LA) NP HG0
      (se_some _ _ _ _ _ _ _ _ _ _ SE) (se_cells _ _ _ _ _ _ _ _ _ _ SE) (se_size _ _ _ _ _ _ _ _ _ _ SE) t RD psi Val H)).
  Qed.
  Section Solvers.
    Context (k : R) (SC : s_scatters sm (q_num q) sigT pi (q_weight q) k sigS) (K1 : (k < 1)%R).
    Context kspPhi kspVec kspBoth (KS : solves_exactly dec ltb cfg q mesh np kspPhi kspVec kspBoth).
    Notation solve := (solveAll dec pi tol kspPhi kspVec kspBoth cfg q t np threads xs).
    Lemma direct_deck pr gsum its psi : direct (List.length (sm_cells sm)) cfg -> solve pr gsum its psi -> deck_solution dec pi sm cfg q (gf psi).
    Proof using All.
      intros D H. apply (scatter_deck psi (gf psi) (gathered psi)).
      exact (direct_eq dec ltb pi tol sm pv np cfg q threads PB (se_mesh _ _ _ _ _ _ _ _ _ _ SE) (la_partition _ _ _ _ _ _ LA) (la_small _ _ _ _ _ _ LA) CMP (la_threads _ _ _ _ _ _ LA) NP HG0
        (se_some _ _ _ _ _ _ _ _ _ _ SE) (se_cells _ _ _ _ _ _ _ _ _ _ SE) (se_size _ _ _ _ _ _ _ _ _ _ SE) MX t RD xs XS kspPhi kspVec kspBoth KS CL k SC K1 pr gsum its psi D H).
    Qed.
    Lemma si_deck pr gsum its psi sol : cUseSI cfg = true -> whole_sweeps (List.length (sm_cells sm)) cfg -> solve pr gsum its psi -> deck_solution dec pi sm cfg q sol ->
      (its <= cIterMax cfg)%N /\ forall G, G < nG -> (deck_norm dec sm cfg (fun G g v => s_flux (q_num q) (q_weight q) (gf psi) G g v - s_flux (q_num q) (q_weight q) sol G g v) G <=
        (k ^ N.to_nat its) ^ 2 * deck_norm dec sm cfg (fun G g v => s_flux (q_num q) (q_weight q) sol G g v) G)%R.
    Proof using All.
      intros U W H S. pose proof (scatter_agree np t (q_num q) nG sol) as SA. pose proof (proj2 (scatter_deck _ _ SA) S) as SR.
      destruct (si_eq dec ltb pi tol sm pv np cfg q threads PB (se_mesh _ _ _ _ _ _ _ _ _ _ SE) (la_partition _ _ _ _ _ _ LA) (la_small _ _ _ _ _ _ LA) CMP (la_threads _ _ _ _ _ _ LA) NP HG0
        (se_some _ _ _ _ _ _ _ _ _ _ SE) (se_cells _ _ _ _ _ _ _ _ _ _ SE) (se_size _ _ _ _ _ _ _ _ _ _ SE) MX t RD xs XS kspPhi kspVec kspBoth KS CL k SC pr gsum its psi (scatterField t sol) U W H SR) as (L & B).
      split; [exact L|]. intros G HG. specialize (B G HG).
      rewrite <- (norm_deck psi (scatterField t sol) (gf psi) sol G HG (gathered psi) SA). eapply Rle_trans; [exact B|]. right. simpl pow. rewrite Rmult_1_r. apply (f_equal (Rmult _)).
      etransitivity; [exact (norm_deck zeroSource (scatterField t sol) (fun _ _ _ _ => 0%R) sol G HG (fun _ _ _ _ _ _ _ _ _ _ _ => eq_refl) SA)|]. unfold deck_norm, s_norm. apply lsum_ext. intros g _. f_equal.
      assert (Z : forall v, s_flux (q_num q) (q_weight q) (fun _ _ _ _ => 0%R) G g v = 0%R). { intros v. unfold s_flux, overAngles. rewrite (lsum_ext _ _ (fun a => 0 * q_weight q a)%R) by (intros; ring). rewrite EnergyProofs.lsum_scal. ring. }
      unfold massForm, TransportSpec.sum4. rewrite !Z. ring.
    Qed.
  End Solvers.
End Parts.

(** The equations of two such decks have the same solutions, and the same flux gives the same file. *)
Lemma same_deck dec enc (pi : R) sm cfg cfg' q psi : same_equations cfg cfg' -> (deck_solution dec pi sm cfg q psi <-> deck_solution dec pi sm cfg' q psi) /\ field_file enc sm cfg q psi = field_file enc sm cfg' q psi.
Proof.
  intros [_ G T1 S1 T2 S2]. unfold deck_solution, deck_source, field_file. rewrite G, T1, S1, T2, S2. split; [tauto|reflexivity].
Qed.
Lemma same_file enc sm (cfg : config R) (q : angles R) psi psi' : s_same sm (q_num q) (N.to_nat (cNGroups cfg)) psi psi' -> field_file enc sm cfg q psi = field_file enc sm cfg q psi'.
Proof.
  intros U. unfold field_file, psiImage. do 5 f_equal.
  assert (FM : forall X (f g : nat -> list X) l, (forall x, In x l -> f x = g x) -> flat_map f l = flat_map g l).
  { intros X f g l E. induction l as [|x l IHl]; [reflexivity|]. cbn. rewrite E by now left. rewrite IHl; [reflexivity|]. intros y Hy. apply E. now right. }
  apply FM. intros c Hc. apply FM. intros a Ha. apply FM. intros v Hv. apply FM. intros G HGr. apply in_seq in Hc, Ha, Hv, HGr.
  destruct (SM_cell sm (N.of_nat c)) as [sc|] eqn:HS; [|unfold SM_cell in HS; rewrite Nat2N.id in HS; apply nth_error_None in HS; lia].
  now rewrite (U a G (N.of_nat c) sc v) by (auto; lia).
Qed.
(** The deck has exactly one solution. *)
Lemma deck_well_posed dec stod quadrature (pi : R) tol fname deck sm cfg q np k : setting Rops dec stod quadrature tol fname deck sm cfg q -> 0 < np -> mesh_small sm np ->
  problem_ok sm dec (q_num q) (q_omega q) (by_material Rops sm (cSigmaT1 cfg) (cSigmaT2 cfg)) ->
  s_scatters sm (q_num q) (by_material Rops sm (cSigmaT1 cfg) (cSigmaT2 cfg)) pi (q_weight q) k (by_material Rops sm (cSigmaS1 cfg) (cSigmaS2 cfg)) -> (k < 1)%R ->
  exists sol, deck_solution dec pi sm cfg q sol /\ forall sol', deck_solution dec pi sm cfg q sol' -> s_same sm (q_num q) (N.to_nat (cNGroups cfg)) sol sol'.
Proof.
  intros SE N0 SM0 PB SC K1. pose proof (se_one _ _ _ _ _ _ _ _ _ SE) as SZ. pose proof (one_small sm np N0 SM0) as SM.
  destruct (one_rank sm dec _ _ _ PB SM 1%N eq_refl SZ) as (t & R0 & sT & CF).
  exact (well_posed sm dec _ _ _ PB t R0 sT CF pi (q_weight q) k _ SC (N.to_nat (cNGroups cfg)) (deck_source dec sm cfg q) K1).
Qed.

(** What it takes to run a deck: it describes a transport problem on the mesh, scattering is at most [k] times the total cross section, ... *)
Record runnable (dec : N -> R) (stod : chars -> option R) (ltb : N -> N -> bool) (quadrature : N -> option (angles R)) (pi tol : R) (fname deck : chars)
    (sm : smesh) (cfg : config R) (q : angles R) (k : R) (pv : list N) (np threads : nat) (mesh : bytes) : Prop := {
  ru_setting : setting Rops dec stod quadrature tol fname deck sm cfg q;
  ru_launch : launch ltb sm pv np threads mesh;
  ru_compares : compares sm dec ltb;
  ru_max : (0 < cMaxCellsPerStep cfg)%N;
  ru_problem : problem_ok sm dec (q_num q) (q_omega q) (by_material Rops sm (cSigmaT1 cfg) (cSigmaT2 cfg));
  ru_scatters : s_scatters sm (q_num q) (by_material Rops sm (cSigmaT1 cfg) (cSigmaT2 cfg)) pi (q_weight q) k (by_material Rops sm (cSigmaS1 cfg) (cSigmaS2 cfg)) }.

(** A deck whose solver does not iterate: with an exact linear solver the output file is the image of the solution of the deck, whatever the solver,
    its options, the partition and the launch. *)
Theorem C72_direct : forall dec enc stod ltb quadrature pi tol kspPhi kspVec kspBoth fname deck sm cfg q k pv np threads mesh,
  runnable dec stod ltb quadrature pi tol fname deck sm cfg q k pv np threads mesh -> (k < 1)%R ->
  solves_exactly dec ltb cfg q mesh np kspPhi kspVec kspBoth -> direct (List.length (sm_cells sm)) cfg ->
  exists sol, deck_solution dec pi sm cfg q sol /\
    (forall sol', deck_solution dec pi sm cfg q sol' -> s_same sm (q_num q) (N.to_nat (cNGroups cfg)) sol sol') /\
    forall pr gsum its name f, mainAll dec enc stod ltb quadrature pi tol kspPhi kspVec kspBoth fname deck mesh np threads pr gsum its (Some (name, f)) ->
    cOutputFile cfg = true /\ name = cOutputFilename cfg /\ forall p, f p = nth_error (field_file enc sm cfg q sol) (N.to_nat p).
Proof.
  intros dec enc stod ltb quadrature pi tol kspPhi kspVec kspBoth fname deck sm cfg q k pv np threads mesh [SE LA CMP MX PB SC] K1 KS D.
  pose proof (NP dec stod ltb quadrature tol fname deck sm cfg q SE pv np threads mesh LA) as N0.
  destruct (deck_well_posed dec stod quadrature pi tol fname deck sm cfg q np k SE N0 (la_small _ _ _ _ _ _ LA) PB SC K1) as (sol & S & U). exists sol. split; [exact S|]. split; [exact U|].
  intros pr gsum its name f (cfg' & q' & psi & E1 & E2 & HM & HX & SO & O1 & O2 & W). rewrite (se_deck _ _ _ _ _ _ _ _ _ _ SE) in E1. apply Some_inj in E1. subst cfg'. rewrite (se_angles _ _ _ _ _ _ _ _ _ _ SE) in E2. apply Some_inj in E2. subst q'.
  split; [exact O1|]. split; [exact O2|]. intros p.
  rewrite (file_deck dec enc stod ltb quadrature pi tol fname deck sm cfg q SE pv np threads mesh LA CMP MX PB HM HX psi f W p). f_equal. symmetry. apply same_file, U.
  exact (direct_deck dec enc stod ltb quadrature pi tol fname deck sm cfg q SE pv np threads mesh LA CMP MX PB HM HX k SC K1 kspPhi kspVec kspBoth KS pr gsum its psi D SO).
Qed.
(** So two decks with such solvers that pose the same equations give the same bytes, each on its own partition and launch. *)
Theorem C72_same : forall dec enc stod ltb quadrature pi tol sm k fname1 deck1 cfg1 q1 pv1 np1 threads1 mesh1 kspPhi1 kspVec1 kspBoth1 pr1 gsum1 its1 n1 f1 fname2 deck2 cfg2 q2 pv2 np2 threads2 mesh2 kspPhi2 kspVec2 kspBoth2 pr2 gsum2 its2 n2 f2,
  runnable dec stod ltb quadrature pi tol fname1 deck1 sm cfg1 q1 k pv1 np1 threads1 mesh1 -> runnable dec stod ltb quadrature pi tol fname2 deck2 sm cfg2 q2 k pv2 np2 threads2 mesh2 -> (k < 1)%R ->
  same_equations cfg1 cfg2 -> solves_exactly dec ltb cfg1 q1 mesh1 np1 kspPhi1 kspVec1 kspBoth1 -> solves_exactly dec ltb cfg2 q2 mesh2 np2 kspPhi2 kspVec2 kspBoth2 ->
  direct (List.length (sm_cells sm)) cfg1 -> direct (List.length (sm_cells sm)) cfg2 ->
  mainAll dec enc stod ltb quadrature pi tol kspPhi1 kspVec1 kspBoth1 fname1 deck1 mesh1 np1 threads1 pr1 gsum1 its1 (Some (n1, f1)) ->
  mainAll dec enc stod ltb quadrature pi tol kspPhi2 kspVec2 kspBoth2 fname2 deck2 mesh2 np2 threads2 pr2 gsum2 its2 (Some (n2, f2)) -> forall p, f1 p = f2 p.
Proof.
  intros dec enc stod ltb quadrature pi tol sm k fname1 deck1 cfg1 q1 pv1 np1 threads1 mesh1 kspPhi1 kspVec1 kspBoth1 pr1 gsum1 its1 n1 f1 fname2 deck2 cfg2 q2 pv2 np2 threads2 mesh2 kspPhi2 kspVec2 kspBoth2 pr2 gsum2 its2 n2 f2 R1 R2 K1 SQ X1 X2 D1 D2 M1 M2 p.
  assert (q1 = q2). { pose proof (se_angles _ _ _ _ _ _ _ _ _ _ (ru_setting _ _ _ _ _ _ _ _ _ _ _ _ _ _ _ _ R1)) as E1. pose proof (se_angles _ _ _ _ _ _ _ _ _ _ (ru_setting _ _ _ _ _ _ _ _ _ _ _ _ _ _ _ _ R2)) as E2. rewrite (sq_angles _ _ SQ), E2 in E1. now apply Some_inj in E1. } subst q2.
  destruct (C72_direct _ enc _ _ _ _ _ _ _ _ _ _ _ _ _ _ _ _ _ _ R1 K1 X1 D1) as (s1 & S1 & U1 & F1). destruct (C72_direct _ enc _ _ _ _ _ _ _ _ _ _ _ _ _ _ _ _ _ _ R2 K1 X2 D2) as (s2 & S2 & _ & F2).
  destruct (F1 _ _ _ _ _ M1) as (_ & _ & ->). destruct (F2 _ _ _ _ _ M2) as (_ & _ & ->). f_equal. rewrite <- (proj2 (same_deck dec enc pi sm cfg1 cfg2 q1 s2 SQ)). apply same_file, U1. now apply (same_deck dec enc pi sm cfg1 cfg2 q1 s2 SQ).
Qed.
(** Source iteration with any solver that does whole sweeps: the error of the scalar flux in the file goes down by [k] in every iteration. *)
Theorem C72_source_iteration : forall dec enc stod ltb quadrature pi tol kspPhi kspVec kspBoth fname deck sm cfg q k pv np threads mesh,
  runnable dec stod ltb quadrature pi tol fname deck sm cfg q k pv np threads mesh -> (k < 1)%R ->
  solves_exactly dec ltb cfg q mesh np kspPhi kspVec kspBoth -> cUseSI cfg = true -> whole_sweeps (List.length (sm_cells sm)) cfg ->
  exists sol, deck_solution dec pi sm cfg q sol /\
    (forall sol', deck_solution dec pi sm cfg q sol' -> s_same sm (q_num q) (N.to_nat (cNGroups cfg)) sol sol') /\
    forall pr gsum its name f, mainAll dec enc stod ltb quadrature pi tol kspPhi kspVec kspBoth fname deck mesh np threads pr gsum its (Some (name, f)) ->
    (its <= cIterMax cfg)%N /\ exists psi, (forall p, f p = nth_error (field_file enc sm cfg q psi) (N.to_nat p)) /\
    forall G, G < N.to_nat (cNGroups cfg) ->
      (deck_norm dec sm cfg (fun G g v => s_flux (q_num q) (q_weight q) psi G g v - s_flux (q_num q) (q_weight q) sol G g v) G <=
       (k ^ N.to_nat its) ^ 2 * deck_norm dec sm cfg (fun G g v => s_flux (q_num q) (q_weight q) sol G g v) G)%R.
Proof.
  intros dec enc stod ltb quadrature pi tol kspPhi kspVec kspBoth fname deck sm cfg q k pv np threads mesh [SE LA CMP MX PB SC] K1 KS UI W.
  pose proof (NP dec stod ltb quadrature tol fname deck sm cfg q SE pv np threads mesh LA) as N0.
  destruct (deck_well_posed dec stod quadrature pi tol fname deck sm cfg q np k SE N0 (la_small _ _ _ _ _ _ LA) PB SC K1) as (sol & S & U). exists sol. split; [exact S|]. split; [exact U|].
  intros pr gsum its name f (cfg' & q' & psi & E1 & E2 & HM & HX & SO & O1 & O2 & WF). rewrite (se_deck _ _ _ _ _ _ _ _ _ _ SE) in E1. apply Some_inj in E1. subst cfg'. rewrite (se_angles _ _ _ _ _ _ _ _ _ _ SE) in E2. apply Some_inj in E2. subst q'.
  destruct (si_deck dec enc stod ltb quadrature pi tol fname deck sm cfg q SE pv np threads mesh LA CMP MX PB HM HX k SC K1 kspPhi kspVec kspBoth KS pr gsum its psi sol UI W SO S) as (L & B). split; [exact L|].
  exists (gatherField np (meshes dec ltb q mesh np) psi). split; [|exact B].
  exact (file_deck dec enc stod ltb quadrature pi tol fname deck sm cfg q SE pv np threads mesh LA CMP MX PB HM HX psi f WF).
Qed.

(** ** Block Jacobi *)
Lemma same_sections cfg cfg' t np : same_equations cfg cfg' -> sections cfg t np = sections cfg' t np.
Proof. intros [_ _ T1 S1 T2 S2]. unfold sections. now rewrite T1, S1, T2, S2. Qed.
(** Decks for which the program does block Jacobi over the ranks with scattering: SweepType PBJSI, or PBJOuter with Krylov on each rank. *)
Definition block_jacobi (cfg : config R) : Prop := cSweep cfg = PBJSI \/ (cSweep cfg = PBJOuter /\ cUseSI cfg = false).
Lemma decide_ranks np (f : nat -> bool) : (forall r, r < np -> f r = true) \/ exists r, r < np /\ f r = false.
Proof.
  induction np as [|n IH]; [left; intros; lia|]. destruct IH as [H|(r & L & E)]; [|right; exists r; split; [lia|exact E]].
  destruct (f n) eqn:E; [|right; exists n; split; [lia|exact E]]. left. intros r L. destruct (Nat.eq_dec r n) as [->|]; [exact E|apply H; lia].
Qed.
Lemma rates_join rho1 C1 rho2 C2 : (0 < rho1 < 1)%R -> (0 < rho2 < 1)%R -> (0 < C1)%R -> (0 < C2)%R -> exists rho C, (0 < rho < 1)%R /\ (0 < C)%R /\ forall n P, (0 <= P)%R -> (C1 * rho1 ^ n * P <= C * rho ^ n * P)%R /\ (C2 * rho2 ^ n * P <= C * rho ^ n * P)%R.
Proof.
  intros R1 R2 P1 P2. exists (Rmax rho1 rho2), (C1 + C2)%R. pose proof (Rmax_l rho1 rho2). pose proof (Rmax_r rho1 rho2).
  assert (Rmax rho1 rho2 < 1)%R by (apply Rmax_lub_lt; lra). split; [lra|]. split; [lra|]. intros n P HP.
  assert (A1 : (rho1 ^ n <= Rmax rho1 rho2 ^ n)%R) by (apply pow_incr; lra). assert (A2 : (rho2 ^ n <= Rmax rho1 rho2 ^ n)%R) by (apply pow_incr; lra).
  assert (B1 : (0 <= rho1 ^ n)%R) by (apply pow_le; lra). assert (B2 : (0 <= rho2 ^ n)%R) by (apply pow_le; lra).
  split; apply Rmult_le_compat_r; auto; apply Rmult_le_compat; lra.
Qed.
(** The scalar flux in the output file converges to that of the solution, with a rate that depends on the problem and the partition only: not on
    the options of the deck, the threads, the priorities. *)
Theorem C72_block_jacobi : forall dec enc stod ltb quadrature pi tol fname0 deck0 sm cfg0 q k pv np threads0 mesh,
  runnable dec stod ltb quadrature pi tol fname0 deck0 sm cfg0 q k pv np threads0 mesh -> (k < 1)%R ->
  exists sol rho C, deck_solution dec pi sm cfg0 q sol /\
    (forall sol', deck_solution dec pi sm cfg0 q sol' -> s_same sm (q_num q) (N.to_nat (cNGroups cfg0)) sol sol') /\ (0 < rho < 1)%R /\
    forall kspPhi kspVec kspBoth fname deck cfg threads pr gsum its name f,
    runnable dec stod ltb quadrature pi tol fname deck sm cfg q k pv np threads mesh -> same_equations cfg0 cfg -> block_jacobi cfg ->
    solves_exactly dec ltb cfg q mesh np kspPhi kspVec kspBoth ->
    mainAll dec enc stod ltb quadrature pi tol kspPhi kspVec kspBoth fname deck mesh np threads pr gsum its (Some (name, f)) ->
    exists psi, (forall p, f p = nth_error (field_file enc sm cfg0 q psi) (N.to_nat p)) /\
    forall G, G < N.to_nat (cNGroups cfg0) ->
      (deck_norm dec sm cfg0 (fun G g v => s_flux (q_num q) (q_weight q) psi G g v - s_flux (q_num q) (q_weight q) sol G g v) G <= C * rho ^ N.to_nat its)%R.
Proof.
  intros dec enc stod ltb quadrature pi tol fname0 deck0 sm cfg0 q k pv np threads0 mesh [SE LA CMP MX PB SC] K1.
  pose proof (NP dec stod ltb quadrature tol fname0 deck0 sm cfg0 q SE pv np threads0 mesh LA) as N0.
  destruct (deck_well_posed dec stod quadrature pi tol fname0 deck0 sm cfg0 q np k SE N0 (la_small _ _ _ _ _ _ LA) PB SC K1) as (sol & S & U). exists sol.
  set (t := meshes dec ltb q mesh np).
  destruct (decide_ranks np (fun r => andb (match createMesh Rops dec ltb q mesh np r with Some _ => true | None => false end) (match createCrossSections (tm_material (t r)) (cSigmaT1 cfg0) (cSigmaS1 cfg0) (cSigmaT2 cfg0) (cSigmaS2 cfg0) with Some _ => true | None => false end))) as [HD|(r & Hr & E)].
  2:{ exists (/ 2)%R, 0%R. split; [exact S|]. split; [exact U|]. split; [lra|]. intros kspPhi kspVec kspBoth fname deck cfg threads pr gsum its name f [SE1 _ _ _ _ _] SQ _ _ (cfg' & q' & psi & E1 & E2 & HM & HX & _).
      rewrite (se_deck _ _ _ _ _ _ _ _ _ _ SE1) in E1. apply Some_inj in E1. subst cfg'. rewrite (se_angles _ _ _ _ _ _ _ _ _ _ SE1) in E2. apply Some_inj in E2. subst q'. exfalso.
      specialize (HM r Hr). specialize (HX r Hr). destruct SQ as [_ _ T1 S1 T2 S2]. rewrite <- T1, <- S1, <- T2, <- S2 in HX. fold t in HX. destruct (createMesh Rops dec ltb q mesh np r); [|congruence].
      destruct (createCrossSections (tm_material (t r)) (cSigmaT1 cfg0) (cSigmaS1 cfg0) (cSigmaT2 cfg0) (cSigmaS2 cfg0)); [discriminate|congruence]. }
  assert (HM : forall r, r < np -> createMesh Rops dec ltb q mesh np r <> None) by (intros r Hr E; specialize (HD r Hr); rewrite E in HD; discriminate).
  assert (HX : forall r, r < np -> createCrossSections (tm_material (t r)) (cSigmaT1 cfg0) (cSigmaS1 cfg0) (cSigmaT2 cfg0) (cSigmaS2 cfg0) <> None) by (intros r Hr E; specialize (HD r Hr); rewrite E in HD; rewrite Bool.andb_false_r in HD; discriminate).
  pose proof (confM dec enc stod ltb quadrature pi tol fname0 deck0 sm cfg0 q SE pv np threads0 mesh LA CMP MX PB HM HX) as CF.
  pose proof (sS_all dec enc stod ltb quadrature pi tol fname0 deck0 sm cfg0 q SE pv np threads0 mesh LA CMP MX PB HM HX) as SA.
  pose proof (cfg_scatters _ _ _ _ _ PB _ _ _ _ _ _ CF pi (q_weight q) k _ _ SA SC) as SO. fold t in CF, SA, SO.
  set (R0 := runM dec ltb sm cfg0 q np threads0 mesh) in *. set (nG := N.to_nat (cNGroups cfg0)) in *.
  destruct (si_uniform _ _ R0 nG _ _ pi (q_weight q) k _ SO K1) as (r1 & C1 & H1 & P1 & SI). destruct (outer_uniform _ _ R0 nG _ _ pi (q_weight q) k _ SO K1) as (r2 & C2 & H2 & P2 & OU).
  destruct (rates_join r1 C1 r2 C2 H1 H2 P1 P2) as (rho & C & H & P & JO).
  set (geo := fun r => viewGeo Rops dec (q_omega q) (t r)) in *.
  set (B := fun G => psiNorm R0 geo (fun r c => nth c (fst (sections cfg0 t np r)) 0%R) (q_weight q) (scatterField t sol) G).
  exists rho, (C * lsum (seq 0 nG) (fun G => Rabs (B G)))%R. split; [exact S|]. split; [exact U|]. split; [exact H|].
  intros kspPhi kspVec kspBoth fname deck cfg threads pr gsum its name f [SE1 LA1 _ MX1 PB1 SC1] SQ BJ KS (cfg' & q' & psi & E1 & E2 & HM1 & HX1 & SV & O1 & O2 & WF).
  rewrite (se_deck _ _ _ _ _ _ _ _ _ _ SE1) in E1. apply Some_inj in E1. subst cfg'. rewrite (se_angles _ _ _ _ _ _ _ _ _ _ SE1) in E2. apply Some_inj in E2. subst q'. fold t in HX1, SV, WF.
  exists (gatherField np t psi). split.
  { intros p. rewrite (proj2 (same_deck dec enc pi sm cfg0 cfg q _ SQ)). exact (file_deck dec enc stod ltb quadrature pi tol fname deck sm cfg q SE1 pv np threads mesh LA1 CMP MX1 PB1 HM1 HX1 psi f WF p). }
  intros G HG. pose proof (same_sections cfg0 cfg t np SQ) as EX. pose proof (sq_groups _ _ SQ) as EG. subst nG. rewrite EG in *.
  pose proof (confM dec enc stod ltb quadrature pi tol fname deck sm cfg q SE1 pv np threads mesh LA1 CMP MX1 PB1 HM1 HX1) as CF1.
  pose proof (sS_all dec enc stod ltb quadrature pi tol fname deck sm cfg q SE1 pv np threads mesh LA1 CMP MX1 PB1 HM1 HX1) as SA1.
  pose proof (cfg_scatters _ _ _ _ _ PB1 _ _ _ _ _ _ CF1 pi (q_weight q) k _ _ SA1 SC1) as SO1. pose proof (cfg_vertices _ _ _ _ _ PB1 _ _ _ _ _ _ CF1) as FV1.
  set (R1 := runM dec ltb sm cfg q np threads mesh) in *. fold t in CF1, SA1, SO1, FV1. fold geo in SO1, FV1.
  pose proof (scatter_agree np t (q_num q) (N.to_nat (cNGroups cfg)) sol) as AG.
  pose proof (proj2 (scatter_deck dec enc stod ltb quadrature pi tol fname deck sm cfg q SE1 pv np threads mesh LA1 CMP MX1 PB1 HM1 HX1 _ _ AG) (proj1 (proj1 (same_deck dec enc pi sm cfg0 cfg q sol SQ)) S)) as SR.
  fold t in SR. fold geo in SR. change (runM dec ltb sm cfg q np threads mesh) with R1 in SR.
  assert (AL : alike R0 R1) by (split; [reflexivity|]; split; [reflexivity|]; split; reflexivity).
  assert (BP : (0 <= B G)%R) by (apply (BlockEnergyProofs.psiNorm_pos _ R0 _ _ (so_transport _ _ _ _ _ _ _ _ SO) pi _ (so_weights _ _ _ _ _ _ _ _ SO))).
  assert (BB : (B G <= lsum (seq 0 (N.to_nat (cNGroups cfg))) (fun G => Rabs (B G)))%R).
  { eapply Rle_trans; [apply Rle_abs|]. replace (Rabs (B G)) with (lsum [G] (fun G => Rabs (B G))) by (unfold lsum; cbn; ring). apply lsum_incl; [repeat constructor; auto|intros ? [<-|[]]; apply in_seq; lia|intros; apply Rabs_pos]. }
  assert (DN : deck_norm dec sm cfg0 (fun G g v => s_flux (q_num q) (q_weight q) (gatherField np t psi) G g v - s_flux (q_num q) (q_weight q) sol G g v)%R G =
    fluxNorm R1 geo (fun r c => nth c (fst (sections cfg t np r)) 0%R) (minus (scalarFlux R1 (q_weight q) psi) (scalarFlux R1 (q_weight q) (scatterField t sol))) G).
  { unfold deck_norm. rewrite (sq_t1 _ _ SQ), (sq_t2 _ _ SQ). symmetry.
    exact (norm_deck dec enc stod ltb quadrature pi tol fname deck sm cfg q SE1 pv np threads mesh LA1 CMP MX1 PB1 HM1 HX1 psi _ _ sol G HG (gathered dec enc stod ltb quadrature pi tol fname deck sm cfg q SE1 pv np threads mesh LA1 CMP MX1 PB1 HM1 HX1 psi) AG). }
  rewrite DN. unfold B in BP, BB. rewrite EX in *.
  eapply Rle_trans; [|apply Rle_trans with (C * rho ^ N.to_nat its * lsum (seq 0 (N.to_nat (cNGroups cfg))) (fun G => Rabs (B G)))%R; [apply Rmult_le_compat_l; [apply Rmult_le_pos; [lra|apply pow_le; lra]|unfold B; rewrite EX; exact BB]|right; ring]].
  unfold solveAll in SV. destruct BJ as [E|(E & UI)]; rewrite E in SV.
  - destruct SV as (tmp & phi & val & bnd & n & BS & -> & ->). rewrite Nat2N.id. apply (si_mpi _ _ _ _ _ _ TraverseModel.TychoTwoSided (mateOf sm np t)) in BS.
    eapply Rle_trans; [exact (SI R1 AL SO1 FV1 _ _ _ _ _ _ _ _ _ _ _ SR BS G HG)|apply JO, BP].
  - destruct SV as (val & bnd & n & BS & -> & ->). rewrite Nat2N.id.
    apply (bouter_mpi _ _ _ _ _ _ TraverseModel.TychoTwoSided (mateOf sm np t) _ _ _ _ _ _ _ (fun b p p' X => X)) in BS.
    eapply Rle_trans; [eapply (OU R1 AL SO1 FV1 _ _ _ _ _ _ _ _ _ _ SR _ BS G HG)|apply JO, BP].
    Unshelve. intros b p p' IN.
    exact (inner_eq dec ltb pi sm pv np cfg q threads PB1 (se_mesh _ _ _ _ _ _ _ _ _ _ SE1) (la_partition _ _ _ _ _ _ LA1) (la_small _ _ _ _ _ _ LA1) CMP (la_threads _ _ _ _ _ _ LA1) (HG0 dec stod quadrature tol fname deck sm cfg q SE1)
      (se_some _ _ _ _ _ _ _ _ _ _ SE1) (se_cells _ _ _ _ _ _ _ _ _ _ SE1) (se_size _ _ _ _ _ _ _ _ _ _ SE1) MX1 t (RD dec ltb sm q pv np threads mesh LA1 HM1) (sections cfg t np) (XS dec ltb cfg q np mesh HX1) kspPhi kspVec kspBoth KS pr gsum _ b p p' UI IN).
Qed.
(** The linear solver returns a solution when there is one. *)
Definition solves_always (dec : N -> R) ltb (cfg : config R) (q : angles R) (mesh : bytes) (np : nat) kspPhi kspVec kspBoth : Prop :=
  complete_solver np (N.to_nat (cNGroups cfg)) (fun r => tm_nCells (meshes dec ltb q mesh np r))
    (fun r => getPsiBoundSize (q_num q) (N.to_nat (cNGroups cfg)) (viewMesh Rops dec (q_omega q) (meshes dec ltb q mesh np r))) kspPhi kspVec kspBoth.
(** What a deck must say, beside the name of a solver, for it to be shown to end. Schedules need a step of at least one cell; the exchange of
    TraverseGraph is the two-sided one; the linear systems of PBJ and SchurOuter are shown to have a solution if the solver inside is exact. *)
Definition ends_solver (cells : nat) (cfg : config R) : Prop := match cSweep cfg with
  | TraverseGraph => cMpi cfg = DeckModel.TychoTwoSided
  | OriginalTycho1 | OriginalTycho2 => (cMaxCellsPerStep cfg mod 4294967296 <> 0)%N
  | PBJ => cUseSI cfg = true \/ exhaustive cells cfg
  | SchurOuter => cUseSI cfg = false
  | PBJOuter | PBJSI | Schur | SchurKrylov => True
  end.
(** And a run exists, whatever the priorities and the way sums are formed. *)
Theorem C72_runs : forall dec enc stod ltb quadrature pi tol kspPhi kspVec kspBoth fname deck sm cfg q k pv np threads mesh,
  runnable dec stod ltb quadrature pi tol fname deck sm cfg q k pv np threads mesh -> (k < 1)%R -> two_materials sm ->
  solves_exactly dec ltb cfg q mesh np kspPhi kspVec kspBoth -> solves_always dec ltb cfg q mesh np kspPhi kspVec kspBoth -> ends_solver (List.length (sm_cells sm)) cfg ->
  forall pr gsum, exists its out, mainAll dec enc stod ltb quadrature pi tol kspPhi kspVec kspBoth fname deck mesh np threads pr gsum its out /\
    match out with Some (name, _) => cOutputFile cfg = true /\ name = cOutputFilename cfg | None => cOutputFile cfg = false end.
Proof.
  intros dec enc stod ltb quadrature pi tol kspPhi kspVec kspBoth fname deck sm cfg q k pv np threads mesh [SE LA CMP MX PB SC] K1 TM KS KC ES pr gsum.
  pose proof (NP dec stod ltb quadrature tol fname deck sm cfg q SE pv np threads mesh LA) as N0.
  destruct (C70_geometry _ _ _ _ _ PB (one_small sm np N0 (la_small _ _ _ _ _ _ LA)) ltac:(pose proof (se_one _ _ _ _ _ _ _ _ _ SE) as SZ; clear -SZ; lia)) as (_ & NO).
  destruct (program_meshes Rops dec stod ltb quadrature tol fname deck sm cfg q pv np threads mesh SE LA TM) as (t & xs & RDt & RR & XSt).
  pose proof (HG0 dec stod quadrature tol fname deck sm cfg q SE) as G0.
  assert (CM : forall r, r < np -> createMesh Rops dec ltb q mesh np r = Some (t r)).
  { intros r Hr. destruct (RR r Hr) as (P & E1 & E2). unfold createMesh. rewrite E1. cbn [obind]. rewrite E2. cbn [obind].
    now rewrite (constructs_ok Rops dec enc ltb pi sm pv np cfg q threads (se_mesh _ _ _ _ _ _ _ _ _ _ SE) (la_partition _ _ _ _ _ _ LA) (la_small _ _ _ _ _ _ LA) (la_compares _ _ _ _ _ _ LA) (la_threads _ _ _ _ _ _ LA) N0 G0
      (se_some _ _ _ _ _ _ _ _ _ _ SE) (se_cells _ _ _ _ _ _ _ _ _ _ SE) (se_size _ _ _ _ _ _ _ _ _ _ SE) t RDt r NO Hr). }
  assert (HM : forall r, r < np -> createMesh Rops dec ltb q mesh np r <> None) by (intros r Hr; rewrite (CM r Hr); discriminate).
  assert (ET : forall r, r < np -> meshes dec ltb q mesh np r = t r) by (intros r Hr; unfold meshes, onRanks; now rewrite (proj2 (Nat.ltb_lt _ _) Hr), (CM r Hr)).
  assert (HX : forall r, r < np -> createCrossSections (tm_material (meshes dec ltb q mesh np r)) (cSigmaT1 cfg) (cSigmaS1 cfg) (cSigmaT2 cfg) (cSigmaS2 cfg) <> None) by (intros r Hr; rewrite (ET r Hr), (XSt r Hr); discriminate).
  destruct (solve_total dec ltb pi tol sm pv np cfg q threads PB (se_mesh _ _ _ _ _ _ _ _ _ _ SE) (la_partition _ _ _ _ _ _ LA) (la_small _ _ _ _ _ _ LA) CMP (la_threads _ _ _ _ _ _ LA) N0 G0
    (se_some _ _ _ _ _ _ _ _ _ _ SE) (se_cells _ _ _ _ _ _ _ _ _ _ SE) (se_size _ _ _ _ _ _ _ _ _ _ SE) MX (meshes dec ltb q mesh np) (RD dec ltb sm q pv np threads mesh LA HM) (sections cfg (meshes dec ltb q mesh np) np) (XS dec ltb cfg q np mesh HX)
    (se_tol _ _ _ _ _ _ _ _ _ _ SE) kspPhi kspVec kspBoth KC k SC K1 KS pr gsum ES) as (its & psi & SO).
  destruct (file_ex dec enc stod ltb quadrature pi tol fname deck sm cfg q SE pv np threads mesh LA CMP MX PB HM HX psi) as (f & WF).
  exists its, (if cOutputFile cfg then Some (cOutputFilename cfg, f) else None). split; [|destruct (cOutputFile cfg); auto].
  exists cfg, q, psi. split; [exact (se_deck _ _ _ _ _ _ _ _ _ _ SE)|]. split; [exact (se_angles _ _ _ _ _ _ _ _ _ _ SE)|]. split; [exact HM|]. split; [exact HX|]. split; [exact SO|]. destruct (cOutputFile cfg); auto.
Qed.
(** For the solvers of C70 and C71 this is the program of C70 and C71. *)
Theorem C72_agrees : forall dec enc stod ltb quadrature pi tol kspPhi kspVec kspBoth fname deck mesh np threads pr gsum its out cfg,
  readInput stod fname (Some deck) = Some cfg -> cUseSI cfg = true -> cSweep cfg = TraverseGraph \/ cSweep cfg = OriginalTycho1 \/ cSweep cfg = OriginalTycho2 ->
  mainAll dec enc stod ltb quadrature pi tol kspPhi kspVec kspBoth fname deck mesh np threads pr gsum its out -> mainRun Rops dec enc stod ltb quadrature pi tol fname deck mesh np threads pr gsum its out.
Proof.
  intros dec enc stod ltb quadrature pi tol kspPhi kspVec kspBoth fname deck mesh np threads pr gsum its out cfg RI UI TY (cfg' & q & psi & E1 & E2 & HM & HX & SO & O). rewrite RI in E1. apply Some_inj in E1. subst cfg'.
  exists cfg, q, (meshes dec ltb q mesh np), (sections cfg (meshes dec ltb q mesh np) np), psi. split; [exact RI|]. split; [exact E2|]. split.
  { intros r Hr. unfold meshes, onRanks. rewrite (proj2 (Nat.ltb_lt _ _) Hr). specialize (HM r Hr). destruct (createMesh Rops dec ltb q mesh np r); congruence. }
  split; [exact (XS dec ltb cfg q np mesh HX)|]. split; [exact UI|]. split; [|exact O].
  assert (K : exists sweep, sweeper Rops dec tol cfg q (meshes dec ltb q mesh np) np threads (sections cfg (meshes dec ltb q mesh np) np) pr sweep /\
    iterative dec pi kspPhi cfg q (meshes dec ltb q mesh np) (sections cfg (meshes dec ltb q mesh np) np) gsum (fun _ => sweep) (source dec q (meshes dec ltb q mesh np) (sections cfg (meshes dec ltb q mesh np) np)) zeroSource its psi)
    by (unfold solveAll in SO; destruct TY as [E|[E|E]]; rewrite E in SO; exact SO).
  destruct K as (sweep & SW & I). unfold iterative in I. rewrite UI in I. destruct I as (pn & po & e & FP). exists sweep, pn, po, e. split; [exact SW|exact FP].
Qed.
Print Assumptions C72_direct. Print Assumptions C72_same. Print Assumptions C72_source_iteration. Print Assumptions C72_block_jacobi. Print Assumptions C72_runs. Print Assumptions C72_agrees.
