(** A case in which the hypotheses of C79 hold: two tetrahedra of the two materials, in double precision, on one rank or two. *)
From Coq Require Import Reals Permutation String ZArith.
From Flocq Require Import Core IEEE754.BinarySingleNaN IEEE754.Binary IEEE754.Bits.
From Verif Require Import Prelude Bytes LayoutModel PsiFileModel PsiFileSpec DeckModel MeshModel MeshSpec MeshProofs CreateModel CreateSpec CreateProofs PropertiesCreate TychoModel TychoSpec MeshCheck GeometryModel GaussModel TransportModel TraverseModel TraverseRun
  SweepModel FluxModel ProblemModel ViewModel ViewSpec PropertiesView BitsModel BitsSpec PropertiesBits DoubleModel DoubleSpec PropertiesDouble MainModel MainSpec PropertiesMain PropertiesMainEx PropertiesMainSame JacobiModel JacobiSpec PropertiesJacobi.

Definition C79_types : list DeckModel.sweepType := [PBJ; PBJOuter; PBJSI].
Definition C79_type (ty : DeckModel.sweepType) : string := match ty with PBJOuter => "SweepType PBJOuter" | PBJSI => "SweepType PBJSI" | _ => "SweepType PBJ" end%string.
(** Two decks: with different step sizes, priorities, and exchanges. *)
Definition C79_deck (other : bool) (ty : DeckModel.sweepType) : chars := concat (map (fun l => str l ++ [10%N])
  ["snOrder 2"; "iterMax 3"; "errMax 0"; (if other then "maxCellsPerStep 1" else "maxCellsPerStep 10"); (if other then "intraAngleP 0" else "intraAngleP 1"); (if other then "interAngleP 0" else "interAngleP 2");
   "nGroups 2"; "sigmaT1 10"; "sigmaS1 5"; "sigmaT2 7"; "sigmaS2 1"; "OutputFile true"; "OutputFilename out.psi";
   "DD_IterMax 50"; "DD_ErrMax 1"; "SourceIteration true"; (if other then "MPIType CapsaicinTwoSided" else "MPIType TychoTwoSided"); C79_type ty;
   "GaussElim CramerGlu"]%string).
Definition C79_cfg (other : bool) (ty : DeckModel.sweepType) : config binary64 :=
  mkConfig 2 3 (D_of_Z 0) (if other then 1 else 10) (if other then 0 else 1) (if other then 0 else 2) 2 (D_of_Z 10) (D_of_Z 5) (D_of_Z 7) (D_of_Z 1) true (str "out.psi") 50 (D_of_Z 1) true
    (if other then DeckModel.CapsaicinTwoSided else DeckModel.TychoTwoSided) ty GE_CramerGlu.
Lemma C79_reads other ty D (stod : chars -> option D) (d : Z -> D) : In ty C79_types -> (forall k n, In (k, n) [("0", 0); ("1", 1); ("5", 5); ("7", 7); ("10", 10)]%string%Z -> stod (str k) = Some (d n)) ->
  readInput stod [] (Some (C79_deck other ty)) =
  Some (mkConfig 2 3 (d 0%Z) (if other then 1 else 10) (if other then 0 else 1) (if other then 0 else 2) 2 (d 10%Z) (d 5%Z) (d 7%Z) (d 1%Z) true (str "out.psi") 50 (d 1%Z) true
    (if other then DeckModel.CapsaicinTwoSided else DeckModel.TychoTwoSided) ty GE_CramerGlu).
Proof.
  intros IN H. pose proof (H "0"%string 0%Z ltac:(cbn; auto)) as H0. pose proof (H "1"%string 1%Z ltac:(cbn; auto)) as H1. pose proof (H "5"%string 5%Z ltac:(cbn; auto)) as H5.
  pose proof (H "7"%string 7%Z ltac:(cbn; auto)) as H7. pose proof (H "10"%string 10%Z ltac:(cbn; auto 6)) as H10. clear H. vm_compute in H0, H1, H5, H7, H10.
  destruct other; destruct IN as [<-|[<-|[<-|[]]]]; vm_compute; rewrite ?H0; rewrite ?H10; rewrite ?H5; rewrite ?H7; rewrite ?H1; reflexivity.
Qed.
Lemma C79_zero : zero_flux Dops (mkAngles 1 C66_om (fun _ => aone Dops)).
Proof. intros a _. vm_compute. reflexivity. Qed.
Lemma C79_same ty : same_run (C79_cfg false ty) (C79_cfg true ty).
Proof. constructor; reflexivity. Qed.
Lemma C79_alike : same_parts C66_mesh [1; 0]%N [0; 1]%N.
Proof.
  intros g h sg sh Hg Hh. apply at_index in Hg as (i & -> & _ & Hi). apply at_index in Hh as (j & -> & _ & Hj). cbn in Hi, Hj. destruct i as [|[|i]]; [| |lia]; (destruct j as [|[|j]]; [| |lia]); reflexivity.
Qed.
Lemma C79_gauss other ty : cGauss (C79_cfg other ty) <> GE_Original.
Proof. unfold C79_cfg. cbn [cGauss]. discriminate. Qed.
Lemma C79_out other ty : cOutputFile (C79_cfg other ty) <> false.
Proof. unfold C79_cfg. cbn [cOutputFile]. discriminate. Qed.
Lemma C79_max other ty : (0 < cMaxCellsPerStep (C79_cfg other ty))%N.
Proof. destruct other; reflexivity. Qed.
Example C79_ex ty : In ty C79_types ->
  (forall other, block_setting Dops ddec C70_stod C70_quadrature [] (C79_deck other ty) C66_mesh (C79_cfg other ty) (mkAngles 1 C66_om (fun _ => aone Dops))) /\
  same_run (C79_cfg false ty) (C79_cfg true ty) /\ same_parts C66_mesh [1; 0]%N [0; 1]%N /\ zero_flux Dops (mkAngles 1 C66_om (fun _ => aone Dops)) /\ two_materials C66_mesh /\
  forall other pv np, In (pv, np) [([0; 0]%N, 1); ([1; 0]%N, 2); ([0; 1]%N, 2)] -> exists mesh, forall threads, 0 < threads -> launch dltb C66_mesh pv np threads mesh /\ no_cycle_in_a_part Dops ddec C66_mesh (mkAngles 1 C66_om (fun _ => aone Dops)) pv /\
  forall pr gsum, exists ops out, mainBlock Dops ddec C70_enc C70_stod dltb C70_quadrature (ddec 0x400921FB54442D18) [] (C79_deck other ty) mesh np threads pr gsum ops (Some (str "out.psi", out)).
Proof.
  intros ITY. destruct C66_ex as (FI & _ & BO & _).
  assert (SE : forall other, setting Dops ddec C70_stod C70_quadrature C70_tol [] (C79_deck other ty) C66_mesh (C79_cfg other ty) (mkAngles 1 C66_om (fun _ => aone Dops))).
  { intros other. constructor; [apply (C79_reads other ty _ C70_stod D_of_Z ITY); intros k n [E|[E|[E|[E|[E|[]]]]]]; inversion E; subst; reflexivity|reflexivity|exact BO|intros _; exact C70_beyond|cbn; lia|cbn; lia|reflexivity|destruct other; vm_compute; reflexivity]. }
  assert (TM : two_materials C66_mesh).
  { intros g sc H. apply at_index in H as (i & -> & H & Hi). destruct i as [|[|i]]; [| |cbn in Hi; lia]; apply Some_inj in H; subst sc; auto. }
  assert (SB : forall other, block_setting Dops ddec C70_stod C70_quadrature [] (C79_deck other ty) C66_mesh (C79_cfg other ty) (mkAngles 1 C66_om (fun _ => aone Dops))) by (intros other; exact (setting_block _ _ _ _ _ _ _ _ _ _ (SE other))).
  split; [exact SB|]. split; [exact (C79_same ty)|]. split; [exact C79_alike|]. split; [exact C79_zero|]. split; [exact TM|]. intros other pv np IN.
  assert (PV : partition_vector_ok C66_mesh pv np).
  { destruct IN as [E|[E|[E|[]]]]; inversion E; subst; split; [reflexivity|split; [repeat constructor|reflexivity]|reflexivity|split; [repeat constructor|reflexivity]|reflexivity|split; [repeat constructor|reflexivity]]. }
  assert (SM : mesh_small C66_mesh np) by (destruct IN as [E|[E|[E|[]]]]; inversion E; subst; repeat split; vm_compute; reflexivity).
  destruct (C65_reads C66_mesh pv np dltb _ (bo_mesh _ _ _ _ _ BO) (bo_tets _ _ _ _ _ BO) PV SM (C66_double_compares _ FI)) as (t & m & mesh & m' & CR & WR & _). exists mesh. intros threads TH.
  assert (LA : launch dltb C66_mesh pv np threads mesh) by (constructor; [exact PV|exact SM|eexists; exact (C66_double_compares _ FI)|eauto|exact TH]).
  assert (NC : no_cycle_in_a_part Dops ddec C66_mesh (mkAngles 1 C66_om (fun _ => aone Dops)) pv) by (destruct (bo_acyclic _ _ _ _ _ BO) as (lvl & L); exists lvl; intros a g lf h Ha NX _; exact (L a g lf h Ha NX)).
  split; [exact LA|]. split; [exact NC|]. intros pr gsum.
  destruct (C79_runs _ Dops ddec C70_enc C70_stod dltb C70_quadrature (ddec 0x400921FB54442D18) [] (C79_deck other ty) C66_mesh (C79_cfg other ty) (mkAngles 1 C66_om (fun _ => aone Dops)) pv np threads mesh pr gsum (SB other) LA TM C70_normals NC) as (ops & out & R);
    [unfold C79_cfg; cbn [cSweep]; destruct ITY as [<-|[<-|[<-|[]]]]; auto|reflexivity|apply C79_max|left; apply C79_gauss|].
  exists ops. destruct (C79_output _ _ _ _ _ _ _ _ _ _ _ _ _ _ _ _ _ _ _ _ _ (SB other) LA R) as (_ & s & _ & O). destruct out as [(n, f)|]; [|destruct (C79_out other ty O)]. destruct O as (_ & E & _). exists f. rewrite E in R. exact R.
Qed.
Print Assumptions C79_ex.
