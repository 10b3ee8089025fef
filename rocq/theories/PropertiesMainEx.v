(** A case in which the hypotheses of C70 hold: two tetrahedra of the two materials, in double precision. *)
From Coq Require Import Reals Permutation String ZArith.
From Flocq Require Import Core IEEE754.BinarySingleNaN IEEE754.Binary IEEE754.Bits.
From Verif Require Import Prelude Bytes LayoutModel PsiFileModel PsiFileSpec DeckModel MeshModel MeshSpec MeshProofs CreateModel CreateSpec CreateProofs PropertiesCreate TychoModel TychoSpec MeshCheck GeometryModel GaussModel TransportModel TraverseModel TraverseRun
  SweepModel FluxModel ProblemModel ViewModel ViewSpec PropertiesView BitsModel BitsSpec PropertiesBits DoubleModel DoubleSpec PropertiesDouble MainModel MainSpec PropertiesMain.

(** Unsigned integers only. *)
Definition C70_stod (s : chars) : option binary64 := Some (D_of_Z (Z.of_N (fold_left (fun n c => (10 * n + (c - 48))%N) s 0%N))).
Definition C70_enc (x : binary64) : N := Z.to_N (bits_of_b64 x).
Definition C70_quadrature (sn : N) : option (angles binary64) := if (sn =? 2)%N then Some (mkAngles 1 C66_om (fun _ => aone Dops)) else None.
Definition C70_type (ty : DeckModel.sweepType) : string := match ty with OriginalTycho1 => "SweepType OriginalTycho1" | OriginalTycho2 => "SweepType OriginalTycho2" | _ => "SweepType TraverseGraph" end%string.
Definition C70_deck (ty : DeckModel.sweepType) : chars := concat (map (fun l => str l ++ [10%N])
  ["snOrder 2"; "iterMax 3"; "errMax 0"; "maxCellsPerStep 10"; "intraAngleP 1"; "interAngleP 2";
   "nGroups 2"; "sigmaT1 10"; "sigmaS1 5"; "sigmaT2 7"; "sigmaS2 1"; "OutputFile true"; "OutputFilename out.psi";
   "DD_IterMax 50"; "DD_ErrMax 1"; "SourceIteration true"; "MPIType TychoTwoSided"; C70_type ty;
   "GaussElim CramerGlu"]%string).
Definition C70_cfg (ty : DeckModel.sweepType) : config binary64 :=
  mkConfig 2 3 (D_of_Z 0) 10 1 2 2 (D_of_Z 10) (D_of_Z 5) (D_of_Z 7) (D_of_Z 1) true (str "out.psi") 50 (D_of_Z 1) true DeckModel.TychoTwoSided ty GE_CramerGlu.

Definition C70_types : list DeckModel.sweepType := [TraverseGraph; OriginalTycho1; OriginalTycho2].
Lemma C70_reads ty D (stod : chars -> option D) (d : Z -> D) : In ty C70_types -> (forall k n, In (k, n) [("0", 0); ("1", 1); ("5", 5); ("7", 7); ("10", 10)]%string%Z -> stod (str k) = Some (d n)) ->
  readInput stod [] (Some (C70_deck ty)) =
  Some (mkConfig 2 3 (d 0%Z) 10 1 2 2 (d 10%Z) (d 5%Z) (d 7%Z) (d 1%Z) true (str "out.psi") 50 (d 1%Z) true DeckModel.TychoTwoSided ty GE_CramerGlu).
Proof.
  intros IN H. pose proof (H "0"%string 0%Z ltac:(cbn; auto)) as H0. pose proof (H "1"%string 1%Z ltac:(cbn; auto)) as H1. pose proof (H "5"%string 5%Z ltac:(cbn; auto)) as H5.
  pose proof (H "7"%string 7%Z ltac:(cbn; auto)) as H7. pose proof (H "10"%string 10%Z ltac:(cbn; auto 6)) as H10. clear H. vm_compute in H0, H1, H5, H7, H10.
  destruct IN as [<-|[<-|[<-|[]]]]; vm_compute; rewrite ?H0; rewrite ?H10; rewrite ?H5; rewrite ?H7; rewrite ?H1; reflexivity.
Qed.
Lemma C70_normals : normals_ok Dops C66_mesh ddec C66_om 1.
Proof.
  intros a g lf F P Ha Hlf HF HP. assert (Hg : g = 0%N \/ g = 1%N).
  { unfold b_cell in HP. destruct (SM_cell C66_mesh g) as [sc|] eqn:E; [|discriminate]. apply at_index in E as (i & -> & _ & Hi). destruct i as [|[|i]]; auto. cbn in Hi. lia. }
  destruct a; [|lia]. clear Ha.
  assert (K : match (let* F := b_face C66_mesh ddec g lf in let* P := b_cell C66_mesh ddec g in omegaDotN Dops (C66_om 0) F P) with Some _ => true | None => false end = true).
  { clear HF HP. destruct Hg as [->| ->]; do 4 (destruct lf as [|lf]; [vm_compute; reflexivity|]); lia. }
  rewrite HF, HP in K. cbn [obind] in K. intros E. rewrite E in K. discriminate K.
Qed.
Lemma C70_gauss ty : cGauss (C70_cfg ty) <> GE_Original.
Proof. unfold C70_cfg. cbn [cGauss]. discriminate. Qed.
Lemma C70_out ty : cOutputFile (C70_cfg ty) <> false.
Proof. unfold C70_cfg. cbn [cOutputFile]. discriminate. Qed.
(** 1e-10 *)
Definition C70_tol : binary64 := ddec 0x3DDB7CDFD9D7BDBB.
Lemma C70_beyond : beyond_tol Dops C66_mesh ddec C66_om 1 C70_tol.
Proof.
  intros a g lf h Ha (f & sf & O & AC & NI). destruct a; [|lia]. clear Ha. destruct (C66_faces g lf f sf O) as (Hg & L0 & F0 & F1). destruct O as (sc & _ & _ & HF & _).
  assert (Hf : f = 0%N).
  { destruct Hg as [-> | ->]; [destruct (F0 eq_refl) as [<-|[<-|[<-|[<-|[]]]]]|destruct (F1 eq_refl) as [<-|[<-|[<-|[<-|[]]]]]]; try reflexivity; apply Some_inj in HF; subst sf; destruct NI; rewrite <- AC; reflexivity. }
  rewrite (L0 Hf). clear -Hg. destruct Hg as [->| ->]; split; vm_compute; reflexivity.
Qed.
Lemma C70_ready ty : In ty C70_types -> ready_solver (C70_cfg ty).
Proof. intros [<-|[<-|[<-|[]]]]; unfold ready_solver, C70_cfg; cbn [cSweep cMpi cMaxCellsPerStep]; [split; reflexivity|discriminate|discriminate]. Qed.
Example C70_ex ty : In ty C70_types -> setting Dops ddec C70_stod C70_quadrature C70_tol [] (C70_deck ty) C66_mesh (C70_cfg ty) (mkAngles 1 C66_om (fun _ => aone Dops)) /\ two_materials C66_mesh /\
  forall pv np threads, In (pv, np) [([0; 0]%N, 1); ([1; 0]%N, 2); ([0; 1]%N, 2)] -> 0 < threads -> exists mesh, launch dltb C66_mesh pv np threads mesh /\
  forall pr gsum, exists iters out, mainRun Dops ddec C70_enc C70_stod dltb C70_quadrature (ddec 0x400921FB54442D18) C70_tol [] (C70_deck ty) mesh np threads pr gsum iters (Some (str "out.psi", out)).
Proof.
  intros ITY. destruct C66_ex as (FI & _ & BO & _).
  assert (SE : setting Dops ddec C70_stod C70_quadrature C70_tol [] (C70_deck ty) C66_mesh (C70_cfg ty) (mkAngles 1 C66_om (fun _ => aone Dops))).
  { constructor; [apply (C70_reads ty _ C70_stod D_of_Z ITY); intros k n [E|[E|[E|[E|[E|[]]]]]]; inversion E; subst; reflexivity|reflexivity|exact BO|intros _; exact C70_beyond|cbn; lia|cbn; lia|reflexivity|vm_compute; reflexivity]. }
  assert (TM : two_materials C66_mesh).
  { intros g sc H. apply at_index in H as (i & -> & H & Hi). destruct i as [|[|i]]; [| |cbn in Hi; lia]; apply Some_inj in H; subst sc; auto. }
  split; [exact SE|]. split; [exact TM|]. intros pv np threads IN TH.
  assert (LA : exists mesh, launch dltb C66_mesh pv np threads mesh).
  { assert (PV : partition_vector_ok C66_mesh pv np).
    { destruct IN as [E|[E|[E|[]]]]; inversion E; subst; split; [reflexivity|split; [repeat constructor|reflexivity]|reflexivity|split; [repeat constructor|reflexivity]|reflexivity|split; [repeat constructor|reflexivity]]. }
    assert (SM : mesh_small C66_mesh np) by (destruct IN as [E|[E|[E|[]]]]; inversion E; subst; repeat split; vm_compute; reflexivity).
    destruct (C65_reads C66_mesh pv np dltb _ (bo_mesh _ _ _ _ _ BO) (bo_tets _ _ _ _ _ BO) PV SM (C66_double_compares _ FI)) as (t & m & f & m' & CR & WR & _). exists f.
    constructor; [exact PV|exact SM|eexists; exact (C66_double_compares _ FI)|eauto|exact TH]. }
  destruct LA as (mesh & LA). exists mesh. split; [exact LA|]. intros pr gsum.
  destruct (C70_runs _ Dops ddec C70_enc C70_stod dltb C70_quadrature (ddec 0x400921FB54442D18) C70_tol [] (C70_deck ty) C66_mesh (C70_cfg ty) (mkAngles 1 C66_om (fun _ => aone Dops)) pv np threads mesh pr gsum SE LA TM C70_normals eq_refl (C70_ready ty ITY) (or_introl (C70_gauss ty))) as (iters & out & R).
  exists iters. destruct (C70_output _ _ _ _ _ _ _ _ _ _ _ _ _ _ _ _ _ _ _ _ _ _ SE LA R) as (_ & _ & V & _ & O). destruct out as [(n, f)|]; [|destruct (C70_out ty O)]. destruct O as (_ & E & _). exists f. rewrite E in R. exact R.
Qed.
Print Assumptions C70_ex.
