(** C80 on a mesh with a cycle: eight tetrahedra in a ring that in one direction wait for each other in turn. Block Jacobi with the ring cut in two
    halves ends; with the ring on one rank it hangs, and so does a sweep by graph traversal on any number of ranks. *)
From Coq Require Import Reals Permutation String ZArith.
From Flocq Require Import Core IEEE754.BinarySingleNaN IEEE754.Binary IEEE754.Bits.
From Verif Require Import Prelude Bytes LayoutModel PsiFileModel PsiFileSpec DeckModel MeshModel MeshSpec MeshProofs CreateModel CreateSpec CreateProofs PropertiesCreate TychoModel TychoSpec MeshCheck GeometryModel GaussModel TransportModel TraverseModel TraverseRun
  SweepModel FluxModel ProblemModel ViewModel ViewSpec PropertiesView BitsModel BitsSpec PropertiesBits DoubleModel DoubleSpec PropertiesDouble MainModel MainSpec PropertiesMain PropertiesMainEx PropertiesMainSame HangCheck PropertiesHangMain JacobiModel JacobiSpec RingCheck PropertiesJacobi PropertiesJacobiEx.

(** Nodes 0 to 7; cell i has the nodes i, i+1, i+2, i+3 (modulo 8), and shares the face i+1, i+2, i+3 with cell i+1. The coordinates were
    chosen so that the cells do not overlap and the direction (0, 0, 1) leaves every cell i through the face to cell i+1. *)
Definition ringCells : list scell := [
  mkScell (Q4 7 0 8 9) (Q4 0 1 2 3) 1;
  mkScell (Q4 0 1 10 11) (Q4 1 2 3 4) 2;
  mkScell (Q4 1 2 12 13) (Q4 2 3 4 5) 1;
  mkScell (Q4 2 3 14 15) (Q4 3 4 5 6) 2;
  mkScell (Q4 3 4 16 17) (Q4 4 5 6 7) 1;
  mkScell (Q4 4 5 18 19) (Q4 5 6 7 0) 2;
  mkScell (Q4 5 6 20 21) (Q4 6 7 0 1) 1;
  mkScell (Q4 6 7 22 23) (Q4 7 0 1 2) 2]%N.
Definition ringFaces : list sface := [
  mkSface (Q2 0 1) (Q3 1 2 3);
  mkSface (Q2 1 2) (Q3 2 3 4);
  mkSface (Q2 2 3) (Q3 3 4 5);
  mkSface (Q2 3 4) (Q3 4 5 6);
  mkSface (Q2 4 5) (Q3 5 6 7);
  mkSface (Q2 5 6) (Q3 6 7 0);
  mkSface (Q2 6 7) (Q3 7 0 1);
  mkSface (Q2 7 0) (Q3 0 1 2);
  mkSface (Q2 0 INVALID) (Q3 0 1 3);
  mkSface (Q2 0 INVALID) (Q3 0 2 3);
  mkSface (Q2 1 INVALID) (Q3 1 2 4);
  mkSface (Q2 1 INVALID) (Q3 1 3 4);
  mkSface (Q2 2 INVALID) (Q3 2 3 5);
  mkSface (Q2 2 INVALID) (Q3 2 4 5);
  mkSface (Q2 3 INVALID) (Q3 3 4 6);
  mkSface (Q2 3 INVALID) (Q3 3 5 6);
  mkSface (Q2 4 INVALID) (Q3 4 5 7);
  mkSface (Q2 4 INVALID) (Q3 4 6 7);
  mkSface (Q2 5 INVALID) (Q3 5 6 0);
  mkSface (Q2 5 INVALID) (Q3 5 7 0);
  mkSface (Q2 6 INVALID) (Q3 6 7 1);
  mkSface (Q2 6 INVALID) (Q3 6 0 1);
  mkSface (Q2 7 INVALID) (Q3 7 0 2);
  mkSface (Q2 7 INVALID) (Q3 7 1 2)]%N.
Definition ringNodes : list snode := [
  mkSnode (Q3 0x4024000000000000 0x4024000000000000 0x401c000000000000);
  mkSnode (Q3 0x402a000000000000 0x402c000000000000 0x4028000000000000);
  mkSnode (Q3 0x402a000000000000 0x4026000000000000 0x4030000000000000);
  mkSnode (Q3 0x4018000000000000 0x4026000000000000 0x3ff0000000000000);
  mkSnode (Q3 0x3ff0000000000000 0x4030000000000000 0x4010000000000000);
  mkSnode (Q3 0x4018000000000000 0x4028000000000000 0x4026000000000000);
  mkSnode (Q3 0x4020000000000000 0 0x4000000000000000);
  mkSnode (Q3 0x401c000000000000 0x4000000000000000 0x401c000000000000)]%N.
Definition ringMesh : smesh := mkSmesh serialName 2 8 24 8 ringCells ringFaces ringNodes.
Definition ringOm (a : nat) : q3 binary64 := Q3 (azero Dops) (azero Dops) (aone Dops).
Definition ringAngles : angles binary64 := mkAngles 1 ringOm (fun _ => aone Dops).
Definition ringQuadrature (sn : N) : option (angles binary64) := if (sn =? 2)%N then Some ringAngles else None.
Definition ringHalves : list N := [0; 0; 0; 0; 1; 1; 1; 1]%N.
Lemma ring_fit : fit_ok Dops ringMesh ddec ringOm 1.
Proof.
  assert (OK : serial_mesh_ok ringMesh) by (apply crossb_ok; [apply serial_wfb_ok|]; vm_compute; reflexivity).
  constructor; [exact OK|apply tetsb_ok; vm_compute; reflexivity|apply signsOkb_ok; [exact OK|vm_compute; reflexivity]].
Qed.
Lemma ring_normals : normals_ok Dops ringMesh ddec ringOm 1.
Proof. apply (normalsb_ok Dops ringMesh ddec ringOm 1). vm_compute. reflexivity. Qed.
Lemma ring_next (i : nat) : i < 8 -> s_next ringMesh (N.of_nat ((i + 1) mod 8)) 3 (N.of_nat i).
Proof.
  intros Hi. exists (N.of_nat i), (nth i ringFaces (mkSface (Q2 0 0) (Q3 0 0 0))%N).
  do 8 (destruct i as [|i]; [split; [|split; [reflexivity|discriminate]]; eexists; (split; [reflexivity|]); (split; [cbn; tauto|]); (split; [reflexivity|]); (split; [lia|]);
    intros v n H; destruct v as [|[|[|[|v]]]]; cbn in H; try (now destruct v); apply Some_inj in H; subst n; cbn; intuition (try congruence; try discriminate)|]). lia.
Qed.
Lemma ring_in : forallb (fun i => negb (b_out Dops ringMesh ddec ringOm 0 (N.of_nat ((i + 1) mod 8)) 3)) (seq 0 8) = true.
Proof. vm_compute. reflexivity. Qed.
(** The ring is a cycle, for whoever waits for all neighbours; if all cells are together, for block Jacobi too. *)
Lemma ring_cycle (lvl : nat -> N -> nat) : (forall g lf h, s_next ringMesh g lf h -> b_out Dops ringMesh ddec ringOm 0 g lf = false -> lvl 0 h < lvl 0 g) -> False.
Proof.
  intros H. assert (K : forall i, i < 8 -> lvl 0 (N.of_nat i) < lvl 0 (N.of_nat ((i + 1) mod 8))).
  { intros i Hi. apply (H _ 3 _ (ring_next i Hi)). pose proof ring_in as R. rewrite forallb_forall in R. specialize (R i ltac:(apply in_seq; lia)). now apply Bool.negb_true_iff in R. }
  pose proof (K 0 ltac:(lia)). pose proof (K 1 ltac:(lia)). pose proof (K 2 ltac:(lia)). pose proof (K 3 ltac:(lia)). pose proof (K 4 ltac:(lia)). pose proof (K 5 ltac:(lia)). pose proof (K 6 ltac:(lia)). pose proof (K 7 ltac:(lia)).
  cbn -[lt] in *. lia.
Qed.
Lemma ring_cut : no_cycle_in_a_part Dops ddec ringMesh ringAngles ringHalves.
Proof. apply (acyclicb_ok _ _ _ _ _ (fun _ g => N.to_nat g)). vm_compute. reflexivity. Qed.
Lemma ring_together : ~ no_cycle_in_a_part Dops ddec ringMesh ringAngles (repeat 0%N 8).
Proof.
  intros (lvl & L). apply (ring_cycle lvl). intros g lf h NX B. refine (L 0 g lf h _ NX _ B); [cbn; lia|].
  assert (OW : forall x sc, SM_cell ringMesh x = Some sc -> owner (repeat 0%N 8) x = Some 0%N) by (intros x sc E; apply at_index in E as (i & -> & _ & Hi); do 8 (destruct i as [|i]; [reflexivity|]); cbn in Hi; lia).
  destruct NX as (f & sf & (sc & E & I & F & _) & X & NI). unfold same_part. rewrite (OW g sc E).
  assert (E' : exists sc', SM_cell ringMesh h = Some sc').
  { destruct (smo_cf _ (bo_mesh _ _ _ _ _ ring_fit) _ _ _ E I) as (sf' & F' & IN & _). rewrite F in F'. apply Some_inj in F'. subst sf'. clear -F X NI. apply at_index in F as (i & -> & F & Hi).
    do 24 (destruct i as [|i]; [apply Some_inj in F; subst sf; revert X; unfold s_across; cbn [sf_cells]; match goal with |- context [(?a =? g)%N] => destruct (a =? g)%N end; intros <-; first [eexists; reflexivity|destruct (NI eq_refl)]|]). cbn in Hi. lia. }
  destruct E' as (sc' & E'). now rewrite (OW h sc' E').
Qed.
Lemma ring_finite : coords_finite ringMesh.
Proof.
  intros n s x H I. apply at_index in H as (i & -> & H & Hi).
  do 8 (destruct i as [|i]; [apply Some_inj in H; subst s; cbn in I; repeat (destruct I as [<-|I]; [vm_compute; reflexivity|]); destruct I|]). cbn in Hi. lia.
Qed.
Lemma ring_materials : two_materials ringMesh.
Proof. intros g sc H. apply at_index in H as (i & -> & H & Hi). do 8 (destruct i as [|i]; [apply Some_inj in H; subst sc; auto|]). cbn in Hi. lia. Qed.
Lemma ring_launch pv np : In (pv, np) [(repeat 0%N 8, 1); (ringHalves, 2)] -> exists mesh, forall threads, 0 < threads -> launch dltb ringMesh pv np threads mesh.
Proof.
  intros IN. assert (PV : partition_vector_ok ringMesh pv np) by (destruct IN as [E|[E|[]]]; inversion E; subst; (split; [reflexivity|split; [repeat constructor|reflexivity]])).
  assert (SM : mesh_small ringMesh np) by (destruct IN as [E|[E|[]]]; inversion E; subst; repeat split; vm_compute; reflexivity).
  destruct (C65_reads ringMesh pv np dltb _ (bo_mesh _ _ _ _ _ ring_fit) (bo_tets _ _ _ _ _ ring_fit) PV SM (C66_double_compares _ ring_finite)) as (t & m & f & m' & CR & WR & _). exists f. intros threads TH.
  constructor; [exact PV|exact SM|eexists; exact (C66_double_compares _ ring_finite)|eauto|exact TH].
Qed.
Lemma ring_setting other ty : In ty C79_types -> block_setting Dops ddec C70_stod ringQuadrature [] (C79_deck other ty) ringMesh (C79_cfg other ty) ringAngles.
Proof.
  intros ITY. constructor; [apply (C79_reads other ty _ C70_stod D_of_Z ITY); intros k n [E|[E|[E|[E|[E|[]]]]]]; inversion E; subst; reflexivity|reflexivity|exact ring_fit|cbn; lia|cbn; lia|reflexivity|destruct other; vm_compute; reflexivity].
Qed.
Lemma ring_asks other ty : asks_for_sweep Dops (C79_cfg other ty).
Proof. split; [destruct other; reflexivity|]. right. split; [destruct other; reflexivity|]. destruct other; vm_compute; reflexivity. Qed.

(** The same deck, mesh and direction: with the halves of the ring on two ranks every run ends; with the ring on one rank no run does. *)
Example C80_ring_ex ty other : In ty C79_types -> forall threads, 0 < threads ->
  block_setting Dops ddec C70_stod ringQuadrature [] (C79_deck other ty) ringMesh (C79_cfg other ty) ringAngles /\ asks_for_sweep Dops (C79_cfg other ty) /\
  (exists mesh, launch dltb ringMesh ringHalves 2 threads mesh /\
    forall pr gsum, exists ops out, mainBlock Dops ddec C70_enc C70_stod dltb ringQuadrature (ddec 0x400921FB54442D18) [] (C79_deck other ty) mesh 2 threads pr gsum ops (Some (str "out.psi", out))) /\
  exists mesh, launch dltb ringMesh (repeat 0%N 8) 1 threads mesh /\
    forall pr gsum ops out, ~ mainBlock Dops ddec C70_enc C70_stod dltb ringQuadrature (ddec 0x400921FB54442D18) [] (C79_deck other ty) mesh 1 threads pr gsum ops out.
Proof.
  intros ITY threads TH. pose proof (ring_setting other ty ITY) as SE. split; [exact SE|]. split; [apply ring_asks|].
  assert (HS : cSweep (C79_cfg other ty) = PBJ \/ cSweep (C79_cfg other ty) = PBJOuter \/ cSweep (C79_cfg other ty) = PBJSI) by (unfold C79_cfg; cbn [cSweep]; destruct ITY as [<-|[<-|[<-|[]]]]; auto).
  split.
  - destruct (ring_launch ringHalves 2) as (mesh & LA); [right; now left|]. exists mesh. specialize (LA threads TH). split; [exact LA|]. intros pr gsum.
    destruct (proj2 (C80_ends _ Dops ddec C70_enc C70_stod dltb ringQuadrature (ddec 0x400921FB54442D18) [] (C79_deck other ty) ringMesh (C79_cfg other ty) ringAngles ringHalves 2 threads mesh pr gsum SE LA ring_materials ring_normals HS eq_refl (C79_max other ty) (ring_asks other ty) (C79_gauss other ty)) ring_cut) as (ops & out & R).
    exists ops. destruct (C79_output _ _ _ _ _ _ _ _ _ _ _ _ _ _ _ _ _ _ _ _ _ SE LA R) as (_ & s & _ & O). destruct out as [(n, f)|]; [|destruct (C79_out other ty O)]. destruct O as (_ & E & _). exists f. rewrite E in R. exact R.
  - destruct (ring_launch (repeat 0%N 8) 1) as (mesh & LA); [now left|]. exists mesh. specialize (LA threads TH). split; [exact LA|]. intros pr gsum ops out R.
    apply ring_together. apply (C80_ends _ Dops ddec C70_enc C70_stod dltb ringQuadrature (ddec 0x400921FB54442D18) [] (C79_deck other ty) ringMesh (C79_cfg other ty) ringAngles (repeat 0%N 8) 1 threads mesh pr gsum SE LA ring_materials ring_normals HS eq_refl (C79_max other ty) (ring_asks other ty) (C79_gauss other ty)). eauto.
Qed.
(** A sweep by graph traversal ends on no partition of this mesh (C76). *)
Example C80_traversal_ex : forall pv np threads mesh pr gsum iters out, launch dltb ringMesh pv np threads mesh ->
  ~ mainRun Dops ddec C70_enc C70_stod dltb ringQuadrature (ddec 0x400921FB54442D18) C70_tol [] (C70_deck TraverseGraph) mesh np threads pr gsum iters out.
Proof.
  intros pv np threads mesh pr gsum iters out LA R.
  assert (SE : traversal_setting Dops ddec C70_stod ringQuadrature [] (C70_deck TraverseGraph) ringMesh (C70_cfg TraverseGraph) ringAngles).
  { constructor; [apply (C70_reads TraverseGraph _ C70_stod D_of_Z); [now left|]; intros k n [E|[E|[E|[E|[E|[]]]]]]; inversion E; subst; reflexivity|reflexivity|exact (bo_mesh _ _ _ _ _ ring_fit)|exact (bo_tets _ _ _ _ _ ring_fit)| |reflexivity|cbn; lia|cbn; lia|reflexivity|vm_compute; reflexivity].
    intros a g lf h lf' f sf Ha O O' NE B. change (q_omega ringAngles) with ringOm in *. rewrite (bo_signs _ _ _ _ _ ring_fit a g lf h lf' f sf Ha O O' NE) in B. now destruct (b_out Dops ringMesh ddec _ a h lf'). }
  destruct (C76_program _ _ _ _ _ _ _ _ _ _ _ _ _ _ _ _ _ _ _ _ _ _ SE ltac:(split; [reflexivity|vm_compute; reflexivity]) LA R) as (lvl & L).
  apply (ring_cycle lvl). intros g lf h. exact (L 0 g lf h (Nat.lt_0_succ 0)).
Qed.
Print Assumptions C80_ring_ex. Print Assumptions C80_traversal_ex.
