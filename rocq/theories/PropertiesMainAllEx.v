(** A case in which the hypotheses of C72 hold, for every solver: the two tetrahedra of C65 on two ranks. *)
From Coq Require Import Reals Lra Permutation String.
From Verif Require Import Prelude Bytes LayoutModel PsiFileModel PsiFileSpec DeckModel MeshModel MeshSpec MeshProofs CreateModel CreateSpec CreateProofs PropertiesCreate TychoModel TychoSpec GeometryModel GaussModel TransportModel TransportSpec TraverseModel TraverseRun SweepModel FluxModel FluxSpec ProblemModel
  ViewModel ViewSpec ViewProofs PropertiesView BitsModel BitsSpec BitsProofs PropertiesBits MainModel MainSpec MainProofs MainExact PropertiesMain PropertiesMainEx MainTransport PropertiesMainExact SchurModel MainAllModel MainAllSpec PropertiesMainAll.

Definition C72_type (ty : DeckModel.sweepType) : string := match ty with
  | OriginalTycho1 => "SweepType OriginalTycho1" | OriginalTycho2 => "SweepType OriginalTycho2" | TraverseGraph => "SweepType TraverseGraph"
  | PBJ => "SweepType PBJ" | PBJOuter => "SweepType PBJOuter" | PBJSI => "SweepType PBJSI"
  | Schur => "SweepType Schur" | SchurOuter => "SweepType SchurOuter" | SchurKrylov => "SweepType SchurKrylov" end%string.
Definition C72_deck (ty : DeckModel.sweepType) (si : bool) : chars := List.concat (map (fun l => str l ++ [10%N])
  ["snOrder 2"; "iterMax 3"; "errMax 0"; "maxCellsPerStep 10"; "intraAngleP 1"; "interAngleP 2";
   "nGroups 2"; "sigmaT1 10"; "sigmaS1 5"; "sigmaT2 7"; "sigmaS2 1"; "OutputFile true"; "OutputFilename out.psi";
   "DD_IterMax 50"; "DD_ErrMax 0"; if si then "SourceIteration true" else "SourceIteration false"; "MPIType TychoTwoSided"; C72_type ty;
   "GaussElim CramerGlu"]%string).
Definition C72_cfg (ty : DeckModel.sweepType) (si : bool) : config R :=
  mkConfig 2 3 0%R 10 1 2 2 10%R 5%R 7%R 1%R true (str "out.psi") 50 0%R si DeckModel.TychoTwoSided ty GE_CramerGlu.
Definition C72_stod (s : chars) : option R := Some (IZR (Z.of_N (fold_left (fun n c => (10 * n + (c - 48))%N) s 0%N))).
Definition C72_quadrature (n : N) : option (angles R) := if (n =? 2)%N then Some C70R_q else None.
Lemma C72_reads fname ty si D (stod : chars -> option D) (d : Z -> D) : (forall k n, In (k, n) [("0", 0); ("1", 1); ("5", 5); ("7", 7); ("10", 10)]%string%Z -> stod (str k) = Some (d n)) ->
  readInput stod fname (Some (C72_deck ty si)) =
  Some (mkConfig 2 3 (d 0%Z) 10 1 2 2 (d 10%Z) (d 5%Z) (d 7%Z) (d 1%Z) true (str "out.psi") 50 (d 0%Z) si DeckModel.TychoTwoSided ty GE_CramerGlu).
Proof.
  intros H. pose proof (H "0"%string 0%Z ltac:(cbn; auto)) as H0. pose proof (H "1"%string 1%Z ltac:(cbn; auto)) as H1. pose proof (H "5"%string 5%Z ltac:(cbn; auto)) as H5.
  pose proof (H "7"%string 7%Z ltac:(cbn; auto)) as H7. pose proof (H "10"%string 10%Z ltac:(cbn; auto 6)) as H10. clear H. vm_compute in H0, H1, H5, H7, H10.
  destruct ty, si; vm_compute; rewrite ?H0; rewrite ?H10; rewrite ?H5; rewrite ?H7; rewrite ?H1; reflexivity.
Qed.
(** The face between the two cells is at right angles to the direction. *)
Lemma C72_normal g : g = 0%N \/ g = 1%N -> b_omN Rops C12_mesh C65_dec C65_om 0 g 0 = (if (g =? 0)%N then -1 else 1)%R.
Proof.
  intros G. unfold b_omN.
  assert (BF : b_face C12_mesh C65_dec g 0 = Some C65_floor) by (destruct G as [->| ->]; reflexivity).
  assert (BC : b_cell C12_mesh C65_dec g = Some (if (g =? 0)%N then C65_upper else C65_lower)) by (destruct G as [->| ->]; reflexivity).
  rewrite BF, BC. cbn [obind].
  assert (VI : vertIndex Rops C65_floor (if (g =? 0)%N then C65_upper else C65_lower) = Some (Q3 49 49 (if (g =? 0)%N then 50 else 48))%R).
  { unfold vertIndex, C65_floor, C65_upper, C65_lower. destruct G as [->| ->]; cbn [N.eqb q4l q3l r0 r1 r2 r3 t0 t1 t2 find existsb ptEq]; unfold ptEq; cbn [t0 t1 t2 aeq Rops];
      repeat (match goal with |- context [Req_EM_T ?x ?y] => destruct (Req_EM_T x y); [try lra|try lra] end); reflexivity. }
  unfold omegaDotN, getNormal. rewrite VI. cbn [obind].
  assert (SQ : asqrt Rops (vdot Rops (getCrossProduct Rops (vsub Rops (t1 C65_floor) (t0 C65_floor)) (vsub Rops (t2 C65_floor) (t0 C65_floor))) (getCrossProduct Rops (vsub Rops (t1 C65_floor) (t0 C65_floor)) (vsub Rops (t2 C65_floor) (t0 C65_floor)))) = 1%R).
  { unfold vdot, getCrossProduct, vsub, C65_floor. cbn [t0 t1 t2 aadd asub amul asqrt Rops]. match goal with |- sqrt ?x = _ => replace x with 1%R by lra end. apply sqrt_1. }
  rewrite SQ. unfold vdot, getCrossProduct, vsub, C65_floor, C65_om. cbn [t0 t1 t2 aadd asub amul adiv aneg agt azero Rops].
  destruct G as [->| ->]; cbn [N.eqb]; match goal with |- context [Rgt_dec ?x ?y] => destruct (Rgt_dec x y) end; unfold orZero; cbn [t0 t1 t2]; lra.
Qed.
Lemma C72_beyond : beyond_tol Rops C12_mesh C65_dec C65_om 1 (/ 10 ^ 10)%R.
Proof.
  intros a g lf h Ha (f & sf & OP & AC & NI). destruct a; [|lia].
  assert (HF : lf = 0 /\ (g = 0%N \/ g = 1%N)).
  { destruct OP as (sc & H & IN & HF & Hlf & V). apply at_index in H as (i & -> & H & Hi). destruct i as [|[|i]]; [| |cbn in Hi; lia]; apply Some_inj in H; subst sc; cbn in IN;
      repeat (destruct IN as [<-|IN]; [apply Some_inj in HF; subst sf; cbn in AC; try congruence|]); try destruct IN.
    - split; auto. destruct (Nat.eq_dec lf 0) as [|NE]; auto. destruct (proj2 (V 0 0%N eq_refl) ltac:(auto)) as [X|[X|[X|[]]]]; discriminate.
    - split; auto. destruct (Nat.eq_dec lf 0) as [|NE]; auto. destruct (proj2 (V 0 4%N eq_refl) ltac:(auto)) as [X|[X|[X|[]]]]; discriminate. }
  destruct HF as (-> & G). unfold b_out. rewrite (C72_normal g G). cbn [agt aneg azero Rops].
  assert (T0 : (0 < / 10 ^ 10 < 1)%R) by (split; [apply Rinv_0_lt_compat; lra|rewrite <- Rinv_1; apply Rinv_lt_contravar; lra]).
  destruct G as [->| ->]; cbn [N.eqb]; repeat (match goal with |- context [Rgt_dec ?x ?y] => destruct (Rgt_dec x y); try lra end); auto.
Qed.
(** A linear solver that is exact and complete. *)
Section Solver.
  Variables (np nG : nat) (cells : nat -> nat) (unknowns : nat -> N).
  Definition C72_phi (op : (nat -> nat -> nat -> nat -> R) -> (nat -> nat -> nat -> nat -> R) -> Prop) b x := exists b', op x b' /\ phi_same np nG cells b' b.
  Definition C72_vec (op : (nat -> N -> R) -> (nat -> N -> R) -> Prop) b x := exists b', op x b' /\ vec_same np unknowns b' b.
  Definition C72_both (op : (nat -> N -> R) -> (nat -> nat -> nat -> nat -> R) -> (nat -> N -> R) -> (nat -> nat -> nat -> nat -> R) -> Prop) b f x y :=
    exists b' f', op x y b' f' /\ vec_same np unknowns b' b /\ phi_same np nG cells f' f.
  Lemma C72_solver : exact_solver np nG cells unknowns C72_phi C72_vec C72_both /\ complete_solver np nG cells unknowns C72_phi C72_vec C72_both.
  Proof. split; constructor; auto. Qed.
End Solver.
Lemma C72_materials : two_materials C12_mesh.
Proof. intros g sc H. apply at_index in H as (i & -> & H & Hi). destruct i as [|[|i]]; [| |cbn in Hi; lia]; apply Some_inj in H; subst sc; auto. Qed.
Lemma C72_small np : np < 3 -> mesh_small C12_mesh np.
Proof. intros H; destruct np as [|[|[|]]]; [| | |lia]; repeat split; vm_compute; reflexivity. Qed.
Lemma C72_compares : compares C12_mesh C65_dec C65_ltb.
Proof. intros n n' s s' x y _ _ _ _. unfold C65_ltb, C65_dec. rewrite Z.ltb_lt. split; [apply IZR_lt|apply lt_IZR]. Qed.
Lemma C72_problem : problem_ok C12_mesh C65_dec (q_num C70R_q) (q_omega C70R_q) (by_material Rops C12_mesh 10%R 7%R).
Proof. destruct C65_problem as [P1 P2 P3 P4 P5 _]. constructor; auto. intros g sc H. unfold by_material. rewrite H. destruct (sc_mat sc =? 1)%N; cbn; lra. Qed.
Lemma C72_setting fname ty si : setting Rops C65_dec C72_stod C72_quadrature (/ 10 ^ 10)%R fname (C72_deck ty si) C12_mesh (C72_cfg ty si) C70R_q.
Proof.
  destruct (C70_geometry _ _ _ _ _ C72_problem (C72_small 1 ltac:(lia)) ltac:(vm_compute; reflexivity)) as (BO & _).
  constructor; [apply (C72_reads fname ty si _ C72_stod IZR); intros k n [E|[E|[E|[E|[E|[]]]]]]; inversion E; subst; reflexivity|reflexivity|exact BO|intros _; exact C72_beyond|cbn; lia|cbn; lia|reflexivity|vm_compute; reflexivity].
Qed.
Lemma C72_scatters ty si : s_scatters C12_mesh (q_num C70R_q) (by_material Rops C12_mesh (cSigmaT1 (C72_cfg ty si)) (cSigmaT2 (C72_cfg ty si))) PI (q_weight C70R_q) (/ 2)%R (by_material Rops C12_mesh (cSigmaS1 (C72_cfg ty si)) (cSigmaS2 (C72_cfg ty si))).
Proof.
  pose proof PI_RGT_0. unfold s_scatters, overAngles, lsum. cbn [q_num q_weight C70R_q seq fold_right]. split; [auto|]. split; [intros; lra|]. split; [lra|]. split; [lra|].
  intros g sc H0. unfold by_material. rewrite H0. replace ((4 * PI * 1 + 0) / (4 * PI))%R with 1%R by (field; lra). destruct (sc_mat sc =? 1)%N; cbn; lra.
Qed.
Lemma C72_case pv threads mesh : launch C65_ltb C12_mesh pv 2 threads mesh -> exists kspPhi kspVec kspBoth, forall fname ty si,
  let cfg := C72_cfg ty si in
  runnable C65_dec C72_stod C65_ltb C72_quadrature PI (/ 10 ^ 10)%R fname (C72_deck ty si) C12_mesh cfg C70R_q (/ 2)%R pv 2 threads mesh /\
  solves_exactly C65_dec C65_ltb cfg C70R_q mesh 2 kspPhi kspVec kspBoth /\ solves_always C65_dec C65_ltb cfg C70R_q mesh 2 kspPhi kspVec kspBoth /\
  (si = false -> ty <> PBJOuter -> ty <> PBJSI -> direct 2 cfg) /\
  (si = true -> ty = TraverseGraph \/ ty = OriginalTycho1 \/ ty = OriginalTycho2 \/ ty = PBJ \/ ty = Schur -> whole_sweeps 2 cfg) /\
  (ty = PBJSI \/ ty = PBJOuter /\ si = false -> block_jacobi cfg) /\
  (ty <> SchurOuter \/ si = false -> forall enc pr gsum, exists its f, mainAll C65_dec enc C72_stod C65_ltb C72_quadrature PI (/ 10 ^ 10)%R kspPhi kspVec kspBoth fname (C72_deck ty si) mesh 2 threads pr gsum its (Some (str "out.psi", f))).
Proof.
  intros LA.
  set (cells := fun r => tm_nCells (meshes C65_dec C65_ltb C70R_q mesh 2 r)). set (unknowns := fun r => getPsiBoundSize (q_num C70R_q) 2 (viewMesh Rops C65_dec (q_omega C70R_q) (meshes C65_dec C65_ltb C70R_q mesh 2 r))).
  exists (C72_phi 2 2 cells), (C72_vec 2 unknowns), (C72_both 2 2 cells unknowns). intros fname ty si cfg. destruct (C72_solver 2 2 cells unknowns) as (KE & KC).
  assert (RU : runnable C65_dec C72_stod C65_ltb C72_quadrature PI (/ 10 ^ 10)%R fname (C72_deck ty si) C12_mesh cfg C70R_q (/ 2)%R pv 2 threads mesh).
  { constructor; [exact (C72_setting fname ty si)|exact LA|exact C72_compares|reflexivity|exact C72_problem|exact (C72_scatters ty si)]. }
  assert (EX : exhaustive 2 cfg) by (split; [cbn; lra|reflexivity]).
  split; [exact RU|]. split; [exact KE|]. split; [exact KC|].
  split. { intros -> N1 N2. unfold direct, whole_sweeps. cbn [cSweep cUseSI cfg C72_cfg]. destruct ty; auto; congruence. }
  split. { intros _ HT. unfold whole_sweeps. cbn [cSweep cfg C72_cfg]. destruct HT as [->|[->|[->|[->| ->]]]]; auto. }
  split. { intros [->|(-> & ->)]; [left|right]; auto. }
  intros NS enc pr gsum.
  destruct (C72_runs C65_dec enc C72_stod C65_ltb C72_quadrature PI (/ 10 ^ 10)%R _ _ _ fname (C72_deck ty si) C12_mesh cfg C70R_q (/ 2)%R pv 2 threads mesh RU ltac:(lra) C72_materials KE KC) with (pr := pr) (gsum := gsum) as (its & out & M & O).
  { unfold ends_solver. change (cSweep cfg) with ty. destruct ty; auto; try (cbn; discriminate). destruct NS as [NS|NS]; [congruence|exact NS]. }
  destruct out as [(name, f)|]; [destruct O as (_ & ->); exists its, f; exact M|discriminate O].
Qed.
(** All solvers, with source iteration or Krylov, but for SchurOuter with source iteration inside. *)
Example C72_ex : two_materials C12_mesh /\ (/ 2 < 1)%R /\ deck_source C65_dec C12_mesh (C72_cfg PBJ true) C70R_q 0 0 0 1 <> 0%R /\
  forall threads, 0 < threads -> exists mesh kspPhi kspVec kspBoth, forall ty si,
  let cfg := C72_cfg ty si in
  runnable C65_dec C72_stod C65_ltb C72_quadrature PI (/ 10 ^ 10)%R [] (C72_deck ty si) C12_mesh cfg C70R_q (/ 2)%R [1; 0]%N 2 threads mesh /\
  solves_exactly C65_dec C65_ltb cfg C70R_q mesh 2 kspPhi kspVec kspBoth /\ solves_always C65_dec C65_ltb cfg C70R_q mesh 2 kspPhi kspVec kspBoth /\
  (si = false -> ty <> PBJOuter -> ty <> PBJSI -> direct 2 cfg) /\
  (si = true -> ty = TraverseGraph \/ ty = OriginalTycho1 \/ ty = OriginalTycho2 \/ ty = PBJ \/ ty = Schur -> whole_sweeps 2 cfg) /\
  (ty = PBJSI \/ ty = PBJOuter /\ si = false -> block_jacobi cfg) /\
  (ty <> SchurOuter \/ si = false -> forall enc pr gsum, exists its f, mainAll C65_dec enc C72_stod C65_ltb C72_quadrature PI (/ 10 ^ 10)%R kspPhi kspVec kspBoth [] (C72_deck ty si) mesh 2 threads pr gsum its (Some (str "out.psi", f))).
Proof.
  split; [exact C72_materials|]. split; [lra|]. split.
  { destruct C70_exact_ex as (? & ? & ? & ? & _ & _ & _ & _ & S & _). exact S. }
  intros threads TH.
  assert (LA : exists mesh, launch C65_ltb C12_mesh [1; 0]%N 2 threads mesh).
  { destruct (C65_reads C12_mesh [1; 0]%N 2 C65_ltb C65_dec (pb_mesh _ _ _ _ _ C72_problem) (pb_tets _ _ _ _ _ C72_problem) (proj2 C12_mesh_ok) (C72_small 2 ltac:(lia)) C72_compares) as (t & m & f & m' & CR & WR & _). exists f.
    constructor; [exact (proj2 C12_mesh_ok)|exact (C72_small 2 ltac:(lia))|exists C65_dec; exact C72_compares|eauto|exact TH]. }
  destruct LA as (mesh & LA). exists mesh. destruct (C72_case _ _ _ LA) as (a & b & c & H). exists a, b, c. exact (H []).
Qed.
Print Assumptions C72_ex.
