(** C70 in exact arithmetic: the output file against the transport equation. *)
From Coq Require Import Reals Lra Permutation String.
From Verif Require Import Prelude Bytes LayoutModel PsiFileModel PsiFileSpec DeckModel MeshModel MeshSpec MeshProofs CreateModel CreateSpec CreateProofs PropertiesCreate TychoModel TychoSpec GeometryModel GaussModel TransportModel TraverseModel TraverseRun SweepModel FluxModel FluxSpec ProblemModel SourceSpec EnergySpec
  ViewModel ViewSpec ViewProofs PropertiesView BitsModel BitsSpec BitsProofs PropertiesBits MainModel MainSpec MainProofs MainExact PropertiesMain PropertiesMainEx MainTransport.

(** A transport problem on a tetrahedral mesh of a solid has, in exact arithmetic, the flow signs and normals that C70 asks for. *)
Theorem C70_geometry : forall sm dec nA om sigma, problem_ok sm dec nA om sigma -> mesh_small sm 1 -> (N.of_nat (nA * List.length (sm_cells sm) * 4) < INT_MAX)%N ->
  bits_ok Rops sm dec om nA /\ normals_ok Rops sm dec om nA.
Proof.
  intros sm dec nA om sigma PB SM SZ0. assert (SZ : (N.of_nat (nA * List.length (sm_cells sm) * 4) * 1 < INT_MAX)%N) by now rewrite N.mul_1_r. destruct (one_rank sm dec nA om sigma PB SM 1%N eq_refl SZ) as (t & R0 & sT & CF).
  exact (geometry sm dec nA om sigma PB 1%N eq_refl SZ t R0 sT CF).
Qed.

(** The source of the deck: the hat source at every vertex, the same in all groups. *)
Definition deck_source (dec : N -> R) (sm : smesh) (cfg : config R) (q : angles R) (a G : nat) (g : N) (v : nat) : R :=
  match (let* sc := SM_cell sm g in let* n := nth_error (q4l (sc_nodes sc)) v in b_point sm dec n) with
  | Some p => b_hat Rops (by_material Rops sm (cSigmaT1 cfg) (cSigmaT2 cfg) g) (by_material Rops sm (cSigmaS1 cfg) (cSigmaS2 cfg) g) p (q_omega q a)
  | None => 0%R
  end.
(** The transport problem with scattering that the deck describes. *)
Definition deck_solution (dec : N -> R) (pi : R) (sm : smesh) (cfg : config R) (q : angles R) (psi : nat -> nat -> N -> nat -> R) : Prop :=
  s_scattering sm dec (q_num q) (N.to_nat (cNGroups cfg)) (q_omega q) (by_material Rops sm (cSigmaT1 cfg) (cSigmaT2 cfg)) pi (q_weight q)
    (by_material Rops sm (cSigmaS1 cfg) (cSigmaS2 cfg)) (deck_source dec sm cfg q) psi.
(** The output file with the angular flux [psi]. *)
Definition field_file (enc : R -> N) (sm : smesh) (cfg : config R) (q : angles R) (psi : nat -> nat -> N -> nat -> R) : bytes :=
  psiImage (N.to_nat (cNGroups cfg)) 4 (q_num q) (List.length (sm_cells sm)) (fun G v a c => enc (psi a G (N.of_nat c) v)).
(** The size of a scalar flux in the norm of C62. *)
Definition deck_norm (dec : N -> R) (sm : smesh) (cfg : config R) (f : nat -> N -> nat -> R) (G : nat) : R := s_norm sm dec (by_material Rops sm (cSigmaT1 cfg) (cSigmaT2 cfg)) f G.

Lemma se_one dec stod quadrature tol fname deck sm cfg q : setting Rops dec stod quadrature tol fname deck sm cfg q -> (N.of_nat (q_num q * List.length (sm_cells sm) * 4) * 1 < INT_MAX)%N.
Proof. intros SE. pose proof (se_size _ _ _ _ _ _ _ _ _ _ SE) as H. pose proof (se_groups _ _ _ _ _ _ _ _ _ _ SE) as H1. eapply N.le_lt_trans; [|exact H]. apply N.mul_le_mono_l. lia. Qed.
Lemma one_small sm np : 0 < np -> mesh_small sm np -> mesh_small sm 1.
Proof. intros H (A & B & C & D). split; auto. split; auto. split; auto. lia. Qed.

(** Every sweep solves the transport equation whose source is the hat source plus what the flux before scatters. *)
Theorem C70_transport : forall dec stod quadrature pi tol fname deck sm cfg q n V,
  setting Rops dec stod quadrature tol fname deck sm cfg q -> mesh_small sm 1 ->
  problem_ok sm dec (q_num q) (q_omega q) (by_material Rops sm (cSigmaT1 cfg) (cSigmaT2 cfg)) ->
  serial_flux Rops dec pi sm cfg q (S n) V -> exists U, serial_flux Rops dec pi sm cfg q n U /\
    s_transport sm dec (q_num q) (N.to_nat (cNGroups cfg)) (q_omega q) (by_material Rops sm (cSigmaT1 cfg) (cSigmaT2 cfg))
      (fun a G g v => deck_source dec sm cfg q a G g v +
         by_material Rops sm (cSigmaS1 cfg) (cSigmaS2 cfg) g / (4 * pi) * s_flux (q_num q) (q_weight q) (fun a G g v => getBlock Rops (U a g) v G) G g v)%R
      (fun a G g v => getBlock Rops (V a g) v G).
Proof.
  intros dec stod quadrature pi tol fname deck sm cfg q n V SE SM PB H. pose proof (se_one _ _ _ _ _ _ _ _ _ SE) as SZ.
  destruct (one_rank sm dec _ _ _ PB SM 1%N eq_refl SZ) as (t & R0 & sT & CF). inversion H as [|? U ? I B NN]; subst. exists U. split; [exact I|].
  exact (emission_transport sm dec _ _ _ PB 1%N eq_refl SZ t R0 sT CF pi (q_weight q) _ _ _ U V B).
Qed.

(** If scattering is at most [k] < 1 times absorption and scattering together, the deck has exactly one solution, and the scalar flux in the output file
    differs from that of the solution by at most [k] to the number of iterations, relative to the solution, group by group. *)
Theorem C70_solution : forall dec enc stod ltb quadrature pi tol fname deck sm cfg q pv np threads mesh k,
  setting Rops dec stod quadrature tol fname deck sm cfg q -> launch ltb sm pv np threads mesh ->
  problem_ok sm dec (q_num q) (q_omega q) (by_material Rops sm (cSigmaT1 cfg) (cSigmaT2 cfg)) ->
  s_scatters sm (q_num q) (by_material Rops sm (cSigmaT1 cfg) (cSigmaT2 cfg)) pi (q_weight q) k (by_material Rops sm (cSigmaS1 cfg) (cSigmaS2 cfg)) -> (k < 1)%R ->
  exists sol, deck_solution dec pi sm cfg q sol /\
    (forall sol', deck_solution dec pi sm cfg q sol' -> s_same sm (q_num q) (N.to_nat (cNGroups cfg)) sol sol') /\
    forall pr gsum iters name f, mainRun Rops dec enc stod ltb quadrature pi tol fname deck mesh np threads pr gsum iters (Some (name, f)) ->
    exists psi, (forall p, f p = nth_error (field_file enc sm cfg q psi) (N.to_nat p)) /\
    forall G, G < N.to_nat (cNGroups cfg) ->
      (deck_norm dec sm cfg (fun G g v => s_flux (q_num q) (q_weight q) psi G g v - s_flux (q_num q) (q_weight q) sol G g v) G <=
       (k ^ N.to_nat iters) ^ 2 * deck_norm dec sm cfg (fun G g v => s_flux (q_num q) (q_weight q) sol G g v) G)%R.
Proof.
  intros dec enc stod ltb quadrature pi tol fname deck sm cfg q pv np threads mesh k SE LA PB SC K1. pose proof (se_one _ _ _ _ _ _ _ _ _ SE) as SZ.
  pose proof (one_small sm np (some_rank _ _ _ _ _ _ _ _ _ _ _ SE _ _ _ _ LA) (la_small _ _ _ _ _ _ LA)) as SM.
  destruct (one_rank sm dec _ _ _ PB SM 1%N eq_refl SZ) as (t & R0 & sT & CF).
  destruct (well_posed sm dec _ _ _ PB t R0 sT CF pi (q_weight q) k _ SC (N.to_nat (cNGroups cfg)) (deck_source dec sm cfg q) K1) as (sol & S & U). exists sol. split; [exact S|]. split; [exact U|].
  intros pr gsum iters name f MR. destruct (C70_output _ _ _ _ _ _ _ _ _ _ _ _ _ _ _ _ _ _ _ _ _ _ SE LA MR) as (_ & _ & V & SF & _ & _ & FE).
  exists (fun a G g v => getBlock Rops (V a g) v G). split; [exact FE|]. intros G HG. simpl pow. rewrite Rmult_1_r. unfold deck_norm.
  exact (iterate_error sm dec _ _ _ PB 1%N eq_refl SZ t R0 sT CF pi (q_weight q) k _ SC _ _ _ V sol G (proj1 (proj2 (proj2 (proj2 SC)))) SF S HG).
Qed.
(** The two tetrahedra of C65 in exact arithmetic: cross sections 10 and 5, 7 and 1. *)
Definition C70R_q : angles R := mkAngles 1 C65_om (fun _ => 4 * PI)%R.
Definition C70R_cfg : config R :=
  mkConfig 2 3 0%R 10 1 2 2 10%R 5%R 7%R 1%R true (str "out.psi") 50 1%R true DeckModel.TychoTwoSided TraverseGraph GE_CramerGlu.
Example C70_exact_ex : exists fname deck stod quadrature, setting Rops C65_dec stod quadrature (/ 10 ^ 10)%R fname deck C12_mesh C70R_cfg C70R_q /\ two_materials C12_mesh /\
  problem_ok C12_mesh C65_dec (q_num C70R_q) (q_omega C70R_q) (by_material Rops C12_mesh (cSigmaT1 C70R_cfg) (cSigmaT2 C70R_cfg)) /\
  s_scatters C12_mesh (q_num C70R_q) (by_material Rops C12_mesh (cSigmaT1 C70R_cfg) (cSigmaT2 C70R_cfg)) PI (q_weight C70R_q) (/ 2) (by_material Rops C12_mesh (cSigmaS1 C70R_cfg) (cSigmaS2 C70R_cfg)) /\
  deck_source C65_dec C12_mesh C70R_cfg C70R_q 0 0 0 1 <> 0%R /\
  forall threads, 0 < threads -> exists mesh, launch C65_ltb C12_mesh [1; 0]%N 2 threads mesh /\
  forall enc pr gsum, exists iters f, mainRun Rops C65_dec enc stod C65_ltb quadrature PI (/ 10 ^ 10)%R fname deck mesh 2 threads pr gsum iters (Some (str "out.psi", f)).
Proof.
  exists [], (C70_deck TraverseGraph), (fun s => Some (IZR (Z.of_N (fold_left (fun n c => (10 * n + (c - 48))%N) s 0%N)))), (fun n => if (n =? 2)%N then Some C70R_q else None).
  set (stod := fun s => Some (IZR _)). set (quad := fun n => _).
  assert (MT : forall g sc, SM_cell C12_mesh g = Some sc -> (sc_mat sc = 1%N \/ sc_mat sc = 2%N)).
  { intros g sc H. apply at_index in H as (i & -> & H & Hi). destruct i as [|[|i]]; [| |cbn in Hi; lia]; apply Some_inj in H; subst sc; auto. }
  assert (PB : problem_ok C12_mesh C65_dec (q_num C70R_q) (q_omega C70R_q) (by_material Rops C12_mesh (cSigmaT1 C70R_cfg) (cSigmaT2 C70R_cfg))).
  { destruct C65_problem as [P1 P2 P3 P4 P5 _]. constructor; auto. intros g sc H. unfold by_material. rewrite H. destruct (sc_mat sc =? 1)%N; cbn; lra. }
  assert (SM : forall np, np < 3 -> mesh_small C12_mesh np) by (intros np H; destruct np as [|[|[|]]]; [| | |lia]; repeat split; vm_compute; reflexivity).
  destruct (C70_geometry _ _ _ _ _ PB (SM 1 ltac:(lia)) ltac:(vm_compute; reflexivity)) as (BO & NO).
  assert (SE : setting Rops C65_dec stod quad (/ 10 ^ 10)%R [] (C70_deck TraverseGraph) C12_mesh C70R_cfg C70R_q).
  { constructor; [apply (C70_reads TraverseGraph _ stod IZR (or_introl eq_refl)); intros k n [E|[E|[E|[E|[E|[]]]]]]; inversion E; subst; reflexivity|reflexivity|exact BO|intros [NT|NT]; discriminate NT|cbn; lia|cbn; lia|reflexivity|vm_compute; reflexivity]. }
  split; [exact SE|]. split; [exact MT|]. split; [exact PB|]. split.
  { pose proof PI_RGT_0. unfold s_scatters, overAngles, lsum. cbn [q_num q_weight C70R_q seq fold_right]. split; [auto|]. split; [intros; lra|]. split; [lra|]. split; [lra|].
    intros g sc H0. unfold by_material. rewrite H0. replace ((4 * PI * 1 + 0) / (4 * PI))%R with 1%R by (field; lra). destruct (sc_mat sc =? 1)%N; cbn; lra. }
  split.
  { assert (E : deck_source C65_dec C12_mesh C70R_cfg C70R_q 0 0 0 1 = b_hat Rops 10%R 5%R (Q3 49 49 49)%R (Q3 0 0 1)%R) by reflexivity. rewrite E. unfold b_hat. cbn [aadd asub amul adiv aneg asqrt agt aeq alit aone Rops t0 t1 t2].
    match goal with |- context [sqrt ?x] => replace x with 3%R by lra end. assert (H1 : (1 < sqrt 3)%R) by (rewrite <- sqrt_1 at 1; apply sqrt_lt_1; lra). assert (H2 : (sqrt 3 < 2)%R) by (rewrite <- (sqrt_square 2) by lra; apply sqrt_lt_1; lra).
    set (x := sqrt 3) in *. clearbody x. destruct (Rgt_dec 30 x); [|lra]. cbn [orb].
    assert (I0 : (0 < / (30 * x))%R) by (apply Rinv_0_lt_compat; lra). unfold Rdiv. generalize dependent (/ (30 * x))%R. intros y Y. apply Rgt_not_eq. nra. }
  intros threads TH. assert (LA : exists mesh, launch C65_ltb C12_mesh [1; 0]%N 2 threads mesh).
  { assert (CMP : compares C12_mesh C65_dec C65_ltb). { intros n n' s s' x y _ _ _ _. unfold C65_ltb, C65_dec. rewrite Z.ltb_lt. split; [apply IZR_lt|apply lt_IZR]. }
    destruct (C65_reads C12_mesh [1; 0]%N 2 C65_ltb C65_dec (pb_mesh _ _ _ _ _ PB) (pb_tets _ _ _ _ _ PB) (proj2 C12_mesh_ok) (SM 2 ltac:(lia)) CMP) as (t & m & f & m' & CR & WR & _). exists f.
    constructor; [exact (proj2 C12_mesh_ok)|exact (SM 2 ltac:(lia))|eauto|eauto|exact TH]. }
  destruct LA as (mesh & LA). exists mesh. split; [exact LA|]. intros enc pr gsum.
  destruct (C70_runs _ Rops C65_dec enc stod C65_ltb quad PI (/ 10 ^ 10)%R [] (C70_deck TraverseGraph) C12_mesh C70R_cfg C70R_q [1; 0]%N 2 threads mesh pr gsum SE LA MT NO eq_refl (conj eq_refl eq_refl) ltac:(left; unfold C70R_cfg; cbn [cGauss]; discriminate)) as (iters & out & R).
  exists iters. destruct (C70_output _ _ _ _ _ _ _ _ _ _ _ _ _ _ _ _ _ _ _ _ _ _ SE LA R) as (_ & _ & V & _ & O). destruct out as [(n, f)|]; [|unfold C70R_cfg in O; cbn [cOutputFile] in O; discriminate O]. destruct O as (_ & E & _). exists f. rewrite E in R. exact R.
Qed.
Print Assumptions C70_geometry. Print Assumptions C70_transport. Print Assumptions C70_solution.
