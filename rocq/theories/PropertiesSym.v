(** C81: numbering and symmetry. In exact arithmetic the output does not depend on how the mesh is numbered, nor on where it lies
    relative to the axes as far as the quadrature has the symmetry, nor on which cell solver is used. *)
From Coq Require Import Reals Lra Permutation String.
From Verif Require Import Prelude Bytes LayoutModel PsiFileModel PsiFileSpec DeckModel MeshModel MeshSpec MeshProofs CreateModel CreateSpec CreateProofs PropertiesCreate TychoModel TychoSpec MeshCheck GeometryModel GeometrySpec GaussModel TransportModel TraverseModel TraverseRun SweepModel FluxModel FluxSpec ProblemModel EnergySpec
  ViewModel ViewSpec ViewProofs PropertiesView BitsModel BitsSpec BitsProofs PropertiesBits QuadratureModel QuadratureSpec PropertiesQuadrature MainModel MainSpec MainProofs MainExact PropertiesMain PropertiesMainEx MainTransport PropertiesMainExact SymSpec SymGeo SymProofs SymRun SymProblem.

(** Decks with the same directions, groups, cross sections and stopping rule. They may differ in everything else: cell solver, sweeper, MPI exchange, priorities... *)
Record same_physics (cfg cfg' : config R) : Prop := {
  ph_angles : cSnOrder cfg = cSnOrder cfg'; ph_groups : cNGroups cfg = cNGroups cfg';
  ph_t1 : cSigmaT1 cfg = cSigmaT1 cfg'; ph_s1 : cSigmaS1 cfg = cSigmaS1 cfg'; ph_t2 : cSigmaT2 cfg = cSigmaT2 cfg'; ph_s2 : cSigmaS2 cfg = cSigmaS2 cfg';
  ph_iter : cIterMax cfg = cIterMax cfg'; ph_err : cErrMax cfg = cErrMax cfg' }.

(** A run on a mesh and one on the moved mesh make the same number of iterations; the one file holds a flux [psi], the other a flux [psi'], and
    [psi'] in the direction, cell and vertex that a direction, cell and vertex become is [psi] there. *)
Theorem C81_moved : forall dec enc stod ltb quadrature pi tol sm fname deck cfg q pv np threads mesh pr gsum iters name f sm' fname' deck' cfg' q' pv' np' threads' mesh' pr' gsum' iters' name' f' I L cell face node vert angle,
  setting Rops dec stod quadrature tol fname deck sm cfg q -> setting Rops dec stod quadrature tol fname' deck' sm' cfg' q' -> same_physics cfg cfg' ->
  problem_ok sm dec (q_num q) (q_omega q) (by_material Rops sm (cSigmaT1 cfg) (cSigmaT2 cfg)) ->
  isometry I L -> I centre = centre -> moved dec sm sm' I cell face node vert -> turned q L angle ->
  launch ltb sm pv np threads mesh -> launch ltb sm' pv' np' threads' mesh' -> sums np gsum -> sums np' gsum' ->
  mainRun Rops dec enc stod ltb quadrature pi tol fname deck mesh np threads pr gsum iters (Some (name, f)) ->
  mainRun Rops dec enc stod ltb quadrature pi tol fname' deck' mesh' np' threads' pr' gsum' iters' (Some (name', f')) ->
  iters' = iters /\ exists psi psi', (forall p, f p = nth_error (field_file enc sm cfg q psi) (N.to_nat p)) /\ (forall p, f' p = nth_error (field_file enc sm' cfg' q' psi') (N.to_nat p)) /\
    forall a G g sc v, a < q_num q -> G < N.to_nat (cNGroups cfg) -> SM_cell sm g = Some sc -> v < 4 -> psi' (angle a) G (cell g) (vert g v) = psi a G g v.
Proof.
  intros dec enc stod ltb quadrature pi tol sm fname deck cfg q pv np threads mesh pr gsum iters name f sm' fname' deck' cfg' q' pv' np' threads' mesh' pr' gsum' iters' name' f' I L cell face node vert angle SE SE' PH PB HI CE MV TU LA LA' GS GS' MR MR'.
  destruct (C70_exact _ _ _ _ _ _ _ _ _ _ _ _ _ _ _ _ _ _ _ _ SE LA GS MR) as (V & F & _ & _ & O). destruct (C70_exact _ _ _ _ _ _ _ _ _ _ _ _ _ _ _ _ _ _ _ _ SE' LA' GS' MR') as (V' & F' & _ & _ & O').
  assert (q' = q). { pose proof (se_angles _ _ _ _ _ _ _ _ _ _ SE) as E1. pose proof (se_angles _ _ _ _ _ _ _ _ _ _ SE') as E2. rewrite (ph_angles _ _ PH), E2 in E1. now apply Some_inj in E1. } subst q'.
  pose proof (one_small sm np (some_rank _ _ _ _ _ _ _ _ _ _ _ SE _ _ _ _ LA) (la_small _ _ _ _ _ _ LA)) as SM. pose proof (one_small sm' np' (some_rank _ _ _ _ _ _ _ _ _ _ _ SE' _ _ _ _ LA') (la_small _ _ _ _ _ _ LA')) as SM'.
  pose proof (se_mesh _ _ _ _ _ _ _ _ _ _ SE') as BO'. pose proof (problem_moved dec sm sm' I L cell face node vert q angle _ _ PB (bo_mesh _ _ _ _ _ BO') (bo_tets _ _ _ _ _ BO') SM HI MV TU) as PB'.
  unfold serial_end in F, F'. rewrite <- (ph_groups _ _ PH), <- (ph_t1 _ _ PH), <- (ph_t2 _ _ PH), <- (ph_s1 _ _ PH), <- (ph_s2 _ _ PH), <- (ph_iter _ _ PH), <- (ph_err _ _ PH) in F'.
  destruct (ends_moved dec sm sm' I L cell face node vert q angle (N.to_nat (cNGroups cfg)) (cSigmaT1 cfg) (cSigmaT2 cfg) (cSigmaS1 cfg) (cSigmaS2 cfg) PB PB' SM SM' HI CE MV TU
    (se_one _ _ _ _ _ _ _ _ _ SE) (se_one _ _ _ _ _ _ _ _ _ SE') pi _ _ _ _ _ _ _ _ F F') as (E & C).
  split; [now apply N2Nat.inj|]. exists (fun a G g v => getBlock Rops (V a g) v G), (fun a G g v => getBlock Rops (V' a g) v G). split; [exact O|]. split; [exact O'|]. exact C.
Qed.
Lemma isometry_id : isometry (fun x => x) (fun u => u).
Proof. constructor; reflexivity. Qed.
Lemma turned_id q : turned q (fun u => u) (fun a => a).
Proof. constructor; auto. Qed.
(** Renumbering alone. *)
Theorem C81_renumbered : forall dec enc stod ltb quadrature pi tol sm fname deck cfg q pv np threads mesh pr gsum iters name f sm' fname' deck' cfg' q' pv' np' threads' mesh' pr' gsum' iters' name' f' cell face node vert,
  setting Rops dec stod quadrature tol fname deck sm cfg q -> setting Rops dec stod quadrature tol fname' deck' sm' cfg' q' -> same_physics cfg cfg' ->
  problem_ok sm dec (q_num q) (q_omega q) (by_material Rops sm (cSigmaT1 cfg) (cSigmaT2 cfg)) -> moved dec sm sm' (fun x => x) cell face node vert ->
  launch ltb sm pv np threads mesh -> launch ltb sm' pv' np' threads' mesh' -> sums np gsum -> sums np' gsum' ->
  mainRun Rops dec enc stod ltb quadrature pi tol fname deck mesh np threads pr gsum iters (Some (name, f)) ->
  mainRun Rops dec enc stod ltb quadrature pi tol fname' deck' mesh' np' threads' pr' gsum' iters' (Some (name', f')) ->
  iters' = iters /\ exists psi psi', (forall p, f p = nth_error (field_file enc sm cfg q psi) (N.to_nat p)) /\ (forall p, f' p = nth_error (field_file enc sm' cfg' q' psi') (N.to_nat p)) /\
    forall a G g sc v, a < q_num q -> G < N.to_nat (cNGroups cfg) -> SM_cell sm g = Some sc -> v < 4 -> psi' a G (cell g) (vert g v) = psi a G g v.
Proof.
  intros dec enc stod ltb quadrature pi tol sm fname deck cfg q pv np threads mesh pr gsum iters name f sm' fname' deck' cfg' q' pv' np' threads' mesh' pr' gsum' iters' name' f' cell face node vert SE SE' PH PB MV LA LA' GS GS' MR MR'.
  exact (C81_moved _ _ _ _ _ _ _ _ _ _ _ _ _ _ _ _ _ _ _ _ _ _ _ _ _ _ _ _ _ _ _ _ _ _ _ _ _ _ _ _ _ _ SE SE' PH PB isometry_id eq_refl MV (turned_id q) LA LA' GS GS' MR MR').
Qed.
(** A symmetric mesh: the flux in the file has the symmetry. *)
Theorem C81_symmetric : forall dec enc stod ltb quadrature pi tol sm fname deck cfg q pv np threads mesh pr gsum iters name f I L cell face node vert angle,
  setting Rops dec stod quadrature tol fname deck sm cfg q -> problem_ok sm dec (q_num q) (q_omega q) (by_material Rops sm (cSigmaT1 cfg) (cSigmaT2 cfg)) ->
  isometry I L -> I centre = centre -> moved dec sm sm I cell face node vert -> turned q L angle -> launch ltb sm pv np threads mesh -> sums np gsum ->
  mainRun Rops dec enc stod ltb quadrature pi tol fname deck mesh np threads pr gsum iters (Some (name, f)) ->
  exists psi, (forall p, f p = nth_error (field_file enc sm cfg q psi) (N.to_nat p)) /\
    forall a G g sc v, a < q_num q -> G < N.to_nat (cNGroups cfg) -> SM_cell sm g = Some sc -> v < 4 -> psi (angle a) G (cell g) (vert g v) = psi a G g v.
Proof.
  intros dec enc stod ltb quadrature pi tol sm fname deck cfg q pv np threads mesh pr gsum iters name f I L cell face node vert angle SE PB HI CE MV TU LA GS MR.
  destruct (C70_exact _ _ _ _ _ _ _ _ _ _ _ _ _ _ _ _ _ _ _ _ SE LA GS MR) as (V & F & _ & _ & O). pose proof (one_small sm np (some_rank _ _ _ _ _ _ _ _ _ _ _ SE _ _ _ _ LA) (la_small _ _ _ _ _ _ LA)) as SM.
  destruct (ends_moved dec sm sm I L cell face node vert q angle (N.to_nat (cNGroups cfg)) (cSigmaT1 cfg) (cSigmaT2 cfg) (cSigmaS1 cfg) (cSigmaS2 cfg) PB PB SM SM HI CE MV TU
    (se_one _ _ _ _ _ _ _ _ _ SE) (se_one _ _ _ _ _ _ _ _ _ SE) pi _ _ _ _ _ _ _ _ F F) as (_ & C).
  exists (fun a G g v => getBlock Rops (V a g) v G). split; [exact O|exact C].
Qed.
Lemma moved_id dec sm : moved dec sm sm (fun x => x) (fun g => g) (fun f => f) (fun n => n) (fun _ v => v).
Proof.
  constructor; auto.
  - intros g sc H. exists sc. auto.
  - intros f sf H. exists sf. split; auto. split; auto. intros c Hc. destruct (N.eqb_spec c INVALID) as [->|_]; exact Hc.
Qed.
Lemma image_ext nG nV nA nC (e e' : nat -> nat -> nat -> nat -> N) : (forall G v a c, G < nG -> v < nV -> a < nA -> c < nC -> e G v a c = e' G v a c) -> psiImage nG nV nA nC e = psiImage nG nV nA nC e'.
Proof.
  intros H. unfold psiImage. do 5 f_equal.
  assert (K : forall (u w : nat -> list N) l, (forall x, In x l -> u x = w x) -> flat_map u l = flat_map w l) by (intros u w; induction l as [|x l IH]; intros E; cbn; [reflexivity|]; rewrite E, IH; auto with datatypes).
  repeat (apply K; intros ? ?). repeat match goal with X : In _ (seq _ _) |- _ => apply in_seq in X end. rewrite H by lia. reflexivity.
Qed.
(** The four cell solvers write the same file. *)
Theorem C81_cell_solver : forall dec enc stod ltb quadrature pi tol sm fname deck cfg q pv np threads mesh pr gsum iters name f fname' deck' cfg' q' pv' np' threads' mesh' pr' gsum' iters' name' f',
  setting Rops dec stod quadrature tol fname deck sm cfg q -> setting Rops dec stod quadrature tol fname' deck' sm cfg' q' -> same_physics cfg cfg' ->
  problem_ok sm dec (q_num q) (q_omega q) (by_material Rops sm (cSigmaT1 cfg) (cSigmaT2 cfg)) ->
  launch ltb sm pv np threads mesh -> launch ltb sm pv' np' threads' mesh' -> sums np gsum -> sums np' gsum' ->
  mainRun Rops dec enc stod ltb quadrature pi tol fname deck mesh np threads pr gsum iters (Some (name, f)) ->
  mainRun Rops dec enc stod ltb quadrature pi tol fname' deck' mesh' np' threads' pr' gsum' iters' (Some (name', f')) -> iters' = iters /\ forall p, f' p = f p.
Proof.
  intros dec enc stod ltb quadrature pi tol sm fname deck cfg q pv np threads mesh pr gsum iters name f fname' deck' cfg' q' pv' np' threads' mesh' pr' gsum' iters' name' f' SE SE' PH PB LA LA' GS GS' MR MR'.
  destruct (C81_renumbered _ _ _ _ _ _ _ _ _ _ _ _ _ _ _ _ _ _ _ _ _ _ _ _ _ _ _ _ _ _ _ _ _ _ _ _ _ _ _ SE SE' PH PB (moved_id dec sm) LA LA' GS GS' MR MR') as (E & psi & psi' & O & O' & C).
  assert (q' = q). { pose proof (se_angles _ _ _ _ _ _ _ _ _ _ SE) as E1. pose proof (se_angles _ _ _ _ _ _ _ _ _ _ SE') as E2. rewrite (ph_angles _ _ PH), E2 in E1. now apply Some_inj in E1. } subst q'.
  split; [exact E|]. intros p. rewrite O, O'. f_equal. unfold field_file. rewrite <- (ph_groups _ _ PH). apply image_ext. intros G v a c HG Hv Ha Hc. f_equal.
  destruct (nth_error (sm_cells sm) c) as [sc|] eqn:K; [|apply nth_error_None in K; lia]. apply (C a G (N.of_nat c) sc v); auto. unfold SM_cell. now rewrite Nat2N.id.
Qed.

(** The directions of the program's quadrature are mapped to themselves by reflections in the coordinate planes and by the quarter turn about the z axis. *)
Definition angles_of (l : list dir) : angles R := mkAngles (List.length l)
  (fun a => match nth_error l a with Some d => Q3 (d_xi d) (d_eta d) (d_mu d) | None => Q3 0%R 0%R 0%R end) (fun a => match nth_error l a with Some d => d_w d | None => 0%R end).
Definition reflect (sx sy sz : R) (u : q3 R) : q3 R := (Q3 (sx * t0 u) (sy * t1 u) (sz * t2 u))%R.
Definition quarter (u : q3 R) : q3 R := (Q3 (- t1 u) (t0 u) (t2 u))%R.
(** The same about the centre of the cube. *)
Definition about (L : q3 R -> q3 R) (x : q3 R) : q3 R := addR centre (L (subR x centre)).
Lemma turned_perm l (f : dir -> dir) (L : q3 R -> q3 R) : Permutation (map f l) l -> (forall d, d_w (f d) = d_w d /\ Q3 (d_xi (f d)) (d_eta (f d)) (d_mu (f d)) = L (Q3 (d_xi d) (d_eta d) (d_mu d))) ->
  exists angle, turned (angles_of l) L angle.
Proof.
  intros P F. apply Permutation_sym, Permutation_nth_error in P. destruct P as (LE & angle & INJ & E). exists angle. rewrite map_length in LE.
  assert (K : forall a, a < List.length l -> exists d, nth_error l a = Some d /\ nth_error l (angle a) = Some (f d)).
  { intros a Ha. destruct (nth_error l a) as [d|] eqn:D; [|apply nth_error_None in D; lia]. exists d. split; auto. rewrite <- E. exact (map_nth_error f a l D). }
  constructor; unfold angles_of; cbn [q_num q_omega q_weight].
  - intros a Ha. destruct (K a Ha) as (d & D & D'). rewrite D, D'. destruct (F d) as (W & Q). split; [apply nth_error_Some; congruence|]. split; [exact Q|exact W].
  - intros a b _ _. apply INJ.
Qed.
Theorem C81_quadrature : forall n l, quadrature n = Some l ->
  (forall sx sy sz, sign sx -> sign sy -> sign sz -> isometry (about (reflect sx sy sz)) (reflect sx sy sz) /\ about (reflect sx sy sz) centre = centre /\ exists angle, turned (angles_of l) (reflect sx sy sz) angle) /\
  isometry (about quarter) quarter /\ about quarter centre = centre /\ exists angle, turned (angles_of l) quarter angle.
Proof.
  intros n l H. destruct (C46_symmetric n l H) as (FL & TU). split.
  - intros sx sy sz X Y Z. assert (SS : (sx * sx = 1 /\ sy * sy = 1 /\ sz * sz = 1)%R) by (destruct X as [->| ->], Y as [->| ->], Z as [->| ->]; repeat split; ring). destruct SS as (SX & SY & SZ). split; [|split].
    + constructor; [intros [x0 x1 x2] [y0 y1 y2]; unfold about, reflect, subR, addR; cbn; f_equal; ring|]. intros [u0 u1 u2] [v0 v1 v2]. unfold reflect, dotR. cbn.
      transitivity (sx * sx * (u0 * v0) + sy * sy * (u1 * v1) + sz * sz * (u2 * v2))%R; [ring|]. rewrite SX, SY, SZ. ring.
    + unfold about, reflect, subR, addR, centre. cbn. f_equal; ring.
    + apply (turned_perm l (flip sx sy sz)); [now apply FL|]. intros d. split; reflexivity.
  - split; [|split].
    + constructor; [intros [x0 x1 x2] [y0 y1 y2]; unfold about, quarter, subR, addR; cbn; f_equal; ring|]. intros [u0 u1 u2] [v0 v1 v2]. unfold quarter, dotR. cbn. ring.
    + unfold about, quarter, subR, addR, centre. cbn. f_equal; ring.
    + apply (turned_perm l turn); [exact TU|]. intros d. split; reflexivity.
Qed.
Print Assumptions C81_moved. Print Assumptions C81_renumbered. Print Assumptions C81_symmetric. Print Assumptions C81_cell_solver. Print Assumptions C81_quadrature.
