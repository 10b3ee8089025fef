(** C21-C27: the cell solver. *)
From Coq Require Import Reals Lra Permutation.
From Verif Require Import Prelude Bytes MeshModel RefineSpec GeometryModel GeometrySpec GeometryProofs GaussModel GaussSpec GaussProofs TransportModel TransportSpec TransportProofs.
Local Open Scope R_scope.

(** C21: elimination with pivoting returns the solution of every nonsingular system, no assertion fails;
    and whatever it returns is a solution. *)
Theorem C21_pivoting : forall M b, nonsingular M -> exists x, gaussElim4 Rops Original M b = Some x /\ solves M b x /\ forall y, solves M b y -> y = x.
Proof.
  intros M b NS. destruct (original_total M b NS) as (x & E). exists x. pose proof (original_sound M b x E) as S.
  split; auto. split; auto. intros y Hy. exact (solves_unique M b y x NS Hy S).
Qed.
Theorem C21_sound : forall M b x, gaussElim4 Rops Original M b = Some x -> solves M b x.
Proof. exact original_sound. Qed.
(** A matrix on which every pivot search exchanges rows. *)
Definition mat_ex : q4 (q4 R) := Q4 (Q4 0 0 0 1) (Q4 2 0 1 0) (Q4 4 3 0 0) (Q4 0 1 0 0).
Example C21_ex : nonsingular mat_ex /\ gaussElim4 Rops Original mat_ex (Q4 1 2 3 4) <> None.
Proof.
  assert (nonsingular mat_ex) as H. { apply det_nonsingular. unfold det4, det3, mat_ex. lra. }
  split; auto. destruct (C21_pivoting mat_ex (Q4 1 2 3 4) H) as (x & -> & _). discriminate.
Qed.

(** C22: the other three solvers; nonzero leading minors are nonzero pivots. *)
Theorem C22_no_pivot : forall M b, minor1 M <> 0 -> minor2 M <> 0 -> minor3 M <> 0 -> det4 M <> 0 ->
  exists x, gaussElim4 Rops NoPivot M b = Some x /\ solves M b x.
Proof. intros M b H1 H2 H3 H4. eexists. split; [reflexivity|]. now apply nopivot_ok. Qed.
Theorem C22_cramer : forall M b, det4 M <> 0 ->
  exists x y, gaussElim4 Rops CramerGlu M b = Some x /\ solves M b x /\ gaussElim4 Rops CramerIntel M b = Some y /\ solves M b y.
Proof. intros M b H. do 2 eexists. split; [reflexivity|]. split; [now apply glu_ok|]. split; [reflexivity|now apply intel_ok]. Qed.
Theorem C22_agree : forall M b, minor1 M <> 0 -> minor2 M <> 0 -> minor3 M <> 0 -> det4 M <> 0 ->
  forall g, gaussElim4 Rops g M b = gaussElim4 Rops Original M b.
Proof.
  intros M b H1 H2 H3 H4 g. pose proof (det_nonsingular M H4) as NS. destruct (C21_pivoting M b NS) as (x & E & _ & U). rewrite E.
  destruct g; [exact E| | |]; cbn [gaussElim4]; f_equal; apply U; [now apply nopivot_ok|now apply glu_ok|now apply intel_ok].
Qed.
Example C22_ex : let M := Q4 (Q4 2 1 0 0) (Q4 1 2 1 0) (Q4 0 1 2 1) (Q4 0 0 1 2) in minor1 M <> 0 /\ minor2 M <> 0 /\ minor3 M <> 0 /\ det4 M <> 0.
Proof. unfold minor1, minor2, minor3, det4, det3. cbn [r0 r1 r2 r3]. lra. Qed.

(** C25: the assembled system is exactly the DG system of the user guide, for all sign patterns. *)
Theorem C25_scheme : forall V area sigma c2f psiB src x,
  solves (cellMatrix Rops V area sigma) (cellRhs Rops V area c2f psiB src) x <->
  dg V (get4 area) sigma src (fun f j => psiB (c2f f j) f) (get4 x).
Proof. exact system_is_dg. Qed.
(** C23: symmetric part positive definite, so nonsingular with positive pivots. *)
Theorem C23_positive : forall V area sigma, 0 < V -> 0 < sigma -> sum_q4 area = 0 ->
  let M := cellMatrix Rops V area sigma in
  (forall x, x <> zero4 -> 0 < quad M x) /\ nonsingular M /\ 0 < minor1 M /\ 0 < minor2 M /\ 0 < minor3 M /\ 0 < det4 M.
Proof.
  intros V area sigma HV Hs Hz M. pose proof (cell_posdef V sigma area HV Hs Hz) as P. split; [exact P|]. split; [now apply posdef_nonsingular|]. now apply posdef_minors.
Qed.
(** C23: in a non-degenerate tetrahedron, for every direction and positive cross section, every solver
    option returns the same flux and this is the unique solution of the DG system. *)
Theorem C23_cell : forall p fs ns om sigma c2f psiB src, vol6 p <> 0 -> 0 < sigma ->
  (forall lf, (lf < 4)%nat -> face_of p lf (fs lf) /\ getNormal Rops (fs lf) p = Some (ns lf)) ->
  let q h := Q4 (h 0%nat) (h 1%nat) (h 2%nat) (h 3%nat) in
  let area := signedAreas Rops (q (fun lf => getTriangleArea Rops (fs lf))) (q (fun lf => vdot Rops om (ns lf))) in
  let V := getTetVolume Rops p in
  let eqs y := dg V (get4 area) sigma src (fun f j => psiB (c2f f j) f) (get4 y) in
  exists x, (forall g, solveGroup Rops g V area sigma c2f psiB src = Some x) /\ eqs x /\ forall y, eqs y -> y = x.
Proof.
  intros p fs ns om sigma c2f psiB src Hp Hs H q area V eqs. apply solve_group; auto.
  - unfold V. rewrite volume_ok. apply Rdiv_lt_0_compat; [now apply Rabs_pos_lt|lra].
  - exact (signed_areas_zero p fs ns om Hp H).
Qed.
(** The hypotheses are met by every non-degenerate cell; here the unit corner tetrahedron. *)
Example C23_ex : let p := Q4 (Q3 0 0 0) (Q3 1 0 0) (Q3 0 1 0) (Q3 0 0 1) in vol6 p <> 0 /\
  exists fs ns, forall lf, (lf < 4)%nat -> face_of p lf (fs lf) /\ getNormal Rops (fs lf) p = Some (ns lf).
Proof.
  intros p. assert (Hp : vol6 p <> 0) by (unfold p, vol6; lra). split; auto.
  assert (K : forall lf, (lf < 4)%nat -> exists f n, face_of p lf f /\ getNormal Rops f p = Some n).
  { intros lf Hl. destruct (nth_error (tet_faces p) lf) as [t|] eqn:E.
    - assert (F : face_of p lf t) by (exists t; split; [exact E|apply Permutation_refl]).
      destruct (normal_face p lf t Hp F) as (n & _ & _ & _ & _ & En & _). eauto.
    - apply nth_error_None in E. cbn in E. lia. }
  destruct (K 0%nat) as (f0 & n0 & K0); [lia|]. destruct (K 1%nat) as (f1 & n1 & K1); [lia|].
  destruct (K 2%nat) as (f2 & n2 & K2); [lia|]. destruct (K 3%nat) as (f3 & n3 & K3); [lia|].
  exists (get4 (Q4 f0 f1 f2 f3)), (get4 (Q4 n0 n1 n2 n3)). intros [|[|[|[|lf]]]] H; try lia; assumption.
Qed.
(** C24: particle balance of the returned flux. *)
Theorem C24_balance : forall V area sigma c2f psiB src g x, 0 < V -> 0 < sigma -> sum_q4 area = 0 ->
  solveGroup Rops g V area sigma c2f psiB src = Some x ->
  balance V (get4 area) sigma src (fun f j => psiB (c2f f j) f) (get4 x).
Proof.
  intros V area sigma c2f psiB src g x HV Hs Hz H. destruct (solve_group V sigma area c2f psiB src HV Hs Hz) as (y & E & D & _).
  rewrite E in H. apply Some_inj in H. subst y. now apply dg_balance.
Qed.
(** C26: uniform solutions are reproduced. *)
Theorem C26_uniform : forall V area sigma c2f psiB src c g, 0 < V -> 0 < sigma -> sum_q4 area = 0 ->
  (forall v, src v = sigma * c) -> (forall f j, get4 area f < 0 -> psiB (c2f f j) f = c) ->
  solveGroup Rops g V area sigma c2f psiB src = Some (Q4 c c c c).
Proof.
  intros V area sigma c2f psiB src c g HV Hs Hz Hsrc Hin. destruct (solve_group V sigma area c2f psiB src HV Hs Hz) as (y & E & _ & U).
  rewrite E. f_equal. symmetry. apply U.
  pose proof (dg_uniform V (get4 area) sigma (fun f j => psiB (c2f f j) f) c Hz (fun f j => Hin f j)) as D.
  intros i Hi. specialize (D i Hi). unfold dg_row, upwind, sumFace, sum4, vec in *. rewrite !Hsrc. destruct i as [|[|[|[|i]]]]; try lia; exact D.
Qed.
(** The hypotheses are met by the unit corner tetrahedron and the direction (1,2,3). *)
Example C24_ex : let area := Q4 3 (-1/2) (-1) (-3/2) in sum_q4 area = 0 /\
  exists x, solveGroup Rops NoPivot (1/6) area 1 (fun f j => j) (fun _ _ => 1) (fun _ => 1) = Some x /\ x = Q4 1 1 1 1.
Proof.
  split; [unfold sum_q4; cbn; lra|]. exists (Q4 1 1 1 1). split; auto. apply C26_uniform; auto; try lra. unfold sum_q4; cbn; lra. intros; lra.
Qed.

(** C27: for any arithmetic (also floating point) the result of a group is that of a one-group problem
    with the data of that group, and nothing else changes. *)
Theorem C27_groups : forall (T : Type) (A : arith T) g n V fa om sigma c2f psiB src p0 p,
  solve A g n V fa om sigma c2f psiB src p0 = Some p ->
  (forall G, (G < n)%nat -> exists x, solveGroup A g V (signedAreas A fa om) sigma c2f (fun fv f => psiB fv f G) (fun v => src v G) = Some x /\
     forall v, (v < 4)%nat -> p v G = get4 x v) /\
  (forall v G, (n <= G \/ 4 <= v)%nat -> p v G = p0 v G).
Proof. intros T A g n V fa om sigma c2f psiB src p0 p. exact (solve_ok A g V fa om sigma c2f n psiB src p0 p). Qed.
(** C27: two runs that agree on the data of a group agree on its result, whatever the other groups and
    the numbers of groups; equal data in two groups of one run give equal results. *)
Theorem C27_noninterference : forall (T : Type) (A : arith T) g V fa om sigma c2f n n' psiB psiB' src src' p0 p0' p p' G G',
  solve A g n V fa om sigma c2f psiB src p0 = Some p -> solve A g n' V fa om sigma c2f psiB' src' p0' = Some p' ->
  (G < n)%nat -> (G' < n')%nat ->
  (fun fv f => psiB fv f G) = (fun fv f => psiB' fv f G') -> (fun v => src v G) = (fun v => src' v G') ->
  forall v, (v < 4)%nat -> p v G = p' v G'.
Proof.
  intros T A g V fa om sigma c2f n n' psiB psiB' src src' p0 p0' p p' G G' H H' HG HG' E1 E2 v Hv.
  destruct (solve_ok A g V fa om sigma c2f n psiB src p0 p H) as (K & _). destruct (solve_ok A g V fa om sigma c2f n' psiB' src' p0' p' H') as (K' & _).
  destruct (K G HG) as (x & Ex & Hx). destruct (K' G' HG') as (x' & Ex' & Hx'). rewrite Hx, Hx' by auto. f_equal. rewrite E1, E2 in Ex. congruence.
Qed.
Example C27_ex : exists p, solve Rops CramerGlu 2 1 (Q4 1 1 1 1) (Q4 1 1 (-1) (-1)) 1 (fun f j => j) (fun _ _ G => INR G) (fun _ G => INR G) (fun _ _ => 7) = Some p /\ p 0%nat 2%nat = 7.
Proof.
  destruct (solve_total Rops CramerGlu 1 (Q4 1 1 1 1) (Q4 1 1 (-1) (-1)) 1 (fun f j => j) 2 (fun _ _ G => INR G) (fun _ G => INR G) (fun _ _ => 7)) as (p & E).
  { intros G HG. discriminate. }
  exists p. split; [exact E|]. destruct (solve_ok Rops _ _ _ _ _ _ _ _ _ _ _ E) as (_ & K). rewrite K; auto.
Qed.

Print Assumptions C21_pivoting. Print Assumptions C21_sound. Print Assumptions C22_no_pivot. Print Assumptions C22_cramer. Print Assumptions C22_agree.
Print Assumptions C23_positive. Print Assumptions C23_cell. Print Assumptions C24_balance. Print Assumptions C25_scheme. Print Assumptions C26_uniform.
Print Assumptions C27_groups. Print Assumptions C27_noninterference.
