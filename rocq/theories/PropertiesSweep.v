(** C27 and C57: the sweep with its transport data. *)
From Coq Require Import Reals Lra Permutation.
From Verif Require Import Prelude Bytes MeshModel GeometryModel GaussModel TransportModel TransportSpec TransportProofs.
From Verif Require Import AngleModel TraverseModel TraverseSpec TraverseRun PropertiesTraverse SweepModel SweepSpec SweepProofs.

(** C27: in a completed sweep the result of a group depends only on the source of that group, for any
    arithmetic: two sweeps of the same mesh, in which group [G] of one and group [G'] of the other have the
    same source, give these groups the same flux everywhere, whatever the other groups, the numbers of
    groups, threads, priorities and the timing. (Take both sweeps equal for two groups of one sweep.) *)
Theorem C27_sweep : forall (T : Type) (A : arith T) g geo sigmaT n n' src src' pr pr' (R R' : run (value T) (block T)) val0 bnd0 val0' bnd0' S0 S S0' S' G G',
  u_data R = sweepData A g n geo sigmaT src pr -> u_data R' = sweepData A g n' geo sigmaT src' pr' ->
  u_dir R' = u_dir R -> u_comm R' = u_comm R -> u_ranks R' = u_ranks R -> u_angles R' = u_angles R -> u_mesh R' = u_mesh R -> u_mate R' = u_mate R ->
  good_run R -> good_run R' -> racyclic R ->
  starts R val0 bnd0 S0 -> reaches R S0 S -> ends R S -> starts R' val0' bnd0' S0' -> reaches R' S0' S' -> ends R' S' ->
  let ok := valid (u_ranks R) (u_angles R) (u_mesh R) in
  (forall r c a, ok r c a -> r_val (g_r S r) c a <> None /\ r_val (g_r S' r) c a <> None) ->
  G < n -> G' < n' -> (forall r c a v, ok r c a -> v < 4 -> src r c a v G = src' r c a v G') ->
  (u_comm R = false -> forall r s a fv, r < u_ranks R -> a < u_angles R -> bnd0 r s a fv G = bnd0' r s a fv G') ->
  forall r c a v p p', ok r c a -> r_val (g_r S r) c a = Some p -> r_val (g_r S' r) c a = Some p' -> p v G = p' v G'.
Proof.
  intros T A g geo sigmaT n n' src src' pr pr' R R' val0 bnd0 val0' bnd0' S0 S S0' S' G G' D D' E1 E2 E3 E4 E5 E6 GR GR' AC I H F I' H' F' ok OK HG HG' ES EB r c a v p p' VA P P'.
  pose proof (end_solution R val0 bnd0 GR S (run_inv R val0 bnd0 GR S0 S I H) F) as SO. pose proof (end_solution R' val0' bnd0' GR' S' (run_inv R' val0' bnd0' GR' S0' S' I' H') F') as SO'.
  rewrite D in SO. rewrite D', E1, E2, E3, E4, E5, E6 in SO'. destruct GR as (OKS & _).
  pose proof (group_eq A g geo sigmaT (u_dir R) (u_comm R) (u_ranks R) (u_angles R) (u_mesh R) (u_mate R) n n' src src' pr pr' bnd0 bnd0'
    (fun r => r_val (g_r S r)) (fun r => r_val (g_r S' r)) G G' HG HG' AC (sf_range _ _ _ _ _ OKS) (sf_sym _ _ _ _ _ OKS) SO SO'
    (fun r c a V => proj1 (OK r c a V)) (fun r c a V => proj2 (OK r c a V)) ES EB r c a VA v) as K.
  cbv beta in K. rewrite P, P' in K. exact K.
Qed.
(** C27: what diffBetweenGroups compares is zero exactly if all groups are equal. *)
Theorem C27_diff : forall nG nA nC (psi : nat -> nat -> nat -> nat -> R), let s := diffLoops Rops nG nA nC psi in
  (fst s = 0%R -> forall G c a v, G < nG -> c < nC -> a < nA -> v < 4 -> psi G v a c = psi 0 v a c) /\
  ((forall G c a v, G < nG -> psi G v a c = psi 0 v a c) -> fst s = 0%R) /\
  (forall c a v, c < nC -> a < nA -> v < 4 -> (Rabs (psi 0%nat v a c) <= snd s)%R).
Proof.
  intros nG nA nC psi s. destruct (diff_max nG nA nC psi) as (Z & AT & K). fold s in Z, AT, K. split; [|split].
  - intros E G c a v HG Hc Ha Hv. destruct (K c a v Hc Ha Hv) as (_ & B). specialize (B G HG). rewrite E in B. pose proof (Rabs_pos (psi 0%nat v a c - psi G v a c)) as P.
    destruct (Req_dec (psi 0%nat v a c - psi G v a c) 0) as [Q|Q]; [lra|]. apply Rabs_pos_lt in Q. lra.
  - intros E. destruct AT as [AT|(v & a & c & G & HG & AT)]; [exact AT|]. rewrite AT, (E G c a v HG). unfold Rminus. rewrite Rplus_opp_r. apply Rabs_R0.
  - intros c a v Hc Ha Hv. now apply K.
Qed.
Example C27_diff_ex : fst (diffLoops Rops 2 1 1 (fun G v _ _ => INR (G + v))) <> 0%R.
Proof.
  intros E. destruct (C27_diff 2 1 1 (fun G v _ _ => INR (G + v))) as (K & _). specialize (K E 1 0 0 0 ltac:(lia) ltac:(lia) ltac:(lia) ltac:(lia)). cbn in K. lra.
Qed.

(** C57: a completed sweep solves the DG system of every cell of every rank, angle and group, where the
    upwind values are those the sweep computed in the cell across the face at the same point, on whatever
    rank; nothing enters through the exterior. Exact arithmetic. *)
Theorem C57_global_dg : forall (X : Type) (node : nat -> nat -> nat -> X) g geo sigmaT n src pr (R : run (value R) (block R)) val0 bnd0 S0 S,
  u_data R = sweepData Rops g n geo sigmaT src pr -> u_dir R = Forward -> u_comm R = true -> good_run R -> racyclic R ->
  geo_fits (u_ranks R) (u_angles R) (fun r => rm_nCells (u_mesh R r)) (fun r => rm_out (u_mesh R r)) (u_mate R) node (fun r => rg_volume (geo r)) (farea geo) (fom geo)
    (fun r => rg_c2f (geo r)) (fun r => rg_f2c (geo r)) (fun r => rg_nbr (geo r)) ->
  (forall r c, r < u_ranks R -> c < rm_nCells (u_mesh R r) -> (0 < sigmaT r c)%R) ->
  starts R val0 bnd0 S0 -> reaches R S0 S -> ends R S ->
  let psi r c a G v := getBlock Rops (r_val (g_r S r) c a) v G in
  let solves f := forall r c a G, valid (u_ranks R) (u_angles R) (u_mesh R) r c a -> G < n ->
    dg_cell node (u_mate R) (rg_volume (geo r) c) (sarea geo r a c) (sigmaT r c) (fun v => src r c a v G) f r c a G in
  (forall r c a, valid (u_ranks R) (u_angles R) (u_mesh R) r c a -> r_val (g_r S r) c a <> None) /\ solves psi /\
  ((forall r c v w, r < u_ranks R -> c < rm_nCells (u_mesh R r) -> v < 4 -> w < 4 -> node r c v = node r c w -> v = w) ->
   forall f, solves f -> forall r c a G v, valid (u_ranks R) (u_angles R) (u_mesh R) r c a -> G < n -> v < 4 -> f r c a G v = psi r c a G v).
Proof.
  intros X node g geo sigmaT n src pr R val0 bnd0 S0 S D DI CO GR AC GF SG I H F psi solves.
  pose proof (end_solution R val0 bnd0 GR S (run_inv R val0 bnd0 GR S0 S I H) F) as SO. rewrite D, DI in SO. pose proof GR as (OKS & _).
  assert (SP : solves psi) by (intros r c a G VA HG; exact (global_dg g geo sigmaT n src pr _ _ _ _ _ _ GF SG bnd0 (fun r => r_val (g_r S r)) CO SO r c a G VA HG)).
  split; [|split; [exact SP|]].
  - intros r c a VA. exact (proj1 (cell_dg g geo sigmaT n src pr _ _ _ _ _ _ GF SG bnd0 (fun r => r_val (g_r S r)) SO r c a VA)).
  - intros NI f SF r c a G v VA HG Hv. unfold racyclic in AC. rewrite DI, CO in AC.
    exact (global_unique geo sigmaT src _ _ _ _ _ GF SG AC (sf_range _ _ _ _ _ OKS) (sf_sym _ _ _ _ _ OKS) NI f psi G (fun r c a V => SF r c a G V HG) (fun r c a V => SP r c a G V HG) r c a v VA Hv).
Qed.

(** The hypotheses are met by two tetrahedra on two ranks, glued at a face, and two opposite directions. *)
Definition tetMesh (r : nat) : rmesh :=
  mkRmesh 1 (fun _ _ => None) (fun _ f => if f =? 0 then Some (1 - r) else None) (fun _ f => f) N.of_nat (fun g => Some (N.to_nat g)) (fun _ => 0)
    (fun a _ f => if f =? 0 then a =? r else negb (a =? r)).
Definition tetMate (x : site) : option site :=
  let '(r, c, f) := x in if (r <? 2) && (c =? 0) && (f =? 0) then Some (1 - r, 0, 0) else None.
Definition tetGeo (r : nat) : rgeo R :=
  mkRgeo R (fun _ => 1%R) (fun _ => Q4 1%R 1%R 1%R 1%R) (fun a _ => if a =? r then Q4 3%R (-1)%R (-1)%R (-1)%R else Q4 (-3)%R 1%R 1%R 1%R)
    (fun _ f j => if j <? f then j else j - 1) (fun _ f k => if k <? f then k else k + 1) (fun _ f k => if k <? f then k else k + 1).
Definition tetSource : nat -> nat -> nat -> block R := fun r _ a v G => INR (r + a + v + G).
Definition tetRun : run (value R) (block R) :=
  mkRun Forward true TychoTwoSided 2 2 1 10 48 tetMesh (sweepData Rops NoPivot 2 tetGeo (fun _ _ => 1%R) tetSource (fun _ _ _ => 0%N)) tetMate.
Definition tetNode (r c v : nat) : nat := if v =? 0 then 10 + r else v.
Lemma tet_mate r c f y : tetMate (r, c, f) = Some y -> r < 2 /\ c = 0 /\ f = 0 /\ y = (1 - r, 0, 0).
Proof. unfold tetMate. destruct (Nat.ltb_spec r 2), (Nat.eqb_spec c 0), (Nat.eqb_spec f 0); cbn [andb]; try discriminate. intros E. apply Some_inj in E. auto. Qed.
Lemma tet_good : good_run tetRun.
Proof.
  split; [|split; [cbn; lia|split; [reflexivity|intros r Hr; vm_compute; reflexivity]]]. pose proof tet_mate as MT. apply ok_fit. constructor; cbn [u_ranks u_angles u_mesh u_mate tetRun].
  - intros r c f y H. apply MT in H. destruct H as (A & -> & -> & _). split; [exact A|]. split; [exact (le_n 1)|lia].
  - intros [[r c] f] y H. apply MT in H. destruct H as (A & -> & -> & ->). destruct r as [|[|r]]; [reflexivity|reflexivity|lia].
  - intros r c f f' H. apply MT in H. destruct H as (A & _ & _ & E). destruct r as [|[|r]]; [discriminate|discriminate|lia].
  - intros r c f Hr Hc Hf. cbn in Hc. assert (c = 0) as -> by lia. unfold tetMate. destruct r as [|[|r]]; [| |lia]; destruct (f =? 0); reflexivity.
  - intros r c f Hr Hc Hf. cbn in Hc. assert (c = 0) as -> by lia. unfold tetMate. destruct r as [|[|r]]; [| |lia]; cbn; destruct (f =? 0); reflexivity.
  - intros r c f q c' f' H _. apply MT in H. destruct H as (A & -> & -> & E). injection E as -> -> ->. cbn. auto.
  - intros r c f q c' f' d g q' d' g' H _ H' _ _. apply MT in H. apply MT in H'. destruct H as (_ & -> & -> & _), H' as (_ & -> & -> & _). auto.
  - intros r c f q c' f' a H Ha. apply MT in H. destruct H as (A & -> & -> & E). injection E as -> -> ->. cbn. destruct r as [|[|r]]; [| |lia]; destruct a as [|[|a]]; reflexivity || lia.
  - intros r Hr. vm_compute. reflexivity.
Qed.
Lemma tet_acyclic : racyclic tetRun.
Proof.
  exists (fun r _ a => if a =? r then 0 else 1). intros a r c q c' Ha (Hr & Hc & f & f' & Hf & Hm & Hi & _). apply tet_mate in Hm. destruct Hm as (Hr2 & -> & -> & E).
  destruct r as [|[|r]]; [| |lia]; injection E as -> -> ->; (destruct a as [|[|a]]; [| |cbn in Ha; lia]); (discriminate Hi || (cbn; lia)).
Qed.
Example C57_ex : good_run tetRun /\ racyclic tetRun /\
  geo_fits 2 2 (fun r => rm_nCells (tetMesh r)) (fun r => rm_out (tetMesh r)) tetMate tetNode (fun r => rg_volume (tetGeo r)) (farea tetGeo) (fom tetGeo)
    (fun r => rg_c2f (tetGeo r)) (fun r => rg_f2c (tetGeo r)) (fun r => rg_nbr (tetGeo r)) /\
  exists S0 S, starts tetRun (fun _ _ _ => None) (fun _ _ _ _ _ => 0%R) S0 /\ reaches tetRun S0 S /\ ends tetRun S.
Proof.
  split; [exact tet_good|]. split; [exact tet_acyclic|]. split.
  - constructor.
    + intros r a c f Hr Ha Hc Hf. cbn. unfold fom. cbn. destruct (a =? r), f as [|[|[|[|f]]]]; try lia; cbn; split; intros; try lra; try discriminate; auto.
    + intros r c f Hr Hc Hf. unfold farea. cbn. destruct f as [|[|[|[|f]]]]; try lia; cbn; lra.
    + intros r c Hr Hc. cbn. lra.
    + intros r a c Hr Ha Hc. unfold sum4, farea, fom. cbn. destruct (a =? r); cbn; lra.
    + intros r c f c' f' j H. apply tet_mate in H. destruct H as (Hr & _ & _ & E). destruct r as [|[|r]]; [discriminate E|discriminate E|lia].
    + intros r c f q c' f' j H _ Hj NE. apply tet_mate in H. destruct H as (Hr & -> & -> & E). injection E as -> -> ->. destruct j as [|[|[|[|j]]]]; try lia; cbn; repeat split; lia.
  - destruct (C30_finishes _ _ tetRun (fun _ _ _ => None) (fun _ _ _ _ _ => 0%R) tet_good ltac:(right; split; reflexivity) ltac:(cbn; lia) tet_acyclic) as (_ & K).
    assert (I : exists S0, starts tetRun (fun _ _ _ => None) (fun _ _ _ _ _ => 0%R) S0).
    { assert (IR : forall r, r < 2 -> exists st, initRank Forward true TychoTwoSided 2 1 tetMesh (u_data tetRun) r (fun _ _ => None) (fun _ _ _ _ => 0%R) = Some st) by (intros [|[|r]] Hr; [eexists; reflexivity|eexists; reflexivity|lia]).
      destruct (IR 0 ltac:(lia)) as (s0 & E0). destruct (IR 1 ltac:(lia)) as (s1 & E1). exists (mkGst (fun r => if r =? 0 then s0 else s1) (fun _ _ => []) (fun _ _ => []) (fun _ _ => 0) (fun _ _ => 0)).
      split; [|repeat split]. intros [|[|r]] Hr; [exact E0|exact E1|cbn in Hr; lia]. }
    destruct I as (S0 & I). destruct (K S0 S0 I ltac:(constructor)) as (S & _ & H & F). exists S0, S. auto.
Qed.
Print Assumptions C27_sweep. Print Assumptions C27_diff. Print Assumptions C57_global_dg.
