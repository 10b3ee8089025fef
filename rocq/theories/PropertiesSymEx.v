(** A case in which the hypotheses of C81 hold: the two tetrahedra of C65 in another numbering and with x and y exchanged, run with another cell solver. *)
From Coq Require Import Reals Lra Permutation String ZArith.
From Verif Require Import Prelude Bytes LayoutModel PsiFileModel PsiFileSpec DeckModel MeshModel MeshSpec MeshProofs CreateModel CreateSpec CreateProofs PropertiesCreate TychoModel TychoSpec MeshCheck GeometryModel GeometrySpec GaussModel TransportModel TraverseModel TraverseRun SweepModel FluxModel FluxSpec ProblemModel EnergySpec
  ViewModel ViewSpec ViewProofs PropertiesView BitsModel BitsSpec BitsProofs PropertiesBits MainModel MainSpec MainProofs MainExact PropertiesMain PropertiesMainEx MainTransport PropertiesMainExact SymSpec SymGeo SymProofs SymRun SymProblem PropertiesSym.

Definition C81_mesh : smesh := mkSmesh serialName 2 2 7 5
  [mkScell (Q4 6 0 2 1) (Q4 4 3 1 0) 2; mkScell (Q4 5 3 6 4) (Q4 0 2 3 4) 1]%N
  [mkSface (Q2 0 INVALID) (Q3 1 4 0); mkSface (Q2 INVALID 0) (Q3 3 0 1); mkSface (Q2 0 INVALID) (Q3 1 4 3); mkSface (Q2 1 INVALID) (Q3 2 4 0);
   mkSface (Q2 1 INVALID) (Q3 0 3 2); mkSface (Q2 INVALID 1) (Q3 2 3 4); mkSface (Q2 0 1) (Q3 4 3 0)]%N
  [mkSnode (Q3 23 13 33); mkSnode (Q3 24 14 34); mkSnode (Q3 20 10 30); mkSnode (Q3 21 11 31); mkSnode (Q3 22 12 32)]%N.
(** Exchange of x and y; the maps of the numbers. *)
Definition C81_swap (x : q3 R) : q3 R := Q3 (t1 x) (t0 x) (t2 x).
Definition C81_cell (g : N) : N := (1 - g)%N.
Definition C81_face (f : N) : N := (6 - f)%N.
Definition C81_node (n : N) : N := ((n + 2) mod 5)%N.
Definition C81_vert (g : N) (v : nat) : nat := if (g =? 0)%N then match v with 3 => 0 | _ => S v end else match v with 0 => 2 | 2 => 0 | _ => v end.
Lemma C81_iso : isometry C81_swap C81_swap.
Proof. constructor; [reflexivity|]. intros [a b c] [x y z]. unfold C81_swap, dotR. cbn. ring. Qed.
Lemma C81_moves : moved C65_dec C12_mesh C81_mesh C81_swap C81_cell C81_face C81_node C81_vert.
Proof.
  constructor.
  - intros n x H. assert (Hn : exists s, SM_node C12_mesh n = Some s) by (unfold s_point in H; destruct (SM_node C12_mesh n); [eauto|discriminate H]). destruct Hn as (s & Hs).
    apply at_index in Hs as (i & -> & _ & Hi). do 5 (destruct i as [|i]; [apply Some_inj in H; subst x; reflexivity|]). cbn in Hi. lia.
  - intros g sc H. apply at_index in H as (i & -> & H & Hi). destruct i as [|[|i]]; [| |cbn in Hi; lia]; apply Some_inj in H; subst sc; eexists; (split; [reflexivity|]); (split; [reflexivity|]); split;
    [intros v n Hv; do 4 (destruct v as [|v]; [apply Some_inj in Hv; subst n; reflexivity|]); destruct v; discriminate Hv|intros f Hf; cbn in Hf; repeat (destruct Hf as [<-|Hf]; [cbn; tauto|]); destruct Hf
    |intros v n Hv; do 4 (destruct v as [|v]; [apply Some_inj in Hv; subst n; reflexivity|]); destruct v; discriminate Hv|intros f Hf; cbn in Hf; repeat (destruct Hf as [<-|Hf]; [cbn; tauto|]); destruct Hf].
  - intros f sf H. apply at_index in H as (i & -> & H & Hi). do 7 (destruct i as [|i]; [apply Some_inj in H; subst sf; eexists; split; [reflexivity|];
      split; [intros n Hn; cbn in Hn; repeat (destruct Hn as [<-|Hn]; [cbn; tauto|]); destruct Hn|intros c Hc; cbn in Hc; repeat (destruct Hc as [<-|Hc]; [cbn; tauto|]); destruct Hc]|]). cbn in Hi. lia.
  - assert (K : forall n x, s_point C12_mesh C65_dec n = Some x -> (n < 5)%N).
    { intros n x H. unfold s_point in H. destruct (SM_node C12_mesh n) eqn:E; [|discriminate H]. apply at_index in E as (i & -> & _ & Hi). cbn in Hi. lia. }
    intros n m x y Hn Hm E. apply K in Hn, Hm. unfold C81_node in E. assert (A : forall k, (k < 5)%N -> k = 0%N \/ k = 1%N \/ k = 2%N \/ k = 3%N \/ k = 4%N) by (intros; lia).
    destruct (A n Hn) as [->|[->|[->|[->| ->]]]], (A m Hm) as [->|[->|[->|[->| ->]]]]; try reflexivity; discriminate E.
  - intros g h sg sh Hg Hh E. apply at_index in Hg as (i & -> & _ & Hi). apply at_index in Hh as (j & -> & _ & Hj). cbn in Hi, Hj. unfold C81_cell in E. lia.
  - reflexivity.
Qed.
(** The mesh of C65 is symmetric itself: x and y are exchanged by exchanging nodes 2 and 3. *)
Definition C81_mirror (n : N) : N := if (n =? 2)%N then 3%N else if (n =? 3)%N then 2%N else n.
Definition C81_mirrorF (f : N) : N := nth (N.to_nat f) [0; 2; 1; 3; 5; 4; 6]%N 0%N.
Definition C81_mirrorV (g : N) (v : nat) : nat := match v with 2 => 3 | 3 => 2 | _ => v end.
Lemma C81_mirrors : moved C65_dec C12_mesh C12_mesh C81_swap (fun g => g) C81_mirrorF C81_mirror C81_mirrorV.
Proof.
  constructor.
  - intros n x H. assert (Hn : exists s, SM_node C12_mesh n = Some s) by (unfold s_point in H; destruct (SM_node C12_mesh n); [eauto|discriminate H]). destruct Hn as (s & Hs).
    apply at_index in Hs as (i & -> & _ & Hi). do 5 (destruct i as [|i]; [apply Some_inj in H; subst x; reflexivity|]). cbn in Hi. lia.
  - intros g sc H. apply at_index in H as (i & -> & H & Hi). destruct i as [|[|i]]; [| |cbn in Hi; lia]; apply Some_inj in H; subst sc; eexists; (split; [reflexivity|]); (split; [reflexivity|]); split;
    [intros v n Hv; do 4 (destruct v as [|v]; [apply Some_inj in Hv; subst n; reflexivity|]); destruct v; discriminate Hv|intros f Hf; cbn in Hf; repeat (destruct Hf as [<-|Hf]; [cbn; tauto|]); destruct Hf
    |intros v n Hv; do 4 (destruct v as [|v]; [apply Some_inj in Hv; subst n; reflexivity|]); destruct v; discriminate Hv|intros f Hf; cbn in Hf; repeat (destruct Hf as [<-|Hf]; [cbn; tauto|]); destruct Hf].
  - intros f sf H. apply at_index in H as (i & -> & H & Hi). do 7 (destruct i as [|i]; [apply Some_inj in H; subst sf; eexists; split; [reflexivity|];
      split; [intros n Hn; cbn in Hn; repeat (destruct Hn as [<-|Hn]; [cbn; tauto|]); destruct Hn|intros c Hc; cbn in Hc; repeat (destruct Hc as [<-|Hc]; [cbn; tauto|]); destruct Hc]|]). cbn in Hi. lia.
  - intros n m x y _ _ E. unfold C81_mirror in E. destruct (N.eqb_spec n 2), (N.eqb_spec n 3), (N.eqb_spec m 2), (N.eqb_spec m 3); lia.
  - auto.
  - reflexivity.
Qed.
Lemma C81_turned : turned C70R_q C81_swap (fun a => a).
Proof. constructor; [|auto]. intros a Ha. split; [exact Ha|]. split; reflexivity. Qed.
(** Decks that differ in the cell solver. *)
Definition C81_deck (solver : string) : chars := List.concat (map (fun l => str l ++ [10%N])
  ["snOrder 2"; "iterMax 3"; "errMax 0"; "maxCellsPerStep 10"; "intraAngleP 1"; "interAngleP 2";
   "nGroups 2"; "sigmaT1 10"; "sigmaS1 5"; "sigmaT2 7"; "sigmaS2 1"; "OutputFile true"; "OutputFilename out.psi";
   "DD_IterMax 50"; "DD_ErrMax 1"; "SourceIteration true"; "MPIType TychoTwoSided"; "SweepType TraverseGraph"; solver]%string).
Definition C81_cfg (ge : gaussElimT) : config R := mkConfig 2 3 0%R 10 1 2 2 10%R 5%R 7%R 1%R true (str "out.psi") 50 1%R true DeckModel.TychoTwoSided TraverseGraph ge.
Definition C81_stod (s : chars) : option R := Some (IZR (Z.of_N (fold_left (fun n c => (10 * n + (c - 48))%N) s 0%N))).
Definition C81_quad (n : N) : option (angles R) := if (n =? 2)%N then Some C70R_q else None.
Lemma C81_reads : readInput C81_stod [] (Some (C81_deck "GaussElim CramerGlu")) = Some (C81_cfg GE_CramerGlu) /\ readInput C81_stod [] (Some (C81_deck "GaussElim NoPivot")) = Some (C81_cfg GE_NoPivot).
Proof.
  assert (G : forall st : chars -> option R, st (str "0") = Some 0%R -> st (str "1") = Some 1%R -> st (str "5") = Some 5%R -> st (str "7") = Some 7%R -> st (str "10") = Some 10%R ->
    readInput st [] (Some (C81_deck "GaussElim CramerGlu")) = Some (C81_cfg GE_CramerGlu) /\ readInput st [] (Some (C81_deck "GaussElim NoPivot")) = Some (C81_cfg GE_NoPivot)).
  { intros st H0 H1 H5 H7 H10. unfold C81_cfg. generalize dependent 0%R. generalize dependent 1%R. generalize dependent 5%R. generalize dependent 7%R. generalize dependent 10%R. intros x10 H10 x7 H7 x5 H5 x1 H1 x0 H0.
    vm_compute in H0, H1, H5, H7, H10. split; vm_compute; rewrite ?H0; rewrite ?H10; rewrite ?H5; rewrite ?H7; rewrite ?H1; reflexivity. }
  apply G; reflexivity.
Qed.
Lemma C81_problem : problem_ok C12_mesh C65_dec (q_num C70R_q) (q_omega C70R_q) (by_material Rops C12_mesh 10%R 7%R).
Proof. destruct C65_problem as [P1 P2 P3 P4 P5 _]. constructor; auto. intros g sc H. unfold by_material. rewrite H. destruct (sc_mat sc =? 1)%N; cbn; lra. Qed.
Lemma C81_small sm np : In sm [C12_mesh; C81_mesh] -> np < 3 -> mesh_small sm np.
Proof. intros [<-|[<-|[]]] H; (destruct np as [|[|[|]]]; [| | |lia]); repeat split; vm_compute; reflexivity. Qed.
Lemma C81_ok : serial_mesh_ok C81_mesh /\ tets_ok C81_mesh.
Proof. split; [apply crossb_ok; [apply serial_wfb_ok; vm_compute; reflexivity|vm_compute; reflexivity]|apply tetsb_ok; vm_compute; reflexivity]. Qed.
Lemma C81_problem' : problem_ok C81_mesh C65_dec (q_num C70R_q) (q_omega C70R_q) (by_material Rops C81_mesh 10%R 7%R).
Proof. exact (problem_moved C65_dec C12_mesh C81_mesh C81_swap C81_swap _ _ _ _ C70R_q (fun a => a) _ _ C81_problem (proj1 C81_ok) (proj2 C81_ok) (C81_small C12_mesh 1 (or_introl eq_refl) ltac:(lia)) C81_iso C81_moves C81_turned). Qed.
(** A run on either mesh. *)
Lemma C81_runs sm ge solver pv : In sm [C12_mesh; C81_mesh] -> problem_ok sm C65_dec (q_num C70R_q) (q_omega C70R_q) (by_material Rops sm 10%R 7%R) -> readInput C81_stod [] (Some (C81_deck solver)) = Some (C81_cfg ge) -> ge <> GE_Original ->
  partition_vector_ok sm pv 2 -> setting Rops C65_dec C81_stod C81_quad (/ 10 ^ 10)%R [] (C81_deck solver) sm (C81_cfg ge) C70R_q /\
  exists mesh, launch C65_ltb sm pv 2 1 mesh /\ forall enc pr gsum, exists iters f, mainRun Rops C65_dec enc C81_stod C65_ltb C81_quad PI (/ 10 ^ 10)%R [] (C81_deck solver) mesh 2 1 pr gsum iters (Some (str "out.psi", f)).
Proof.
  intros IN PB RI NO0 PV.
  assert (MT : two_materials sm).
  { intros g sc H. destruct IN as [<-|[<-|[]]]; (apply at_index in H as (i & -> & H & Hi); destruct i as [|[|i]]; [| |cbn in Hi; lia]; apply Some_inj in H; subst sc; auto). }
  assert (LEN : List.length (sm_cells sm) = 2) by (destruct IN as [<-|[<-|[]]]; reflexivity).
  destruct (C70_geometry _ _ _ _ _ PB (C81_small sm 1 IN ltac:(lia)) ltac:(rewrite LEN; vm_compute; reflexivity)) as (BO & NO).
  assert (SE : setting Rops C65_dec C81_stod C81_quad (/ 10 ^ 10)%R [] (C81_deck solver) sm (C81_cfg ge) C70R_q).
  { constructor; [exact RI|reflexivity|exact BO|intros [NT|NT]; discriminate NT|rewrite LEN; lia|cbn; lia|reflexivity|rewrite LEN; vm_compute; reflexivity]. }
  split; [exact SE|]. assert (LA : exists mesh, launch C65_ltb sm pv 2 1 mesh).
  { assert (CMP : compares sm C65_dec C65_ltb). { intros n n' s s' x y _ _ _ _. unfold C65_ltb, C65_dec. rewrite Z.ltb_lt. split; [apply IZR_lt|apply lt_IZR]. }
    destruct (C65_reads sm pv 2 C65_ltb C65_dec (pb_mesh _ _ _ _ _ PB) (pb_tets _ _ _ _ _ PB) PV (C81_small sm 2 IN ltac:(lia)) CMP) as (t & m & f & m' & CR & WR & _). exists f.
    constructor; [exact PV|exact (C81_small sm 2 IN ltac:(lia))|eauto|eauto|lia]. }
  destruct LA as (mesh & LA). exists mesh. split; [exact LA|]. intros enc pr gsum.
  destruct (C70_runs _ Rops C65_dec enc C81_stod C65_ltb C81_quad PI (/ 10 ^ 10)%R [] (C81_deck solver) sm (C81_cfg ge) C70R_q pv 2 1 mesh pr gsum SE LA MT NO eq_refl (conj eq_refl eq_refl) (or_introl NO0)) as (iters & out & R).
  exists iters. destruct (C70_output _ _ _ _ _ _ _ _ _ _ _ _ _ _ _ _ _ _ _ _ _ _ SE LA R) as (_ & _ & V & _ & O). destruct out as [(n, f)|]; [|unfold C81_cfg in O; cbn [cOutputFile] in O; discriminate O]. destruct O as (_ & E & _). exists f. rewrite E in R. exact R.
Qed.
Example C81_ex : same_physics (C81_cfg GE_CramerGlu) (C81_cfg GE_NoPivot) /\ problem_ok C12_mesh C65_dec (q_num C70R_q) (q_omega C70R_q) (by_material Rops C12_mesh 10%R 7%R) /\
  isometry C81_swap C81_swap /\ C81_swap centre = centre /\ moved C65_dec C12_mesh C81_mesh C81_swap C81_cell C81_face C81_node C81_vert /\ moved C65_dec C12_mesh C12_mesh C81_swap (fun g => g) C81_mirrorF C81_mirror C81_mirrorV /\ turned C70R_q C81_swap (fun a => a) /\
  setting Rops C65_dec C81_stod C81_quad (/ 10 ^ 10)%R [] (C81_deck "GaussElim CramerGlu") C12_mesh (C81_cfg GE_CramerGlu) C70R_q /\
  setting Rops C65_dec C81_stod C81_quad (/ 10 ^ 10)%R [] (C81_deck "GaussElim NoPivot") C81_mesh (C81_cfg GE_NoPivot) C70R_q /\
  (exists mesh, launch C65_ltb C12_mesh [1; 0]%N 2 1 mesh /\ forall enc pr gsum, exists iters f, mainRun Rops C65_dec enc C81_stod C65_ltb C81_quad PI (/ 10 ^ 10)%R [] (C81_deck "GaussElim CramerGlu") mesh 2 1 pr gsum iters (Some (str "out.psi", f))) /\
  (exists mesh, launch C65_ltb C81_mesh [1; 0]%N 2 1 mesh /\ forall enc pr gsum, exists iters f, mainRun Rops C65_dec enc C81_stod C65_ltb C81_quad PI (/ 10 ^ 10)%R [] (C81_deck "GaussElim NoPivot") mesh 2 1 pr gsum iters (Some (str "out.psi", f))).
Proof.
  assert (PV : forall sm, In sm [C12_mesh; C81_mesh] -> partition_vector_ok sm [1; 0]%N 2) by (intros sm [<-|[<-|[]]]; (split; [reflexivity|split; [repeat constructor|reflexivity]])).
  destruct (C81_runs C12_mesh GE_CramerGlu _ [1; 0]%N (or_introl eq_refl) C81_problem (proj1 C81_reads) ltac:(discriminate) (PV _ (or_introl eq_refl))) as (S1 & R1).
  destruct (C81_runs C81_mesh GE_NoPivot _ [1; 0]%N (or_intror (or_introl eq_refl)) C81_problem' (proj2 C81_reads) ltac:(discriminate) (PV _ (or_intror (or_introl eq_refl)))) as (S2 & R2).
  split; [constructor; reflexivity|]. split; [exact C81_problem|]. split; [exact C81_iso|]. split; [reflexivity|]. split; [exact C81_moves|]. split; [exact C81_mirrors|]. split; [exact C81_turned|]. split; [exact S1|]. split; [exact S2|]. split; [exact R1|exact R2].
Qed.
