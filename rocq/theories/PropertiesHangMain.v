(** C76, the whole program: a run by graph traversal ends only if no cell waits for itself; on one of the meshes that come with the
    program, with its smallest quadrature, two cells wait for each other. *)
From Coq Require Import Reals Lra Permutation String ZArith.
From Flocq Require Import Core IEEE754.BinarySingleNaN IEEE754.Binary IEEE754.Bits.
From Verif Require Import Prelude Bytes DeckModel MeshModel MeshSpec MeshProofs CreateModel CreateSpec CreateProofs PropertiesCreate TychoModel TychoSpec MeshCheck GeometryModel GaussModel TransportModel
  TraverseModel TraverseRun SweepModel FluxModel ProblemModel ViewModel ViewSpec ViewProofs PropertiesView BitsModel BitsSpec BitsProofs DoubleModel DoubleSpec DoubleProofs PropertiesDouble MainModel PropertiesMain PropertiesMainEx PropertiesHang HangMainProofs HangCheck CubeModel.

(** A deck that asks for the graph traversal, and a mesh on which no computed face is outgoing at both sides; the messages stay below 2 GB. *)
Record traversal_setting {T : Type} (A : arith T) (dec : N -> T) (stod : chars -> option T) (quadrature : N -> option (angles T)) (fname deck : chars)
    (sm : smesh) (cfg : config T) (q : angles T) : Prop := {
  ts_deck : readInput stod fname (Some deck) = Some cfg;
  ts_angles : quadrature (cSnOrder cfg) = Some q;
  ts_mesh : serial_mesh_ok sm; ts_tets : tets_ok sm; ts_signs : signs_fit A sm dec (q_omega q) (q_num q);
  ts_sweep : cSweep cfg = TraverseGraph;
  ts_cells : 0 < List.length (sm_cells sm); ts_some : 0 < q_num q; ts_groups : (0 < cNGroups cfg)%N;
  ts_size : (N.of_nat (q_num q * List.length (sm_cells sm) * 4) * (24 * cNGroups cfg) < INT_MAX)%N }.
(** Its first iteration is not skipped. *)
Definition asks_iteration {T : Type} (A : arith T) (cfg : config T) : Prop := (0 < cIterMax cfg)%N /\ agt A (aone A) (cErrMax cfg) = true.

Theorem C76_program : forall T (A : arith T) dec enc stod ltb quadrature pi tol fname deck sm cfg q pv np threads mesh pr gsum iters out,
  traversal_setting A dec stod quadrature fname deck sm cfg q -> asks_iteration A cfg -> launch ltb sm pv np threads mesh ->
  mainRun A dec enc stod ltb quadrature pi tol fname deck mesh np threads pr gsum iters out ->
  b_acyclic A sm dec (q_omega q) (q_num q).
Proof.
  intros T A dec enc stod ltb quadrature pi tol fname deck sm cfg q pv np threads mesh pr gsum iters out SE (IM & EM) LA (cfg' & q' & t & xs & psi & E1 & E2 & CM & XS & SI & SO & _).
  pose proof LA as LA0. destruct SE, LA. rewrite ts_deck0 in E1. apply Some_inj in E1. subst cfg'. rewrite ts_angles0 in E2. apply Some_inj in E2. subst q'.
  pose proof (reads_mesh A dec ltb sm q pv np threads mesh LA0 t CM) as RD.
  assert (NG : (cNGroups cfg < 2^31)%N).
  { clear -ts_size0 ts_cells0 ts_some0. assert (L : (1 <= N.of_nat (q_num q * List.length (sm_cells sm) * 4))%N) by nia. revert L ts_size0. unfold INT_MAX. generalize (N.of_nat (q_num q * List.length (sm_cells sm) * 4)). intros n L H. nia. }
  destruct SO as (sweep & phiNew & phiOld & error & SW & FP). unfold sweeper in SW. rewrite ts_sweep0 in SW. subst sweep. unfold fixedPoint in FP. inversion FP as [? ? ? ? ? ? X|? ? ? ? ? ? ? ? ? ? ? ? X ? SW]; subst.
  { apply N.ltb_lt in IM. rewrite IM, EM in X. discriminate X. }
  destruct SW as (S & SW & _).
  exact (sweep_acyclic A dec ltb sm pv np cfg q threads ts_mesh0 ts_tets0 ts_signs0 la_partition la_small la_compares la_threads ts_groups0 ts_size0 t RD _ _ _ _ _ _ _ S NG SW).
Qed.
(** So with a face that is incoming on both of its sides no run ends, whatever the partition, the numbers of ranks and threads, the priorities and the timing. *)
Theorem C76_program_hangs : forall T (A : arith T) dec enc stod ltb quadrature pi tol fname deck sm cfg q pv np threads mesh pr gsum iters out a g lf h lf',
  traversal_setting A dec stod quadrature fname deck sm cfg q -> asks_iteration A cfg -> launch ltb sm pv np threads mesh ->
  a < q_num q -> s_next sm g lf h -> s_next sm h lf' g -> b_out A sm dec (q_omega q) a g lf = false -> b_out A sm dec (q_omega q) a h lf' = false ->
  ~ mainRun A dec enc stod ltb quadrature pi tol fname deck mesh np threads pr gsum iters out.
Proof.
  intros T A dec enc stod ltb quadrature pi tol fname deck sm cfg q pv np threads mesh pr gsum iters out a g lf h lf' SE AI LA Ha N1 N2 B1 B2 R.
  destruct (C76_program _ _ _ _ _ _ _ _ _ _ _ _ _ _ _ _ _ _ _ _ _ _ SE AI LA R) as (lvl & L). pose proof (L a g lf h Ha N1 B1). pose proof (L a h lf' g Ha N2 B2). lia.
Qed.

(** In double precision, as [decided] of C66 but a direction may be computed to be tangent to a face. *)
Definition sided (sm : smesh) (nA : nat) (om : nat -> q3 binary64) : Prop := forall g lf h lf' f sf, s_opposite sm g lf f sf -> s_opposite sm h lf' f sf -> g <> h ->
  exists F v w, apex sm g lf F v /\ apex sm h lf' F w /\ above Dops F v = negb (above Dops F w) /\ forall a, a < nA -> is_finite 53 1024 (vdot Dops (om a) (triNormal Dops F)) = true.
(** Then no face is outgoing at both sides; it is incoming at both exactly if the computed scalar product is zero. *)
Theorem C76_double_fit : forall sm nA om, sided sm nA om -> signs_fit Dops sm ddec om nA /\
  forall a g lf h lf' f sf F, a < nA -> s_opposite sm g lf f sf -> s_opposite sm h lf' f sf -> g <> h -> b_face sm ddec g lf = Some F ->
    (b_out Dops sm ddec om a g lf = false /\ b_out Dops sm ddec om a h lf' = false <-> B2R 53 1024 (vdot Dops (om a) (triNormal Dops F)) = 0%R).
Proof.
  intros sm nA om D. assert (K : forall a g lf h lf' f sf F, a < nA -> s_opposite sm g lf f sf -> s_opposite sm h lf' f sf -> g <> h -> b_face sm ddec g lf = Some F ->
    exists s : bool, let d := B2R 53 1024 (vdot Dops (om a) (triNormal Dops F)) in
      (b_out Dops sm ddec om a g lf = true <-> if s then (d < 0)%R else (d > 0)%R) /\ (b_out Dops sm ddec om a h lf' = true <-> if s then (d > 0)%R else (d < 0)%R)).
  { intros a g lf h lf' f sf F0 Ha O O' NE EF. destruct (D g lf h lf' f sf O O' NE) as (F & v & w & (P & F1 & P1 & V) & (P' & F2 & P2 & W) & S & FI). specialize (FI a Ha).
    rewrite F1 in EF. apply Some_inj in EF. subst F0. exists (above Dops F v). cbv zeta. unfold b_out, b_omN. rewrite F1, P1, F2, P2. cbn [obind]. rewrite (omN_tri Dops (om a) F P v V), (omN_tri Dops (om a) F P' w W). cbn [orZero].
    destruct (dot_neg (om a) (triNormal Dops F) FI) as (FN & VN). destruct zero_val as (Z & ZF). pose proof (dgt_ok _ _ FI ZF) as G. pose proof (dgt_ok _ _ FN ZF) as GN. rewrite Z in G, GN. rewrite VN in GN.
    rewrite S. destruct (above Dops F w); cbn [negb]; cbv zeta; (split; [|]); first [rewrite G|rewrite GN]; lra. }
  split.
  - intros a g lf h lf' f sf Ha O O' NE B. destruct (D g lf h lf' f sf O O' NE) as (F & v & w & (P & F1 & _) & _). destruct (K a g lf h lf' f sf F Ha O O' NE F1) as (s & K1 & K2). cbv zeta in K1, K2.
    destruct (b_out Dops sm ddec om a h lf'); auto. pose proof (proj1 K1 B). pose proof (proj1 K2 eq_refl). destruct s; lra.
  - intros a g lf h lf' f sf F Ha O O' NE EF. destruct (K a g lf h lf' f sf F Ha O O' NE EF) as (s & K1 & K2). cbv zeta in K1, K2. destruct (b_out Dops sm ddec om a g lf), (b_out Dops sm ddec om a h lf').
    + split; [intros (X & _); discriminate X|]. intros E. pose proof (proj1 K1 eq_refl). destruct s; lra.
    + split; [intros (X & _); discriminate X|]. intros E. pose proof (proj1 K1 eq_refl). destruct s; lra.
    + split; [intros (_ & X); discriminate X|]. intros E. pose proof (proj1 K2 eq_refl). destruct s; lra.
    + split; auto. intros _. destruct (Rtotal_order (B2R 53 1024 (vdot Dops (om a) (triNormal Dops F))) 0) as [X|[X|X]]; auto; exfalso; destruct s;
        first [pose proof (proj2 K1 X) as Y; discriminate Y|pose proof (proj2 K2 X) as Y; discriminate Y].
Qed.

(** util/cube-12.smesh with S2, in double precision. *)
Definition s2Om (a : nat) : q3 binary64 := decPoint ddec (nth a s2Bits (Q3 0 0 0)%N).
Lemma cube_ok : serial_mesh_ok cubeMesh /\ tets_ok cubeMesh.
Proof. split; [apply crossb_ok; [apply serial_wfb_ok|]|apply tetsb_ok]; vm_compute; reflexivity. Qed.
Lemma cube_fit : signs_fit Dops cubeMesh ddec s2Om 8.
Proof. apply signsFitb_ok; [exact (proj1 cube_ok)|]. vm_compute. reflexivity. Qed.
(** Cells 2 and 3 meet in a face that is incoming in both for direction 2. *)
Lemma cube_next : s_next cubeMesh 2 0 3 /\ s_next cubeMesh 3 2 2.
Proof.
  split; exists 19%N, (mkSface (Q2 2 3)%N (Q3 1 3 8)%N); (split; [|split; [reflexivity|discriminate]]); eexists; (split; [reflexivity|]); (split; [cbn; tauto|]); (split; [reflexivity|]); (split; [lia|]);
    intros v n H; destruct v as [|[|[|[|v]]]]; cbn in H; try (now destruct v); apply Some_inj in H; subst n; cbn; intuition (try congruence; try discriminate).
Qed.
Lemma cube_in : b_out Dops cubeMesh ddec s2Om 2 2 0 = false /\ b_out Dops cubeMesh ddec s2Om 2 3 2 = false.
Proof. split; vm_compute; reflexivity. Qed.

(** A run of the program ends on this mesh with this quadrature? It does not: for every deck that asks for the traversal and an iteration. *)
Theorem C76_cube_refuted : forall enc stod ltb quadrature wt pi tol fname deck cfg pv np threads mesh pr gsum iters out,
  readInput stod fname (Some deck) = Some cfg -> quadrature (cSnOrder cfg) = Some (mkAngles 8 s2Om wt) -> cSweep cfg = TraverseGraph ->
  (0 < cNGroups cfg < 100000)%N -> asks_iteration Dops cfg -> launch ltb cubeMesh pv np threads mesh ->
  ~ mainRun Dops ddec enc stod ltb quadrature pi tol fname deck mesh np threads pr gsum iters out.
Proof.
  intros enc stod ltb quadrature wt pi tol fname deck cfg pv np threads mesh pr gsum iters out E1 E2 SW (G0 & G1) AI LA.
  assert (SE : traversal_setting Dops ddec stod quadrature fname deck cubeMesh cfg (mkAngles 8 s2Om wt)).
  { constructor; [exact E1|exact E2|exact (proj1 cube_ok)|exact (proj2 cube_ok)|exact cube_fit|exact SW|cbn; lia|cbn; lia|exact G0|].
    change (q_num (mkAngles 8 s2Om wt)) with 8. change (List.length (sm_cells cubeMesh)) with 12. unfold INT_MAX. clear -G1. change (N.of_nat (8 * 12 * 4)) with 384%N. lia. }
  assert (Ha : 2 < q_num (mkAngles 8 s2Om wt)) by (cbn; lia).
  exact (C76_program_hangs _ _ _ _ _ _ _ _ _ _ _ _ _ _ _ _ _ _ _ _ _ _ 2 2%N 0 3%N 2 SE AI LA Ha (proj1 cube_next) (proj2 cube_next) (proj1 cube_in) (proj2 cube_in)).
Qed.

(** Decks and launches of this kind exist. *)
Definition C76_quadrature (sn : N) : option (angles binary64) := if (sn =? 2)%N then Some (mkAngles 8 s2Om (fun _ => ddec 0x3FF921FB54442D18)) else None.
Lemma cube_finite : coords_finite cubeMesh.
Proof.
  intros n s x H I. apply at_index in H as (i & -> & H & Hi).
  do 9 (destruct i as [|i]; [apply Some_inj in H; subst s; cbn in I; repeat (destruct I as [<-|I]; [vm_compute; reflexivity|]); destruct I|]). cbn in Hi. lia.
Qed.
Example C76_cube_ex : let cfg := C70_cfg TraverseGraph in
  readInput C70_stod [] (Some (C70_deck TraverseGraph)) = Some cfg /\ (exists wt, C76_quadrature (cSnOrder cfg) = Some (mkAngles 8 s2Om wt)) /\ cSweep cfg = TraverseGraph /\
  (0 < cNGroups cfg < 100000)%N /\ asks_iteration Dops cfg /\
  forall pv np threads, In (pv, np) [(repeat 0%N 12, 1); ([0; 0; 1; 1; 1; 0; 0; 1; 1; 0; 0; 1]%N, 2)] -> 0 < threads -> exists mesh, launch dltb cubeMesh pv np threads mesh.
Proof.
  intros cfg. split.
  { apply (C70_reads TraverseGraph _ C70_stod D_of_Z); [now left|]. intros k n [E|[E|[E|[E|[E|[]]]]]]; inversion E; subst; reflexivity. }
  split; [eexists; reflexivity|]. split; [reflexivity|]. split; [split; reflexivity|]. split; [split; [reflexivity|vm_compute; reflexivity]|]. intros pv np threads IN TH.
  assert (PV : partition_vector_ok cubeMesh pv np) by (destruct IN as [E|[E|[]]]; inversion E; subst; (split; [reflexivity|split; [repeat constructor|reflexivity]])).
  assert (SM : mesh_small cubeMesh np) by (destruct IN as [E|[E|[]]]; inversion E; subst; repeat split; vm_compute; reflexivity).
  destruct (C65_reads cubeMesh pv np dltb _ (proj1 cube_ok) (proj2 cube_ok) PV SM (C66_double_compares _ cube_finite)) as (t & m & f & m' & CR & WR & _). exists f.
  constructor; [exact PV|exact SM|eexists; exact (C66_double_compares _ cube_finite)|eauto|exact TH].
Qed.
(** And the hypotheses of C76_program are met by runs that end: those of C70. *)
Example C76_program_ex : traversal_setting Dops ddec C70_stod C70_quadrature [] (C70_deck TraverseGraph) C66_mesh (C70_cfg TraverseGraph) (mkAngles 1 C66_om (fun _ => aone Dops)) /\ asks_iteration Dops (C70_cfg TraverseGraph) /\
  exists mesh, launch dltb C66_mesh [1; 0]%N 2 3 mesh /\
  forall pr gsum, exists iters out, mainRun Dops ddec C70_enc C70_stod dltb C70_quadrature (ddec 0x400921FB54442D18) C70_tol [] (C70_deck TraverseGraph) mesh 2 3 pr gsum iters (Some (str "out.psi", out)).
Proof.
  destruct (C70_ex TraverseGraph (or_introl eq_refl)) as (SE & _ & K). split.
  { destruct SE as [S1 S2 S3 _ S5 S6 S7 S8]. constructor; auto; [exact (bo_mesh _ _ _ _ _ S3)|exact (bo_tets _ _ _ _ _ S3)|].
    intros a g lf h lf' f sf Ha O O' NE B. rewrite (bo_signs _ _ _ _ _ S3 a g lf h lf' f sf Ha O O' NE) in B. now destruct (b_out Dops C66_mesh ddec _ a h lf'). }
  split; [split; [reflexivity|vm_compute; reflexivity]|]. apply K; [right; now left|lia].
Qed.
(** [sided] holds in the case of C66. *)
Example C76_double_ex : sided C66_mesh 1 C66_om.
Proof. intros g lf h lf' f sf O O' NE. destruct (C66_decided g lf h lf' f sf O O' NE) as (F & v & w & A1 & A2 & S & K). exists F, v, w. split; [exact A1|]. split; [exact A2|]. split; [exact S|]. intros a Ha. exact (proj1 (K a Ha)). Qed.
Print Assumptions C76_double_fit. Print Assumptions C76_program. Print Assumptions C76_program_hangs. Print Assumptions C76_cube_refuted.
