(** C67: refining a valid mesh gives a valid mesh of the same solid. *)
From Coq Require Import Reals Lra.
From Verif Require Import Prelude Bytes MeshModel MeshSpec CreateSpec MeshCheck RefineModel RefineSpec RefineProofs RefineMeshProofs TychoSpec GeometrySpec GeometryProofs ViewSpec RefinedSpec RefinedProofs RefinedMeshProofs RefinedBdryProofs.
Local Open Scope N_scope.

(** A valid mesh of at least 1000 non-overlapping tetrahedra, with exact midpoints and coordinates apart by more than the
    tolerance: the program writes a valid mesh of eight times as many non-overlapping tetrahedra. *)
Theorem C67_valid : forall mid ltb dist dmax dmin ltMinus gtPlus sub name0 version0 sm dec d,
  serial_mesh_ok sm -> solid sm dec -> exact_midpoints sm dec mid ->
  graphDiameter ltb dmax dmin sub sm = Some d -> separates sm dec mid (ltMinus d) (gtPlus d) ->
  1000 <= lenN (sm_cells sm) -> 32 * lenN (sm_cells sm) < 2 ^ 31 ->
  exists rm, refineMesh mid ltb dist dmax dmin ltMinus gtPlus sub name0 version0 sm = Some rm /\
    lenN (sm_cells rm) = 8 * lenN (sm_cells sm) /\ serial_mesh_ok rm /\ tets_ok rm /\ solid rm dec.
Proof.
  intros mid ltb dist dmax dmin ltMinus gtPlus sub name0 version0 sm dec d OK SOL EM Ed SEP L1 L2.
  destruct (refine_all mid ltb dist dmax dmin ltMinus gtPlus sub name0 version0 sm dec d OK SOL EM Ed SEP L1 L2) as (rm & E & A & B & C & D & _). exists rm. auto.
Qed.
Print Assumptions C67_valid.

(** The cells [8 g] to [8 g + 7] of the new mesh fill cell [g] of the old one exactly, each with an eighth of its volume and
    with its material. *)
Theorem C67_same_solid : forall mid ltb dist dmax dmin ltMinus gtPlus sub name0 version0 sm dec d rm,
  serial_mesh_ok sm -> solid sm dec -> exact_midpoints sm dec mid ->
  graphDiameter ltb dmax dmin sub sm = Some d -> separates sm dec mid (ltMinus d) (gtPlus d) ->
  1000 <= lenN (sm_cells sm) -> 32 * lenN (sm_cells sm) < 2 ^ 31 ->
  refineMesh mid ltb dist dmax dmin ltMinus gtPlus sub name0 version0 sm = Some rm ->
  (forall g q x, s_cell sm dec g q -> (inside q x <-> exists h p, h / 8 = g /\ s_cell rm dec h p /\ inside p x)) /\
  (forall h p, s_cell rm dec h p -> exists q, s_cell sm dec (h / 8) q /\ Rabs (vol6 p) = (Rabs (vol6 q) / 8)%R) /\
  (forall h sc, SM_cell rm h = Some sc -> exists sc', SM_cell sm (h / 8) = Some sc' /\ sc_mat sc = sc_mat sc').
Proof.
  intros mid ltb dist dmax dmin ltMinus gtPlus sub name0 version0 sm dec d rm OK SOL EM Ed SEP L1 L2 ER.
  destruct (refine_all mid ltb dist dmax dmin ltMinus gtPlus sub name0 version0 sm dec d OK SOL EM Ed SEP L1 L2) as (rm' & E & _ & _ & _ & _ & CE & MA & FI & _). rewrite ER in E. apply Some_inj in E. subst rm'.
  split; [|split; [|exact MA]].
  - intros g q x Hq. split; [intros Hx; exact (FI g q x Hq Hx)|]. intros (h & p & <- & Hp & Hx). destruct (CE h p Hp) as (q' & Hq' & I & _).
    assert (q' = q) as <-; [|auto]. destruct Hq as (x1 & X1 & E1), Hq' as (x2 & X2 & E2). rewrite X1 in X2. apply Some_inj in X2. subst x2. rewrite E1 in E2. destruct q, q'. cbn in E2. congruence.
  - intros h p Hp. destruct (CE h p Hp) as (q & Hq & _ & V). eauto.
Qed.
Print Assumptions C67_same_solid.

(** No boundary appears inside: every boundary face of the new mesh is a quarter of a boundary face of the old one.  If boundary
    faces of the old mesh touch no other cell off their edges, every quarter of a boundary face is a boundary face, the boundary
    is the same set of points, and the same holds for the new mesh. *)
Theorem C67_boundary : forall mid ltb dist dmax dmin ltMinus gtPlus sub name0 version0 sm dec d rm,
  serial_mesh_ok sm -> tets_ok sm -> solid sm dec -> exact_midpoints sm dec mid ->
  graphDiameter ltb dmax dmin sub sm = Some d -> separates sm dec mid (ltMinus d) (gtPlus d) ->
  1000 <= lenN (sm_cells sm) -> 32 * lenN (sm_cells sm) < 2 ^ 31 ->
  refineMesh mid ltb dist dmax dmin ltMinus gtPlus sub name0 version0 sm = Some rm ->
  (forall F, boundary rm dec F -> exists G T, boundary sm dec G /\ In T (quarter_tri (midPt rmid) G) /\ same_tri F T) /\
  (face_to_face sm dec ->
    (forall G T, boundary sm dec G -> In T (quarter_tri (midPt rmid) G) -> exists F, boundary rm dec F /\ same_tri F T) /\
    (forall x, on_surface rm dec x <-> on_surface sm dec x) /\ face_to_face rm dec).
Proof.
  intros mid ltb dist dmax dmin ltMinus gtPlus sub name0 version0 sm dec d rm OK TT SOL EM Ed SEP L1 L2 ER.
  destruct (refine_all mid ltb dist dmax dmin ltMinus gtPlus sub name0 version0 sm dec d OK SOL EM Ed SEP L1 L2) as (rm' & E & _ & _ & _ & _ & _ & _ & _ & BO & BN & _ & FF). rewrite ER in E. apply Some_inj in E. subst rm'.
  split; [exact (BO TT)|]. intros F2F. split; [exact (BN TT F2F)|]. split; [|exact (FF TT F2F)]. exact (surface_same sm rm dec (BO TT) (BN TT F2F)).
Qed.
Print Assumptions C67_boundary.

(** ** Pairs of tetrahedra along the x axis *)
Definition C67_nodes (i : nat) : list snode := let x := 8 * N.of_nat i in
  [mkSnode (Q3 x 0 0); mkSnode (Q3 (x + 2) 0 0); mkSnode (Q3 (x + 2) 2 0); mkSnode (Q3 (x + 2) 0 2); mkSnode (Q3 (x + 4) 0 0)].
Definition C67_cells (i : nat) : list scell := let n := 5 * N.of_nat i in let f := 7 * N.of_nat i in
  [mkScell (Q4 f (f + 1) (f + 2) (f + 3)) (Q4 n (n + 1) (n + 2) (n + 3)) 1; mkScell (Q4 f (f + 4) (f + 5) (f + 6)) (Q4 (n + 4) (n + 1) (n + 2) (n + 3)) 2].
Definition C67_faces (i : nat) : list sface := let n := 5 * N.of_nat i in let c := 2 * N.of_nat i in
  [mkSface (Q2 c (c + 1)) (Q3 (n + 1) (n + 2) (n + 3));
   mkSface (Q2 c INVALID) (Q3 n (n + 2) (n + 3)); mkSface (Q2 c INVALID) (Q3 n (n + 1) (n + 3)); mkSface (Q2 c INVALID) (Q3 n (n + 1) (n + 2));
   mkSface (Q2 (c + 1) INVALID) (Q3 (n + 4) (n + 2) (n + 3)); mkSface (Q2 (c + 1) INVALID) (Q3 (n + 4) (n + 1) (n + 3)); mkSface (Q2 (c + 1) INVALID) (Q3 (n + 4) (n + 1) (n + 2))].
Definition C67_mesh (n : nat) : smesh := mkSmesh serialName 2 (2 * N.of_nat n) (7 * N.of_nat n) (5 * N.of_nat n)
  (flat_map C67_cells (seq 0 n)) (flat_map C67_faces (seq 0 n)) (flat_map C67_nodes (seq 0 n)).
Definition C67_dec (x : N) : R := IZR (Z.of_N x).
Definition C67_mid (x y : N) : N := ((x + y) / 2) mod two64.
(** Comparisons without tolerance. *)
Definition C67_less (d x y : N) : bool := x <? y.
Definition C67_more (d x y : N) : bool := y <? x.
Lemma flat_nth {A} (f : nat -> list A) m n k x : (0 < m)%nat -> (forall i, length (f i) = m) -> nth_error (flat_map f (seq 0 n)) k = Some x ->
  exists i j, (i < n)%nat /\ (j < m)%nat /\ k = (m * i + j)%nat /\ nth_error (f i) j = Some x.
Proof.
  intros M L H. rewrite flat_map_concat_map in H. assert (L4 : forall x, In x (map f (seq 0 n)) -> length x = m) by (intros y Hy; apply in_map_iff in Hy; destruct Hy as (u & <- & _); auto).
  assert (B : (k < length (concat (map f (seq 0 n))))%nat) by (apply nth_error_Some; congruence). rewrite (concat_length_fixed m) in B by exact L4. rewrite map_length, seq_length in B.
  assert (DM : (k = (k / m) * m + k mod m)%nat) by (rewrite Nat.mul_comm; apply Nat.div_mod; lia). assert (MB : (k mod m < m)%nat) by (apply Nat.mod_upper_bound; lia).
  assert (DL : (k / m < n)%nat) by (apply Nat.div_lt_upper_bound; lia). exists (k / m)%nat, (k mod m)%nat. split; auto. split; auto. split; [lia|].
  rewrite DM, (nth_error_concat_fixed m _ (k / m) (k mod m) (f (k / m)%nat) L4) in H; [exact H| |exact MB]. rewrite nth_error_map, nth_error_nth' with (d := 0%nat) by (rewrite seq_length; lia). rewrite seq_nth by lia. reflexivity.
Qed.
Lemma flat_get {A} (f : nat -> list A) m n i j x : (forall i, length (f i) = m) -> (i < n)%nat -> nth_error (f i) j = Some x -> nth_error (flat_map f (seq 0 n)) (m * i + j) = Some x.
Proof.
  intros L Hi H. assert (L4 : forall x, In x (map f (seq 0 n)) -> length x = m) by (intros y Hy; apply in_map_iff in Hy; destruct Hy as (u & <- & _); auto).
  assert (J : (j < m)%nat) by (rewrite <- (L i); apply nth_error_Some; congruence). rewrite flat_map_concat_map, Nat.mul_comm, (nth_error_concat_fixed m _ i j (f i) L4); auto.
  rewrite nth_error_map, nth_error_nth' with (d := 0%nat) by (rewrite seq_length; lia). rewrite seq_nth by lia. reflexivity.
Qed.
Section Pairs.
  Context (n : nat) (NB : N.of_nat n <= 2 ^ 20).
  Let sm := C67_mesh n.
  Lemma pr_cell c sc : SM_cell sm c = Some sc -> exists i j, (i < n)%nat /\ (j < 2)%nat /\ c = 2 * N.of_nat i + N.of_nat j /\ nth_error (C67_cells i) j = Some sc.
  Proof. intros H. destruct (flat_nth C67_cells 2 n _ _ ltac:(lia) (fun _ => eq_refl) H) as (i & j & A & B & C & D). exists i, j. split; auto. split; auto. split; [lia|exact D]. Qed.
  Lemma pr_face c sc : SM_face sm c = Some sc -> exists i j, (i < n)%nat /\ (j < 7)%nat /\ c = 7 * N.of_nat i + N.of_nat j /\ nth_error (C67_faces i) j = Some sc.
  Proof. intros H. destruct (flat_nth C67_faces 7 n _ _ ltac:(lia) (fun _ => eq_refl) H) as (i & j & A & B & C & D). exists i, j. split; auto. split; auto. split; [lia|exact D]. Qed.
  Lemma pr_node c sc : SM_node sm c = Some sc -> exists i j, (i < n)%nat /\ (j < 5)%nat /\ c = 5 * N.of_nat i + N.of_nat j /\ nth_error (C67_nodes i) j = Some sc.
  Proof. intros H. destruct (flat_nth C67_nodes 5 n _ _ ltac:(lia) (fun _ => eq_refl) H) as (i & j & A & B & C & D). exists i, j. split; auto. split; auto. split; [lia|exact D]. Qed.
  Lemma pg_cell i j c sc : (i < n)%nat -> nth_error (C67_cells i) j = Some sc -> c = 2 * N.of_nat i + N.of_nat j -> SM_cell sm c = Some sc.
  Proof. intros A B ->. unfold SM_cell. replace (N.to_nat (2 * N.of_nat i + N.of_nat j)) with (2 * i + j)%nat by lia. now apply flat_get. Qed.
  Lemma pg_face i j c sc : (i < n)%nat -> nth_error (C67_faces i) j = Some sc -> c = 7 * N.of_nat i + N.of_nat j -> SM_face sm c = Some sc.
  Proof. intros A B ->. unfold SM_face. replace (N.to_nat (7 * N.of_nat i + N.of_nat j)) with (7 * i + j)%nat by lia. now apply flat_get. Qed.
  Lemma pg_node i j c sc : (i < n)%nat -> nth_error (C67_nodes i) j = Some sc -> c = 5 * N.of_nat i + N.of_nat j -> SM_node sm c = Some sc.
  Proof. intros A B ->. unfold SM_node. replace (N.to_nat (5 * N.of_nat i + N.of_nat j)) with (5 * i + j)%nat by lia. now apply flat_get. Qed.
  Lemma pr_len {A} (f : nat -> list A) m : (forall i, length (f i) = m) -> lenN (flat_map f (seq 0 n)) = N.of_nat m * N.of_nat n.
  Proof. intros L. unfold lenN. rewrite flat_map_concat_map, (concat_length_fixed m), map_length, seq_length; [lia|]. intros y Hy. apply in_map_iff in Hy. destruct Hy as (u & <- & _). auto. Qed.
  Ltac cases2 j := destruct j as [|[|j]]; [| |lia].
  Ltac cases7 j := destruct j as [|[|[|[|[|[|[|j]]]]]]]; [| | | | | | |lia].
  Ltac cases5 j := destruct j as [|[|[|[|[|j]]]]]; [| | | | |lia].
  Ltac big := unfold u64, INVALID, two64 in *; change (2 ^ 20) with 1048576 in *; change (2 ^ 31) with 2147483648 in *; lia.
  Lemma all_lt {A} (f : A -> list N) (l : list A) : (forall k x, nth_error l k = Some x -> Forall u64 (f x)) -> Forall (fun x => Forall u64 (f x)) l.
  Proof. intros H. apply Forall_forall. intros x Hx. destruct (In_nth_error _ _ Hx) as (k & Hk). eauto. Qed.
  Lemma pair_ok : serial_mesh_ok sm.
  Proof.
    constructor.
    - unfold serial_wf, sm, C67_mesh. cbn [sm_numCells sm_numFaces sm_numNodes sm_cells sm_faces sm_nodes]. rewrite (pr_len C67_cells 2), (pr_len C67_faces 7), (pr_len C67_nodes 5) by reflexivity.
      do 3 (split; [lia|]). do 3 (split; [big|]). split; [|split]; apply all_lt; intros k x H.
      + destruct (flat_nth C67_cells 2 n _ _ ltac:(lia) (fun _ => eq_refl) H) as (i & j & A & B & _ & D). cases2 j; cbn [C67_cells nth_error] in D; apply Some_inj in D; subst x; cbn [scell_fmt]; repeat (apply Forall_cons; [big|]); constructor.
      + destruct (flat_nth C67_faces 7 n _ _ ltac:(lia) (fun _ => eq_refl) H) as (i & j & A & B & _ & D). cases7 j; cbn [C67_faces nth_error] in D; apply Some_inj in D; subst x; cbn [sface_fmt]; repeat (apply Forall_cons; [big|]); constructor.
      + destruct (flat_nth C67_nodes 5 n _ _ ltac:(lia) (fun _ => eq_refl) H) as (i & j & A & B & _ & D). cases5 j; cbn [C67_nodes nth_error] in D; apply Some_inj in D; subst x; cbn [snode_fmt sn_coords]; repeat (apply Forall_cons; [big|]); constructor.
    - unfold sm, C67_mesh. cbn [sm_cells]. rewrite (pr_len C67_cells 2) by reflexivity. big.
    - unfold sm, C67_mesh. cbn [sm_faces]. rewrite (pr_len C67_faces 7) by reflexivity. big.
    - unfold sm, C67_mesh. cbn [sm_nodes]. rewrite (pr_len C67_nodes 5) by reflexivity. big.
    - intros c sc f H If. destruct (pr_cell c sc H) as (i & j & A & B & -> & D). cases2 j; cbn [C67_cells nth_error] in D; apply Some_inj in D; subst sc; cbn [sc_faces sc_nodes q4l r0 r1 r2 r3 In] in *.
      + destruct If as [<-|[<-|[<-|[<-|[]]]]]; [exists (nth 0 (C67_faces i) (mkSface (Q2 0 0) (Q3 0 0 0)))|exists (nth 1 (C67_faces i) (mkSface (Q2 0 0) (Q3 0 0 0)))|exists (nth 2 (C67_faces i) (mkSface (Q2 0 0) (Q3 0 0 0)))|exists (nth 3 (C67_faces i) (mkSface (Q2 0 0) (Q3 0 0 0)))];
          (split; [first [eapply (pg_face i 0); [exact A|reflexivity|lia]|eapply (pg_face i 1); [exact A|reflexivity|lia]|eapply (pg_face i 2); [exact A|reflexivity|lia]|eapply (pg_face i 3); [exact A|reflexivity|lia]]|]);
          cbn [C67_faces nth sf_cells sf_nodes q2l q3l MeshModel.p0 MeshModel.p1 t0 t1 t2 In]; (split; [lia|intros; lia]).
      + destruct If as [<-|[<-|[<-|[<-|[]]]]]; [exists (nth 0 (C67_faces i) (mkSface (Q2 0 0) (Q3 0 0 0)))|exists (nth 4 (C67_faces i) (mkSface (Q2 0 0) (Q3 0 0 0)))|exists (nth 5 (C67_faces i) (mkSface (Q2 0 0) (Q3 0 0 0)))|exists (nth 6 (C67_faces i) (mkSface (Q2 0 0) (Q3 0 0 0)))];
          (split; [first [eapply (pg_face i 0); [exact A|reflexivity|lia]|eapply (pg_face i 4); [exact A|reflexivity|lia]|eapply (pg_face i 5); [exact A|reflexivity|lia]|eapply (pg_face i 6); [exact A|reflexivity|lia]]|]);
          cbn [C67_faces nth sf_cells sf_nodes q2l q3l MeshModel.p0 MeshModel.p1 t0 t1 t2 In]; (split; [lia|intros; lia]).
    - intros f sf c H Ic NI. destruct (pr_face f sf H) as (i & j & A & B & -> & D). cases7 j; cbn [C67_faces nth_error] in D; apply Some_inj in D; subst sf; cbn [sf_cells q2l MeshModel.p0 MeshModel.p1 In] in Ic; destruct Ic as [<-|[<-|[]]]; try congruence;
        (first [eexists; split; [eapply (pg_cell i 0); [exact A|reflexivity|lia]|]; cbn [sc_faces q4l r0 r1 r2 r3 In]; lia|eexists; split; [eapply (pg_cell i 1); [exact A|reflexivity|lia]|]; cbn [sc_faces q4l r0 r1 r2 r3 In]; lia]).
    - intros c sc x H Ix. destruct (pr_cell c sc H) as (i & j & A & B & -> & D). cases2 j; cbn [C67_cells nth_error] in D; apply Some_inj in D; subst sc; cbn [sc_nodes q4l r0 r1 r2 r3 In] in Ix; destruct Ix as [<-|[<-|[<-|[<-|[]]]]]; eexists;
        (first [eapply (pg_node i 0); [exact A|reflexivity|lia]|eapply (pg_node i 1); [exact A|reflexivity|lia]|eapply (pg_node i 2); [exact A|reflexivity|lia]|eapply (pg_node i 3); [exact A|reflexivity|lia]|eapply (pg_node i 4); [exact A|reflexivity|lia]]).
  Qed.
  Lemma nd4 (a b c d : N) : a <> b -> a <> c -> a <> d -> b <> c -> b <> d -> c <> d -> NoDup [a; b; c; d].
  Proof. intros. repeat (constructor; [cbn; intuition congruence|]). constructor. Qed.
  Lemma nd3 (a b c : N) : a <> b -> a <> c -> b <> c -> NoDup [a; b; c].
  Proof. intros. repeat (constructor; [cbn; intuition congruence|]). constructor. Qed.
  Lemma pair_tets : tets_ok sm.
  Proof.
    constructor.
    - intros c sc H. destruct (pr_cell c sc H) as (i & j & A & B & -> & D). cases2 j; cbn [C67_cells nth_error] in D; apply Some_inj in D; subst sc; cbn [sc_nodes q4l r0 r1 r2 r3]; apply nd4; cbn [r0 r1 r2 r3]; lia.
    - intros f sf H. destruct (pr_face f sf H) as (i & j & A & B & -> & D). cases7 j; cbn [C67_faces nth_error] in D; apply Some_inj in D; subst sf; cbn [sf_nodes sf_cells q3l t0 t1 t2 MeshModel.p0 MeshModel.p1]; (split; [apply nd3; cbn [t0 t1 t2]; lia|cbn [MeshModel.p0 MeshModel.p1]; big]).
    - intros c sc i j f g sf sg H Hi Hj Hf Hg S. destruct (pr_cell c sc H) as (k & l & A & B & -> & D).
      destruct (pr_face f sf Hf) as (k1 & l1 & A1 & B1 & E1 & D1). destruct (pr_face g sg Hg) as (k2 & l2 & A2 & B2 & E2 & D2).
      assert (FF : f = g -> i = j).
      { intros <-. cases2 l; cbn [C67_cells nth_error] in D; apply Some_inj in D; subst sc; cbn [sc_faces q4l r0 r1 r2 r3] in Hi, Hj; destruct i as [|[|[|[|i]]]]; [| | | |destruct i; discriminate| | | | |destruct i; discriminate];
          (destruct j as [|[|[|[|j]]]]; [| | | |destruct j; discriminate]); cbn [nth_error q4l r0 r1 r2 r3] in Hi, Hj; apply Some_inj in Hi, Hj; try reflexivity; lia. }
      apply FF. assert (KK : k1 = k /\ k2 = k) by (cases2 l; cbn [C67_cells nth_error] in D; apply Some_inj in D; subst sc; cbn [sc_faces q4l r0 r1 r2 r3] in Hi, Hj; apply nth_error_In in Hi, Hj; cbn [In q4l r0 r1 r2 r3] in Hi, Hj; lia). destruct KK as (-> & ->).
      assert (l1 = l2); [|congruence]. pose proof (S (5 * N.of_nat k)) as S0. pose proof (S (5 * N.of_nat k + 1)) as S1. pose proof (S (5 * N.of_nat k + 2)) as S2. pose proof (S (5 * N.of_nat k + 3)) as S3. pose proof (S (5 * N.of_nat k + 4)) as S4. clear -D1 D2 B1 B2 S0 S1 S2 S3 S4.
      cases7 l1; cbn [C67_faces nth_error] in D1; apply Some_inj in D1; subst sf; (cases7 l2; cbn [C67_faces nth_error] in D2; apply Some_inj in D2; subst sg; cbn [sf_nodes q3l t0 t1 t2 In] in S0, S1, S2, S3, S4; try reflexivity; lia).
  Qed.
  Lemma node_at i j c : (i < n)%nat -> (j < 5)%nat -> c = 5 * N.of_nat i + N.of_nat j -> s_point sm C67_dec c = Some (match j with
    | 0%nat => Q3 (8 * INR i) 0 0 | 1%nat => Q3 (8 * INR i + 2) 0 0 | 2%nat => Q3 (8 * INR i + 2) 2 0 | 3%nat => Q3 (8 * INR i + 2) 0 2 | _ => Q3 (8 * INR i + 4) 0 0 end)%R.
  Proof.
    intros A B E. unfold s_point. destruct (nth_error (C67_nodes i) j) as [sn|] eqn:H; [|apply nth_error_None in H; cbn in H; lia]. rewrite (pg_node i j c sn A H E). cbn [option_map]. f_equal. unfold C67_dec.
    assert (E0 : IZR (Z.of_N (8 * N.of_nat i)) = (8 * INR i)%R) by (rewrite INR_IZR_INZ, <- mult_IZR; f_equal; lia).
    assert (E2 : IZR (Z.of_N (8 * N.of_nat i + 2)) = (8 * INR i + 2)%R) by (rewrite INR_IZR_INZ, <- mult_IZR, <- plus_IZR; f_equal; lia).
    assert (E4 : IZR (Z.of_N (8 * N.of_nat i + 4)) = (8 * INR i + 4)%R) by (rewrite INR_IZR_INZ, <- mult_IZR, <- plus_IZR; f_equal; lia).
    cases5 j; cbn [C67_nodes nth_error] in H; apply Some_inj in H; subst sn; cbn [sn_coords t0 t1 t2]; rewrite ?E0, ?E2, ?E4; reflexivity.
  Qed.
  Definition pair_tet (i j : nat) : q4 (q3 R) := let x := (8 * INR i)%R in
    Q4 (match j with 0%nat => Q3 x 0 0 | _ => Q3 (x + 4) 0 0 end)%R (Q3 (x + 2) 0 0)%R (Q3 (x + 2) 2 0)%R (Q3 (x + 2) 0 2)%R.
  Lemma pair_cell c p : s_cell sm C67_dec c p -> exists i j, (i < n)%nat /\ (j < 2)%nat /\ c = 2 * N.of_nat i + N.of_nat j /\ p = pair_tet i j.
  Proof.
    intros (sc & H & E). destruct (pr_cell c sc H) as (i & j & A & B & -> & D). exists i, j. split; auto. split; auto. split; auto.
    cases2 j; cbn [C67_cells nth_error] in D; apply Some_inj in D; subst sc; cbn [sc_nodes q4l r0 r1 r2 r3 map] in E.
    - rewrite (node_at i 0), (node_at i 1), (node_at i 2), (node_at i 3) in E by lia. destruct p. cbn in E. unfold pair_tet. congruence.
    - rewrite (node_at i 4), (node_at i 1), (node_at i 2), (node_at i 3) in E by lia. destruct p. cbn in E. unfold pair_tet. congruence.
  Qed.
  Lemma pair_range i j x : (j < 2)%nat -> inside (pair_tet i j) x -> (8 * INR i + 2 * INR j <= t0 x <= 8 * INR i + 2 * INR j + 2)%R.
  Proof. intros L (a & b & c & d & P & ->). cases2 j; unfold bary, pair_tet; cbn [t0 t1 t2 r0 r1 r2 r3 INR]; nra. Qed.
  Lemma pair_range_strict i j x : (j < 2)%nat -> strictly_inside (pair_tet i j) x -> (8 * INR i + 2 * INR j < t0 x < 8 * INR i + 2 * INR j + 2)%R.
  Proof. intros L (a & b & c & d & P & ->). cases2 j; unfold bary, pair_tet; cbn [t0 t1 t2 r0 r1 r2 r3 INR]; nra. Qed.
  Lemma pair_apart i j k l y : (j < 2)%nat -> (l < 2)%nat -> 2 * N.of_nat i + N.of_nat j <> 2 * N.of_nat k + N.of_nat l -> (8 * INR i + 2 * INR j < y < 8 * INR i + 2 * INR j + 2)%R -> (8 * INR k + 2 * INR l <= y <= 8 * INR k + 2 * INR l + 2)%R -> False.
  Proof.
    intros J L NE A B. assert (K : (8 * Z.of_nat i + 2 * Z.of_nat j + 2 <= 8 * Z.of_nat k + 2 * Z.of_nat l \/ 8 * Z.of_nat k + 2 * Z.of_nat l + 2 <= 8 * Z.of_nat i + 2 * Z.of_nat j)%Z) by lia.
    rewrite !INR_IZR_INZ in A, B. destruct K as [K|K]; apply IZR_le in K; rewrite !plus_IZR, !mult_IZR in K; lra.
  Qed.
  Lemma pair_solid : solid sm C67_dec.
  Proof.
    constructor.
    - intros c p H. destruct (pair_cell c p H) as (i & j & _ & L & _ & ->). cases2 j; unfold pair_tet; cbn; nra.
    - intros g h p q x NE Hp Hq Ip Iq. destruct (pair_cell g p Hp) as (i & j & _ & L & -> & ->). destruct (pair_cell h q Hq) as (k & l & _ & L' & -> & ->).
      apply pair_range_strict in Ip; auto. apply pair_range_strict in Iq; auto. apply (pair_apart i j k l (t0 x) L L' NE Ip). lra.
  Qed.
  Lemma pair_coord k sc x : In k [t0; t1; t2] -> In sc (sm_cells sm) -> cell_coord sm k sc x -> exists z, x = 2 * z /\ z < 2 ^ 32.
  Proof.
    intros Hk _ (m & sn & _ & H & ->). destruct (pr_node m sn H) as (i & j & A & B & _ & D). change (2 ^ 32) with 4294967296. change (2 ^ 20) with 1048576 in NB.
    cases5 j; cbn [C67_nodes nth_error] in D; apply Some_inj in D; subst sn; cbn [sn_coords]; destruct Hk as [<-|[<-|[<-|[]]]]; cbn [t0 t1 t2];
      (first [exists 0; lia|exists 1; lia|exists (4 * N.of_nat i); lia|exists (4 * N.of_nat i + 1); lia|exists (4 * N.of_nat i + 2); lia]).
  Qed.
  Lemma pair_mid : exact_midpoints sm C67_dec C67_mid.
  Proof.
    constructor.
    - intros k sc x y Hk I Hx Hy. destruct (pair_coord k sc x Hk I Hx) as (a & -> & La). destruct (pair_coord k sc y Hk I Hy) as (b & -> & Lb). change (2 ^ 32) with 4294967296 in *. unfold C67_mid, C67_dec.
      replace (2 * a + 2 * b) with ((a + b) * 2) by lia. rewrite N.div_mul by lia. rewrite N.mod_small by (unfold two64; lia). rewrite !N2Z.inj_mul, N2Z.inj_add, !mult_IZR, plus_IZR. change (IZR (Z.of_N 2)) with 2%R. lra.
    - intros x y. apply N.mod_lt. unfold two64. lia.
  Qed.
  Lemma pair_sep d : separates sm C67_dec C67_mid (C67_less d) (C67_more d).
  Proof.
    intros k x y _ _ _. unfold C67_dec, C67_less, C67_more. split; rewrite N.ltb_lt; split; intros H.
    - apply IZR_lt. lia.
    - apply lt_IZR in H. lia.
    - apply IZR_lt. lia.
    - apply Rgt_lt, lt_IZR in H. lia.
  Qed.
  Lemma pair_f2f : face_to_face sm C67_dec.
  Proof.
    intros f sf F g h p x Hf HI (sf' & Hf' & EF) Ig NI NE Hp (a & b & c & P & ->) Ix. rewrite Hf in Hf'. apply Some_inj in Hf'. subst sf'. destruct (pr_face f sf Hf) as (i & j & A & B & -> & D). destruct (pair_cell h p Hp) as (k & l & _ & L' & -> & ->).
    apply pair_range in Ix; auto. cbn [t0] in Ix. destruct F as [F0 F1 F2]. cbn [q3l t0 t1 t2 map] in EF, Ix.
    cases7 j; cbn [C67_faces nth_error] in D; apply Some_inj in D; subst sf; cbn [sf_cells sf_nodes q2l q3l t0 t1 t2 map MeshModel.p0 MeshModel.p1 In] in *.
    - exfalso. destruct HI as [HI|[HI|[]]]; revert HI; big.
    - rewrite (node_at i 0), (node_at i 2), (node_at i 3) in EF by lia. injection EF as <- <- <-. cbn [t0] in Ix. assert (g = 2 * N.of_nat i + N.of_nat 0) by (destruct Ig as [<-|[<-|[]]]; [lia|congruence]). subst g. eapply (pair_apart i 0 k l); [lia|exact L'|auto| |exact Ix]. cbn [INR]. nra.
    - rewrite (node_at i 0), (node_at i 1), (node_at i 3) in EF by lia. injection EF as <- <- <-. cbn [t0] in Ix. assert (g = 2 * N.of_nat i + N.of_nat 0) by (destruct Ig as [<-|[<-|[]]]; [lia|congruence]). subst g. eapply (pair_apart i 0 k l); [lia|exact L'|auto| |exact Ix]. cbn [INR]. nra.
    - rewrite (node_at i 0), (node_at i 1), (node_at i 2) in EF by lia. injection EF as <- <- <-. cbn [t0] in Ix. assert (g = 2 * N.of_nat i + N.of_nat 0) by (destruct Ig as [<-|[<-|[]]]; [lia|congruence]). subst g. eapply (pair_apart i 0 k l); [lia|exact L'|auto| |exact Ix]. cbn [INR]. nra.
    - rewrite (node_at i 4), (node_at i 2), (node_at i 3) in EF by lia. injection EF as <- <- <-. cbn [t0] in Ix. assert (g = 2 * N.of_nat i + N.of_nat 1) by (destruct Ig as [<-|[<-|[]]]; [lia|congruence]). subst g. eapply (pair_apart i 1 k l); [lia|exact L'|auto| |exact Ix]. cbn [INR]. nra.
    - rewrite (node_at i 4), (node_at i 1), (node_at i 3) in EF by lia. injection EF as <- <- <-. cbn [t0] in Ix. assert (g = 2 * N.of_nat i + N.of_nat 1) by (destruct Ig as [<-|[<-|[]]]; [lia|congruence]). subst g. eapply (pair_apart i 1 k l); [lia|exact L'|auto| |exact Ix]. cbn [INR]. nra.
    - rewrite (node_at i 4), (node_at i 1), (node_at i 2) in EF by lia. injection EF as <- <- <-. cbn [t0] in Ix. assert (g = 2 * N.of_nat i + N.of_nat 1) by (destruct Ig as [<-|[<-|[]]]; [lia|congruence]). subst g. eapply (pair_apart i 1 k l); [lia|exact L'|auto| |exact Ix]. cbn [INR]. nra.
  Qed.
End Pairs.

(** 500 pairs of tetrahedra, each with a common face, meet all hypotheses. *)
Example C67_ex : exists d, graphDiameter N.ltb (2 ^ 62) 0 N.sub (C67_mesh 500) = Some d /\ serial_mesh_ok (C67_mesh 500) /\ tets_ok (C67_mesh 500) /\ solid (C67_mesh 500) C67_dec /\ exact_midpoints (C67_mesh 500) C67_dec C67_mid /\
  separates (C67_mesh 500) C67_dec C67_mid (C67_less d) (C67_more d) /\ 1000 <= lenN (sm_cells (C67_mesh 500)) /\ 32 * lenN (sm_cells (C67_mesh 500)) < 2 ^ 31 /\ face_to_face (C67_mesh 500) C67_dec.
Proof.
  assert (B : N.of_nat 500 <= 2 ^ 20) by (vm_compute; discriminate). destruct (diameter_some (C67_mesh 500) C67_dec N.ltb (2 ^ 62) (pair_ok 500 B) 0 N.sub) as (d & Ed). exists d. split; [exact Ed|].
  split; [exact (pair_ok 500 B)|]. split; [exact (pair_tets 500 B)|]. split; [exact (pair_solid 500 B)|]. split; [exact (pair_mid 500 B)|]. split; [exact (pair_sep 500 B d)|].
  unfold C67_mesh. cbn [sm_cells]. rewrite (pr_len 500 B C67_cells 2) by reflexivity. split; [vm_compute; discriminate|]. split; [vm_compute; reflexivity|]. exact (pair_f2f 500 B).
Qed.
