(** Cases in which the hypotheses of C74 hold. *)
From Coq Require Import Reals Lra Permutation String ZArith.
From Flocq Require Import Core IEEE754.BinarySingleNaN IEEE754.Binary IEEE754.Bits.
From Verif Require Import Prelude Bytes LayoutModel PsiFileModel PsiFileSpec DeckModel MeshModel MeshSpec MeshProofs PropertiesMesh CreateModel CreateSpec CreateProofs PropertiesCreate TychoModel TychoSpec GeometryModel GaussModel TransportModel SweepModel ViewModel ViewSpec PropertiesView BitsModel BitsSpec PropertiesBits
  ColumnsModel ColumnsSpec MetisModel MetisSpec DoubleModel DoubleSpec DoubleProofs PropertiesDouble RefineModel RefineSpec GeometrySpec RefinedSpec GridModel GridSpec PropertiesGrid MainModel MainSpec PropertiesMain PropertiesMainEx MainExact MainTransport PropertiesMainExact MainAllModel MainAllSpec PropertiesMainAll PropertiesMainAllEx CommandModel PropertiesCommand.

(** A sort that needs no more than a strict partial order. *)
Section Sort.
  Context {X : Type} (lt : X -> X -> bool) (IR : forall x, lt x x = false) (TR : forall x y z, lt x y = true -> lt y z = true -> lt x z = true).
  Fixpoint pick (x : X) (l : list X) : X * list X :=
    match l with
    | [] => (x, [])
    | y :: l => if lt y x then let (m, r) := pick y l in (m, x :: r) else let (m, r) := pick x l in (m, y :: r)
    end.
  Fixpoint select (n : nat) (l : list X) : list X :=
    match n, l with
    | S n, x :: l => let (m, r) := pick x l in m :: select n r
    | _, _ => []
    end.
  Definition selectionSort (l : list X) : list X := select (List.length l) l.
  Lemma pick_ok l : forall x, let (m, r) := pick x l in Permutation (x :: l) (m :: r) /\ (m = x \/ lt m x = true) /\ (forall y, In y r -> lt y m = false).
  Proof using IR TR.
    induction l as [|y l IH]; intros x; cbn [pick]. { split; [apply Permutation_refl|]. split; [now left|]. intros y []. }
    destruct (lt y x) eqn:E.
    - specialize (IH y). destruct (pick y l) as (m, r). destruct IH as (P & M & L).
      assert (MX : lt m x = true) by (destruct M as [->|M]; [exact E|eapply TR; eassumption]).
      split; [|split; [now right|]].
      + transitivity (x :: m :: r); [now apply perm_skip|apply perm_swap].
      + intros z [<-|H]; [|now apply L]. destruct (lt x m) eqn:C; auto. pose proof (TR _ _ _ C MX) as D. rewrite IR in D. discriminate.
    - specialize (IH x). destruct (pick x l) as (m, r). destruct IH as (P & M & L). split; [|split; [exact M|]].
      + transitivity (y :: x :: l); [apply perm_swap|]. transitivity (y :: m :: r); [now apply perm_skip|apply perm_swap].
      + intros z [<-|H]; [|now apply L]. destruct (lt y m) eqn:C; auto. destruct M as [->|M]; [congruence|]. pose proof (TR _ _ _ C M). congruence.
  Qed.
  Lemma select_ok n : forall l, List.length l = n -> Permutation l (select n l) /\ no_inversion lt (select n l).
  Proof using IR TR.
    induction n as [|n IH]; intros [|x l] L; try discriminate. { split; [apply perm_nil|]. intros [|i] j a b _ H _; discriminate. }
    cbn [select]. pose proof (pick_ok l x) as K. destruct (pick x l) as (m, r). destruct K as (P & _ & M).
    destruct (IH r) as (P' & O). { apply Permutation_length in P. cbn in P, L. lia. }
    split; [transitivity (m :: r); [exact P|now apply perm_skip]|].
    intros i j a b LT Ha Hb. destruct i as [|i].
    - cbn in Ha. apply Some_inj in Ha. subst a. destruct j as [|j]; [lia|]. cbn in Hb. apply nth_error_In in Hb. apply M. eapply Permutation_in; [symmetry; exact P'|exact Hb].
    - destruct j as [|j]; [lia|]. apply (O i j a b); auto. lia.
  Qed.
  Lemma selection_is_sort : is_sort lt selectionSort.
  Proof using IR TR. intros l. now apply select_ok. Qed.
End Sort.

(** [<] on doubles, with infinities and NaN. *)
Definition rung (x : binary64) : option (Z * R) := match x with B754_nan _ _ _ => None | B754_infinity s => Some (if s then -1 else 1, 0%R)%Z | _ => Some (0%Z, B2R 53 1024 x) end.
Definition below (a b : Z * R) : Prop := (fst a < fst b)%Z \/ fst a = fst b /\ (snd a < snd b)%R.
Lemma less_rung x y : less Dops x y = true <-> exists a b, rung x = Some a /\ rung y = Some b /\ below a b.
Proof.
  unfold less. destruct (is_finite 53 1024 x) eqn:FX; [destruct (is_finite 53 1024 y) eqn:FY|].
  - assert (RX : rung x = Some (0%Z, B2R 53 1024 x)) by (destruct x; try discriminate; reflexivity). assert (RY : rung y = Some (0%Z, B2R 53 1024 y)) by (destruct y; try discriminate; reflexivity).
    rewrite RX, RY. cbn [agt Dops]. unfold b64_compare. rewrite (Bcompare_correct 53 1024 y x FY FX). split.
    + intros H. eexists _, _. split; [reflexivity|]. split; [reflexivity|]. right. split; [reflexivity|]. cbn [snd]. destruct (Rcompare_spec (B2R 53 1024 y) (B2R 53 1024 x)); try discriminate. lra.
    + intros (a & b & E1 & E2 & B). apply Some_inj in E1, E2. subst a b. unfold below in B. cbn [fst snd] in B. destruct B as [B|(_ & B)]; [lia|]. rewrite Rcompare_Gt by lra. reflexivity.
  - destruct y as [s|s|s p e|s m e B]; try discriminate FY.
    + assert (RX : rung x = Some (0%Z, B2R 53 1024 x)) by (destruct x; try discriminate; reflexivity). rewrite RX. cbn [rung].
      assert (E : agt Dops (B754_infinity 53 1024 s) x = negb s) by (destruct x; try discriminate FX; destruct s; reflexivity). rewrite E. split.
      * intros H. eexists _, _. split; [reflexivity|]. split; [reflexivity|]. left. destruct s; [discriminate|]. cbn. lia.
      * intros (a & b & E1 & E2 & Q). apply Some_inj in E1, E2. subst a b. destruct s; [|reflexivity]. unfold below in Q. cbn [fst snd] in Q. lia.
    + split; [intros H; destruct x; discriminate H|]. intros (a & b & _ & E & _). discriminate E.
  - destruct x as [s|s|s p e|s m e B]; try discriminate FX.
    + destruct y as [s'|s'|s' p' e'|s' m' e' B'].
      * split; [intros H; eexists _, _; split; [reflexivity|]; split; [reflexivity|]; left; destruct s; [cbn; lia|destruct s'; discriminate H]|]. intros (a & b & E1 & E2 & Q). cbn [rung] in E1, E2. apply Some_inj in E1, E2. subst a b. unfold below in Q. cbn [fst] in Q. destruct s; [reflexivity|lia].
      * split; [intros H; eexists _, _; split; [reflexivity|]; split; [reflexivity|]; left; destruct s, s'; try discriminate H; cbn; lia|]. intros (a & b & E1 & E2 & Q). cbn [rung] in E1, E2. apply Some_inj in E1, E2. subst a b. unfold below in Q. cbn [fst snd] in Q. destruct s, s'; try reflexivity; exfalso; (destruct Q as [Q|(Q1 & Q2)]; [lia|]); try lia; lra.
      * split; [intros H; destruct s; discriminate H|]. intros (a & b & _ & E & _). discriminate E.
      * split; [intros H; eexists _, _; split; [reflexivity|]; split; [reflexivity|]; left; destruct s; [cbn; lia|destruct s'; discriminate H]|]. intros (a & b & E1 & E2 & Q). cbn [rung] in E1, E2. apply Some_inj in E1, E2. subst a b. unfold below in Q. cbn [fst] in Q. destruct s; [reflexivity|lia].
    + split; [intros H; destruct y; discriminate H|]. intros (a & b & E & _). discriminate E.
Qed.
Lemma less_irreflexive x : less Dops x x = false.
Proof. destruct (less Dops x x) eqn:E; auto. apply less_rung in E as (a & b & E1 & E2 & B). rewrite E1 in E2. apply Some_inj in E2. subst b. unfold below in B. destruct B as [B|(_ & B)]; [lia|lra]. Qed.
Lemma less_transitive x y z : less Dops x y = true -> less Dops y z = true -> less Dops x z = true.
Proof.
  intros H1 H2. apply less_rung in H1 as (a & b & E1 & E2 & B1). apply less_rung in H2 as (b' & c & E2' & E3 & B2). rewrite E2 in E2'. apply Some_inj in E2'. subst b'. apply less_rung. exists a, c. split; [exact E1|]. split; [exact E3|].
  unfold below in *. destruct B1 as [B1|(Q1 & B1)], B2 as [B2|(Q2 & B2)]; [left; lia|left; lia|left; lia|right; split; [lia|lra]].
Qed.
Definition C74_sortX := selectionSort (compareX (less Dops)).
Definition C74_sortY := selectionSort (compareY (less Dops)).
Lemma C74_sorts : is_sort (compareX (less Dops)) C74_sortX /\ is_sort (compareY (less Dops)) C74_sortY.
Proof. split; apply selection_is_sort; unfold compareX, compareY; intros; try apply less_irreflexive; eapply less_transitive; eassumption. Qed.
Definition C74_metis : Z -> list Z -> list Z -> Z -> bool * list Z := fun n _ _ np => (true, map (fun v => Z.of_nat v mod 2)%Z (seq 0 (Z.to_nat n))).
Definition C74_file (sm : smesh) : bytes := serial_file (sm_cells sm) (sm_faces sm) (sm_nodes sm).
Definition C74_files (sm : smesh) (deck : chars) : files := fun n =>
  if list_eq_dec N.eq_dec n (str "cube.smesh") then Some (C74_file sm) else if list_eq_dec N.eq_dec n (str "input.deck") then Some deck else None.
Lemma C74_read sm : serial_wf sm -> sm_name sm = magic32 "Tycho 2 Serial Mesh" -> sm_version sm = 2%N -> serialRead (C74_file sm) = Some sm.
Proof.
  intros W N V. destruct (C08_serial_roundtrip sm [] W) as (f & m' & WR & RD & -> & _ & E). rewrite app_nil_r in RD. unfold C74_file. rewrite RD. f_equal.
  unfold serialWrite in WR. destruct sm as [n v c1 c2 c3 C F D]. cbn [sm_numCells sm_numFaces sm_numNodes sm_cells sm_faces sm_nodes sm_name sm_version] in *.
  destruct (bufferLoop _ C _) as [x|]; [|discriminate]. cbn [obind] in WR. destruct (bufferLoop _ F _) as [y|]; [|discriminate]. cbn [obind] in WR. destruct (bufferLoop _ D _) as [z|]; [|discriminate]. cbn [obind] in WR.
  apply Some_inj in WR. apply (f_equal snd) in WR. cbn [snd] in WR. rewrite <- WR, N, V. reflexivity.
Qed.
Lemma C74_reads ty fname D (stod : chars -> option D) (d : Z -> D) : In ty C70_types -> (forall k n, In (k, n) [("0", 0); ("1", 1); ("5", 5); ("7", 7); ("10", 10)]%string%Z -> stod (str k) = Some (d n)) ->
  readInput stod fname (Some (C70_deck ty)) =
  Some (mkConfig 2 3 (d 0%Z) 10 1 2 2 (d 10%Z) (d 5%Z) (d 7%Z) (d 1%Z) true (str "out.psi") 50 (d 1%Z) true DeckModel.TychoTwoSided ty GE_CramerGlu).
Proof.
  intros IN H. pose proof (H "0"%string 0%Z ltac:(cbn; auto)) as H0. pose proof (H "1"%string 1%Z ltac:(cbn; auto)) as H1. pose proof (H "5"%string 5%Z ltac:(cbn; auto)) as H5.
  pose proof (H "7"%string 7%Z ltac:(cbn; auto)) as H7. pose proof (H "10"%string 10%Z ltac:(cbn; auto 6)) as H10. clear H. vm_compute in H0, H1, H5, H7, H10.
  destruct IN as [<-|[<-|[<-|[]]]]; vm_compute; rewrite ?H0; rewrite ?H10; rewrite ?H5; rewrite ?H7; rewrite ?H1; reflexivity.
Qed.
Lemma C74_header : sm_name C66_mesh = magic32 "Tycho 2 Serial Mesh" /\ sm_version C66_mesh = 2%N.
Proof. split; reflexivity. Qed.
Definition C74_tools : list (tool * nat) := [(ByColumns (str "1") (str "1"), 1); (ByColumns (str "2") (str "1"), 2); (ByColumns (str " 1") (str "+2"), 2); (ByMetis (str "2"), 2)].
Example C74_ex ty : In ty C70_types -> prepared Dops ddec C74_sortX C74_sortY 32 C74_metis C70_stod dltb C70_quadrature C70_tol (str "cube.smesh") (str "input.deck") (C74_files C66_mesh (C70_deck ty)) C66_mesh (C70_cfg ty) (mkAngles 1 C66_om (fun _ => aone Dops)) /\
  forall t np threads pr gsum prog1 prog2 pm rest, In (t, np) C74_tools -> 0 < threads -> pm <> str "input.deck" -> asks t np /\ mesh_small C66_mesh np /\
  exists iters fs', pipeline Dops ddec C74_sortX C74_sortY 32 C74_metis t (fun d deck mesh it out => mainRun Dops ddec C70_enc C70_stod dltb C70_quadrature (ddec 0x400921FB54442D18) C70_tol d deck mesh np threads pr gsum it out) prog1 prog2 (str "cube.smesh") pm (str "input.deck") rest (C74_files C66_mesh (C70_deck ty)) iters fs'.
Proof.
  intros ITY. destruct C66_ex as (FI & _ & BO & _).
  assert (PR : prepared Dops ddec C74_sortX C74_sortY 32 C74_metis C70_stod dltb C70_quadrature C70_tol (str "cube.smesh") (str "input.deck") (C74_files C66_mesh (C70_deck ty)) C66_mesh (C70_cfg ty) (mkAngles 1 C66_om (fun _ => aone Dops))).
  { constructor.
    - exists (C74_file C66_mesh). split; [reflexivity|]. apply C74_read; [exact (smo_wf _ (bo_mesh _ _ _ _ _ BO))|exact (proj1 C74_header)|exact (proj2 C74_header)].
    - exists (C70_deck ty). split; [reflexivity|].
      constructor; [apply (C74_reads ty _ _ C70_stod D_of_Z ITY); intros k n [E|[E|[E|[E|[E|[]]]]]]; inversion E; subst; reflexivity|reflexivity|exact BO|intros _; exact C70_beyond|cbn; lia|cbn; lia|reflexivity|vm_compute; reflexivity].
    - destruct C74_sorts as (SX & SY). split; [exact SX|]. split; [exact SY|]. split; [|split; [split; discriminate|reflexivity]].
      intros sm xadj adj np part _ NP E. injection E as <-. rewrite map_length, seq_length, Nat2Z.id. split; auto.
      apply Forall_forall. intros z Hz. apply in_map_iff in Hz as (v & <- & _). pose proof (Z.mod_pos_bound (Z.of_nat v) 2 ltac:(lia)). lia.
    - eexists. exact (C66_double_compares _ FI). }
  split; [exact PR|]. intros t np threads pr gsum prog1 prog2 pm rest IN TH NE.
  assert (AS : asks t np) by (destruct IN as [E|[E|[E|[E|[]]]]]; inversion E; subst; [exists 1, 1|exists 2, 1|exists 1, 2|]; repeat split; try reflexivity; lia).
  assert (SM : mesh_small C66_mesh np) by (destruct IN as [E|[E|[E|[E|[]]]]]; inversion E; subst; repeat split; vm_compute; reflexivity).
  assert (TM : two_materials C66_mesh).
  { intros g sc H. apply at_index in H as (i & -> & H & Hi). destruct i as [|[|i]]; [| |cbn in Hi; lia]; apply Some_inj in H; subst sc; auto. }
  split; [exact AS|]. split; [exact SM|].
  exact (C74_runs _ Dops ddec C70_enc C74_sortX C74_sortY 32%N C74_metis C70_stod dltb C70_quadrature (ddec 0x400921FB54442D18) C70_tol _ _ _ C66_mesh (C70_cfg ty) (mkAngles 1 C66_om (fun _ => aone Dops)) t np threads pr gsum prog1 prog2 pm rest PR AS SM TH NE (fun _ _ _ _ => eq_refl) TM C70_normals eq_refl (C70_ready ty ITY) (or_introl (C70_gauss ty))).
Qed.

(** Exact arithmetic: two decks that differ in the solver. *)
Definition C74_decks (sm : smesh) (a b : chars) : files := fun n =>
  if list_eq_dec N.eq_dec n (str "cube.smesh") then Some (C74_file sm) else if list_eq_dec N.eq_dec n (str "a.deck") then Some a else if list_eq_dec N.eq_dec n (str "b.deck") then Some b else None.
Definition C74_sortXR := selectionSort (compareX (less Rops)).
Definition C74_sortYR := selectionSort (compareY (less Rops)).
Lemma C74_sortsR : is_sort (compareX (less Rops)) C74_sortXR /\ is_sort (compareY (less Rops)) C74_sortYR.
Proof.
  assert (IR : forall x : R, less Rops x x = false). { intros x. unfold less. cbn [agt Rops]. destruct (Rgt_dec x x); auto. lra. }
  assert (TR : forall x y z : R, less Rops x y = true -> less Rops y z = true -> less Rops x z = true). { intros x y z. unfold less. cbn [agt Rops]. destruct (Rgt_dec y x), (Rgt_dec z y), (Rgt_dec z x); auto. lra. }
  split; apply selection_is_sort; unfold compareX, compareY; intros; auto; eapply TR; eassumption.
Qed.
Lemma C74_metis_ok : metis_ok C74_metis.
Proof.
  intros sm xadj adj np part _ NP E. injection E as <-. rewrite map_length, seq_length, Nat2Z.id. split; auto.
  apply Forall_forall. intros z Hz. apply in_map_iff in Hz as (v & <- & _). pose proof (Z.mod_pos_bound (Z.of_nat v) 2 ltac:(lia)). lia.
Qed.
Lemma C74_header12 : sm_name C12_mesh = magic32 "Tycho 2 Serial Mesh" /\ sm_version C12_mesh = 2%N.
Proof. split; reflexivity. Qed.
Lemma C74_exact_prepared a b name ty si : C74_decks C12_mesh a b name = Some (C72_deck ty si) ->
  prepared Rops C65_dec C74_sortXR C74_sortYR 32 C74_metis C72_stod C65_ltb C72_quadrature (/ 10 ^ 10)%R (str "cube.smesh") name (C74_decks C12_mesh a b) C12_mesh (C72_cfg ty si) C70R_q.
Proof.
  intros H. constructor.
  - exists (C74_file C12_mesh). split; [reflexivity|]. apply C74_read; [exact (smo_wf _ (pb_mesh _ _ _ _ _ C72_problem))|exact (proj1 C74_header12)|exact (proj2 C74_header12)].
  - exists (C72_deck ty si). split; [exact H|apply C72_setting].
  - destruct C74_sortsR as (SX & SY). split; [exact SX|]. split; [exact SY|]. split; [exact C74_metis_ok|]. split; [split; discriminate|reflexivity].
  - exists C65_dec. exact C72_compares.
Qed.
Example C74_solvers_ex ty1 ty2 : (ty1 <> PBJOuter /\ ty1 <> PBJSI) -> (ty2 <> PBJOuter /\ ty2 <> PBJSI) ->
  let fs := C74_decks C12_mesh (C72_deck ty1 false) (C72_deck ty2 false) in let cfg1 := C72_cfg ty1 false in let cfg2 := C72_cfg ty2 false in
  let is_prepared deckName cfg := prepared Rops C65_dec C74_sortXR C74_sortYR 32 C74_metis C72_stod C65_ltb C72_quadrature (/ 10 ^ 10)%R (str "cube.smesh") deckName fs C12_mesh cfg C70R_q in
  is_prepared (str "a.deck") cfg1 /\ is_prepared (str "b.deck") cfg2 /\ same_equations cfg1 cfg2 /\ direct (List.length (sm_cells C12_mesh)) cfg1 /\ direct (List.length (sm_cells C12_mesh)) cfg2 /\
  forall t threads prog1 prog2 pm, In t [ByMetis (str "2"); ByColumns (str "2") (str "1"); ByColumns (str "1") (str "2")] -> 0 < threads -> pm <> str "a.deck" -> pm <> str "b.deck" -> asks t 2 /\ mesh_small C12_mesh 2 /\ exists kspPhi kspVec kspBoth,
    (forall cfg g mesh, cfg = cfg1 \/ cfg = cfg2 -> partitions Rops C65_dec C74_sortXR C74_sortYR 32 C74_metis t prog1 (str "cube.smesh") pm fs g -> g pm = Some mesh -> solves_exactly C65_dec C65_ltb cfg C70R_q mesh 2 kspPhi kspVec kspBoth) /\
    forall enc pr gsum rest deckName, deckName = str "a.deck" \/ deckName = str "b.deck" -> exists its fs',
      pipeline Rops C65_dec C74_sortXR C74_sortYR 32 C74_metis t (fun d deck mesh it out => mainAll C65_dec enc C72_stod C65_ltb C72_quadrature PI (/ 10 ^ 10)%R kspPhi kspVec kspBoth d deck mesh 2 threads pr gsum it out) prog1 prog2 (str "cube.smesh") pm deckName rest fs its fs'.
Proof.
  intros (A1 & A2) (B1 & B2) fs cfg1 cfg2 is_prepared.
  assert (P1 : is_prepared (str "a.deck") cfg1) by (apply C74_exact_prepared; reflexivity). assert (P2 : is_prepared (str "b.deck") cfg2) by (apply C74_exact_prepared; reflexivity).
  assert (DI : forall ty, ty <> PBJOuter -> ty <> PBJSI -> direct 2 (C72_cfg ty false)).
  { intros ty N1 N2. assert (EX : exhaustive 2 (C72_cfg ty false)) by (split; [cbn; lra|reflexivity]). unfold direct, whole_sweeps. cbn [cSweep cUseSI C72_cfg]. destruct ty; auto; congruence. }
  split; [exact P1|]. split; [exact P2|]. split; [constructor; reflexivity|]. split; [exact (DI ty1 A1 A2)|]. split; [exact (DI ty2 B1 B2)|].
  intros t threads prog1 prog2 pm IN TH NA NB.
  assert (AS : asks t 2) by (destruct IN as [<-|[<-|[<-|[]]]]; [|exists 2, 1|exists 1, 2]; repeat split; try reflexivity; lia).
  pose proof (C72_small 2 ltac:(lia)) as SM. split; [exact AS|]. split; [exact SM|].
  pose proof (pb_mesh _ _ _ _ _ C72_problem) as OK. pose proof (pb_tets _ _ _ _ _ C72_problem) as TT.
  destruct P1 as [(file & F & RD) _ TO CMP].
  destruct (tool_runs Rops C65_dec C74_sortXR C74_sortYR 32 C74_metis C12_mesh OK TT TO C65_ltb CMP t prog1 (str "cube.smesh") pm fs file 2 F RD AS SM (fun _ _ _ _ => eq_refl)) as (fs1 & P).
  destruct (tool_launch Rops C65_dec C74_sortXR C74_sortYR 32 C74_metis C12_mesh OK TT TO C65_ltb CMP t prog1 (str "cube.smesh") pm fs file 2 fs1 F RD AS SM P) as (pv & mesh & E1 & LA). specialize (LA threads TH).
  destruct (C72_case _ _ _ LA) as (kspPhi & kspVec & kspBoth & H). exists kspPhi, kspVec, kspBoth. split.
  - intros cfg g mesh' HC PG GM. assert (g = fs1) by (destruct t; cbn [partitions] in P, PG; rewrite P in PG; now apply Some_inj in PG). subst g fs1. rewrite put_same in GM. apply Some_inj in GM. subst mesh'.
    destruct HC as [->| ->]; [exact (proj1 (proj2 (H [] ty1 false)))|exact (proj1 (proj2 (H [] ty2 false)))].
  - intros enc pr gsum rest deckName DN.
    assert (K : exists ty, fs deckName = Some (C72_deck ty false) /\ ty <> PBJOuter /\ ty <> PBJSI /\ pm <> deckName) by (destruct DN as [->| ->]; [exists ty1|exists ty2]; auto).
    destruct K as (ty & FD & N1 & N2 & NP). destruct (H deckName ty false) as (RU & SX & _ & D & _ & _ & R). destruct (R (or_intror eq_refl) enc pr gsum) as (its & f & M).
    destruct (C72_direct _ enc _ _ _ _ _ _ _ _ _ _ _ _ _ _ _ _ _ _ RU ltac:(lra) SX (DI ty N1 N2)) as (sol & _ & _ & FF). destruct (FF _ _ _ _ _ M) as (_ & _ & FB).
    eexists its, _, fs1. split; [exact P|]. exists (C72_deck ty false), mesh, (Some (str "out.psi", f)). subst fs1. split; [rewrite put_other by congruence; exact FD|]. split; [apply put_same|]. split; [exact M|]. eexists. split; [exact FB|reflexivity].
Qed.

(** Refinement, three times. *)
Lemma tables_solid a b dec : same_tables b a -> solid a dec -> solid b dec.
Proof.
  destruct a as [n1 v1 c1 f1 d1 C1 F1 D1], b as [n2 v2 c2 f2 d2 C2 F2 D2]. unfold same_tables. cbn [sm_numCells sm_numFaces sm_numNodes sm_cells sm_faces sm_nodes]. intros E. inversion E. subst.
  intros [A1 A2]. constructor; [exact A1|exact A2].
Qed.
Example C74_refined_ex : exists fs file sm, fs (str "cube.smesh") = Some file /\ serialRead file = Some sm /\ serial_mesh_ok sm /\ tets_ok sm /\ solid sm number /\ grid_mesh sm (2 ^ 32) 0 /\ face_to_face sm number /\
  let names := [str "fine.smesh"; str "finer.smesh"; str "finest.smesh"] in
  (2 ^ 32 * 2 ^ Z.of_nat (List.length names) <= 2 ^ 45)%Z /\ (1000 <= lenN (sm_cells sm))%N /\ (4 * 8 ^ N.of_nat (List.length names) * lenN (sm_cells sm) < 2 ^ 31)%N /\
  exists fs' file' rm, refineAll [] 0 (str "RefineSerialMesh.x") (str "cube.smesh") names fs = Some fs' /\ fs' (str "finest.smesh") = Some file' /\ serialRead file' = Some rm /\ lenN (sm_cells rm) = (512 * lenN (sm_cells sm))%N.
Proof.
  destruct C67_doubles_ex as (sm & OK & TT & SO & GR & B & L1 & L2 & FF). destruct (C08_serial_roundtrip sm [] (smo_wf _ OK)) as (f & m' & _ & RD & _ & _ & E). rewrite app_nil_r in RD.
  assert (ST : same_tables m' sm) by exact E. exists (fun n => if list_eq_dec N.eq_dec n (str "cube.smesh") then Some f else None), f, m'. split; [reflexivity|]. split; [exact RD|].
  destruct (tables_ok _ _ ST OK TT) as (OK' & TT'). pose proof (tables_solid _ _ _ ST SO) as SO'.
  assert (K : grid_mesh m' (2 ^ 32) 0 /\ face_to_face m' number /\ (1000 <= lenN (sm_cells m'))%N /\ (4 * 8 ^ N.of_nat 3 * lenN (sm_cells m') < 2 ^ 31)%N).
  { clear -ST GR FF L1 L2. destruct m' as [n1 v1 c1 f1 d1 C1 F1 D1], sm as [n2 v2 c2 f2 d2 C2 F2 D2]. unfold same_tables in ST. cbn [sm_numCells sm_numFaces sm_numNodes sm_cells sm_faces sm_nodes] in ST. inversion ST. subst. split; [exact GR|]. split; [exact FF|]. split; [exact L1|exact L2]. }
  destruct K as (GR' & FF' & L1' & L2'). split; [exact OK'|]. split; [exact TT'|]. split; [exact SO'|]. split; [exact GR'|]. split; [exact FF'|]. intros names. split; [exact B|]. split; [exact L1'|]. split; [exact L2'|].
  destruct (C74_refined [] 0 (str "RefineSerialMesh.x") (str "cube.smesh") names (fun n => if list_eq_dec N.eq_dec n (str "cube.smesh") then Some f else None) f m' (2 ^ 32) 0 eq_refl RD OK' TT' SO' GR' B ltac:(cbn; lia) L1' L2') as (fs' & file' & rm & R1 & R2 & R3 & R4 & _).
  exists fs', file', rm. split; [exact R1|]. split; [exact R2|]. split; [exact R3|exact R4].
Qed.
Print Assumptions C74_ex. Print Assumptions C74_solvers_ex. Print Assumptions C74_refined_ex.
