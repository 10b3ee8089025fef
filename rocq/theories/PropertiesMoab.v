(** C68, C69: the MOAB utilities. *)
From Coq Require Import Reals Permutation Sorted Lra String.
From Flocq Require Import Core IEEE754.BinarySingleNaN IEEE754.Binary IEEE754.Bits.
From Verif Require Import Prelude Bytes PsiFileModel DeckModel MeshModel MeshSpec MeshProofs CreateModel CreateSpec CreateProofs TychoModel TychoSpec GeometryModel RefineSpec RefinedSpec RefinedBdryProofs ViewSpec DoubleModel GridSpec MoabModel MoabSpec MoabProofs MoabGeoProofs MoabExportProofs PropertiesMesh PropertiesCreate PropertiesRefined PropertiesGrid.
Local Open Scope N_scope.

Lemma imported_same a b sm : mb_vert a = mb_vert b -> mb_tet a = mb_tet b -> imported a sm -> imported b sm.
Proof. destruct a as [va fa ta], b as [vb fb tb]. cbn. intros -> -> []. constructor; assumption. Qed.
Lemma import_all alloc {T} (A : arith T) bits name0 version0 c db : fresh alloc -> moab_ok db -> c = 1%Z \/ c = 2%Z ->
  exists file sm db', moabToSerialMesh alloc A bits name0 version0 c db = Some (Some file) /\ serialRead file = Some sm /\ closed db' /\
    mb_vert db' = mb_vert db /\ mb_tet db' = mb_tet db /\ (sm_numCells sm = lenN (mb_tet db') /\ sm_numFaces sm = lenN (mb_tri db') /\ sm_numNodes sm = lenN (mb_vert db')) /\
    Forall2 (cell_rel A bits db' (c =? 2)%Z) (toRange (map fst (mb_tet db'))) (sm_cells sm) /\
    Forall2 (face_rel db') (toRange (map fst (mb_tri db'))) (sm_faces sm) /\ Forall2 (node_rel db') (toRange (map fst (mb_vert db'))) (sm_nodes sm).
Proof.
  intros AL OK HC. destruct (create_closed alloc db AL OK) as (db' & E1 & C & V & TT & _).
  destruct (create_ok alloc A bits db' C (c =? 2)%Z name0 version0) as (m & E2 & NC & NF & NN & RC & RF & RN).
  pose proof (result_wf A bits db' C (c =? 2)%Z m NC NF NN RC RF RN) as WF. destruct (C08_serial_roundtrip m [] WF) as (file & m' & EW & ER & _ & _ & EQ).
  rewrite app_nil_r in ER. exists file, m', db'. injection EQ as Q1 Q2 Q3 Q4 Q5 Q6. rewrite Q1, Q2, Q3, Q4, Q5, Q6.
  split; [|auto 10]. unfold moabToSerialMesh. replace ((c =? 1)%Z || (c =? 2)%Z)%bool with true by (destruct HC; subst c; reflexivity). rewrite E1. cbn [obind]. rewrite E2. cbn [obind]. rewrite EW. reflexivity.
Qed.

(** Importing writes a file that the readers accept, of a valid mesh, which is the mesh in the database. *)
Theorem C68_import : forall alloc (T : Type) (A : arith T) bits name0 version0 c db, fresh alloc -> moab_ok db -> c = 1%Z \/ c = 2%Z ->
  exists file sm, moabToSerialMesh alloc A bits name0 version0 c db = Some (Some file) /\ serialRead file = Some sm /\
    serial_mesh_ok sm /\ tets_ok sm /\ imported db sm.
Proof.
  intros alloc T A bits name0 version0 c db AL OK HC. destruct (import_all alloc A bits name0 version0 c db AL OK HC) as (file & sm & db' & E & ER & C & V & TT & (NC & NF & NN) & RC & RF & RN).
  exists file, sm. split; auto. split; auto. split; [eapply result_ok; eauto|]. split; [eapply result_tets; eauto|].
  apply (imported_same db' db); auto. eapply result_imported; eauto.
Qed.
Print Assumptions C68_import.

(** Any other menu choice processes nothing. *)
Theorem C68_no_choice : forall alloc (T : Type) (A : arith T) bits name0 version0 c db, c <> 1%Z -> c <> 2%Z ->
  moabToSerialMesh alloc A bits name0 version0 c db = Some None.
Proof. intros. unfold moabToSerialMesh. destruct (Z.eqb_spec c 1), (Z.eqb_spec c 2); try contradiction. reflexivity. Qed.
Print Assumptions C68_no_choice.

(** With exact arithmetic, and in double precision when the coordinates are on a dyadic grid, material 2
    is exactly the cells of the nested problem with their centroid in the inner box. *)
Theorem C68_materials_exact : forall alloc dec name0 version0 c db file sm, fresh alloc -> moab_ok db -> c = 1%Z \/ c = 2%Z ->
  moabToSerialMesh alloc Rops dec name0 version0 c db = Some (Some file) -> serialRead file = Some sm -> materials_ok db dec (c =? 2)%Z sm.
Proof.
  intros alloc dec name0 version0 c db file sm AL OK HC E ER. destruct (import_all alloc Rops dec name0 version0 c db AL OK HC) as (file' & sm' & db' & E' & ER' & C & V & TT & _ & RC & _ & _).
  rewrite E in E'. apply Some_inj in E'. apply Some_inj in E'. subst file'. rewrite ER in ER'. apply Some_inj in ER'. subst sm'.
  pose proof (result_materials Rops dec dec db' _ sm C RC (fun k _ => good_mean_R dec _)) as M. clear - M V TT. destruct db as [v f t], db' as [v' f' t']. cbn in V, TT. subst. exact M.
Qed.
Print Assumptions C68_materials_exact.
Theorem C68_materials_doubles : forall alloc name0 version0 c db e file sm, fresh alloc -> moab_ok db -> c = 1%Z \/ c = 2%Z ->
  m_grid db e -> (-1072 <= e <= 960)%Z ->
  moabToSerialMesh alloc Dops ddec name0 version0 c db = Some (Some file) -> serialRead file = Some sm -> materials_ok db number (c =? 2)%Z sm.
Proof.
  intros alloc name0 version0 c db e file sm AL OK HC G EB E ER. destruct (import_all alloc Dops ddec name0 version0 c db AL OK HC) as (file' & sm' & db' & E' & ER' & C & V & TT & _ & RC & _ & _).
  rewrite E in E'. apply Some_inj in E'. apply Some_inj in E'. subst file'. rewrite ER in ER'. apply Some_inj in ER'. subst sm'.
  assert (M : materials_ok db' number (c =? 2)%Z sm).
  { apply (result_materials Dops ddec number db' _ sm C RC). intros k Hk. apply (good_mean_D e EB). intros x Hx. apply in_map_iff in Hx. destruct Hx as ((h & p) & <- & Hp). rewrite V in Hp. cbn [snd].
    apply (G h p); auto. cbn [In] in Hk. destruct p as [xx yy zz], Hk as [<-|[<-|[<-|[]]]]; cbn; auto. }
  clear - M V TT. destruct db as [v f t], db' as [v' f' t']. cbn in V, TT. subst. exact M.
Qed.
Print Assumptions C68_materials_doubles.

(** The solid is the same set of points, with the same boundary, and valid if it was. *)
Theorem C68_same_solid : forall alloc (T : Type) (A : arith T) bits name0 version0 c db dec file sm, fresh alloc -> moab_ok db -> c = 1%Z \/ c = 2%Z ->
  moabToSerialMesh alloc A bits name0 version0 c db = Some (Some file) -> serialRead file = Some sm ->
  (forall x, in_mesh sm dec x <-> exists h t P, In (h, t) (mb_tet db) /\ m_corners db t P /\ inside (points dec P) x) /\
  (forall x, on_surface sm dec x <-> exists F, m_boundary db dec F /\ on_triangle F x) /\
  (m_solid db dec -> solid sm dec).
Proof.
  intros alloc T A bits name0 version0 c db dec file sm AL OK HC E ER. destruct (import_all alloc A bits name0 version0 c db AL OK HC) as (file' & sm' & db' & E' & ER' & C & V & TT & _ & RC & RF & RN).
  rewrite E in E'. apply Some_inj in E'. apply Some_inj in E'. subst file'. rewrite ER in ER'. apply Some_inj in ER'. subst sm'.
  pose proof (geo_in_mesh A bits dec db' C _ sm RC RN) as G1. pose proof (geo_solid A bits dec db' C _ sm RC RN) as G2.
  pose proof (geo_boundary dec db' C sm RF RN) as G3. pose proof (geo_boundary_inv dec db' C sm RF RN) as G4.
  clear - V TT G1 G2 G3 G4. destruct db as [v f t], db' as [v' f' t']. cbn in V, TT. subst. split; [exact G1|]. split; [|exact G2].
  intros x. split; intros (F & BF & OT).
  - destruct (G3 F BF) as (F' & S & B). exists F'. split; [exact B|]. eapply otri_perm; eauto.
  - destruct (G4 F BF) as (F' & S & B). exists F'. split; [exact B|]. eapply otri_perm; eauto.
Qed.
Print Assumptions C68_same_solid.

(** A database with a triangle that is a side of no tetrahedron, or of three, stops the program. *)
Theorem C68_stray_triangle : forall alloc (T : Type) (A : arith T) bits name0 version0 c db h s, fresh alloc -> NoDup (map fst (mb_tri db)) ->
  In (h, s) (mb_tri db) ->
  (forall h' t, In (h', t) (mb_tet db) -> ~ tet_has t s) \/
  (exists a ta b tb d td, In (a, ta) (mb_tet db) /\ In (b, tb) (mb_tet db) /\ In (d, td) (mb_tet db) /\ tet_has ta s /\ tet_has tb s /\ tet_has td s /\ a <> b /\ a <> d /\ b <> d) ->
  c = 1%Z \/ c = 2%Z -> moabToSerialMesh alloc A bits name0 version0 c db = None.
Proof. intros alloc T A bits name0 version0 c db h s AL. apply stray; exact AL. Qed.
Print Assumptions C68_stray_triangle.

(** ---- C69 ---- *)
(** Exporting a serial mesh: the mesh set holds one tetrahedron for each cell, in order, with its corners in order. *)
Theorem C69_serial : forall alloc sm, fresh alloc -> serial_mesh_ok sm ->
  exists db hs, serialToMoab alloc sm = Some (db, hs) /\ handles_ok db /\ map fst (mb_tet db) = hs /\ mb_tri db = [] /\ exported (sm_corners sm) (sm_cells sm) db hs.
Proof. intros alloc sm AL OK. destruct (serial_export alloc AL sm OK) as (db & hs & E & (H & TR & _) & TT & F). exists db, hs. auto. Qed.
Print Assumptions C69_serial.

(** Exporting a parallel mesh: one file for each partition, with a different name, not the name of the
    input, holding one tetrahedron for each cell of that partition, and an index of all files. *)
Theorem C69_parallel : forall alloc prefix m, fresh alloc -> parts_ok m ->
  exists db files d, parallelToMoab alloc (prefix ++ str ".pmesh") m = Some (db, files, (prefix ++ str ".visit",
      str "!NBLOCKS " ++ d ++ [10] ++ flat_map (fun f => f ++ [10]) (map fst files))) /\
    is_decimal d (lenN (pm_parts m)) /\ handles_ok db /\ NoDup (map fst files) /\ ~ In (prefix ++ str ".pmesh") (map fst files) /\
    map fst (mb_tet db) = concat (map snd files) /\ List.length files = List.length (pm_parts m) /\
    forall k pt f hs, nth_error (pm_parts m) k = Some pt -> nth_error files k = Some (f, hs) ->
      exported (pt_corners pt) (pt_cells pt) db hs /\ exists d, is_decimal d (N.of_nat k) /\ f = prefix ++ str "-" ++ d ++ str "p.vtk".
Proof.
  intros alloc prefix m AL OK. destruct (parallel_export alloc AL m (prefix ++ str ".pmesh") prefix OK) as (db & files & E & (H & _) & TT & F); [now apply stripSuffix_iff|].
  assert (LF : List.length files = List.length (pm_parts m)) by (apply f2_length in F; rewrite map_length, seq_length in F; auto).
  exists db, files, (toString (lenN (pm_parts m))). split; [rewrite E; unfold visitFile, lenN; rewrite map_length, LF; reflexivity|]. split; [apply toString_decimal|]. split; [exact H|].
  assert (NM : map fst files = map (partFile prefix) (map N.of_nat (seq 0 (List.length (pm_parts m))))) by (clear - F; induction F as [|k f l fs (Hf & _) F IH]; cbn; congruence).
  split; [|split; [|split; [exact TT|split; [exact LF|]]]].
  - rewrite NM. apply FinFun.Injective_map_NoDup; [exact (partFile_inj prefix)|]. apply FinFun.Injective_map_NoDup; [exact Nat2N.inj|apply seq_NoDup].
  - rewrite NM. intros Hin. apply in_map_iff in Hin. destruct Hin as (k & Hk & _). exact (partFile_other _ _ _ Hk).
  - intros k pt f hs Hk Hf. assert (K : (k < List.length (pm_parts m))%nat) by (apply nth_error_Some; congruence).
    assert (G : nth_error (map N.of_nat (seq 0 (List.length (pm_parts m)))) k = Some (N.of_nat k)) by (rewrite nth_error_map, nth_error_seq0 by exact K; reflexivity).
    destruct (f2_nth _ _ _ F k _ _ G Hf) as (Ef & pt' & Hpt & EX). cbn [fst snd] in *. unfold PM_part in Hpt. rewrite Nat2N.id, Hk in Hpt. apply Some_inj in Hpt. subst pt'.
    split; [exact EX|]. exists (toString (N.of_nat k)). split; [apply toString_decimal|exact Ef].
Qed.
Print Assumptions C69_parallel.

(** For a mesh partitioned by the partitioning utility, in terms of the serial mesh: the file of a
    partition holds exactly the cells given to that partition, with their corners. *)
Theorem C69_partitioned : forall alloc prefix sm pv np m, fresh alloc -> serial_mesh_ok sm -> partition_vector_ok sm pv np ->
  createFromSerialMesh sm pv np = Some m ->
  exists db files visit, parallelToMoab alloc (prefix ++ str ".pmesh") m = Some (db, files, visit) /\ List.length files = np /\
    forall k f hs, nth_error files k = Some (f, hs) -> exists gs, StronglySorted N.lt gs /\ (forall g, In g gs <-> owner pv g = Some (N.of_nat k)) /\
      exported (fun g P => exists sc, SM_cell sm g = Some sc /\ sm_corners sm sc P) gs db hs.
Proof.
  intros alloc prefix sm pv np m AL OK PV CR. destruct (C11_partition_total sm pv np OK PV) as (m' & CR' & NP & LP & _ & PT & PC). rewrite CR in CR'. apply Some_inj in CR'. subst m'.
  assert (PK : parts_ok m).
  { split; [unfold lenN; congruence|]. intros pt Hpt. apply In_nth_error in Hpt. destruct Hpt as (i & Hi). assert (HP : PM_part m (N.of_nat i) = Some pt) by (unfold PM_part; now rewrite Nat2N.id).
    destruct (PT _ _ HP) as (_ & E). split; [congruence|]. intros pc n Hpc Hn. destruct (PC _ _ pc HP Hpc) as (_ & sc & _ & _ & EG & _).
    assert (HG : In (nodeGid pt n) (map Some (q4l (sc_nodes sc)))) by (rewrite <- EG; now apply in_map). apply in_map_iff in HG. destruct HG as (g & Hg & _). unfold nodeGid in Hg. destruct (P_node pt n) as [pn|]; [now exists pn|discriminate]. }
  destruct (C69_parallel alloc prefix m AL PK) as (db & files & d & E & _ & _ & _ & _ & _ & LF & K). eexists db, files, _. split; [exact E|]. split; [congruence|].
  intros k f hs Hf. destruct (nth_error (pm_parts m) k) as [pt|] eqn:Ek; [|apply nth_error_None in Ek; assert (k < List.length files)%nat by (apply nth_error_Some; congruence); lia].
  assert (HP : PM_part m (N.of_nat k) = Some pt) by (unfold PM_part; now rewrite Nat2N.id). destruct (K k pt f hs Ek Hf) as (EX & _).
  exists (cellGids pt). destruct (cells_of sm pv np m OK PV CR (N.of_nat k) pt HP) as (S & IN). split; [exact S|].
  split; [intros g; rewrite IN; split; [intros (_ & H); exact H|]; intros H; split; [|exact H]; destruct PV as (PL & _); unfold owner in H; unfold SM_cell; destruct (nth_error (sm_cells sm) (N.to_nat g)) as [sc|] eqn:Eg; [now exists sc|apply nth_error_None in Eg; assert (N.to_nat g < List.length pv)%nat by (apply nth_error_Some; congruence); lia]|].
  assert (G : forall pc P, In pc (pt_cells pt) -> pt_corners pt pc P -> exists sc, SM_cell sm (pc_gid pc) = Some sc /\ sm_corners sm sc P).
  { intros pc P Hpc CP. destruct (PC _ _ pc HP Hpc) as (_ & sc & Hsc & _ & _ & EC). exists sc. split; [exact Hsc|]. unfold sm_corners, pt_corners in *.
    destruct (pc_nodes pc) as [a0 a1 a2 a3], (sc_nodes sc) as [b0 b1 b2 b3], P as [q0 q1 q2 q3]. unfold q4l in *. cbn [r0 r1 r2 r3 map] in *. injection EC as E0 E1 E2 E3.
    inversion CP as [|? ? ? ? C0 CP1]; subst. inversion CP1 as [|? ? ? ? C1 CP2]; subst. inversion CP2 as [|? ? ? ? C2 CP3]; subst. inversion CP3 as [|? ? ? ? C3 _]; subst.
    assert (Z : forall o p, option_map sn_coords o = Some p -> o = Some (mkSnode p)) by (intros [[x]|] p H; cbn in H; [apply Some_inj in H; now subst|discriminate]).
    do 4 (constructor; [apply Z; congruence|]). constructor. }
  clear - EX G. unfold exported, cellGids in *. revert G. induction EX as [|pc h l hs' (t & P & Ht & M & CP) F IH]; intros G; cbn [map]; constructor.
  - exists t, P. split; auto. split; auto. apply G; auto. now left.
  - apply IH. intros pc' P' Hin. apply G. now right.
Qed.
Print Assumptions C69_partitioned.

(** The names: an input name without the right ending is refused, before anything is written. *)
Theorem C69_names : forall name,
  (forall p, getOutputFile name = Some p <-> exists base, name = base ++ str ".smesh" /\ p = base ++ str ".vtk") /\
  (forall alloc m, (forall base, name <> base ++ str ".pmesh") -> parallelToMoab alloc name m = None).
Proof.
  intros name. split.
  - intros p. unfold getOutputFile. destruct (stripSuffix (str ".smesh") name) as [q|] eqn:E; cbn [option_map].
    + pose proof E as E'. apply stripSuffix_iff in E; [|reflexivity]. split; [intros H; apply Some_inj in H; subst p; exists q; auto|]. intros (b & E2 & ->). apply (stripSuffix_iff (str ".smesh") name b) in E2; [|reflexivity]. rewrite E' in E2. apply Some_inj in E2. now subst.
    + split; [discriminate|]. intros (b & E2 & _). apply (stripSuffix_iff (str ".smesh") name b) in E2; [|reflexivity]. congruence.
  - intros alloc m H. unfold parallelToMoab, getFilePrefix. destruct (stripSuffix (str ".pmesh") name) as [q|] eqn:E; [|reflexivity]. apply stripSuffix_iff in E; [|reflexivity]. exfalso. exact (H q E).
Qed.
Print Assumptions C69_names.

(** Export gives each cell its own four vertices, so a mesh exported and imported again has no two cells
    with a common face or node: every face of it is a boundary face. *)
Theorem C69_reimport_disconnected : forall alloc (T : Type) (A : arith T) bits name0 version0 c sm, fresh alloc -> serial_mesh_ok sm -> 4 * lenN (sm_cells sm) < 2^31 ->
  c = 1%Z \/ c = 2%Z -> exists db hs file rm, serialToMoab alloc sm = Some (db, hs) /\ moabToSerialMesh alloc A bits name0 version0 c db = Some (Some file) /\ serialRead file = Some rm /\
    serial_mesh_ok rm /\ lenN (sm_cells rm) = lenN (sm_cells sm) /\ lenN (sm_nodes rm) = 4 * lenN (sm_cells sm) /\
    forall f sf, SM_face rm f = Some sf -> p0 (sf_cells sf) <> INVALID /\ p1 (sf_cells sf) = INVALID.
Proof.
  intros alloc T A bits name0 version0 c sm AL OK SMALL HC. destruct (serial_export alloc AL sm OK) as (db & hs & E & TI & TT & EX).
  pose proof (back_ok sm OK db hs TI TT EX SMALL) as MO. pose proof (back_count sm db hs TT EX) as CNT.
  destruct (C68_import alloc T A bits name0 version0 c db AL MO HC) as (file & rm & E1 & E2 & OKR & TR & IM).
  exists db, hs, file, rm. split; auto. split; auto. split; auto. split; auto. destruct (im_counts _ _ IM) as (I1 & I2). split; [congruence|].
  split; [rewrite I2; destruct TI as (_ & _ & _ & _ & L & _); unfold lenN in *; lia|]. intros f sf Hf. split; [destruct (im_face _ _ IM f sf Hf) as (h & t & s & _ & _ & _ & NI & _); exact NI|].
  apply (back_boundary db TI rm f sf IM Hf). destruct (to_face rm TR f sf Hf) as (_ & N1). exact N1.
Qed.
Print Assumptions C69_reimport_disconnected.


(** ---- examples ---- *)
Definition C69_alloc (l : list N) : N := 1 + fold_right N.max 0 l.
Lemma C69_fresh : fresh C69_alloc.
Proof.
  intros l. unfold C69_alloc. assert (G : forall x, In x l -> x <= fold_right N.max 0 l) by (induction l as [|a l IH]; intros x []; cbn [fold_right]; [subst; lia|specialize (IH x H); lia]).
  intros H. specialize (G _ H). lia.
Qed.
(** In particular the round trip does not preserve the mesh: the face between two cells is lost. *)
Theorem C69_roundtrip_refuted : ~ (forall alloc sm db hs file rm, fresh alloc -> serial_mesh_ok sm -> tets_ok sm -> 4 * lenN (sm_cells sm) < 2^31 ->
  serialToMoab alloc sm = Some (db, hs) -> moabToSerialMesh alloc Dops ddec [] 0 1 db = Some (Some file) -> serialRead file = Some rm ->
  (exists f sf, SM_face sm f = Some sf /\ p0 (sf_cells sf) <> INVALID /\ p1 (sf_cells sf) <> INVALID) ->
  exists f sf, SM_face rm f = Some sf /\ p0 (sf_cells sf) <> INVALID /\ p1 (sf_cells sf) <> INVALID).
Proof.
  intros H. assert (B : N.of_nat 1 <= 2 ^ 20) by (vm_compute; discriminate).
  assert (S : 4 * lenN (sm_cells (C67_mesh 1)) < 2 ^ 31) by (vm_compute; reflexivity).
  destruct (C69_reimport_disconnected C69_alloc _ Dops ddec [] 0 1%Z (C67_mesh 1) C69_fresh (pair_ok 1 B) S (or_introl eq_refl)) as (db & hs & file & rm & E1 & E2 & E3 & _ & _ & _ & BD).
  destruct (H C69_alloc (C67_mesh 1) db hs file rm C69_fresh (pair_ok 1 B) (pair_tets 1 B) S E1 E2 E3) as (f & sf & Hf & _ & NI).
  - exists 0. eexists. split; [reflexivity|]. split; cbn; discriminate.
  - apply NI. apply (BD f sf Hf).
Qed.
Print Assumptions C69_roundtrip_refuted.
Example C69_ex : serial_mesh_ok (C67_mesh 3) /\ lenN (sm_cells (C67_mesh 3)) = 6 /\ 4 * lenN (sm_cells (C67_mesh 3)) < 2 ^ 31 /\
  partition_vector_ok (C67_mesh 3) [2; 0; 1; 1; 0; 2] 3.
Proof.
  split; [apply pair_ok; vm_compute; discriminate|]. split; [reflexivity|]. split; [vm_compute; reflexivity|].
  split; [reflexivity|]. split; [repeat (apply Forall_cons; [vm_compute; reflexivity|]); constructor|vm_compute; reflexivity].
Qed.
Example C69_name_ex : getOutputFile (str "cube.smesh") = Some (str "cube.vtk") /\ getOutputFile (str "cube.mesh") = None /\ partFile (str "cube") 12 = str "cube-12p.vtk".
Proof. vm_compute. auto. Qed.

(** Two tetrahedra with a common side, which is there already as a triangle; handles not in order. *)
Definition C68_pt (x y z : N) : q3 N := Q3 (C67_enc x) (C67_enc y) (C67_enc z).
Definition C68_db : mdb := mkMdb
  [(15, C68_pt 100 100 100); (11, C68_pt 100 0 0); (12, C68_pt 0 100 0); (13, C68_pt 0 0 100); (10, C68_pt 0 0 0)]
  [(30, Q3 12 11 13)] [(21, Q4 13 15 11 12); (20, Q4 10 11 12 13)].
Definition C68_P (h : N) : q4 (q3 N) := if h =? 20 then Q4 (C68_pt 0 0 0) (C68_pt 100 0 0) (C68_pt 0 100 0) (C68_pt 0 0 100)
  else Q4 (C68_pt 0 0 100) (C68_pt 100 100 100) (C68_pt 100 0 0) (C68_pt 0 100 0).
Ltac nodupN := repeat (constructor; [cbn; intuition discriminate|]); constructor.
Lemma C68_nd : NoDup (map fst (mb_vert C68_db)). Proof. cbn. nodupN. Qed.
Lemma C68_corners h t P : In (h, t) (mb_tet C68_db) -> m_corners C68_db t P -> P = C68_P h.
Proof.
  intros H. pose proof C68_nd as ND. destruct P as [p0 p1 p2 p3]. destruct H as [H|[H|[]]]; injection H as <- <-; unfold m_corners, q4l; cbn [r0 r1 r2 r3]; intros M;
  inversion M as [|? ? ? ? C0 M1]; subst; inversion M1 as [|? ? ? ? C1 M2]; subst; inversion M2 as [|? ? ? ? C2 M3]; subst; inversion M3 as [|? ? ? ? C3 _]; subst;
  unfold C68_P; cbn [N.eqb Pos.eqb]; f_equal; (eapply key_inj; [exact ND|eassumption|cbn [C68_db mb_vert In]; auto 10]).
Qed.
Lemma C68_num : number (C67_enc 0) = 0%R /\ number (C67_enc 100) = 100%R.
Proof. split; apply enc_ok; vm_compute; reflexivity. Qed.
Example C68_ex : moab_ok C68_db /\ m_grid C68_db 0 /\ m_solid C68_db number /\ in_box number (C68_P 21) /\ ~ in_box number (C68_P 20).
Proof.
  split; [|split; [|split; [|split]]].
  - constructor.
    + apply C68_nd.
    + cbn. nodupN.
    + cbn. nodupN.
    + intros h p x H. cbn [C68_db mb_vert In] in H.
      assert (G : forall a b c, In x (q3l (C68_pt a b c)) -> u64 x) by (intros a b c [<-|[<-|[<-|[]]]]; apply enc_bits).
      destruct H as [H|[H|[H|[H|[H|[]]]]]]; injection H as _ <-; apply G.
    + intros h t [H|[H|[]]]; injection H as <- <-; (split; [unfold q4l; cbn [r0 r1 r2 r3]; nodupN|]); intros v Hv; unfold q4l in Hv; cbn [r0 r1 r2 r3 In] in Hv; cbn [C68_db mb_vert In];
      destruct Hv as [<-|[<-|[<-|[<-|[]]]]]; eexists; auto 10.
    + intros h s [H|[]]. injection H as <- <-. split; [unfold q3l; cbn [t0 t1 t2]; nodupN|]. exists 20, (Q4 10 11 12 13). split; [cbn; auto|]. intros v Hv. cbn in *. intuition.
    + intros h s h' s' [H|[]] [H'|[]]. congruence.
    + intros s h1 t1 h2 t2 h3 t3 _ H1 H2 H3 _ _ _. cbn in H1, H2, H3. destruct H1 as [H1|[H1|[]]], H2 as [H2|[H2|[]]], H3 as [H3|[H3|[]]]; injection H1 as <- _; injection H2 as <- _; injection H3 as <- _; auto.
    + vm_compute. auto.
  - intros h p x H. cbn [C68_db mb_vert In] in H.
    assert (G : forall a b c, a <= 100 -> b <= 100 -> c <= 100 -> In x (q3l (C68_pt a b c)) -> is_finite 53 1024 (ddec x) = true /\ exists m : Z, (Z.abs m <= 2 ^ 50)%Z /\ number x = (IZR m * bpow radix2 0)%R).
    { intros a b c La Lb Lc Hx. assert (K : exists d, d <= 100 /\ x = C67_enc d) by (destruct Hx as [<-|[<-|[<-|[]]]]; [exists a|exists b|exists c]; auto). destruct K as (d & Ld & ->).
      assert (L' : d < 2 ^ 53) by (change (2 ^ 53) with 9007199254740992; lia). destruct (enc_ok d L') as (F & V). split; [exact F|]. exists (Z.of_N d). split; [change (2 ^ 50)%Z with 1125899906842624%Z; lia|]. rewrite V. change (bpow radix2 0) with 1%R. unfold C67_dec. lra. }
    destruct H as [H|[H|[H|[H|[H|[]]]]]]; injection H as _ <-; apply G; lia.
  - destruct C68_num as (N0 & N1). split.
    + intros h t P H M. rewrite (C68_corners h t P H M). destruct H as [H|[H|[]]]; injection H as <- <-; unfold C68_P; cbn [N.eqb Pos.eqb]; unfold points, C68_pt; cbn [r0 r1 r2 r3 t0 t1 t2 vol6]; rewrite N0, N1; lra.
    + assert (A : forall x, strictly_inside (points number (C68_P 20)) x -> (t0 x + t1 x + t2 x < 100)%R).
      { intros x (a & b & c & d & B & ->). unfold C68_P. cbn [N.eqb Pos.eqb]. unfold points, C68_pt, bary. cbn [r0 r1 r2 r3 t0 t1 t2]. rewrite N0, N1. lra. }
      assert (B : forall x, strictly_inside (points number (C68_P 21)) x -> (100 < t0 x + t1 x + t2 x)%R).
      { intros x (a & b & c & d & B & ->). unfold C68_P. cbn [N.eqb Pos.eqb]. unfold points, C68_pt, bary. cbn [r0 r1 r2 r3 t0 t1 t2]. rewrite N0, N1. lra. }
      intros h t P h' t' P' x H M H' M' NE I1 I2. rewrite (C68_corners h t P H M) in I1. rewrite (C68_corners h' t' P' H' M') in I2.
      destruct H as [H|[H|[]]], H' as [H'|[H'|[]]]; injection H as <- _; injection H' as <- _; try (apply NE; reflexivity); [pose proof (A x I2); pose proof (B x I1); lra|pose proof (A x I1); pose proof (B x I2); lra].
  - destruct C68_num as (N0 & N1). intros k [<-|[<-|[<-|[]]]]; unfold mean, C68_P; cbn [N.eqb Pos.eqb]; unfold C68_pt; cbn [r0 r1 r2 r3 t0 t1 t2]; rewrite N0, N1; lra.
  - destruct C68_num as (N0 & N1). intros I. specialize (I t0 (or_introl eq_refl)). unfold mean, C68_P in I. cbn [N.eqb Pos.eqb] in I. unfold C68_pt in I. cbn [r0 r1 r2 r3 t0 t1 t2] in I. rewrite N0, N1 in I. lra.
Qed.

(** Without the grid the claim is false: a sum of coordinates just above 100 is rounded to 100, the
    computed centroid is on the box although the exact one is inside, and the cell gets the other material. *)
Definition C68_x : N := C67_enc 50 + 1.
Definition C68_bad : mdb := mkMdb [(1, Q3 (C67_enc 0) (C67_enc 40) (C67_enc 40)); (2, Q3 (C67_enc 0) (C67_enc 60) (C67_enc 40));
  (3, Q3 (C67_enc 50) (C67_enc 50) (C67_enc 60)); (4, Q3 C68_x (C67_enc 50) (C67_enc 40))] [] [(1, Q4 1 2 3 4)].
Lemma C68_bad_run : match moabToSerialMesh C69_alloc Dops ddec [] 0 2 C68_bad with
  | Some (Some f) => option_map (fun sm => map sc_mat (sm_cells sm)) (serialRead f) | _ => None end = Some [1].
Proof. vm_compute. reflexivity. Qed.
Lemma C68_x_val : number C68_x = (50 + / 140737488355328)%R /\ is_finite 53 1024 (ddec C68_x) = true.
Proof. split; [unfold number; vm_compute; lra|vm_compute; reflexivity]. Qed.
Lemma C68_bad_ok : moab_ok C68_bad.
Proof.
  constructor.
  + cbn. nodupN.
  + constructor.
  + cbn. nodupN.
  + intros h p x H Hx. assert (G : forallb (fun e => forallb (fun x => x <? two64) (q3l (snd e))) (mb_vert C68_bad) = true) by (vm_compute; reflexivity).
    rewrite forallb_forall in G. specialize (G _ H). rewrite forallb_forall in G. specialize (G _ Hx). apply N.ltb_lt in G. exact G.
  + intros h t [H|[]]; injection H as <- <-. split; [unfold q4l; cbn [r0 r1 r2 r3]; nodupN|]; intros v Hv; unfold q4l in Hv; cbn [r0 r1 r2 r3 In] in Hv; cbn [C68_bad mb_vert In];
    destruct Hv as [<-|[<-|[<-|[<-|[]]]]]; eexists; auto 10.
  + intros h s [].
  + intros h s h' s' [].
  + intros s h1 t1 h2 t2 h3 t3 _ [H1|[]] [H2|[]] _ _ _ _. left. congruence.
  + vm_compute. auto.
Qed.
Theorem C68_materials_doubles_refuted : ~ (forall alloc name0 version0 c db file sm, fresh alloc -> moab_ok db -> c = 1%Z \/ c = 2%Z ->
  (forall h p x, In (h, p) (mb_vert db) -> In x (q3l p) -> is_finite 53 1024 (ddec x) = true) -> m_solid db number ->
  moabToSerialMesh alloc Dops ddec name0 version0 c db = Some (Some file) -> serialRead file = Some sm -> materials_ok db number (c =? 2)%Z sm).
Proof.
  intros H. pose proof C68_bad_run as R. destruct (moabToSerialMesh C69_alloc Dops ddec [] 0 2 C68_bad) as [[file|]|] eqn:E; [|discriminate..]. destruct (serialRead file) as [sm|] eqn:ER; [|discriminate].
  cbn [option_map] in R. apply Some_inj in R. destruct C68_x_val as (XV & XF). destruct C68_num as (N0 & _).
  assert (NV : forall d, d < 2 ^ 53 -> number (C67_enc d) = IZR (Z.of_N d)) by (intros d Hd; exact (proj2 (enc_ok d Hd))).
  pose proof (NV 40 eq_refl) as N40. pose proof (NV 50 eq_refl) as N50. pose proof (NV 60 eq_refl) as N60. cbn [Z.of_N] in N40, N50, N60.
  set (P := Q4 (Q3 (C67_enc 0) (C67_enc 40) (C67_enc 40)) (Q3 (C67_enc 0) (C67_enc 60) (C67_enc 40)) (Q3 (C67_enc 50) (C67_enc 50) (C67_enc 60)) (Q3 C68_x (C67_enc 50) (C67_enc 40))).
  assert (MC : forall P', m_corners C68_bad (Q4 1 2 3 4) P' -> P' = P).
  { intros [p0 p1 p2 p3]. unfold m_corners, q4l. cbn [r0 r1 r2 r3]. intros M. pose proof (mo_vert _ C68_bad_ok) as ND.
    inversion M as [|? ? ? ? C0 M1]; subst; inversion M1 as [|? ? ? ? C1 M2]; subst; inversion M2 as [|? ? ? ? C2 M3]; subst; inversion M3 as [|? ? ? ? C3 _]; subst.
    unfold P. f_equal; (eapply key_inj; [exact ND|eassumption|cbn [C68_bad mb_vert In]; auto 10]). }
  assert (MP : m_corners C68_bad (Q4 1 2 3 4) P) by (unfold m_corners, q4l, P; cbn [r0 r1 r2 r3]; repeat (constructor; [cbn [C68_bad mb_vert In]; auto 10|]); constructor).
  assert (M : materials_ok C68_bad number true sm).
  { apply (H C69_alloc [] 0 2%Z C68_bad file sm C69_fresh C68_bad_ok (or_intror eq_refl)); auto.
    - intros h p x Hp Hx. assert (G : forallb (fun e => forallb (fun x => is_finite 53 1024 (ddec x)) (q3l (snd e))) (mb_vert C68_bad) = true) by (vm_compute; reflexivity).
      rewrite forallb_forall in G. specialize (G _ Hp). rewrite forallb_forall in G. exact (G _ Hx).
    - split.
      + intros h t P' [Ht|[]] MP'. injection Ht as <- <-. rewrite (MC P' MP'). unfold points, P. cbn [r0 r1 r2 r3 t0 t1 t2 vol6]. rewrite N0, N40, N50, N60, XV. lra.
      + intros h t P' h' t' P'' x [Ht|[]] _ [Ht'|[]] _ NE. exfalso. apply NE. congruence. }
  clear H E ER. destruct (sm_cells sm) as [|sc [|? ?]] eqn:EC; [discriminate| |discriminate]. cbn [map] in R. injection R as R.
  destruct (M 1 (Q4 1 2 3 4) P sc) as (_ & MM); [cbn; auto|exact MP|unfold SM_cell; rewrite EC; reflexivity|].
  assert (B : in_box number P). { intros k [<-|[<-|[<-|[]]]]; unfold mean, P; cbn [r0 r1 r2 r3 t0 t1 t2]; rewrite ?N0, ?N40, ?N50, ?N60, ?XV; lra. }
  rewrite (proj2 MM (conj eq_refl B)) in R. clear - R. discriminate.
Qed.
Print Assumptions C68_materials_doubles_refuted.
