(** src/TychoMeshIO.cc, src/TychoMesh.hh, src/TychoMesh.cc: the local mesh of one rank
    (everything but the floating point geometry, which is in GeometryModel.v). *)
From Verif Require Import Prelude Bytes MeshModel.
Local Open Scope N_scope.

(** Loops whose body may fail. *)
Fixpoint foldM {A S} (f : S -> A -> option S) (l : list A) (s : S) : option S :=
  match l with [] => Some s | a :: r => let* s' := f s a in foldM f r s' end.

(** for (i < n) for (j < m). *)
Definition loop2 (n m : nat) : list (nat * nat) := list_prod (seq 0 n) (seq 0 m).

(** Mat2/Mat3 tables as functions; resize fills with 0 (src/Mat.hh).  Writes outside the
    dimensions fail an Assert.  That different entries have different storage is C01. *)
Definition tab2 := nat -> nat -> N.
Definition tab3 := nat -> nat -> nat -> N.
Definition set2 (t : tab2) (c f : nat) (v : N) : tab2 :=
  fun c' f' => if (c' =? c)%nat && (f' =? f)%nat then v else t c' f'.
Definition set3 (t : tab3) (c f k : nat) (v : N) : tab3 :=
  fun c' f' k' => if (c' =? c)%nat && (f' =? f)%nat && (k' =? k)%nat then v else t c' f' k'.
Definition set1 (t : nat -> N) (i : nat) (v : N) : nat -> N := fun i' => if (i' =? i)%nat then v else t i'.

(** src/TychoMesh.hh:117-119. *)
Definition BOUNDARY_FACE : N := INVALID.
Definition NOT_BOUNDARY_FACE : N := INVALID.
Definition BAD_RANK : N := INVALID.

(** TychoMeshIO.cc:129-145; [None] = SIZE_MAX. *)
Definition getLFaceIndex (cn : q4 N) (fn : q3 N) : option nat :=
  find (fun i => match q4l cn with
                 | [a; b; c; d] =>
                   let v := nth i [a; b; c; d] 0 in
                   negb (v =? t0 fn) && negb (v =? t1 fn) && negb (v =? t2 fn)
                 | _ => false end) (seq 0 4).

Definition cellFace (P : partition) (c i : nat) : option (pcell * pface) :=
  let* C := nth_error (pt_cells P) c in
  let* f := nth_error (q4l (pc_faces C)) i in
  let* F := nthN (pt_faces P) f in
  Some (C, F).

(** TychoMeshIO.cc:193-227. *)
Record adjst := mkAdjst { as_nSides : N; as_adjCell : tab2; as_adjFace : tab2; as_handle : tab2 }.
Definition adjStep (P : partition) (st : adjst) (ci : nat * nat) : option adjst :=
  let (c, i) := ci in
  let* (C, F) := cellFace P c i in
  let* lf := getLFaceIndex (pc_nodes C) (pf_nodes F) in
  let h := set2 (as_handle st) c lf (N.of_nat i) in
  if negb (pf_bdry F =? NotBoundary) then
    Some (mkAdjst (as_nSides st + 1) (set2 (as_adjCell st) c lf BOUNDARY_FACE)
                  (set2 (as_adjFace st) c lf BOUNDARY_FACE) h)
  else
    let cell1 := MeshModel.p0 (pf_cells F) in
    let cell2 := MeshModel.p1 (pf_cells F) in
    let adj := if cell1 =? N.of_nat c then cell2 else cell1 in
    let* C' := nthN (pt_cells P) adj in
    let af := match getLFaceIndex (pc_nodes C') (pf_nodes F) with Some l => N.of_nat l | None => INVALID end in
    Some (mkAdjst (as_nSides st) (set2 (as_adjCell st) c lf adj) (set2 (as_adjFace st) c lf af) h).
Definition zero2 : tab2 := fun _ _ => 0.
Definition adjLoop (P : partition) : option adjst :=
  foldM (adjStep P) (loop2 (length (pt_cells P)) 4) (mkAdjst 0 zero2 zero2 zero2).

(** TychoMeshIO.cc:230-254.  std::map::insert keeps an existing entry. *)
Record sidest := mkSidest { ss_side : nat; ss_sideCell : nat -> N; ss_sideOf : tab2; ss_lG : nat -> N; ss_gL : list (N * N) }.
Definition mapInsert (m : list (N * N)) (k v : N) : list (N * N) :=
  if existsb (fun e => fst e =? k) m then m else (k, v) :: m.
Definition handleFace (P : partition) (h : tab2) (c lf : nat) : option pface :=
  let* (_, F) := cellFace P c (N.to_nat (h c lf)) in Some F.
Definition sideStep (P : partition) (a : adjst) (st : sidest) (cl : nat * nat) : option sidest :=
  let (c, lf) := cl in
  if as_adjCell a c lf =? BOUNDARY_FACE then
    let* F := handleFace P (as_handle a) c lf in
    let s := ss_side st in
    if N.of_nat s <? as_nSides a then
      Some (mkSidest (S s) (set1 (ss_sideCell st) s (N.of_nat c)) (set2 (ss_sideOf st) c lf (N.of_nat s))
                     (set1 (ss_lG st) s (pf_gid F)) (mapInsert (ss_gL st) (pf_gid F) (N.of_nat s)))
    else None
  else Some (mkSidest (ss_side st) (ss_sideCell st) (set2 (ss_sideOf st) c lf NOT_BOUNDARY_FACE) (ss_lG st) (ss_gL st)).
Definition sideLoop (P : partition) (a : adjst) : option sidest :=
  foldM (sideStep P a) (loop2 (length (pt_cells P)) 4) (mkSidest 0 (fun _ => 0) zero2 (fun _ => 0) []).

(** TychoMeshIO.cc:257-272. *)
Definition procStep (P : partition) (h : tab2) (rank : N) (t : tab2) (cl : nat * nat) : option tab2 :=
  let (c, lf) := cl in
  let* F := handleFace P h c lf in
  let proc1 := MeshModel.p0 (pf_part F) in
  let proc2 := MeshModel.p1 (pf_part F) in
  if (proc1 =? rank) || (proc2 =? rank) then
    let ap := if proc1 =? rank then proc2 else proc1 in
    Some (set2 t c lf (if ap =? INVALID then BAD_RANK else ap))
  else None.
Definition procLoop (P : partition) (h : tab2) (rank : N) : option tab2 :=
  foldM (procStep P h rank) (loop2 (length (pt_cells P)) 4) zero2.

Section Order.
  (** [ltb] is < on the bit patterns of doubles. *)
  Context (ltb : N -> N -> bool).
  (** TychoMeshIO.cc:62-72. *)
  Definition isV1LessThanV2 (v1 v2 : q3 N) : bool :=
    if ltb (t0 v1) (t0 v2) then true else if ltb (t0 v2) (t0 v1) then false else
    if ltb (t1 v1) (t1 v2) then true else if ltb (t1 v2) (t1 v1) then false else
    if ltb (t2 v1) (t2 v2) then true else if ltb (t2 v2) (t2 v1) then false else true.
  (** TychoMeshIO.cc:81-120; [None] = order[] left uninitialised. *)
  Definition order3Vertices (c0 c1 c2 : q3 N) : option (list nat) :=
    if isV1LessThanV2 c0 c1 && isV1LessThanV2 c0 c2 then
      Some (if isV1LessThanV2 c1 c2 then [0; 1; 2] else [0; 2; 1])%nat
    else if isV1LessThanV2 c1 c0 && isV1LessThanV2 c1 c2 then
      Some (if isV1LessThanV2 c0 c2 then [1; 0; 2] else [1; 2; 0])%nat
    else if isV1LessThanV2 c2 c0 && isV1LessThanV2 c2 c1 then
      Some (if isV1LessThanV2 c0 c1 then [2; 0; 1] else [2; 1; 0])%nat
    else None.

  (** TychoMeshIO.cc:275-301. *)
  Definition vrtxInner (C : pcell) (F : pface) (c lf : nat) (order : list nat) (st : option (tab3 * tab3)) (fc : nat * nat)
    : option (tab3 * tab3) :=
    let* (ftc, ctf) := st in
    let* o := nth_error order (fst fc) in
    let* n := nth_error (q3l (pf_nodes F)) o in
    let* m := nth_error (q4l (pc_nodes C)) (snd fc) in
    Some (if n =? m then (set3 ftc c lf o (N.of_nat (snd fc)), set3 ctf c lf (snd fc) (N.of_nat o)) else (ftc, ctf)).
  Definition vrtxStep (P : partition) (h : tab2) (st : tab3 * tab3) (cl : nat * nat) : option (tab3 * tab3) :=
    let (c, lf) := cl in
    let* (C, F) := cellFace P c (N.to_nat (h c lf)) in
    let* n0 := nthN (pt_nodes P) (t0 (pf_nodes F)) in
    let* n1 := nthN (pt_nodes P) (t1 (pf_nodes F)) in
    let* n2 := nthN (pt_nodes P) (t2 (pf_nodes F)) in
    let* order := order3Vertices (pn_coords n0) (pn_coords n1) (pn_coords n2) in
    fold_left (vrtxInner C F c lf order) (loop2 3 4) (Some st).
  Definition vrtxLoop (P : partition) (h : tab2) : option (tab3 * tab3) :=
    foldM (vrtxStep P h) (loop2 (length (pt_cells P)) 4) (fun _ _ _ => 0, fun _ _ _ => 0).

  (** The private data of TychoMesh (TychoMesh.hh:142-163). *)
  Record tmesh := mkTmesh {
    tm_nCells : nat; tm_nNodes : nat; tm_nSides : N;
    tm_coords : list (q3 N); tm_cellNodes : list (q4 N); tm_lGCells : list N; tm_material : list N;
    tm_adjCell : tab2; tm_adjFace : tab2; tm_sideCell : nat -> N; tm_side : tab2;
    tm_lGSides : nat -> N; tm_gLSides : list (N * N); tm_adjProc : tab2; tm_ftc : tab3; tm_ctf : tab3 }.

  (** TychoMeshIO.cc:153-301: readTychoMesh on the partition of this rank (numCells and numNodes
      are the lengths of the vectors), without the adjCellFromSide exchange. *)
  Definition readTychoMesh (P : partition) (rank : N) : option tmesh :=
    let* a := adjLoop P in
    let* s := sideLoop P a in
    let* pr := procLoop P (as_handle a) rank in
    let* (ftc, ctf) := vrtxLoop P (as_handle a) in
    Some (mkTmesh (length (pt_cells P)) (length (pt_nodes P)) (as_nSides a)
            (map pn_coords (pt_nodes P)) (map pc_nodes (pt_cells P)) (map pc_gid (pt_cells P)) (map pc_mat (pt_cells P))
            (as_adjCell a) (as_adjFace a) (ss_sideCell s) (ss_sideOf s) (ss_lG s) (ss_gL s) pr ftc ctf).
End Order.

(** Accessors, TychoMesh.hh:68-114; [None] = Assert failure in Mat::index, or undefined. *)
Section Access.
  Context (m : tmesh).
  Definition in2 (c f : nat) : bool := (c <? tm_nCells m)%nat && (f <? 4)%nat.
  Definition getCellNode (c v : nat) : option N := let* q := nth_error (tm_cellNodes m) c in nth_error (q4l q) v.
  Definition getAdjCell (c f : nat) : option N := if in2 c f then Some (tm_adjCell m c f) else None.
  (** TychoMesh.hh:80-81 returns c_adjCell. *)
  Definition getAdjFace (c f : nat) : option N := if in2 c f then Some (tm_adjCell m c f) else None.
  Definition getSideCell (s : nat) : option N := if N.of_nat s <? tm_nSides m then Some (tm_sideCell m s) else None.
  Definition getSide (c f : nat) : option N := if in2 c f then Some (tm_side m c f) else None.
  Definition getLGSide (s : nat) : option N := if N.of_nat s <? tm_nSides m then Some (tm_lGSides m s) else None.
  (** find(side)->second: dereferencing end() is undefined. *)
  Definition getGLSide (g : N) : option N := option_map snd (find (fun e => fst e =? g) (tm_gLSides m)).
  Definition getLGCell (c : nat) : option N := nth_error (tm_lGCells m) c.
  Definition getCellMaterial (c : nat) : option N := nth_error (tm_material m) c.
  Definition getAdjRank (c f : nat) : option N := if in2 c f then Some (tm_adjProc m c f) else None.
  Definition getFaceToCellVrtx (c f k : nat) : option N :=
    if in2 c f && (k <? 3)%nat then Some (tm_ftc m c f k) else None.
  Definition getCellToFaceVrtx (c f k : nat) : option N :=
    if in2 c f && (k <? 4)%nat && negb (k =? f)%nat then Some (tm_ctf m c f k) else None.
  (** TychoMesh.cc:301-311: returns 0 when the node is not found. *)
  Definition getCellVrtx (c : nat) (node : N) : option N :=
    let* q := nth_error (tm_cellNodes m) c in
    Some (match find (fun v => match nth_error (q4l q) v with Some n => n =? node | None => false end) (seq 0 4) with
          | Some v => N.of_nat v | None => 0 end).

  (** TychoMesh.cc:224-239: the consistency check in the constructor (Insist). *)
  Definition checkVrtxMaps : bool :=
    forallb (fun cl : nat * nat => let (c, f) := cl in
      forallb (fun cv => if (cv =? f)%nat then true else
        match getCellToFaceVrtx c f cv with
        | Some fv => match getFaceToCellVrtx c f (N.to_nat fv) with Some cv1 => N.of_nat cv =? cv1 | None => false end
        | None => false end) (seq 0 4) &&
      forallb (fun fv =>
        match getFaceToCellVrtx c f fv with
        | Some cv => match getCellToFaceVrtx c f (N.to_nat cv) with Some fv1 => N.of_nat fv =? fv1 | None => false end
        | None => false end) (seq 0 3)) (loop2 (tm_nCells m) 4).

  (** TychoMesh.cc:243-258: c_neighborVrtx(cell, face, fvrtx). *)
  Definition neighborVrtx (c f k : nat) : option N :=
    let* nc := getAdjCell c f in
    if nc =? BOUNDARY_FACE then Some INVALID else
    let* v := getFaceToCellVrtx c f k in
    let* node := getCellNode c (N.to_nat v) in
    getCellVrtx (N.to_nat nc) node.
End Access.

(** TychoMeshIO.cc:304-340: exchange of (cell, face) across partition boundaries.  MPI matches
    the messages of one pair of ranks in order (and the Isend buffer is assumed intact). *)
Definition xchgItems (m : tmesh) (adj : N) : list (nat * nat) :=
  filter (fun cf => (tm_adjCell m (fst cf) (snd cf) =? BOUNDARY_FACE) && (tm_adjProc m (fst cf) (snd cf) =? adj) &&
                    negb (adj =? BAD_RANK)) (loop2 (tm_nCells m) 4).
(** adjCellFromSide, adjFaceFromSide of a side of rank [r] towards rank [q]. *)
Definition adjFromSide (mr mq : tmesh) (r q : N) (side : N) : option (nat * nat) :=
  let* k := find (fun k => match nth_error (xchgItems mr q) k with
                           | Some cf => tm_side mr (fst cf) (snd cf) =? side | None => false end)
                 (seq 0 (length (xchgItems mr q))) in
  nth_error (xchgItems mq r) k.
