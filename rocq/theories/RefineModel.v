(** util/RefineSerialMesh.cc: refinement of a serial mesh. *)
From Verif Require Import Prelude Bytes MeshModel.

(** Lines 155-165 and 174-184; [None] = assert(false). *)
Definition index2To1 (i j : nat) : option nat :=
  match i, j with
  | 0, 1 => Some 0 | 0, 2 => Some 1 | 0, 3 => Some 2
  | 1, 2 => Some 3 | 1, 3 => Some 4 | 2, 3 => Some 5
  | _, _ => None
  end.
Definition index1To2 (k : nat) : option (nat * nat) :=
  match k with
  | 0 => Some (0, 1) | 1 => Some (0, 2) | 2 => Some (0, 3)
  | 3 => Some (1, 2) | 4 => Some (1, 3) | 5 => Some (2, 3)
  | _ => None
  end.

Definition q4nth {A} (q : q4 A) (i : nat) : option A := nth_error (q4l q) i.

Section Tet.
  (** Coordinates: an arbitrary type.  [mid a b] is 0.5 * (a + b), [ltb] is <, [dist] is
      distanceBetweenNodes (lines 190-202), [dmax] is numeric_limits<double>::max(). *)
  Context {T : Type} (mid : T -> T -> T) (ltb : T -> T -> bool) (dist : q3 T -> q3 T -> T) (dmax : T).

  (** Lines 227-234: the midpoint nodes. *)
  Definition midPt (p q : q3 T) : q3 T := Q3 (mid (t0 p) (t0 q)) (mid (t1 p) (t1 q)) (mid (t2 p) (t2 q)).
  Definition midNodes (t : q4 (q3 T)) : option (list (q3 T)) :=
    mapM (fun k => let* (i, j) := index1To2 k in
                   let* p := q4nth t i in let* q := q4nth t j in Some (midPt p q)) (seq 0 6).
  Definition midNode (ms : list (q3 T)) (i j : nat) : option (q3 T) :=
    let* k := index2To1 i j in nth_error ms k.

  (** Lines 252-261: index of the shortest diagonal. *)
  Definition minStep (opp : list (q3 T * q3 T)) (acc : option (nat * T)) (i : nat) : option (nat * T) :=
    let* (mi, md) := acc in
    let* (p, q) := nth_error opp i in
    let d := dist p q in
    Some (if ltb d md then (i, d) else (mi, md)).
  Definition minIndexOf (opp : list (q3 T * q3 T)) : option nat :=
    option_map fst (fold_left (minStep opp) (seq 0 3) (Some (0, dmax))).

  (** Lines 210-317. *)
  Definition refineTet (t : q4 (q3 T)) : option (list (q4 (q3 T))) :=
    let* ms := midNodes t in
    let* m01 := midNode ms 0 1 in let* m02 := midNode ms 0 2 in let* m03 := midNode ms 0 3 in
    let* m12 := midNode ms 1 2 in let* m13 := midNode ms 1 3 in let* m23 := midNode ms 2 3 in
    let* minIndex := minIndexOf [(m01, m23); (m02, m13); (m03, m12)] in
    let* (a, b, c, d) :=
      (if minIndex =? 0 then Some (m23, m23, m01, m01)
       else if minIndex =? 1 then Some (m13, m02, m13, m02)
       else if minIndex =? 2 then Some (m12, m03, m03, m12)
       else None) in
    Some [ Q4 (r0 t) m01 m02 m03; Q4 (r1 t) m01 m12 m13; Q4 (r2 t) m02 m12 m23; Q4 (r3 t) m03 m13 m23;
           Q4 a m01 m02 m03; Q4 b m01 m12 m13; Q4 c m02 m12 m23; Q4 d m03 m13 m23 ].
End Tet.

(** Lines 70-85: NodeCoords::operator().  [ltMinus a b] is a < b - TOL, [gtPlus a b] is a > b + TOL. *)
Section NodeOrder.
  Context {T : Type} (ltMinus gtPlus : T -> T -> bool).
  Definition nodeLess (n1 n2 : q3 T) : bool :=
    if ltMinus (t0 n1) (t0 n2) then true else
    if gtPlus (t0 n1) (t0 n2) then false else
    if ltMinus (t1 n1) (t1 n2) then true else
    if gtPlus (t1 n1) (t1 n2) then false else
    if ltMinus (t2 n1) (t2 n2) then true else
    if gtPlus (t2 n1) (t2 n2) then false else false.
End NodeOrder.

Local Open Scope N_scope.

(** Lines 121-136: orderFaceNodes. *)
Definition orderFaceNodes (f : q3 N) : q3 N :=
  let lo := N.min (t0 f) (N.min (t1 f) (t2 f)) in
  let hi := N.max (t0 f) (N.max (t1 f) (t2 f)) in
  let md := if negb (t0 f =? lo) && negb (t0 f =? hi) then t0 f
            else if negb (t1 f =? lo) && negb (t1 f =? hi) then t1 f else t2 f in
  Q3 lo md hi.
(** Lines 97-116: FaceNodes::operator(). *)
Definition faceLess (u1 u2 : q3 N) : bool :=
  let f1 := orderFaceNodes u1 in let f2 := orderFaceNodes u2 in
  if t0 f1 <? t0 f2 then true else if t0 f2 <? t0 f1 then false else
  if t1 f1 <? t1 f2 then true else if t1 f2 <? t1 f1 then false else
  if t2 f1 <? t2 f2 then true else if t2 f2 <? t2 f1 then false else false.

(** std::map::find under a strict weak order: the entry whose key is equivalent (neither less).
    Lines 323-343: findFace, findNode. *)
Definition equivBy {K} (less : K -> K -> bool) (a b : K) : bool := negb (less a b) && negb (less b a).
Definition mapFind {K} (less : K -> K -> bool) (m : list (K * N)) (k : K) : N :=
  match find (fun e => equivBy less k (fst e)) m with Some e => snd e | None => INVALID end.

(** The vectors of refinedMesh and the two maps. *)
Record rstate := mkRstate {
  rs_cells : list scell; rs_faces : list sface; rs_nodes : list snode;
  rs_nmap : list (q3 N * N); rs_fmap : list (q3 N * N) }.
Definition rinit : rstate := mkRstate [] [] [] [] [].
Definition len {A} (l : list A) : N := N.of_nat (length l).

Section Mesh.
  (** Coordinates are the 64-bit patterns of doubles; the double operations are arbitrary functions
      on them.  [ltMinus d], [gtPlus d]: comparisons with tolerance 1e-14 * d. *)
  Context (mid : N -> N -> N) (ltb : N -> N -> bool) (dist : q3 N -> q3 N -> N) (dmax dmin : N)
          (ltMinus gtPlus : N -> N -> N -> bool) (sub : N -> N -> N).
  (** c_meshFormatName and c_version are not set by the refinement (SerialMesh::write sets them). *)
  Context (name0 : bytes) (version0 : N).

  (** Lines 361-374: per-coordinate extremes over the nodes of all cells. *)
  Definition minOf (a m : N) := if ltb a m then a else m.
  Definition maxOf (a m : N) := if ltb m a then a else m.
  Definition q3zip (f : N -> N -> N) (a b : q3 N) : q3 N := Q3 (f (t0 a) (t0 b)) (f (t1 a) (t1 b)) (f (t2 a) (t2 b)).
  Definition coarseNode (sm : smesh) (n : N) : option (q3 N) := option_map sn_coords (nthN (sm_nodes sm) n).
  Definition coarseTet (sm : smesh) (c : scell) : option (q4 (q3 N)) :=
    let* a := coarseNode sm (r0 (sc_nodes c)) in let* b := coarseNode sm (r1 (sc_nodes c)) in
    let* d := coarseNode sm (r2 (sc_nodes c)) in let* e := coarseNode sm (r3 (sc_nodes c)) in
    Some (Q4 a b d e).
  Definition extremes (sm : smesh) : option (q3 N * q3 N) :=
    fold_left (fun acc c =>
      let* acc := acc in
      let* t := coarseTet sm c in
      Some (fold_left (fun (a : q3 N * q3 N) p => (q3zip minOf p (fst a), q3zip maxOf p (snd a))) (q4l t) acc))
      (sm_cells sm) (Some (Q3 dmax dmax dmax, Q3 dmin dmin dmin)).
  (** Lines 375-376; std::max(a, b) is (a < b) ? b : a. *)
  Definition fmax (a b : N) := if ltb a b then b else a.
  Definition graphDiameter (sm : smesh) : option N :=
    let* (mn, mx) := extremes sm in
    Some (fmax (sub (t0 mx) (t0 mn)) (fmax (sub (t1 mx) (t1 mn)) (sub (t2 mx) (t2 mn)))).

  (** Lines 408-436: one bounding node. *)
  Definition addNode (less : q3 N -> q3 N -> bool) (st : rstate) (p : q3 N) : rstate * N :=
    let node := mapFind less (rs_nmap st) p in
    if node =? INVALID then
      let node := len (rs_nodes st) in
      (mkRstate (rs_cells st) (rs_faces st) (rs_nodes st ++ [mkSnode p]) ((p, node) :: rs_nmap st) (rs_fmap st), node)
    else (st, node).

  (** Lines 449-454: nodes of the face across from node [lface]. *)
  Definition faceNodesOf (ns : q4 N) (lface : nat) : q3 N :=
    match lface with
    | 0%nat => Q3 (r1 ns) (r2 ns) (r3 ns)
    | 1%nat => Q3 (r0 ns) (r2 ns) (r3 ns)
    | 2%nat => Q3 (r0 ns) (r1 ns) (r3 ns)
    | _ => Q3 (r0 ns) (r1 ns) (r2 ns)
    end.

  (** Lines 440-475: one bounding face. *)
  Definition addFace (ns : q4 N) (st : rstate) (lface : nat) : option (rstate * N) :=
    let cell := len (rs_cells st) in
    let fn := faceNodesOf ns lface in
    let face := mapFind faceLess (rs_fmap st) fn in
    if face =? INVALID then
      let face := len (rs_faces st) in
      Some (mkRstate (rs_cells st) (rs_faces st ++ [mkSface (Q2 cell INVALID) fn]) (rs_nodes st)
                     (rs_nmap st) ((fn, face) :: rs_fmap st), face)
    else
      let* f := nthN (rs_faces st) face in
      let f' := mkSface (Q2 (MeshModel.p0 (sf_cells f)) cell) (sf_nodes f) in
      Some (mkRstate (rs_cells st)
                     (firstn (N.to_nat face) (rs_faces st) ++ f' :: skipn (S (N.to_nat face)) (rs_faces st))
                     (rs_nodes st) (rs_nmap st) (rs_fmap st), face).

  (** Lines 398-484: one refined tet. *)
  Definition addTet (less : q3 N -> q3 N -> bool) (mat : N) (st : rstate) (t : q4 (q3 N)) : option rstate :=
    let (st, n0) := addNode less st (r0 t) in
    let (st, n1) := addNode less st (r1 t) in
    let (st, n2) := addNode less st (r2 t) in
    let (st, n3) := addNode less st (r3 t) in
    let ns := Q4 n0 n1 n2 n3 in
    let* (st, f0) := addFace ns st 0 in
    let* (st, f1) := addFace ns st 1 in
    let* (st, f2) := addFace ns st 2 in
    let* (st, f3) := addFace ns st 3 in
    Some (mkRstate (rs_cells st ++ [mkScell (Q4 f0 f1 f2 f3) ns mat]) (rs_faces st) (rs_nodes st)
                   (rs_nmap st) (rs_fmap st)).

  (** Lines 380-485, one coarse cell, without the progress print. *)
  Definition addCoarse (less : q3 N -> q3 N -> bool) (sm : smesh) (st : rstate) (c : scell) : option rstate :=
    let* t := coarseTet sm c in
    let* ts := refineTet mid ltb dist dmax t in
    fold_left (fun st t => let* st := st in addTet less (sc_mat c) st t) ts (Some st).

  (** Lines 350-491.  Line 380, coarseCell % (c_numCells / 1000), divides by zero in the first
      iteration when 0 < c_numCells < 1000 ([None]).  c_numCells is the length of c_cellData. *)
  Definition refineMesh (sm : smesh) : option smesh :=
    let* d := graphDiameter sm in
    let* st := fold_left (fun st c =>
        let* st := st in
        if len (sm_cells sm) / 1000 =? 0 then None else
        addCoarse (nodeLess (ltMinus d) (gtPlus d)) sm st c) (sm_cells sm) (Some rinit) in
    Some (mkSmesh name0 version0 (len (rs_cells st)) (len (rs_faces st)) (len (rs_nodes st))
                  (rs_cells st) (rs_faces st) (rs_nodes st)).
End Mesh.
