(** src/TychoMesh.cc:193-311: the constructor of TychoMesh, and the mesh as the sweepers see it through the
    accessors (src/TychoMesh.hh:68-117).

    [dec] is the number of a bit pattern. Values the constructor stores are computed when they are asked for;
    [constructs] says that none of its array accesses and checks fails. *)
From Verif Require Import Prelude Bytes MeshModel TychoModel GeometryModel TransportModel TraverseModel SweepModel.

(** BOUNDARY_FACE, BAD_RANK and INVALID become [None]. *)
Definition index (x : option N) : option nat :=
  match x with Some n => if (n =? INVALID)%N then None else Some (N.to_nat n) | None => None end.
Definition orZeroN (x : option N) : nat := match x with Some n => N.to_nat n | None => 0 end.
Definition decPoint {T : Type} (dec : N -> T) (p : q3 N) : q3 T := Q3 (dec (t0 p)) (dec (t1 p)) (dec (t2 p)).

Section View.
  Context {T : Type}.
  Variables (A : arith T) (dec : N -> T) (omega : nat -> q3 T) (t : tmesh).

  Definition nodePoint (n : N) : option (q3 T) := option_map (decPoint dec) (nth_error (tm_coords t) (N.to_nat n)).
  (** TychoMesh.cc:266-279. *)
  Definition cellPoint (c v : nat) : option (q3 T) := let* n := getCellNode t c v in nodePoint n.
  Definition getCellVrtxCoords (c : nat) : option (q4 (q3 T)) :=
    let* a := cellPoint c 0 in let* b := cellPoint c 1 in let* d := cellPoint c 2 in let* e := cellPoint c 3 in Some (Q4 a b d e).
  (** TychoMesh.cc:285-298. *)
  Definition facePoint (c f k : nat) : option (q3 T) :=
    let* v := getFaceToCellVrtx t c f k in cellPoint c (N.to_nat v).
  Definition getFaceVrtxCoords (c f : nat) : option (q3 (q3 T)) :=
    let* a := facePoint c f 0 in let* b := facePoint c f 1 in let* d := facePoint c f 2 in Some (Q3 a b d).
  (** TychoMesh.cc:200-209. *)
  Definition cellVolume (c : nat) : option T := option_map (getTetVolume A) (getCellVrtxCoords c).
  Definition faceArea (c f : nat) : option T := option_map (getTriangleArea A) (getFaceVrtxCoords c f).
  (** TychoMesh.cc:213-226. *)
  Definition getOmegaDotN (a c f : nat) : option T :=
    let* F := getFaceVrtxCoords c f in let* P := getCellVrtxCoords c in omegaDotN A (omega a) F P.
  Definition isSome {X : Type} (x : option X) : bool := match x with Some _ => true | None => false end.
  (** The whole constructor (after readTychoMesh). *)
  Definition constructs (nAngles : nat) : bool :=
    forallb (fun c => isSome (cellVolume c)) (seq 0 (tm_nCells t)) &&
    forallb (fun cf : nat * nat => isSome (faceArea (fst cf) (snd cf)) &&
      forallb (fun a => isSome (getOmegaDotN a (fst cf) (snd cf))) (seq 0 nAngles) &&
      forallb (fun k => isSome (neighborVrtx t (fst cf) (snd cf) k)) (seq 0 3)) (loop2 (tm_nCells t) 4) &&
    checkVrtxMaps t.

  Definition orZero (x : option T) : T := match x with Some y => y | None => azero A end.
  Definition four {X : Type} (h : nat -> X) : q4 X := Q4 (h 0) (h 1) (h 2) (h 3).
  (** The accessors. *)
  Definition viewGeo : rgeo T := mkRgeo T
    (fun c => orZero (cellVolume c)) (fun c => four (fun f => orZero (faceArea c f))) (fun a c => four (fun f => orZero (getOmegaDotN a c f)))
    (fun c f v => orZeroN (getCellToFaceVrtx t c f v)) (fun c f k => orZeroN (getFaceToCellVrtx t c f k)) (fun c f k => orZeroN (neighborVrtx t c f k)).
  Definition viewMesh : rmesh := mkRmesh (tm_nCells t)
    (fun c f => index (getAdjCell t c f)) (fun c f => index (getAdjRank t c f)) (fun c f => N.to_nat (tm_side t c f))
    (tm_lGSides t) (fun g => option_map N.to_nat (getGLSide t g)) (fun s => N.to_nat (tm_sideCell t s))
    (fun a c f => agt A (orZero (getOmegaDotN a c f)) (azero A)).
End View.
