(** src/TychoMesh.cc:53-187 and 211-229: volumes, areas, normals, Omega.n, for an arbitrary
    arithmetic; [Rops] is exact real arithmetic. *)
From Coq Require Import Reals.
From Verif Require Import Prelude Bytes MeshModel.

Record arith (T : Type) := mkArith {
  aadd : T -> T -> T; asub : T -> T -> T; amul : T -> T -> T; adiv : T -> T -> T; aneg : T -> T; aabs : T -> T; asqrt : T -> T;
  agt : T -> T -> bool; aeq : T -> T -> bool; azero : T; ahalf : T; aone : T; asix : T;
  alit : Z -> T (* integer-valued floating literal *) }.
Arguments aadd {T}. Arguments asub {T}. Arguments amul {T}. Arguments adiv {T}. Arguments aneg {T}. Arguments aabs {T}.
Arguments asqrt {T}. Arguments agt {T}. Arguments aeq {T}. Arguments azero {T}. Arguments ahalf {T}. Arguments aone {T}. Arguments asix {T}. Arguments alit {T}.

Definition Rops : arith R := mkArith R Rplus Rminus Rmult Rdiv Ropp Rabs sqrt
  (fun a b => if Rgt_dec a b then true else false) (fun a b => if Req_EM_T a b then true else false) 0%R (/2)%R 1%R 6%R IZR.

Section Geometry.
  Context {T : Type} (A : arith T).
  Notation "x +' y" := (aadd A x y) (at level 50, left associativity).
  Notation "x -' y" := (asub A x y) (at level 50, left associativity).
  Notation "x *' y" := (amul A x y) (at level 40, left associativity).

  Definition vsub (p q : q3 T) : q3 T := Q3 (t0 p -' t0 q) (t1 p -' t1 q) (t2 p -' t2 q).
  (** left to right, as the C++ expressions are evaluated *)
  Definition vdot (a b : q3 T) : T := t0 a *' t0 b +' t1 a *' t1 b +' t2 a *' t2 b.

  (** TychoMesh.cc:53-58. *)
  Definition getCrossProduct (a b : q3 T) : q3 T :=
    Q3 (t1 a *' t2 b -' t2 a *' t1 b) (t2 a *' t0 b -' t0 a *' t2 b) (t0 a *' t1 b -' t1 a *' t0 b).
  (** TychoMesh.cc:68-86. *)
  Definition getTriangleArea (f : q3 (q3 T)) : T :=
    let c := getCrossProduct (vsub (t1 f) (t0 f)) (vsub (t2 f) (t0 f)) in
    ahalf A *' asqrt A (vdot c c).
  (** TychoMesh.cc:96-117. *)
  Definition getTetVolume (p : q4 (q3 T)) : T :=
    let c := getCrossProduct (vsub (r1 p) (r0 p)) (vsub (r2 p) (r0 p)) in
    adiv A (aone A) (asix A) *' aabs A (vdot c (vsub (r3 p) (r0 p))).

  Definition ptEq (p q : q3 T) : bool := aeq A (t0 p) (t0 q) && aeq A (t1 p) (t1 q) && aeq A (t2 p) (t2 q).
  (** TychoMesh.cc:157-170; when every cell point is a face point the index is 4 (out of bounds): [None]. *)
  Definition vertIndex (f : q3 (q3 T)) (p : q4 (q3 T)) : option (q3 T) :=
    find (fun v => negb (existsb (ptEq v) (q3l f))) (q4l p).
  (** TychoMesh.cc:125-187. *)
  Definition getNormal (f : q3 (q3 T)) (p : q4 (q3 T)) : option (q3 T) :=
    let c := getCrossProduct (vsub (t1 f) (t0 f)) (vsub (t2 f) (t0 f)) in
    let norm := asqrt A (vdot c c) in
    let n := Q3 (adiv A (t0 c) norm) (adiv A (t1 c) norm) (adiv A (t2 c) norm) in
    let* v := vertIndex f p in
    let d := vdot n (vsub v (t0 f)) in
    Some (if agt A d (azero A) then Q3 (aneg A (t0 n)) (aneg A (t1 n)) (aneg A (t2 n)) else n).
  (** TychoMesh.cc:222-224. *)
  Definition omegaDotN (omega : q3 T) (f : q3 (q3 T)) (p : q4 (q3 T)) : option T :=
    let* n := getNormal f p in Some (vdot omega n).
  (** TychoMesh.hh:107-110. *)
  Definition isOutgoing (omega : q3 T) (f : q3 (q3 T)) (p : q4 (q3 T)) : option bool :=
    let* d := omegaDotN omega f p in Some (agt A d (azero A)).
  Definition isIncoming (omega : q3 T) (f : q3 (q3 T)) (p : q4 (q3 T)) : option bool :=
    option_map negb (isOutgoing omega f p).
End Geometry.
