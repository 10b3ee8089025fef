(** src/Transport.cc: assembly and solution of the 4x4 system of one cell, for an arbitrary arithmetic. *)
From Coq Require Import Reals.
From Verif Require Import Prelude Bytes MeshModel GeometryModel GaussModel.

Section Transport.
  Context {T : Type} (A : arith T).
  Notation "x +' y" := (aadd A x y) (at level 50, left associativity).
  Notation "x -' y" := (asub A x y) (at level 50, left associativity).
  Notation "x *' y" := (amul A x y) (at level 40, left associativity).
  Notation "x /' y" := (adiv A x y) (at level 40, left associativity).
  Notation mat := (q4 (q4 T)).

  (** Transport.cc:58-72. *)
  Definition calcSource (volume : T) (localSource : nat -> T) : q4 T :=
    let q0 := localSource 0%nat in let q1 := localSource 1%nat in let q2 := localSource 2%nat in let q3 := localSource 3%nat in
    Q4 (volume /' alit A 20 *' (alit A 2 *' q0 +' q1 +' q2 +' q3))
       (volume /' alit A 20 *' (q0 +' alit A 2 *' q1 +' q2 +' q3))
       (volume /' alit A 20 *' (q0 +' q1 +' alit A 2 *' q2 +' q3))
       (volume /' alit A 20 *' (q0 +' q1 +' q2 +' alit A 2 *' q3)).
  (** Transport.cc:79-103. *)
  Definition calcVolumeIntegrals (volume : T) (area : q4 T) (sigmaTotal : T) (matrix : mat) : mat :=
    let matrix := mset matrix 0 0 (get4 area 0 /' alit A 12 +' alit A 2 *' sigmaTotal *' volume /' alit A 20) in
    let matrix := mset matrix 0 1 (get4 area 0 /' alit A 12 +' alit A 1 *' sigmaTotal *' volume /' alit A 20) in
    let matrix := mset matrix 0 2 (get4 area 0 /' alit A 12 +' alit A 1 *' sigmaTotal *' volume /' alit A 20) in
    let matrix := mset matrix 0 3 (get4 area 0 /' alit A 12 +' alit A 1 *' sigmaTotal *' volume /' alit A 20) in
    let matrix := mset matrix 1 0 (get4 area 1 /' alit A 12 +' alit A 1 *' sigmaTotal *' volume /' alit A 20) in
    let matrix := mset matrix 1 1 (get4 area 1 /' alit A 12 +' alit A 2 *' sigmaTotal *' volume /' alit A 20) in
    let matrix := mset matrix 1 2 (get4 area 1 /' alit A 12 +' alit A 1 *' sigmaTotal *' volume /' alit A 20) in
    let matrix := mset matrix 1 3 (get4 area 1 /' alit A 12 +' alit A 1 *' sigmaTotal *' volume /' alit A 20) in
    let matrix := mset matrix 2 0 (get4 area 2 /' alit A 12 +' alit A 1 *' sigmaTotal *' volume /' alit A 20) in
    let matrix := mset matrix 2 1 (get4 area 2 /' alit A 12 +' alit A 1 *' sigmaTotal *' volume /' alit A 20) in
    let matrix := mset matrix 2 2 (get4 area 2 /' alit A 12 +' alit A 2 *' sigmaTotal *' volume /' alit A 20) in
    let matrix := mset matrix 2 3 (get4 area 2 /' alit A 12 +' alit A 1 *' sigmaTotal *' volume /' alit A 20) in
    let matrix := mset matrix 3 0 (get4 area 3 /' alit A 12 +' alit A 1 *' sigmaTotal *' volume /' alit A 20) in
    let matrix := mset matrix 3 1 (get4 area 3 /' alit A 12 +' alit A 1 *' sigmaTotal *' volume /' alit A 20) in
    let matrix := mset matrix 3 2 (get4 area 3 /' alit A 12 +' alit A 1 *' sigmaTotal *' volume /' alit A 20) in
    let matrix := mset matrix 3 3 (get4 area 3 /' alit A 12 +' alit A 2 *' sigmaTotal *' volume /' alit A 20) in
    matrix.
  (** Transport.cc:113-125. *)
  Definition outgoing0 (area : q4 T) (matrix : mat) : mat :=
    if agt A (get4 area 0) (azero A) then
    let matrix := mset matrix 1 1 (mget matrix 1 1 +' alit A 2 *' get4 area 0 /' alit A 12) in
    let matrix := mset matrix 1 2 (mget matrix 1 2 +' alit A 1 *' get4 area 0 /' alit A 12) in
    let matrix := mset matrix 1 3 (mget matrix 1 3 +' alit A 1 *' get4 area 0 /' alit A 12) in
    let matrix := mset matrix 2 1 (mget matrix 2 1 +' alit A 1 *' get4 area 0 /' alit A 12) in
    let matrix := mset matrix 2 2 (mget matrix 2 2 +' alit A 2 *' get4 area 0 /' alit A 12) in
    let matrix := mset matrix 2 3 (mget matrix 2 3 +' alit A 1 *' get4 area 0 /' alit A 12) in
    let matrix := mset matrix 3 1 (mget matrix 3 1 +' alit A 1 *' get4 area 0 /' alit A 12) in
    let matrix := mset matrix 3 2 (mget matrix 3 2 +' alit A 1 *' get4 area 0 /' alit A 12) in
    let matrix := mset matrix 3 3 (mget matrix 3 3 +' alit A 2 *' get4 area 0 /' alit A 12) in
    matrix else matrix.
  (** Transport.cc:127-139. *)
  Definition outgoing1 (area : q4 T) (matrix : mat) : mat :=
    if agt A (get4 area 1) (azero A) then
    let matrix := mset matrix 0 0 (mget matrix 0 0 +' alit A 2 *' get4 area 1 /' alit A 12) in
    let matrix := mset matrix 0 2 (mget matrix 0 2 +' alit A 1 *' get4 area 1 /' alit A 12) in
    let matrix := mset matrix 0 3 (mget matrix 0 3 +' alit A 1 *' get4 area 1 /' alit A 12) in
    let matrix := mset matrix 2 0 (mget matrix 2 0 +' alit A 1 *' get4 area 1 /' alit A 12) in
    let matrix := mset matrix 2 2 (mget matrix 2 2 +' alit A 2 *' get4 area 1 /' alit A 12) in
    let matrix := mset matrix 2 3 (mget matrix 2 3 +' alit A 1 *' get4 area 1 /' alit A 12) in
    let matrix := mset matrix 3 0 (mget matrix 3 0 +' alit A 1 *' get4 area 1 /' alit A 12) in
    let matrix := mset matrix 3 2 (mget matrix 3 2 +' alit A 1 *' get4 area 1 /' alit A 12) in
    let matrix := mset matrix 3 3 (mget matrix 3 3 +' alit A 2 *' get4 area 1 /' alit A 12) in
    matrix else matrix.
  (** Transport.cc:141-153. *)
  Definition outgoing2 (area : q4 T) (matrix : mat) : mat :=
    if agt A (get4 area 2) (azero A) then
    let matrix := mset matrix 0 0 (mget matrix 0 0 +' alit A 2 *' get4 area 2 /' alit A 12) in
    let matrix := mset matrix 0 1 (mget matrix 0 1 +' alit A 1 *' get4 area 2 /' alit A 12) in
    let matrix := mset matrix 0 3 (mget matrix 0 3 +' alit A 1 *' get4 area 2 /' alit A 12) in
    let matrix := mset matrix 1 0 (mget matrix 1 0 +' alit A 1 *' get4 area 2 /' alit A 12) in
    let matrix := mset matrix 1 1 (mget matrix 1 1 +' alit A 2 *' get4 area 2 /' alit A 12) in
    let matrix := mset matrix 1 3 (mget matrix 1 3 +' alit A 1 *' get4 area 2 /' alit A 12) in
    let matrix := mset matrix 3 0 (mget matrix 3 0 +' alit A 1 *' get4 area 2 /' alit A 12) in
    let matrix := mset matrix 3 1 (mget matrix 3 1 +' alit A 1 *' get4 area 2 /' alit A 12) in
    let matrix := mset matrix 3 3 (mget matrix 3 3 +' alit A 2 *' get4 area 2 /' alit A 12) in
    matrix else matrix.
  (** Transport.cc:155-167. *)
  Definition outgoing3 (area : q4 T) (matrix : mat) : mat :=
    if agt A (get4 area 3) (azero A) then
    let matrix := mset matrix 0 0 (mget matrix 0 0 +' alit A 2 *' get4 area 3 /' alit A 12) in
    let matrix := mset matrix 0 1 (mget matrix 0 1 +' alit A 1 *' get4 area 3 /' alit A 12) in
    let matrix := mset matrix 0 2 (mget matrix 0 2 +' alit A 1 *' get4 area 3 /' alit A 12) in
    let matrix := mset matrix 1 0 (mget matrix 1 0 +' alit A 1 *' get4 area 3 /' alit A 12) in
    let matrix := mset matrix 1 1 (mget matrix 1 1 +' alit A 2 *' get4 area 3 /' alit A 12) in
    let matrix := mset matrix 1 2 (mget matrix 1 2 +' alit A 1 *' get4 area 3 /' alit A 12) in
    let matrix := mset matrix 2 0 (mget matrix 2 0 +' alit A 1 *' get4 area 3 /' alit A 12) in
    let matrix := mset matrix 2 1 (mget matrix 2 1 +' alit A 1 *' get4 area 3 /' alit A 12) in
    let matrix := mset matrix 2 2 (mget matrix 2 2 +' alit A 2 *' get4 area 3 /' alit A 12) in
    matrix else matrix.
  Definition calcOutgoingFlux (area : q4 T) (matrix : mat) : mat := outgoing3 area (outgoing2 area (outgoing1 area (outgoing0 area matrix))).
  (** Transport.cc:184-204. *)
  Definition incoming0 (c2f : nat -> nat -> nat) (area : q4 T) (localPsiBound : nat -> nat -> T) (cellSource : q4 T) : q4 T :=
    if agt A (azero A) (get4 area 0) then
    let faceVertex1 := c2f 0%nat 1%nat in
    let faceVertex2 := c2f 0%nat 2%nat in
    let faceVertex3 := c2f 0%nat 3%nat in
    let psiNeighbor1 := localPsiBound faceVertex1 0%nat in
    let psiNeighbor2 := localPsiBound faceVertex2 0%nat in
    let psiNeighbor3 := localPsiBound faceVertex3 0%nat in
    let cellSource := set4 cellSource 1 (get4 cellSource 1 -' alit A 2 *' get4 area 0 /' alit A 12 *' psiNeighbor1) in
    let cellSource := set4 cellSource 1 (get4 cellSource 1 -' alit A 1 *' get4 area 0 /' alit A 12 *' psiNeighbor2) in
    let cellSource := set4 cellSource 1 (get4 cellSource 1 -' alit A 1 *' get4 area 0 /' alit A 12 *' psiNeighbor3) in
    let cellSource := set4 cellSource 2 (get4 cellSource 2 -' alit A 1 *' get4 area 0 /' alit A 12 *' psiNeighbor1) in
    let cellSource := set4 cellSource 2 (get4 cellSource 2 -' alit A 2 *' get4 area 0 /' alit A 12 *' psiNeighbor2) in
    let cellSource := set4 cellSource 2 (get4 cellSource 2 -' alit A 1 *' get4 area 0 /' alit A 12 *' psiNeighbor3) in
    let cellSource := set4 cellSource 3 (get4 cellSource 3 -' alit A 1 *' get4 area 0 /' alit A 12 *' psiNeighbor1) in
    let cellSource := set4 cellSource 3 (get4 cellSource 3 -' alit A 1 *' get4 area 0 /' alit A 12 *' psiNeighbor2) in
    let cellSource := set4 cellSource 3 (get4 cellSource 3 -' alit A 2 *' get4 area 0 /' alit A 12 *' psiNeighbor3) in
    cellSource else cellSource.
  (** Transport.cc:206-226. *)
  Definition incoming1 (c2f : nat -> nat -> nat) (area : q4 T) (localPsiBound : nat -> nat -> T) (cellSource : q4 T) : q4 T :=
    if agt A (azero A) (get4 area 1) then
    let faceVertex0 := c2f 1%nat 0%nat in
    let faceVertex2 := c2f 1%nat 2%nat in
    let faceVertex3 := c2f 1%nat 3%nat in
    let psiNeighbor0 := localPsiBound faceVertex0 1%nat in
    let psiNeighbor2 := localPsiBound faceVertex2 1%nat in
    let psiNeighbor3 := localPsiBound faceVertex3 1%nat in
    let cellSource := set4 cellSource 0 (get4 cellSource 0 -' alit A 2 *' get4 area 1 /' alit A 12 *' psiNeighbor0) in
    let cellSource := set4 cellSource 0 (get4 cellSource 0 -' alit A 1 *' get4 area 1 /' alit A 12 *' psiNeighbor2) in
    let cellSource := set4 cellSource 0 (get4 cellSource 0 -' alit A 1 *' get4 area 1 /' alit A 12 *' psiNeighbor3) in
    let cellSource := set4 cellSource 2 (get4 cellSource 2 -' alit A 1 *' get4 area 1 /' alit A 12 *' psiNeighbor0) in
    let cellSource := set4 cellSource 2 (get4 cellSource 2 -' alit A 2 *' get4 area 1 /' alit A 12 *' psiNeighbor2) in
    let cellSource := set4 cellSource 2 (get4 cellSource 2 -' alit A 1 *' get4 area 1 /' alit A 12 *' psiNeighbor3) in
    let cellSource := set4 cellSource 3 (get4 cellSource 3 -' alit A 1 *' get4 area 1 /' alit A 12 *' psiNeighbor0) in
    let cellSource := set4 cellSource 3 (get4 cellSource 3 -' alit A 1 *' get4 area 1 /' alit A 12 *' psiNeighbor2) in
    let cellSource := set4 cellSource 3 (get4 cellSource 3 -' alit A 2 *' get4 area 1 /' alit A 12 *' psiNeighbor3) in
    cellSource else cellSource.
  (** Transport.cc:228-248. *)
  Definition incoming2 (c2f : nat -> nat -> nat) (area : q4 T) (localPsiBound : nat -> nat -> T) (cellSource : q4 T) : q4 T :=
    if agt A (azero A) (get4 area 2) then
    let faceVertex0 := c2f 2%nat 0%nat in
    let faceVertex1 := c2f 2%nat 1%nat in
    let faceVertex3 := c2f 2%nat 3%nat in
    let psiNeighbor0 := localPsiBound faceVertex0 2%nat in
    let psiNeighbor1 := localPsiBound faceVertex1 2%nat in
    let psiNeighbor3 := localPsiBound faceVertex3 2%nat in
    let cellSource := set4 cellSource 0 (get4 cellSource 0 -' alit A 2 *' get4 area 2 /' alit A 12 *' psiNeighbor0) in
    let cellSource := set4 cellSource 0 (get4 cellSource 0 -' alit A 1 *' get4 area 2 /' alit A 12 *' psiNeighbor1) in
    let cellSource := set4 cellSource 0 (get4 cellSource 0 -' alit A 1 *' get4 area 2 /' alit A 12 *' psiNeighbor3) in
    let cellSource := set4 cellSource 1 (get4 cellSource 1 -' alit A 1 *' get4 area 2 /' alit A 12 *' psiNeighbor0) in
    let cellSource := set4 cellSource 1 (get4 cellSource 1 -' alit A 2 *' get4 area 2 /' alit A 12 *' psiNeighbor1) in
    let cellSource := set4 cellSource 1 (get4 cellSource 1 -' alit A 1 *' get4 area 2 /' alit A 12 *' psiNeighbor3) in
    let cellSource := set4 cellSource 3 (get4 cellSource 3 -' alit A 1 *' get4 area 2 /' alit A 12 *' psiNeighbor0) in
    let cellSource := set4 cellSource 3 (get4 cellSource 3 -' alit A 1 *' get4 area 2 /' alit A 12 *' psiNeighbor1) in
    let cellSource := set4 cellSource 3 (get4 cellSource 3 -' alit A 2 *' get4 area 2 /' alit A 12 *' psiNeighbor3) in
    cellSource else cellSource.
  (** Transport.cc:250-270. *)
  Definition incoming3 (c2f : nat -> nat -> nat) (area : q4 T) (localPsiBound : nat -> nat -> T) (cellSource : q4 T) : q4 T :=
    if agt A (azero A) (get4 area 3) then
    let faceVertex0 := c2f 3%nat 0%nat in
    let faceVertex1 := c2f 3%nat 1%nat in
    let faceVertex2 := c2f 3%nat 2%nat in
    let psiNeighbor0 := localPsiBound faceVertex0 3%nat in
    let psiNeighbor1 := localPsiBound faceVertex1 3%nat in
    let psiNeighbor2 := localPsiBound faceVertex2 3%nat in
    let cellSource := set4 cellSource 0 (get4 cellSource 0 -' alit A 2 *' get4 area 3 /' alit A 12 *' psiNeighbor0) in
    let cellSource := set4 cellSource 0 (get4 cellSource 0 -' alit A 1 *' get4 area 3 /' alit A 12 *' psiNeighbor1) in
    let cellSource := set4 cellSource 0 (get4 cellSource 0 -' alit A 1 *' get4 area 3 /' alit A 12 *' psiNeighbor2) in
    let cellSource := set4 cellSource 1 (get4 cellSource 1 -' alit A 1 *' get4 area 3 /' alit A 12 *' psiNeighbor0) in
    let cellSource := set4 cellSource 1 (get4 cellSource 1 -' alit A 2 *' get4 area 3 /' alit A 12 *' psiNeighbor1) in
    let cellSource := set4 cellSource 1 (get4 cellSource 1 -' alit A 1 *' get4 area 3 /' alit A 12 *' psiNeighbor2) in
    let cellSource := set4 cellSource 2 (get4 cellSource 2 -' alit A 1 *' get4 area 3 /' alit A 12 *' psiNeighbor0) in
    let cellSource := set4 cellSource 2 (get4 cellSource 2 -' alit A 1 *' get4 area 3 /' alit A 12 *' psiNeighbor1) in
    let cellSource := set4 cellSource 2 (get4 cellSource 2 -' alit A 2 *' get4 area 3 /' alit A 12 *' psiNeighbor2) in
    cellSource else cellSource.
  Definition calcIncomingFlux (c2f : nat -> nat -> nat) (area : q4 T) (localPsiBound : nat -> nat -> T) (cellSource : q4 T) : q4 T :=
    incoming3 c2f area localPsiBound (incoming2 c2f area localPsiBound (incoming1 c2f area localPsiBound (incoming0 c2f area localPsiBound cellSource))).

  (** Transport.cc:693-706: signed face areas. *)
  Definition signedAreas (faceArea omegaN : q4 T) : q4 T :=
    Q4 (r0 faceArea *' r0 omegaN) (r1 faceArea *' r1 omegaN) (r2 faceArea *' r2 omegaN) (r3 faceArea *' r3 omegaN).
  (** Transport.cc:714-724: the system of one group. [c2f face vertex] is getCellToFaceVrtx of the cell,
      [localPsiBound fvrtx face] and [localSource vertex] are the data of the group. *)
  Definition cellMatrix (volume : T) (area : q4 T) (sigmaTotal : T) : mat :=
    let z := azero A in let zr := Q4 z z z z in
    calcOutgoingFlux area (calcVolumeIntegrals volume area sigmaTotal (Q4 zr zr zr zr)).
  Definition cellRhs (volume : T) (area : q4 T) (c2f : nat -> nat -> nat) (localPsiBound : nat -> nat -> T) (localSource : nat -> T) : q4 T :=
    calcIncomingFlux c2f area localPsiBound (calcSource volume localSource).
  (** Transport.cc:710-727. *)
  Definition solveGroup (g : gaussElim) (volume : T) (area : q4 T) (sigmaTotal : T) (c2f : nat -> nat -> nat)
      (localPsiBound : nat -> nat -> T) (localSource : nat -> T) : option (q4 T) :=
    gaussElim4 A g (cellMatrix volume area sigmaTotal) (cellRhs volume area c2f localPsiBound localSource).
  (** Transport.cc:687-733. Arrays indexed by group last: [localPsiBound fvrtx face group], [localSource vertex group];
      [localPsi vertex group] is overwritten for every group below [nGroups]; [None] when an Assert fails. *)
  Definition putGroup (localPsi : nat -> nat -> T) (group : nat) (solution : q4 T) : nat -> nat -> T :=
    fun v g => if Nat.eqb g group && Nat.ltb v 4 then get4 solution v else localPsi v g.
  Definition solve (g : gaussElim) (nGroups : nat) (volume : T) (faceArea omegaN : q4 T) (sigmaTotal : T) (c2f : nat -> nat -> nat)
      (localPsiBound : nat -> nat -> nat -> T) (localSource : nat -> nat -> T) (localPsi : nat -> nat -> T) : option (nat -> nat -> T) :=
    let area := signedAreas faceArea omegaN in
    fold_left (fun st group => let* p := st in
        let* sol := solveGroup g volume area sigmaTotal c2f (fun fv f => localPsiBound fv f group) (fun v => localSource v group) in
        Some (putGroup p group sol)) (seq 0 nGroups) (Some localPsi).
End Transport.
