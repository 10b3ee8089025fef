(** src/Transport.cc:278-677, gaussElim4: the four solvers for 4x4 systems, for an arbitrary arithmetic
    [A]; every floating-point operation is one operation of [A], in the order of the C++ text. *)
From Coq Require Import Reals.
From Verif Require Import Prelude Bytes MeshModel GeometryModel.

(** An array of four elements; the code only uses constant indices below 4. *)
Definition get4 {X} (q : q4 X) (i : nat) : X := match i with 0 => r0 q | 1 => r1 q | 2 => r2 q | _ => r3 q end.
Definition set4 {X} (q : q4 X) (i : nat) (v : X) : q4 X :=
  match i with 0 => Q4 v (r1 q) (r2 q) (r3 q) | 1 => Q4 (r0 q) v (r2 q) (r3 q) | 2 => Q4 (r0 q) (r1 q) v (r3 q) | _ => Q4 (r0 q) (r1 q) (r2 q) v end.
Definition mget {X} (M : q4 (q4 X)) (i j : nat) : X := get4 (get4 M i) j.
Definition mset {X} (M : q4 (q4 X)) (i j : nat) (v : X) : q4 (q4 X) := set4 M i (set4 (get4 M i) j v).

Section Gauss.
  Context {T : Type} (A : arith T).
  Notation "x +' y" := (aadd A x y) (at level 50, left associativity).
  Notation "x -' y" := (asub A x y) (at level 50, left associativity).
  Notation "x *' y" := (amul A x y) (at level 40, left associativity).
  Notation "x /' y" := (adiv A x y) (at level 40, left associativity).
  Notation mat := (q4 (q4 T)).

  (** ** Original (Transport.cc:284-334) *)
  (** 288-297: the row of the largest entry (first one wins) of a column, from the diagonal down. *)
  Definition rowmaxStep (M : mat) (column : nat) (s : nat * T) (row : nat) : nat * T :=
    let '(rowmax, colmax) := s in
    let temp := aabs A (mget M row column) in
    if agt A temp colmax then (row, temp) else (rowmax, colmax).
  Definition rowmaxOf (M : mat) (column : nat) : nat :=
    fst (fold_left (rowmaxStep M column) (seq (column + 1) (4 - (column + 1))) (column, aabs A (mget M column column))).
  (** 299-308: exchange two rows of the matrix and of the right-hand side. *)
  Definition swapStep (rowmax column : nat) (M : mat) (column2 : nat) : mat :=
    let temp := mget M rowmax column2 in
    let M := mset M rowmax column2 (mget M column column2) in
    mset M column column2 temp.
  Definition swapRows (rowmax column : nat) (S : mat * q4 T) : mat * q4 T :=
    let '(M, b) := S in
    if negb (Nat.eqb rowmax column) then
      let M := fold_left (swapStep rowmax column) (seq 0 4) M in
      let temp := get4 b rowmax in
      let b := set4 b rowmax (get4 b column) in
      (M, set4 b column temp)
    else (M, b).
  (** 310-319: divide the column by the pivot, update the next column; a zero pivot fails the Assert. *)
  Definition scaleStep (column : nat) (M : mat) (row : nat) : mat := mset M row column (mget M row column *' mget M column column).
  Definition updStep (column column2 : nat) (M : mat) (row : nat) : mat :=
    mset M row (column + 1) (mget M row (column + 1) -' mget M row column2 *' mget M column2 (column + 1)).
  Definition factorColumn (column : nat) (M : mat) : option mat :=
    if aeq A (mget M column column) (azero A) then None else
    let M := mset M column column (aone A /' mget M column column) in
    let M := fold_left (scaleStep column) (seq (column + 1) (4 - (column + 1))) M in
    Some (fold_left (fun M column2 => fold_left (updStep column column2) (seq (column2 + 1) (4 - (column2 + 1))) M) (seq 0 (column + 1)) M).
  (** 287-320. *)
  Definition elimColumn (column : nat) (S : mat * q4 T) : option (mat * q4 T) :=
    let S := swapRows (rowmaxOf (fst S) column) column S in
    let* M := factorColumn column (fst S) in Some (M, snd S).
  (** 325-328: forward substitution. *)
  Definition forwardSub (M : mat) (b : q4 T) : q4 T :=
    fold_left (fun b column => fold_left (fun b row => set4 b row (get4 b row -' mget M row column *' get4 b column))
                 (seq (column + 1) (4 - (column + 1))) b) (seq 0 3) b.
  (** 330-334: back substitution, the diagonal holds reciprocals. *)
  Definition backSub (M : mat) (b : q4 T) : q4 T :=
    fold_left (fun b column => let b := set4 b column (get4 b column *' mget M column column) in
                 fold_left (fun b row => set4 b row (get4 b row -' mget M row column *' get4 b column)) (rev (seq 0 column)) b) (rev (seq 0 4)) b.
  Definition gaussOriginal (M : mat) (b : q4 T) : option (q4 T) :=
    let* s := elimColumn 0 (M, b) in
    let* s := elimColumn 1 s in
    let* s := elimColumn 2 s in
    let '(M, b) := s in
    (* 322-323 *)
    if aeq A (mget M 3 3) (azero A) then None else
    let M := mset M 3 3 (aone A /' mget M 3 3) in
    Some (backSub M (forwardSub M b)).

  (** ** NoPivot (Transport.cc:338-410) *)
  (** Transport.cc:343-348. *)
  Definition npRow0 (S : mat * q4 T) : mat * q4 T :=
    let '(A0, b) := S in
    let tmp := aone A /' mget A0 0 0 in
    let A0 := mset A0 0 0 (aone A) in
    let A0 := mset A0 0 1 (mget A0 0 1 *' tmp) in
    let A0 := mset A0 0 2 (mget A0 0 2 *' tmp) in
    let A0 := mset A0 0 3 (mget A0 0 3 *' tmp) in
    let b := set4 b 0 (get4 b 0 *' tmp) in
    (A0, b).
  (** Transport.cc:351-356. *)
  Definition npCol01 (S : mat * q4 T) : mat * q4 T :=
    let '(A0, b) := S in
    let tmp := mget A0 1 0 in
    let A0 := mset A0 1 0 (azero A) in
    let A0 := mset A0 1 1 (mget A0 1 1 -' mget A0 0 1 *' tmp) in
    let A0 := mset A0 1 2 (mget A0 1 2 -' mget A0 0 2 *' tmp) in
    let A0 := mset A0 1 3 (mget A0 1 3 -' mget A0 0 3 *' tmp) in
    let b := set4 b 1 (get4 b 1 -' get4 b 0 *' tmp) in
    (A0, b).
  (** Transport.cc:358-363. *)
  Definition npCol02 (S : mat * q4 T) : mat * q4 T :=
    let '(A0, b) := S in
    let tmp := mget A0 2 0 in
    let A0 := mset A0 2 0 (azero A) in
    let A0 := mset A0 2 1 (mget A0 2 1 -' mget A0 0 1 *' tmp) in
    let A0 := mset A0 2 2 (mget A0 2 2 -' mget A0 0 2 *' tmp) in
    let A0 := mset A0 2 3 (mget A0 2 3 -' mget A0 0 3 *' tmp) in
    let b := set4 b 2 (get4 b 2 -' get4 b 0 *' tmp) in
    (A0, b).
  (** Transport.cc:365-370. *)
  Definition npCol03 (S : mat * q4 T) : mat * q4 T :=
    let '(A0, b) := S in
    let tmp := mget A0 3 0 in
    let A0 := mset A0 3 0 (azero A) in
    let A0 := mset A0 3 1 (mget A0 3 1 -' mget A0 0 1 *' tmp) in
    let A0 := mset A0 3 2 (mget A0 3 2 -' mget A0 0 2 *' tmp) in
    let A0 := mset A0 3 3 (mget A0 3 3 -' mget A0 0 3 *' tmp) in
    let b := set4 b 3 (get4 b 3 -' get4 b 0 *' tmp) in
    (A0, b).
  (** Transport.cc:373-377. *)
  Definition npRow1 (S : mat * q4 T) : mat * q4 T :=
    let '(A0, b) := S in
    let tmp := aone A /' mget A0 1 1 in
    let A0 := mset A0 1 1 (aone A) in
    let A0 := mset A0 1 2 (mget A0 1 2 *' tmp) in
    let A0 := mset A0 1 3 (mget A0 1 3 *' tmp) in
    let b := set4 b 1 (get4 b 1 *' tmp) in
    (A0, b).
  (** Transport.cc:380-384. *)
  Definition npCol12 (S : mat * q4 T) : mat * q4 T :=
    let '(A0, b) := S in
    let tmp := mget A0 2 1 in
    let A0 := mset A0 2 1 (azero A) in
    let A0 := mset A0 2 2 (mget A0 2 2 -' mget A0 1 2 *' tmp) in
    let A0 := mset A0 2 3 (mget A0 2 3 -' mget A0 1 3 *' tmp) in
    let b := set4 b 2 (get4 b 2 -' get4 b 1 *' tmp) in
    (A0, b).
  (** Transport.cc:386-390. *)
  Definition npCol13 (S : mat * q4 T) : mat * q4 T :=
    let '(A0, b) := S in
    let tmp := mget A0 3 1 in
    let A0 := mset A0 3 1 (azero A) in
    let A0 := mset A0 3 2 (mget A0 3 2 -' mget A0 1 2 *' tmp) in
    let A0 := mset A0 3 3 (mget A0 3 3 -' mget A0 1 3 *' tmp) in
    let b := set4 b 3 (get4 b 3 -' get4 b 1 *' tmp) in
    (A0, b).
  (** Transport.cc:393-396. *)
  Definition npRow2 (S : mat * q4 T) : mat * q4 T :=
    let '(A0, b) := S in
    let tmp := aone A /' mget A0 2 2 in
    let A0 := mset A0 2 2 (aone A) in
    let A0 := mset A0 2 3 (mget A0 2 3 *' tmp) in
    let b := set4 b 2 (get4 b 2 *' tmp) in
    (A0, b).
  (** Transport.cc:399-402. *)
  Definition npCol23 (S : mat * q4 T) : mat * q4 T :=
    let '(A0, b) := S in
    let tmp := mget A0 3 2 in
    let A0 := mset A0 3 2 (azero A) in
    let A0 := mset A0 3 3 (mget A0 3 3 -' mget A0 2 3 *' tmp) in
    let b := set4 b 3 (get4 b 3 -' get4 b 2 *' tmp) in
    (A0, b).
  (** Transport.cc:405-408. *)
  Definition npBack (S : mat * q4 T) : q4 T :=
    let '(A0, b) := S in
    let b := set4 b 3 (get4 b 3/' mget A0 3 3) in
    let b := set4 b 2 (get4 b 2 -' mget A0 2 3 *' get4 b 3) in
    let b := set4 b 1 (get4 b 1 -' mget A0 1 3 *' get4 b 3 -' mget A0 1 2 *' get4 b 2) in
    let b := set4 b 0 (get4 b 0 -' mget A0 0 3 *' get4 b 3 -' mget A0 0 2 *' get4 b 2 -' mget A0 0 1 *' get4 b 1) in
    b.
  Definition npForward (S : mat * q4 T) : mat * q4 T :=
    npCol23 (npRow2 (npCol13 (npCol12 (npRow1 (npCol03 (npCol02 (npCol01 (npRow0 S)))))))).
  Definition gaussNoPivot (M : mat) (b : q4 T) : q4 T := npBack (npForward (M, b)).

  (** ** CramerGlu (Transport.cc:414-555) *)
  (** Transport.cc:423-533, the 16 entries [inv]. *)
  Definition gluInv (m : nat -> T) (k : nat) : T :=
    match k with
    | 0 => m 5 *' m 10 *' m 15 -' m 5 *' m 11 *' m 14 -' m 9 *' m 6 *' m 15 +' m 9 *' m 7 *' m 14 +' m 13 *' m 6 *' m 11 -' m 13 *' m 7 *' m 10
    | 1 => aneg A (m 1) *' m 10 *' m 15 +' m 1 *' m 11 *' m 14 +' m 9 *' m 2 *' m 15 -' m 9 *' m 3 *' m 14 -' m 13 *' m 2 *' m 11 +' m 13 *' m 3 *' m 10
    | 2 => m 1 *' m 6 *' m 15 -' m 1 *' m 7 *' m 14 -' m 5 *' m 2 *' m 15 +' m 5 *' m 3 *' m 14 +' m 13 *' m 2 *' m 7 -' m 13 *' m 3 *' m 6
    | 3 => aneg A (m 1) *' m 6 *' m 11 +' m 1 *' m 7 *' m 10 +' m 5 *' m 2 *' m 11 -' m 5 *' m 3 *' m 10 -' m 9 *' m 2 *' m 7 +' m 9 *' m 3 *' m 6
    | 4 => aneg A (m 4) *' m 10 *' m 15 +' m 4 *' m 11 *' m 14 +' m 8 *' m 6 *' m 15 -' m 8 *' m 7 *' m 14 -' m 12 *' m 6 *' m 11 +' m 12 *' m 7 *' m 10
    | 5 => m 0 *' m 10 *' m 15 -' m 0 *' m 11 *' m 14 -' m 8 *' m 2 *' m 15 +' m 8 *' m 3 *' m 14 +' m 12 *' m 2 *' m 11 -' m 12 *' m 3 *' m 10
    | 6 => aneg A (m 0) *' m 6 *' m 15 +' m 0 *' m 7 *' m 14 +' m 4 *' m 2 *' m 15 -' m 4 *' m 3 *' m 14 -' m 12 *' m 2 *' m 7 +' m 12 *' m 3 *' m 6
    | 7 => m 0 *' m 6 *' m 11 -' m 0 *' m 7 *' m 10 -' m 4 *' m 2 *' m 11 +' m 4 *' m 3 *' m 10 +' m 8 *' m 2 *' m 7 -' m 8 *' m 3 *' m 6
    | 8 => m 4 *' m 9 *' m 15 -' m 4 *' m 11 *' m 13 -' m 8 *' m 5 *' m 15 +' m 8 *' m 7 *' m 13 +' m 12 *' m 5 *' m 11 -' m 12 *' m 7 *' m 9
    | 9 => aneg A (m 0) *' m 9 *' m 15 +' m 0 *' m 11 *' m 13 +' m 8 *' m 1 *' m 15 -' m 8 *' m 3 *' m 13 -' m 12 *' m 1 *' m 11 +' m 12 *' m 3 *' m 9
    | 10 => m 0 *' m 5 *' m 15 -' m 0 *' m 7 *' m 13 -' m 4 *' m 1 *' m 15 +' m 4 *' m 3 *' m 13 +' m 12 *' m 1 *' m 7 -' m 12 *' m 3 *' m 5
    | 11 => aneg A (m 0) *' m 5 *' m 11 +' m 0 *' m 7 *' m 9 +' m 4 *' m 1 *' m 11 -' m 4 *' m 3 *' m 9 -' m 8 *' m 1 *' m 7 +' m 8 *' m 3 *' m 5
    | 12 => aneg A (m 4) *' m 9 *' m 14 +' m 4 *' m 10 *' m 13 +' m 8 *' m 5 *' m 14 -' m 8 *' m 6 *' m 13 -' m 12 *' m 5 *' m 10 +' m 12 *' m 6 *' m 9
    | 13 => m 0 *' m 9 *' m 14 -' m 0 *' m 10 *' m 13 -' m 8 *' m 1 *' m 14 +' m 8 *' m 2 *' m 13 +' m 12 *' m 1 *' m 10 -' m 12 *' m 2 *' m 9
    | 14 => aneg A (m 0) *' m 5 *' m 14 +' m 0 *' m 6 *' m 13 +' m 4 *' m 1 *' m 14 -' m 4 *' m 2 *' m 13 -' m 12 *' m 1 *' m 6 +' m 12 *' m 2 *' m 5
    | _ => m 0 *' m 5 *' m 10 -' m 0 *' m 6 *' m 9 -' m 4 *' m 1 *' m 10 +' m 4 *' m 2 *' m 9 +' m 8 *' m 1 *' m 6 -' m 8 *' m 2 *' m 5
    end.
  (** 546-552 and 664-671: apply the inverse given as 16 numbers. *)
  Definition applyInv (v : nat -> T) (b : q4 T) : q4 T :=
    let row k := v k *' r0 b +' v (k + 1) *' r1 b +' v (k + 2) *' r2 b +' v (k + 3) *' r3 b in Q4 (row 0) (row 4) (row 8) (row 12).
  Definition gaussGlu (M : mat) (b : q4 T) : q4 T :=
    let m k := mget M (Nat.div k 4) (Nat.modulo k 4) in
    let inv := gluInv m in
    (* 536-542 *)
    let det := m 0 *' inv 0 +' m 1 *' inv 4 +' m 2 *' inv 8 +' m 3 *' inv 12 in
    let det := aone A /' det in
    applyInv (fun i => inv i *' det) b.

  (** ** CramerIntel (Transport.cc:559-673) *)
  (** Transport.cc:572-585. *)
  Definition intelTmp1 (src : nat -> T) (k : nat) : T :=
    match k with
    | 0 => src 10 *' src 15
    | 1 => src 11 *' src 14
    | 2 => src 9 *' src 15
    | 3 => src 11 *' src 13
    | 4 => src 9 *' src 14
    | 5 => src 10 *' src 13
    | 6 => src 8 *' src 15
    | 7 => src 11 *' src 12
    | 8 => src 8 *' src 14
    | 9 => src 10 *' src 12
    | 10 => src 8 *' src 13
    | _ => src 9 *' src 12
    end.
  (** Transport.cc:613-626. *)
  Definition intelTmp2 (src : nat -> T) (k : nat) : T :=
    match k with
    | 0 => src 2 *' src 7
    | 1 => src 3 *' src 6
    | 2 => src 1 *' src 7
    | 3 => src 3 *' src 5
    | 4 => src 1 *' src 6
    | 5 => src 2 *' src 5
    | 6 => src 0 *' src 7
    | 7 => src 3 *' src 4
    | 8 => src 0 *' src 6
    | 9 => src 2 *' src 4
    | 10 => src 0 *' src 5
    | _ => src 1 *' src 4
    end.
  (** Transport.cc:588-610 and 629-651, the 16 cofactors. *)
  Definition intelDst (src : nat -> T) (k : nat) : T :=
    let t1 := intelTmp1 src in let t2 := intelTmp2 src in
    match k with
    | 0 => (t1 0 *' src 5 +' t1 3 *' src 6 +' t1 4 *' src 7) -' (t1 1 *' src 5 +' t1 2 *' src 6 +' t1 5 *' src 7)
    | 1 => (t1 1 *' src 4 +' t1 6 *' src 6 +' t1 9 *' src 7) -' (t1 0 *' src 4 +' t1 7 *' src 6 +' t1 8 *' src 7)
    | 2 => (t1 2 *' src 4 +' t1 7 *' src 5 +' t1 10 *' src 7) -' (t1 3 *' src 4 +' t1 6 *' src 5 +' t1 11 *' src 7)
    | 3 => (t1 5 *' src 4 +' t1 8 *' src 5 +' t1 11 *' src 6) -' (t1 4 *' src 4 +' t1 9 *' src 5 +' t1 10 *' src 6)
    | 4 => (t1 1 *' src 1 +' t1 2 *' src 2 +' t1 5 *' src 3) -' (t1 0 *' src 1 +' t1 3 *' src 2 +' t1 4 *' src 3)
    | 5 => (t1 0 *' src 0 +' t1 7 *' src 2 +' t1 8 *' src 3) -' (t1 1 *' src 0 +' t1 6 *' src 2 +' t1 9 *' src 3)
    | 6 => (t1 3 *' src 0 +' t1 6 *' src 1 +' t1 11 *' src 3) -' (t1 2 *' src 0 +' t1 7 *' src 1 +' t1 10 *' src 3)
    | 7 => (t1 4 *' src 0 +' t1 9 *' src 1 +' t1 10 *' src 2) -' (t1 5 *' src 0 +' t1 8 *' src 1 +' t1 11 *' src 2)
    | 8 => (t2 0 *' src 13 +' t2 3 *' src 14 +' t2 4 *' src 15) -' (t2 1 *' src 13 +' t2 2 *' src 14 +' t2 5 *' src 15)
    | 9 => (t2 1 *' src 12 +' t2 6 *' src 14 +' t2 9 *' src 15) -' (t2 0 *' src 12 +' t2 7 *' src 14 +' t2 8 *' src 15)
    | 10 => (t2 2 *' src 12 +' t2 7 *' src 13 +' t2 10 *' src 15) -' (t2 3 *' src 12 +' t2 6 *' src 13 +' t2 11 *' src 15)
    | 11 => (t2 5 *' src 12 +' t2 8 *' src 13 +' t2 11 *' src 14) -' (t2 4 *' src 12 +' t2 9 *' src 13 +' t2 10 *' src 14)
    | 12 => (t2 2 *' src 10 +' t2 5 *' src 11 +' t2 1 *' src 9) -' (t2 4 *' src 11 +' t2 0 *' src 9 +' t2 3 *' src 10)
    | 13 => (t2 8 *' src 11 +' t2 0 *' src 8 +' t2 7 *' src 10) -' (t2 6 *' src 10 +' t2 9 *' src 11 +' t2 1 *' src 8)
    | 14 => (t2 6 *' src 9 +' t2 11 *' src 11 +' t2 3 *' src 8) -' (t2 10 *' src 11 +' t2 2 *' src 8 +' t2 7 *' src 9)
    | _ => (t2 10 *' src 10 +' t2 4 *' src 8 +' t2 9 *' src 9) -' (t2 8 *' src 9 +' t2 11 *' src 10 +' t2 5 *' src 8)
    end.
  Definition gaussIntel (M : mat) (b : q4 T) : q4 T :=
    (* 564-569: transposed copy *)
    let src k := mget M (Nat.modulo k 4) (Nat.div k 4) in
    let dst := intelDst src in
    (* 654-660 *)
    let det := src 0 *' dst 0 +' src 1 *' dst 1 +' src 2 *' dst 2 +' src 3 *' dst 3 in
    let det := aone A /' det in
    applyInv (fun j => dst j *' det) b.

  (** Global.hh, Transport.cc:281: the option selected by the input deck. *)
  Inductive gaussElim := Original | NoPivot | CramerGlu | CramerIntel.
  Definition gaussElim4 (g : gaussElim) (M : mat) (b : q4 T) : option (q4 T) :=
    match g with
    | Original => gaussOriginal M b
    | NoPivot => Some (gaussNoPivot M b)
    | CramerGlu => Some (gaussGlu M b)
    | CramerIntel => Some (gaussIntel M b)
    end.
End Gauss.
