(** C78: what a comparison of two files of numbers should say. *)
From Coq Require Import ZArith Reals Permutation.
From Flocq Require Import Core IEEE754.Binary IEEE754.Bits.
From Verif Require Import Prelude Bytes GeometryModel DoubleModel.

(** [s] is a sum of the numbers [l], added up in some order and with some parentheses. *)
Inductive added {T : Type} (A : arith T) : list T -> T -> Prop :=
| added_none : added A [] (azero A)
| added_one x : added A [x] x
| added_two l l1 l2 a b : Permutation l (l1 ++ l2) -> added A l1 a -> added A l2 b -> added A l (aadd A a b).
Definition adds {T : Type} (A : arith T) (nsum : list T -> T) : Prop := forall l, added A l (nsum l).

(** The numbers after the first 64 bytes, eight bytes each, lowest first; what is left over does not count. *)
Definition number_of (f : bytes) : nat := (length f - 64) / 8.
Definition number_at {T : Type} (dec : N -> T) (f : bytes) (i : nat) : T := dec (le_word (firstn 8 (skipn (64 + 8 * i) f))).

(** Exact sum of the first [n] terms. *)
Fixpoint upto (n : nat) (t : nat -> R) : R := match n with O => 0%R | S n' => (upto n' t + t n')%R end.
(** The entries of [f1] and [f2] are as close as asked for: in the sum, and each one against the largest entry of [f2]. *)
Definition close (tol : R) (f1 f2 : bytes) (v1 v2 : nat -> R) : Prop :=
  let n := number_of f2 in number_of f1 = n /\ (0 < tol)%R /\
  (upto n (fun i => Rabs (v1 i - v2 i)) < tol * upto n (fun i => Rabs (v2 i)))%R /\
  exists j, j < n /\ forall i, i < n -> (Rabs (v1 i - v2 i) < tol * Rabs (v2 j))%R.
