(** Specification for the column partitioner. *)
From Coq Require Import Permutation.
From Verif Require Import Prelude.

(** Share number [i] of [size] things split as evenly as possible over [n]. *)
Definition share (size n i : nat) : nat := size / n + (if i <? size mod n then 1 else 0).

(** What std::sort guarantees: a permutation without inversions. *)
Definition no_inversion {A} (lt : A -> A -> bool) (l : list A) : Prop :=
  forall i j a b, i < j -> nth_error l i = Some a -> nth_error l j = Some b -> lt b a = false.
Definition is_sort {A} (lt : A -> A -> bool) (f : list A -> list A) : Prop :=
  forall l, Permutation l (f l) /\ no_inversion lt (f l).

(** Number of cells with a property. *)
Definition count_cells (n : nat) (p : nat -> bool) : nat := length (filter p (seq 0 n)).
