(** C85: the exact sums that the scalar flux and the measure of convergence stand for, and how far doubles may
    be from them. *)
From Coq Require Import Reals.
From Flocq Require Import Core.
From Verif Require Import Prelude FluxSpec.
Local Open Scope R_scope.

(** The gap between 1 and the next double, and the smallest positive double. *)
Definition gap : R := bpow radix2 (-52).
Definition tiny : R := bpow radix2 (-1074).
(** Sum over all values of the scalar flux: ranks, their cells, vertices, groups; and the number of them. *)
Definition overAll (np : nat) (nC : nat -> nat) (nG : nat) (f : nat -> nat -> nat -> nat -> R) : R :=
  lsum (seq 0 np) (fun r => lsum (seq 0 (nC r)) (fun c => lsum (seq 0 4) (fun v => lsum (seq 0 nG) (fun g => f r c v g)))).
Definition number (np : nat) (nC : nat -> nat) (nG : nat) : R := overAll np nC nG (fun _ _ _ _ => 1).
(** Relative change of the scalar flux in the L1 norm. *)
Definition change (np : nat) (nC : nat -> nat) (nG : nat) (new old : nat -> nat -> nat -> nat -> R) : R :=
  overAll np nC nG (fun r c v g => Rabs (new r c v g - old r c v g)) / overAll np nC nG (fun r c v g => Rabs (new r c v g)).
