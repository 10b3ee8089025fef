(** src/Timer.hh:53-124.  Clock readings and sums are real numbers of seconds (sum_wall is a
    double; rounding is not modelled).  A failed Assert is [None]. *)
From Coq Require Import Reals.
From Verif Require Import Prelude.
Local Open Scope R_scope.

(** Lines 55-60. *)
Record timer := mkTimer { tm_begin : R; tm_end : R; tm_on : bool; tm_sum : R; tm_num : N }.

(** The calls that change a timer; start and stop carry the reading of the clock. *)
Inductive tcall := Start (now : R) | Stop (now : R) | Reset.

(** Lines 118-123. *)
Definition tReset (t : timer) : option timer :=
  if tm_on t then None else Some (mkTimer (tm_begin t) (tm_end t) false 0 0).
(** Lines 65-69; time points are default constructed to the epoch of the clock. *)
Definition newTimer : timer := mkTimer 0 0 false 0 0.
(** Lines 72-79. *)
Definition tStart (now : R) (t : timer) : option timer :=
  if tm_on t then None else Some (mkTimer now (tm_end t) true (tm_sum t) (w64 (tm_num t + 1))).
(** Lines 92-98. *)
Definition wallClock (t : timer) : option R := if tm_on t then None else Some (tm_end t - tm_begin t).
(** Lines 82-89. *)
Definition tStop (now : R) (t : timer) : option timer :=
  if tm_on t then
    match wallClock (mkTimer (tm_begin t) now false (tm_sum t) (tm_num t)) with
    | None => None
    | Some d => Some (mkTimer (tm_begin t) now false (tm_sum t + d) (tm_num t))
    end
  else None.
(** Lines 101-106. *)
Definition sumWallClock (t : timer) : option R := if tm_on t then None else Some (tm_sum t).
(** Lines 109-114: UINT converted to int (two's complement). *)
Definition intervals (t : timer) : option Z :=
  if tm_on t then None else
  let m := (Z.of_N (tm_num t) mod 2^32)%Z in Some (if (m <? 2^31)%Z then m else (m - 2^32)%Z).

Definition tcallStep (t : timer) (c : tcall) : option timer :=
  match c with Start a => tStart a t | Stop b => tStop b t | Reset => tReset t end.
Fixpoint tRun (cs : list tcall) (t : timer) : option timer :=
  match cs with [] => Some t | c :: r => match tcallStep t c with None => None | Some t' => tRun r t' end end.
