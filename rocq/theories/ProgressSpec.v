(** How a user reads what a solver printed. *)
From Verif Require Import Prelude JacobiModel ProgressModel.

Section Read.
  Context {T : Type}.
  (** The lines "iteration: ... error: ..." with their two numbers. *)
  Fixpoint shown (l : list (line T)) : list (N * T) := match l with [] => [] | LIteration i e :: l' => (i, e) :: shown l' | _ :: l' => shown l' end.
  (** The lines "Relative error: ...". *)
  Fixpoint relatives (l : list (line T)) : list T := match l with [] => [] | LRelative e :: l' => e :: relatives l' | _ :: l' => relatives l' end.
  (** How many sweeps printed their timers. *)
  Fixpoint sweeps (l : list (line T)) : nat := match l with [] => 0 | LTimers :: l' => S (sweeps l') | _ :: l' => sweeps l' end.
  (** How often a source iteration ended, with the number its average time was formed with. *)
  Fixpoint solves (l : list (line T)) : list N := match l with [] => [] | LAverage n :: l' => n :: solves l' | _ :: l' => solves l' end.
  (** The number in the lines "      PBJ Iters: ...". *)
  Fixpoint pbjSweeps (l : list (line T)) : list N := match l with [] => [] | LPbjSweep n :: l' => n :: pbjSweeps l' | _ :: l' => pbjSweeps l' end.

  (** The lines show [its] iterations, counted from zero; the iteration went on while the change was above [errMax] ([first] stands for the change
      before the first iteration) and stopped at [iterMax] or when it was not. *)
  Definition reports (gt : T -> T -> bool) (first errMax : T) (iterMax : N) (l : list (line T)) (its : N) : Prop :=
    N.of_nat (length (shown l)) = its /\ (its <= iterMax)%N /\
    (forall k n e, nth_error (shown l) k = Some (n, e) -> n = N.of_nat k) /\
    (forall k e, nth_error (first :: map snd (shown l)) k = Some e -> k < length (shown l) -> gt e errMax = true) /\
    ((its < iterMax)%N -> gt (last (map snd (shown l)) first) errMax = false).
  (** One pair of entries per iteration, then the two times. *)
  Definition lines_of (entries : list (N * T)) : list (line T) :=
    flat_map (fun p => [LTimers; LIteration (fst p) (snd p)]) entries ++ [LSourceTime; LAverage (N.of_nat (length entries))].
  (** The number printed as "PBJ Iters" for these changes: their number, if the last of them and no other is below the bound; otherwise none is
      below, the limit was reached, and the number is one more than was done. *)
  Definition pbj_reports (below : T -> bool) (limit n : N) (changes : list T) : Prop :=
    ((n < limit)%N /\ n = N.of_nat (length changes) /\ exists pre e, changes = pre ++ [e] /\ below e = true /\ Forall (fun x => below x = false) pre) \/
    (n = N.max 1 limit /\ n = N.succ (N.of_nat (length changes)) /\ Forall (fun x => below x = false) changes).
End Read.

(** The sweeps among the operations of a block Jacobi solver. *)
Fixpoint swept (ops : list op) : nat := match ops with [] => 0 | OSweep :: l => S (swept l) | _ :: l => swept l end.
