(** C59: what the dependent-seeking priorities of a schedule are. *)
From Verif Require Import Prelude TraverseModel TraverseSpec ScheduleSpec.

Section Seek.
  Variables (over : nat -> nat -> nat -> nat -> bool) (mate : site -> option site) (r g : nat).   (* rank, angle *)
  (** Radiation leaves rank [r] from cell [c] over face [f] to cell [x] = (rank, cell). *)
  Definition leaves (c f : nat) (x : nat * nat) : Prop :=
    exists f', mate (r, c, f) = Some (fst x, snd x, f') /\ fst x <> r /\ over r g c f = true.
  (** The table [p] has for every cell the largest of: [value] of the faces over which radiation leaves the rank, and
      [step] of the entries of the downwind cells on the rank; 0 if there are none. *)
  Record seeking (nCells : nat) (value : nat -> nat -> N) (step : N -> N) (p : nat -> N) : Prop := {
    sk_leaves : forall c f x, leaves c f x -> (value c f <= p c)%N;
    sk_flows : forall c c', flows over mate g (r, c) (r, c') -> (step (p c') <= p c)%N;
    sk_least : forall c, c < nCells -> p c = 0%N \/ (exists f x, leaves c f x /\ p c = value c f) \/
      exists c', flows over mate g (r, c) (r, c') /\ p c = step (p c')
  }.
  (** From cell [c] radiation gets, in steps on the rank and then one that leaves it, to cell [x] of another rank. *)
  Inductive exits : nat -> nat * nat -> Prop :=
  | ex_here c f x : leaves c f x -> exits c x
  | ex_step c c' x : flows over mate g (r, c) (r, c') -> exits c' x -> exits c x.
End Seek.
