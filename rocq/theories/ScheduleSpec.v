(** What a precomputed schedule must be. *)
From Verif Require Import Prelude TraverseModel TraverseSpec.

(** The two sides of a face agree on the flow (up to the tolerance of each side). *)
Definition in_sync (angles : list nat) (over under : nat -> nat -> nat -> nat -> bool) (mate : site -> option site) : Prop :=
  forall g r c f q c' f', In g angles -> mate (r, c, f) = Some (q, c', f') ->
    under q g c' f' = over r g c f /\ over r g c f && under r g c f = false.

Section Spec.
  Variables (over : nat -> nat -> nat -> nat -> bool) (mate : site -> option site).
  (** At angle [g] radiation flows from cell [y] to cell [x]: (rank, cell). *)
  Definition flows (g : nat) (y x : nat * nat) : Prop :=
    exists f f', mate (fst y, snd y, f) = Some (fst x, snd x, f') /\ over (fst y) g (snd y) f = true.
  Definition no_cycle (angles : list nat) : Prop := exists lvl : nat -> nat * nat -> nat,
    forall g y x, In g angles -> flows g y x -> lvl g y < lvl g x.
  (** [x] is downwind of [y], in one or more steps. *)
  Inductive below (g : nat) (y : nat * nat) : nat * nat -> Prop :=
  | below_one x : flows g y x -> below g y x
  | below_more x z : below g y x -> flows g x z -> below g y z.
  (** A path of [n] downwind steps. *)
  Inductive downwind (g : nat) : nat * nat -> nat -> Prop :=
  | dw_here x : downwind g x 0
  | dw_step x y n : flows g x y -> downwind g y n -> downwind g x (S n).
  Definition longest_downwind (g : nat) (x : nat * nat) (n : nat) : Prop :=
    downwind g x n /\ forall m, downwind g x m -> m <= n.

  (** [scheduled L r k i c g]: pair (c, g) is entry [i] of step [k] on rank [r]. *)
  Definition scheduled (L : list (nat -> list (nat * nat))) (r k i c g : nat) : Prop :=
    exists w, nth_error L k = Some w /\ nth_error (w r) i = Some (c, g).
End Spec.
