(** Specification of the containers: a map from multi-indices to values,
    independent of any linear layout. *)
From Verif Require Import Prelude.
From Verif Require Import LayoutModel.
Local Open Scope N_scope.

(** Mixed-radix digits of a raw position: group fastest, then vertex, angle, cell. *)
Definition digits4 (ng nv na i : N) : N * N * N * N :=
  (i mod ng, (i / ng) mod nv, (i / (ng * nv)) mod na, i / (ng * nv * na)).

Definition arr4 (T : Type) := N -> N -> N -> N -> T.

Definition spec_step {T} (ng nv na nc : N) (m : arr4 T) (o : op4 T) : arr4 T :=
  match o with
  | WAt g v a c x => fun g' v' a' c' =>
      if (g' =? g) && (v' =? v) && (a' =? a) && (c' =? c) then x else m g' v' a' c'
  | WRaw i x => fun g' v' a' c' =>
      let '(g, v, a, c) := digits4 ng nv na i in
      if (g' =? g) && (v' =? v) && (a' =? a) && (c' =? c) then x else m g' v' a' c'
  | WAll x => fun _ _ _ _ => x
  end.

(** An operation whose asserted preconditions hold. *)
Definition op4_ok {T} (ng nv na nc : N) (o : op4 T) : Prop :=
  match o with
  | WAt g v a c _ => g < ng /\ v < nv /\ a < na /\ c < nc
  | WRaw i _ => i < ng * nv * na * nc
  | WAll _ => True
  end.
