(** C73: the relative error of a flux on the serial mesh against the hat, with no ranks. Exact arithmetic. *)
From Coq Require Import Reals.
From Verif Require Import Prelude Bytes MeshModel CreateSpec GeometryModel BitsSpec.

Section Serial.
  Variables (sm : smesh) (dec : N -> R) (nA nG : nat).
  (** The average of the corners of a cell; the hat about the centre of the cube of side 100. *)
  Definition s_center (g : N) (c : q3 R) : Prop := exists P, b_cell sm dec g = Some P /\
    c = Q3 ((t0 (r0 P) + t0 (r1 P) + t0 (r2 P) + t0 (r3 P)) / 4)%R ((t1 (r0 P) + t1 (r1 P) + t1 (r2 P) + t1 (r3 P)) / 4)%R ((t2 (r0 P) + t2 (r1 P) + t2 (r2 P) + t2 (r3 P)) / 4)%R.
  Definition s_hat (p : q3 R) : R := Rmax 0 (1 - sqrt ((t0 p - 50) ^ 2 + (t1 p - 50) ^ 2 + (t2 p - 50) ^ 2) / 30).
  (** The average of a flux [psi angle group cell vertex] over the corners. *)
  Definition s_average (psi : nat -> nat -> N -> nat -> R) (a G : nat) (g : N) : R := ((psi a G g 0%nat + psi a G g 1%nat + psi a G g 2%nat + psi a G g 3%nat) / 4)%R.
  Definition s_sum (f : N -> nat -> nat -> R) : R :=
    fold_right Rplus 0%R (map (fun g => fold_right Rplus 0%R (map (fun a => fold_right Rplus 0%R (map (f (N.of_nat g) a) (seq 0 nG))) (seq 0 nA))) (seq 0 (length (sm_cells sm)))).
  (** [e] is the root mean square of the difference relative to that of the flux. (For the zero flux the program divides by zero.) *)
  Definition s_error (psi : nat -> nat -> N -> nat -> R) (e : R) : Prop := exists h,
    (forall g sc, SM_cell sm g = Some sc -> exists c, s_center g c /\ h g = s_hat c) /\
    e = sqrt (s_sum (fun g a G => (s_average psi a G g - h g) ^ 2)%R / s_sum (fun g a G => (s_average psi a G g) ^ 2)%R).
End Serial.
