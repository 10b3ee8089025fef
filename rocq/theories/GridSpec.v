(** Meshes whose midpoints are doubles. *)
From Coq Require Import ZArith Reals.
From Flocq Require Import Core IEEE754.BinarySingleNaN IEEE754.Binary IEEE754.Bits.
From Verif Require Import Prelude Bytes MeshModel MeshSpec CreateSpec DoubleModel.

(** The number a 64-bit pattern stands for. *)
Definition number (x : N) : R := B2R 53 1024 (ddec x).
(** Every coordinate is a finite double and an even multiple, by at most 2 b, of 2^e. *)
Definition grid_mesh (sm : smesh) (b e : Z) : Prop := forall n s x, SM_node sm n = Some s -> In x (q3l (sn_coords s)) ->
  is_finite 53 1024 (ddec x) = true /\ exists m : Z, (Z.abs m <= b)%Z /\ number x = (IZR (2 * m) * bpow radix2 e)%R.
