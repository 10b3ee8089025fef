(** IEEE 754 double precision as the arithmetic of the models: binary64 of Flocq, rounding to nearest even. The code computes in
    [double] throughout; the compiler must not contract or reassociate expressions. *)
From Coq Require Import ZArith Reals.
From Flocq Require Import Core IEEE754.BinarySingleNaN IEEE754.Binary IEEE754.Bits.
From Verif Require Import Prelude MeshModel GeometryModel.

Definition D_of_Z (z : Z) : binary64 := binary_normalize 53 1024 eq_refl eq_refl mode_NE z 0 false.
Definition Dops : arith binary64 := mkArith binary64
  (b64_plus mode_NE) (b64_minus mode_NE) (b64_mult mode_NE) (b64_div mode_NE) b64_opp b64_abs (b64_sqrt mode_NE)
  (fun a b => match b64_compare a b with Some Gt => true | _ => false end)
  (fun a b => match b64_compare a b with Some Eq => true | _ => false end)
  (D_of_Z 0) (b64_of_bits 0x3FE0000000000000) (D_of_Z 1) (D_of_Z 6) D_of_Z.
(** The double with these bits, as the mesh file stores it; [<] on doubles. *)
Definition ddec (n : N) : binary64 := b64_of_bits (Z.of_N n).
Definition dltb (x y : N) : bool := match b64_compare (ddec x) (ddec y) with Some Lt => true | _ => false end.
