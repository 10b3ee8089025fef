(** When the signs of the flow computed in double precision can be trusted. *)
From Coq Require Import ZArith Reals.
From Flocq Require Import Core IEEE754.BinarySingleNaN IEEE754.Binary IEEE754.Bits.
From Verif Require Import Prelude Bytes MeshModel MeshSpec CreateSpec TychoSpec GeometryModel DoubleModel BitsSpec.

(** Coordinates are finite. *)
Definition coords_finite (sm : smesh) : Prop := forall n s x, SM_node sm n = Some s -> In x (q3l (sn_coords s)) -> is_finite 53 1024 (ddec x) = true.
(** Computed unit normal of a triangle, before it is turned outwards. *)
Definition triNormal {T : Type} (A : arith T) (F : q3 (q3 T)) : q3 T :=
  let c := getCrossProduct A (vsub A (t1 F) (t0 F)) (vsub A (t2 F) (t0 F)) in
  let l := asqrt A (vdot A c c) in Q3 (adiv A (t0 c) l) (adiv A (t1 c) l) (adiv A (t2 c) l).
(** The computed side of [v]: above or not. *)
Definition above {T : Type} (A : arith T) (F : q3 (q3 T)) (v : q3 T) : bool := agt A (vdot A (triNormal A F) (vsub A v (t0 F))) (azero A).
(** [F]: corners of the face [lf] of cell [g]; [v]: its vertex off the face. *)
Definition apex (sm : smesh) (g : N) (lf : nat) (F : q3 (q3 binary64)) (v : q3 binary64) : Prop := exists P, b_face sm ddec g lf = Some F /\ b_cell sm ddec g = Some P /\ vertIndex Dops F P = Some v.
(** At each face between two cells one apex is computed to be above, the other not, and the computed scalar product of each direction
    with the normal is finite and not zero. *)
Definition decided (sm : smesh) (nA : nat) (om : nat -> q3 binary64) : Prop := forall g lf h lf' f sf, s_opposite sm g lf f sf -> s_opposite sm h lf' f sf -> g <> h ->
  exists F v w, apex sm g lf F v /\ apex sm h lf' F w /\ above Dops F v = negb (above Dops F w) /\
    forall a, a < nA -> let d := vdot Dops (om a) (triNormal Dops F) in is_finite 53 1024 d = true /\ B2R 53 1024 d <> 0%R.
