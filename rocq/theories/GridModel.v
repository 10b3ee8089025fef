(** The double operations of util/RefineSerialMesh.cc on the bits of the coordinates. *)
From Coq Require Import ZArith Reals.
From Flocq Require Import Core IEEE754.BinarySingleNaN IEEE754.Binary IEEE754.Bits.
From Verif Require Import Prelude MeshModel GeometryModel RefineModel DoubleModel.

Definition dbits (x : binary64) : N := Z.to_N (bits_of_b64 x).
(** Lines 225-231: 0.5 * (a + b). *)
Definition gmid (x y : N) : N := dbits (amul Dops (ahalf Dops) (aadd Dops (ddec x) (ddec y))).
(** Line 375: difference. *)
Definition gsub (x y : N) : N := dbits (asub Dops (ddec x) (ddec y)).
(** Line 71: TOL = 1e-14 * graphDiameter; 0x3D06849B86A12B9B is the double nearest to 1e-14. *)
Definition gtol (d : N) : binary64 := amul Dops (b64_of_bits 0x3D06849B86A12B9B) (ddec d).
(** Lines 72-83: a < b - TOL, a > b + TOL. *)
Definition gltMinus (d x y : N) : bool := agt Dops (asub Dops (ddec y) (gtol d)) (ddec x).
Definition ggtPlus (d x y : N) : bool := agt Dops (ddec x) (aadd Dops (ddec y) (gtol d)).
(** Lines 190-201: distanceBetweenNodes. *)
Definition gdist (p q : q3 N) : N :=
  let sq (a b : N) := let diff := asub Dops (ddec a) (ddec b) in amul Dops diff diff in
  dbits (asqrt Dops (aadd Dops (aadd Dops (aadd Dops (azero Dops) (sq (t0 p) (t0 q))) (sq (t1 p) (t1 q))) (sq (t2 p) (t2 q)))).
(** Lines 358-360: numeric_limits<double>::max() and its negative. *)
Definition gmax : N := 0x7FEFFFFFFFFFFFFF.
Definition gmin : N := 0xFFEFFFFFFFFFFFFF.
(** refineMesh in double precision. *)
Definition refineMeshD (name0 : list N) (version0 : N) (sm : smesh) : option smesh := refineMesh gmid dltb gdist gmax gmin gltMinus ggtPlus gsub name0 version0 sm.
(** The utility run [k] times, each time on the mesh written before. *)
Fixpoint refineTimesD (name0 : list N) (version0 : N) (k : nat) (sm : smesh) : option smesh :=
  match k with
  | 0%nat => Some sm
  | S k => match refineMeshD name0 version0 sm with None => None | Some rm => refineTimesD name0 version0 k rm end
  end.
