(** Source iteration on the serial mesh, without ranks, in whatever arithmetic the program uses. *)
From Coq Require Import Reals.
From Verif Require Import Prelude Bytes MeshModel MeshSpec CreateSpec GeometryModel GaussModel TransportModel SweepModel ViewModel ViewSpec BitsSpec.

Section Serial.
  Context {T : Type}.
  Variables (A : arith T) (sm : smesh) (dec : N -> T) (om : nat -> q3 T) (nA : nat) (wt : nat -> T) (pi : T) (gs : gaussElim) (nG : nat).
  (** A quantity of material 1 and of material 2 by cell. *)
  Definition by_material (s1 s2 : T) (g : N) : T :=
    match SM_cell sm g with Some sc => if (sc_mat sc =? 1)%N then s1 else s2 | None => azero A end.
  Definition two_materials : Prop := forall g sc, SM_cell sm g = Some sc -> sc_mat sc = 1%N \/ sc_mat sc = 2%N.
  Variables (sigmaT sigmaS : N -> T).
  (** The hat source at the point [p] for the direction [o]. *)
  Definition b_hat (sT sS : T) (p o : q3 T) : T :=
    let h := adiv A (alit A 100) (alit A 2) in
    let d := Q3 (asub A (t0 p) h) (asub A (t1 p) h) (asub A (t2 p) h) in
    let c := asqrt A (aadd A (aadd A (amul A (t0 d) (t0 d)) (amul A (t1 d) (t1 d))) (amul A (t2 d) (t2 d))) in
    let along f u w := amul A (adiv A (f u) (amul A (alit A 30) c)) w in
    if agt A (alit A 30) c || aeq A c (alit A 30) then
      aadd A (asub A (asub A (along (aneg A) (t0 d) (t0 o)) (along (fun u => u) (t1 d) (t1 o))) (along (fun u => u) (t2 d) (t2 o)))
             (amul A (asub A sT sS) (asub A (aone A) (adiv A c (alit A 30))))
    else azero A.
  Definition b_source (a : nat) (g : N) : block T := fun v G =>
    match (let* sc := SM_cell sm g in let* n := nth_error (q4l (sc_nodes sc)) v in b_point sm dec n) with
    | Some p => b_hat (sigmaT g) (sigmaS g) p (om a)
    | None => azero A
    end.
  (** Scalar flux, summed over angles in their order; source plus scattering. *)
  Definition b_flux (Val : nat -> N -> value T) (g : N) (v G : nat) : T :=
    fold_left (fun s a => aadd A s (amul A (getBlock A (Val a g) v G) (wt a))) (seq 0 nA) (azero A).
  Definition b_emission (Val : nat -> N -> value T) (a : nat) (g : N) : block T := fun v G =>
    aadd A (b_source a g v G) (amul A (adiv A (sigmaS g) (amul A (alit A 4) pi)) (b_flux Val g v G)).
  (** The angular flux after [n] sweeps; in no cell does a check of the solver fail. *)
  Inductive b_iterate : nat -> (nat -> N -> value T) -> Prop :=
  | bi_zero : b_iterate 0 (fun _ _ => Some (fun _ _ => azero A))
  | bi_next n Val Val' : b_iterate n Val -> b_sweep A sm dec om gs nG sigmaT nA (b_emission Val) Val' ->
      (forall a g sc, a < nA -> SM_cell sm g = Some sc -> Val' a g <> None) -> b_iterate (S n) Val'.
  (** No face between two cells is nearly parallel to a direction: Omega.n is above [tol] or below its negative, and on one side of zero. *)
  Definition beyond_tol (tol : T) : Prop := forall a g lf h, a < nA -> s_next sm g lf h ->
    agt A (b_omN A sm dec om a g lf) tol = b_out A sm dec om a g lf /\ agt A (aneg A tol) (b_omN A sm dec om a g lf) = negb (b_out A sm dec om a g lf).
  (** The outward normals can be computed. *)
  Definition normals_ok : Prop := forall a g lf F P, a < nA -> lf < 4 -> b_face sm dec g lf = Some F -> b_cell sm dec g = Some P -> omegaDotN A (om a) F P <> None.
End Serial.

(** Where source iteration stops, in exact arithmetic. *)
Section Stop.
  Variables (sm : smesh) (dec : N -> R) (om : nat -> q3 R) (nA : nat) (wt : nat -> R) (pi : R) (gs : gaussElim) (nG : nat) (sigmaT sigmaS : N -> R).
  Definition s_total (f : N -> nat -> nat -> R) : R :=
    fold_right Rplus 0%R (map (fun g => fold_right Rplus 0%R (map (fun v => fold_right Rplus 0%R (map (f (N.of_nat g) v) (seq 0 nG))) (seq 0 4))) (seq 0 (length (sm_cells sm)))).
  (** The change of the scalar flux relative to its size. *)
  Definition s_change (V V' : nat -> N -> value R) : R :=
    (s_total (fun g v G => Rabs (b_flux Rops nA wt V' g v G - b_flux Rops nA wt V g v G)) / s_total (fun g v G => Rabs (b_flux Rops nA wt V' g v G)))%R.
  (** After [n] sweeps, with the change in the last of them; each sweep was made because the change was still above [errMax]. *)
  Inductive s_run (iterMax : nat) (errMax : R) : nat -> R -> (nat -> N -> value R) -> Prop :=
  | sr_zero : s_run iterMax errMax 0 1%R (fun _ _ => Some (fun _ _ => 0%R))
  | sr_next n e V V' : s_run iterMax errMax n e V -> n < iterMax -> (e > errMax)%R ->
      b_sweep Rops sm dec om gs nG sigmaT nA (b_emission Rops sm dec om nA wt pi sigmaT sigmaS V) V' ->
      (forall a g sc, a < nA -> SM_cell sm g = Some sc -> V' a g <> None) -> s_run iterMax errMax (S n) (s_change V V') V'.
  Definition s_ends (iterMax : nat) (errMax : R) (n : nat) (V : nat -> N -> value R) : Prop := exists e, s_run iterMax errMax n e V /\ (n = iterMax \/ e <= errMax)%R.
End Stop.
