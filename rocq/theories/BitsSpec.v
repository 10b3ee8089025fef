(** What a sweep computes on the serial mesh in whatever arithmetic the program uses (double precision, say): the
    recursion over cells, without ranks. *)
From Verif Require Import Prelude Bytes MeshModel MeshSpec CreateSpec TychoSpec GeometryModel GaussModel TransportModel SweepModel ViewModel ViewSpec.

Section Bits.
  Context {T : Type}.
  Variables (A : arith T) (sm : smesh) (dec : N -> T) (om : nat -> q3 T).
  (** Coordinates; corners of a cell and of the face opposite a vertex, in the order of the mesh file. *)
  Definition b_point (n : N) : option (q3 T) := option_map (fun s => decPoint dec (sn_coords s)) (SM_node sm n).
  Definition b_cell (g : N) : option (q4 (q3 T)) :=
    let* sc := SM_cell sm g in let n := sc_nodes sc in
    let* a := b_point (r0 n) in let* b := b_point (r1 n) in let* c := b_point (r2 n) in let* d := b_point (r3 n) in Some (Q4 a b c d).
  Definition b_face (g : N) (lf : nat) : option (q3 (q3 T)) :=
    let* f := faceNumber sm g lf in let* sf := SM_face sm f in let n := sf_nodes sf in
    let* a := b_point (t0 n) in let* b := b_point (t1 n) in let* c := b_point (t2 n) in Some (Q3 a b c).
  (** Computed volumes, areas, Omega.n and the side of the flow. *)
  Definition b_volume (g : N) : T := orZero A (option_map (getTetVolume A) (b_cell g)).
  Definition b_area (g : N) (lf : nat) : T := orZero A (option_map (getTriangleArea A) (b_face g lf)).
  Definition b_omN (a : nat) (g : N) (lf : nat) : T := orZero A (let* F := b_face g lf in let* P := b_cell g in omegaDotN A (om a) F P).
  Definition b_out (a : nat) (g : N) (lf : nat) : bool := agt A (b_omN a g lf) (azero A).
  (** The computed signs at the two sides of a face differ, and the graph they make has no cycles. *)
  Definition signs_ok (nA : nat) : Prop := forall a g lf h lf' f sf, a < nA -> s_opposite sm g lf f sf -> s_opposite sm h lf' f sf -> g <> h ->
    b_out a g lf = negb (b_out a h lf').
  (** Less: no face is outgoing at both sides. *)
  Definition signs_fit (nA : nat) : Prop := forall a g lf h lf' f sf, a < nA -> s_opposite sm g lf f sf -> s_opposite sm h lf' f sf -> g <> h ->
    b_out a g lf = true -> b_out a h lf' = false.
  Definition b_acyclic (nA : nat) : Prop := exists lvl : nat -> N -> nat, forall a g lf h, a < nA -> s_next sm g lf h -> b_out a g lf = false -> lvl a h < lvl a g.

  Variables (gs : gaussElim) (nG : nat) (sigma : N -> T).
  (** Equal up to entries that do not exist. *)
  Definition vsame (x y : value T) : Prop :=
    match x, y with Some p, Some q => forall v G, v < 4 -> G < nG -> p v G = q v G | None, None => True | _, _ => False end.
  (** Incoming data of cell [g]: values of the neighbour at the same node, zero where nothing comes in. *)
  Definition b_inflow (Val : N -> value T) (a : nat) (g : N) (psiB : nat -> nat -> nat -> T) : Prop := forall lf fv G, lf < 4 -> fv < 3 -> G < nG ->
    (b_out a g lf = true \/ (forall h, ~ s_next sm g lf h) -> psiB fv lf G = azero A) /\
    forall h f sf n sh k, b_out a g lf = false -> s_next sm g lf h -> s_opposite sm g lf f sf -> nth_error (q3l (sf_nodes sf)) fv = Some n ->
      SM_cell sm h = Some sh -> nth_error (q4l (sc_nodes sh)) k = Some n -> psiB fv lf G = getBlock A (Val h) k G.
  (** [c2f lf j]: which vertex of the face opposite [lf] is vertex [j] of the cell. *)
  Definition b_c2f (g : N) (c2f : nat -> nat -> nat) : Prop := forall lf f sf sc j k n, s_opposite sm g lf f sf -> SM_cell sm g = Some sc -> j <> lf ->
    nth_error (q4l (sc_nodes sc)) j = Some n -> nth_error (q3l (sf_nodes sf)) k = Some n -> c2f lf j = k.
  (** Every cell holds what the cell solver makes of the source [Q] and its incoming data. *)
  Definition b_sweep (nA : nat) (Q : nat -> N -> block T) (Val : nat -> N -> value T) : Prop := forall a g sc, a < nA -> SM_cell sm g = Some sc ->
    exists psiB c2f, b_inflow (Val a) a g psiB /\ b_c2f g c2f /\
      vsame (Val a g) (solve A gs nG (b_volume g) (four (b_area g)) (four (b_omN a g)) (sigma g) c2f psiB (Q a g) (fun _ _ => azero A)).
  (** What a problem needs in this arithmetic: of the mesh; and that no cell waits for itself. *)
  Record fit_ok (nA : nat) : Prop := { bo_mesh : serial_mesh_ok sm; bo_tets : tets_ok sm; bo_signs : signs_ok nA }.
  Record bits_ok (nA : nat) : Prop := { bo_fit :> fit_ok nA; bo_acyclic : b_acyclic nA }.
End Bits.
