(** The transport problem on a serial mesh, without ranks. *)
From Coq Require Import Reals.
From Verif Require Import Prelude Bytes MeshModel MeshSpec CreateSpec TychoModel TychoSpec RefineSpec GeometrySpec TransportSpec FluxSpec EnergySpec.

Section Serial.
  Variables (sm : smesh) (dec : N -> R).
  (** Coordinates of nodes, corners of cells and faces. *)
  Definition s_point (n : N) : option (q3 R) := option_map (fun s => let p := sn_coords s in Q3 (dec (t0 p)) (dec (t1 p)) (dec (t2 p))) (SM_node sm n).
  Definition s_cell (g : N) (p : q4 (q3 R)) : Prop := exists sc, SM_cell sm g = Some sc /\ map s_point (q4l (sc_nodes sc)) = map Some (q4l p).
  Definition s_face (f : N) (F : q3 (q3 R)) : Prop := exists sf, SM_face sm f = Some sf /\ map s_point (q3l (sf_nodes sf)) = map Some (q3l F).
  (** Cells are tetrahedra with volume, and do not overlap. *)
  Record solid : Prop := {
    sol_volume : forall g p, s_cell g p -> vol6 p <> 0%R;
    sol_apart : forall g h p q x, g <> h -> s_cell g p -> s_cell h q -> strictly_inside p x -> strictly_inside q x -> False
  }.
  (** Comparison of coordinates as numbers (no NaN). *)
  Definition compares (ltb : N -> N -> bool) : Prop := forall n n' s s' x y, SM_node sm n = Some s -> SM_node sm n' = Some s' ->
    In x (q3l (sn_coords s)) -> In y (q3l (sn_coords s')) -> (ltb x y = true <-> (dec x < dec y)%R).
  (** Signed area: area times component of [om] along the outward unit normal, of the face of cell [g] opposite vertex [lf]. *)
  Definition s_signed (om : q3 R) (g : N) (lf : nat) (x : R) : Prop :=
    exists p f sf F n, s_cell g p /\ s_opposite sm g lf f sf /\ s_face f F /\ outward_unit_normal p lf F n /\ x = (sqrt (heron16 F) / 4 * dotR om n)%R.
  (** [h] is the cell across face [lf] of [g]. *)
  Definition s_next (g : N) (lf : nat) (h : N) : Prop := exists f sf, s_opposite sm g lf f sf /\ s_across sf g = h /\ h <> INVALID.
  (** No direction is tangent to a face between cells. *)
  Definition transversal (nAngles : nat) (om : nat -> q3 R) : Prop := forall a g lf h x, a < nAngles -> s_next g lf h -> s_signed (om a) g lf x -> x <> 0%R.
  (** No cycles: some level decreases upwind. *)
  Definition s_acyclic (nAngles : nat) (om : nat -> q3 R) : Prop := exists lvl : nat -> N -> nat, forall a g lf h x,
    a < nAngles -> s_next g lf h -> s_signed (om a) g lf x -> (x < 0)%R -> lvl a h < lvl a g.
  (** [y] is the value of the field beyond face [lf] of [g], at vertex [j]; nothing enters from outside. *)
  Definition s_beyond (psi : N -> nat -> R) (g : N) (lf j : nat) (y : R) : Prop :=
    ((forall h, ~ s_next g lf h) /\ y = 0%R) \/
    exists h sc sh k n, s_next g lf h /\ SM_cell sm g = Some sc /\ SM_cell sm h = Some sh /\
      nth_error (q4l (sc_nodes sc)) j = Some n /\ nth_error (q4l (sc_nodes sh)) k = Some n /\ y = psi h k.
  (** The DG system of a cell; [psi] is by cell and vertex. *)
  Definition s_dg (om : q3 R) (sigma : R) (Q : nat -> R) (psi : N -> nat -> R) (g : N) : Prop :=
    exists p area nb, s_cell g p /\ (forall lf, lf < 4 -> s_signed om g lf (area lf)) /\
      (forall lf j, lf < 4 -> j < 4 -> j <> lf -> ~ (area lf > 0)%R -> s_beyond psi g lf j (nb lf j)) /\
      dg (Rabs (vol6 p) / 6) area sigma Q nb (psi g).
  (** Fields over the serial mesh: angle, group, cell, vertex. *)
  Notation field := (nat -> nat -> N -> nat -> R).
  Variables (nAngles nGroups : nat) (om : nat -> q3 R) (sigma : N -> R).
  (** The transport equation with source [Q]. *)
  Definition s_transport (Q psi : field) : Prop := forall a G g sc, a < nAngles -> G < nGroups -> SM_cell sm g = Some sc ->
    s_dg (om a) (sigma g) (Q a G g) (psi a G) g.
  Definition s_flux (wt : nat -> R) (psi : field) (G : nat) (g : N) (v : nat) : R := overAngles nAngles wt (fun b => psi b G g v).
  (** The same with isotropic scattering. *)
  Definition s_scattering (pi : R) (wt : nat -> R) (sigmaS : N -> R) (Q psi : field) : Prop :=
    s_transport (fun a G g v => scattered pi (sigmaS g) (Q a G g v) (s_flux wt psi G g v)) psi.
  Definition s_same (psi psi' : field) : Prop := forall a G g sc v, a < nAngles -> G < nGroups -> SM_cell sm g = Some sc -> v < 4 -> psi a G g v = psi' a G g v.
  (** What a transport problem on the mesh needs. *)
  Record problem_ok : Prop := {
    pb_mesh : serial_mesh_ok sm; pb_tets : tets_ok sm; pb_solid : solid; pb_transversal : transversal nAngles om; pb_acyclic : s_acyclic nAngles om;
    pb_sigma : forall g sc, SM_cell sm g = Some sc -> (0 < sigma g)%R }.
  (** Volume, and squared L2 norm weighted with the total cross section of a group of a scalar flux (group, cell, vertex). *)
  Definition s_volume (g : N) : R :=
    match SM_cell sm g with
    | Some sc => let n := sc_nodes sc in match s_point (r0 n), s_point (r1 n), s_point (r2 n), s_point (r3 n) with
        | Some a, Some b, Some c, Some d => Rabs (vol6 (Q4 a b c d)) / 6 | _, _, _, _ => 0 end
    | None => 0
    end%R.
  Definition s_norm (phi : nat -> N -> nat -> R) (G : nat) : R :=
    lsum (map N.of_nat (seq 0 (length (sm_cells sm)))) (fun g => (sigma g * massForm (s_volume g) (phi G g) (phi G g))%R).
  (** Quadrature weights, and scattering at most [k] times the total cross section. *)
  Definition s_scatters (pi : R) (wt : nat -> R) (k : R) (sigmaS : N -> R) : Prop :=
    (0 < pi /\ (forall a, (a < nAngles)%nat -> 0 <= wt a) /\ 0 < overAngles nAngles wt (fun _ => 1) /\ 0 <= k /\
     forall g sc, SM_cell sm g = Some sc -> 0 <= sigmaS g /\ overAngles nAngles wt (fun _ => 1) / (4 * pi) * sigmaS g <= k * sigma g)%R.
End Serial.

(** The meshes of the ranks together. *)
Section Ranks.
  Variables (sm : smesh) (np : nat) (t : nat -> tmesh).
  (** Global number of the face of cell [g] opposite vertex [lf]. *)
  Definition faceNumber (g : N) (lf : nat) : option N :=
    let* sc := SM_cell sm g in
    let* v := nth_error (q4l (sc_nodes sc)) lf in
    find (fun f => match SM_face sm f with Some sf => negb (existsb (N.eqb v) (q3l (sf_nodes sf))) | None => false end) (q4l (sc_faces sc)).
  Definition allSites : list (nat * nat * nat) :=
    flat_map (fun r => list_prod (list_prod [r] (seq 0 (tm_nCells (t r)))) (seq 0 4)) (seq 0 np).
  Definition siteFace (x : nat * nat * nat) : option N :=
    let '(r, c, f) := x in let* g := getLGCell (t r) c in faceNumber g f.
  (** The other site with the same face. *)
  Definition mateOf (x : nat * nat * nat) : option (nat * nat * nat) :=
    if (fst (fst x) <? np) && (snd x <? 4) then
      let* f := siteFace x in
      find (fun y => negb ((fst (fst y) =? fst (fst x)) && (snd (fst y) =? snd (fst x))) &&
                     match siteFace y with Some f' => (f' =? f)%N | None => false end) allSites
    else None.
  (** Global node of a vertex. *)
  Definition nodeOf (r c v : nat) : option N :=
    let* g := getLGCell (t r) c in let* sc := SM_cell sm g in nth_error (q4l (sc_nodes sc)) v.
End Ranks.
