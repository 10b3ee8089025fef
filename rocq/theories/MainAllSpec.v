(** C72: what is assumed of the linear solver, and which decks make a method exact. *)
From Coq Require Import Reals.
From Verif Require Import Prelude DeckModel MeshModel TychoModel GeometryModel TraverseModel ViewModel SchurModel MainModel.

Section Ksp.
  Variables (np nG : nat) (cells : nat -> nat) (unknowns : nat -> N).
  Notation GPhi := (nat -> nat -> nat -> nat -> R).
  Notation GVec := (nat -> N -> R).
  (** Equal in all entries that the vectors have: cells, vertices and groups of all ranks; interface unknowns of all ranks. *)
  Definition phi_same (x y : GPhi) : Prop := forall r c v G, r < np -> c < cells r -> v < 4 -> G < nG -> x r c v G = y r c v G.
  Definition vec_same (x y : GVec) : Prop := forall r i, r < np -> (i < unknowns r)%N -> x r i = y r i.
  (** A linear solver that returns exact solutions only, of whatever operator: some call of the operator on the result gives the right-hand side. *)
  Record exact_solver (kspPhi : (GPhi -> GPhi -> Prop) -> GPhi -> GPhi -> Prop) (kspVec : (GVec -> GVec -> Prop) -> GVec -> GVec -> Prop)
      (kspBoth : (GVec -> GPhi -> GVec -> GPhi -> Prop) -> GVec -> GPhi -> GVec -> GPhi -> Prop) : Prop := {
    xs_phi : forall op b x, kspPhi op b x -> exists b', op x b' /\ phi_same b' b;
    xs_vec : forall op b x, kspVec op b x -> exists b', op x b' /\ vec_same b' b;
    xs_both : forall op b f x y, kspBoth op b f x y -> exists b' f', op x y b' f' /\ vec_same b' b /\ phi_same f' f }.
  (** One that returns a solution when there is one. *)
  Record complete_solver (kspPhi : (GPhi -> GPhi -> Prop) -> GPhi -> GPhi -> Prop) (kspVec : (GVec -> GVec -> Prop) -> GVec -> GVec -> Prop)
      (kspBoth : (GVec -> GPhi -> GVec -> GPhi -> Prop) -> GVec -> GPhi -> GVec -> GPhi -> Prop) : Prop := {
    cs_phi : forall (op : GPhi -> GPhi -> Prop) b, (exists x b', op x b' /\ phi_same b' b) -> exists x, kspPhi op b x;
    cs_vec : forall (op : GVec -> GVec -> Prop) b, (exists x b', op x b' /\ vec_same b' b) -> exists x, kspVec op b x;
    cs_both : forall (op : GVec -> GPhi -> GVec -> GPhi -> Prop) b f, (exists x y b' f', op x y b' f' /\ vec_same b' b /\ phi_same f' f) -> exists x y, kspBoth op b f x y }.
End Ksp.

(** Block Jacobi done to the end: it may not stop before all values have crossed all interfaces. *)
Definition exhaustive (cells : nat) (cfg : config R) : Prop := (cDdErrMax cfg <= 0)%R /\ (N.of_nat cells < cDdIterMax cfg)%N.
(** The deck names a solver whose sweep is a complete one. *)
Definition whole_sweeps (cells : nat) (cfg : config R) : Prop :=
  match cSweep cfg with TraverseGraph | OriginalTycho1 | OriginalTycho2 | Schur => True | PBJ => exhaustive cells cfg | _ => False end.
(** The deck names a solver that does not iterate (but for the linear solver). *)
Definition direct (cells : nat) (cfg : config R) : Prop :=
  cSweep cfg = SchurKrylov \/ (cUseSI cfg = false /\ (whole_sweeps cells cfg \/ cSweep cfg = SchurOuter)).
