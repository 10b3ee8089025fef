(** Block Jacobi on the serial mesh, without ranks, in whatever arithmetic the program uses: cells are in parts; values of cells
    in other parts are those of the last exchange. *)
From Verif Require Import Prelude Bytes DeckModel MeshModel MeshSpec CreateSpec GeometryModel GaussModel TransportModel SweepModel ViewModel ViewSpec BitsSpec MainSpec.
From Verif Require Import JacobiModel.

(** [same_part pv]: the partition vector puts the two cells together. *)
Definition same_part (pv : list N) (g h : N) : bool :=
  match owner pv g, owner pv h with Some p, Some q => (p =? q)%N | _, _ => false end.

Section Serial.
  Context {T : Type}.
  Variables (A : arith T) (sm : smesh) (dec : N -> T) (om : nat -> q3 T) (nA : nat) (wt : nat -> T) (pi : T) (gs : gaussElim) (nG : nat).
  Variables (sigmaT sigmaS : N -> T) (together : N -> N -> bool).
  (** What cell [g] sees: new values in its own part, old ones elsewhere. *)
  Definition mixed (Lag Val : nat -> N -> value T) (a : nat) (g h : N) : value T := if together g h then Val a h else Lag a h.
  (** Every cell holds what the cell solver makes of the source [Q] and what the cell sees. *)
  Definition j_sweep (Q : nat -> N -> block T) (Lag Val : nat -> N -> value T) : Prop := forall a g sc, a < nA -> SM_cell sm g = Some sc ->
    exists psiB c2f, b_inflow A sm dec om nG (mixed Lag Val a g) a g psiB /\ b_c2f sm g c2f /\
      vsame nG (Val a g) (solve A gs nG (b_volume A sm dec g) (four (b_area A sm dec g)) (four (b_omN A sm dec om a g)) (sigmaT g) c2f psiB (Q a g) (fun _ _ => azero A)).
  (** No cell waits for itself, if it waits for the cells of its own part only. *)
  Definition parts_acyclic : Prop := exists lvl : nat -> N -> nat, forall a g lf h, a < nA -> s_next sm g lf h -> together g h = true -> b_out A sm dec om a g lf = false -> lvl a h < lvl a g.
  (** Source plus scattering of the scalar flux [phi]. *)
  Definition j_emission (phi : N -> nat -> nat -> T) (a : nat) (g : N) : block T := fun v G =>
    aadd A (b_source A sm dec om sigmaT sigmaS a g v G) (amul A (adiv A (sigmaS g) (amul A (alit A 4) pi)) (phi g v G)).
  (** The angular flux, the angular flux of the last exchange, and the scalar flux. *)
  Record jstate := mkJ { j_val : nat -> N -> value T; j_lag : nat -> N -> value T; j_phi : N -> nat -> nat -> T }.
  Definition j_zero : jstate := mkJ (fun _ _ => Some (fun _ _ => azero A)) (fun _ _ => Some (fun _ _ => azero A)) (fun _ _ _ => azero A).
  (** What the steps of a solver do. In no cell does a check of the cell solver fail. *)
  Inductive follows : list op -> jstate -> jstate -> Prop :=
  | fo_nil s : follows [] s s
  | fo_flux V L F l s : follows l (mkJ V L (b_flux A nA wt V)) s -> follows (OFlux :: l) (mkJ V L F) s
  | fo_sweep V L F V' l s : j_sweep (j_emission F) L V' ->
      (forall a g sc, a < nA -> SM_cell sm g = Some sc -> V' a g <> None) -> follows l (mkJ V' L F) s -> follows (OSweep :: l) (mkJ V L F) s
  | fo_exchange V L F l s : follows l (mkJ V V F) s -> follows (OExchange :: l) (mkJ V L F) s.
End Serial.
Arguments mkJ {T}. Arguments j_val {T}. Arguments j_lag {T}. Arguments j_phi {T}.

(** The order in which the three solvers do things. *)
Fixpoint again {X} (n : nat) (l : list X) : list X := match n with 0 => [] | S n => l ++ again n l end.
(** Sweeps with exchanges in between; either all [n] of them, with an exchange after the last, or the last one ended the loop. *)
Definition jacobi_steps (n : nat) (l : list op) : Prop := l = again n [OSweep; OExchange] \/ exists k, k < n /\ l = again k [OSweep; OExchange] ++ [OSweep].
(** [PBJ]: flux, then such sweeps and the flux, again and again. [PBJOuter]: flux, source iterations, exchange, again and again. *)
Definition pbj_log (its : list (list op)) : list op := OFlux :: concat (map (fun l => l ++ [OFlux]) its).
Definition outer_log (its : list nat) : list op := concat (map (fun n => OFlux :: again n [OSweep; OFlux] ++ [OExchange]) its).
Definition sweeps (l : list op) : nat := length (filter (fun o => match o with OSweep => true | _ => false end) l).

(** Two decks that name the same solver with the same numbers. They may differ in MPIType, maxCellsPerStep, the priorities, and the output file. *)
Record same_run {T} (cfg cfg' : config T) : Prop := {
  sr_angles : cSnOrder cfg = cSnOrder cfg'; sr_groups : cNGroups cfg = cNGroups cfg'; sr_gauss : cGauss cfg = cGauss cfg';
  sr_t1 : cSigmaT1 cfg = cSigmaT1 cfg'; sr_s1 : cSigmaS1 cfg = cSigmaS1 cfg'; sr_t2 : cSigmaT2 cfg = cSigmaT2 cfg'; sr_s2 : cSigmaS2 cfg = cSigmaS2 cfg';
  sr_iter : cIterMax cfg = cIterMax cfg'; sr_err : cErrMax cfg = cErrMax cfg'; sr_dditer : cDdIterMax cfg = cDdIterMax cfg'; sr_dderr : cDdErrMax cfg = cDdErrMax cfg';
  sr_sweep : cSweep cfg = cSweep cfg'; sr_si : cUseSI cfg = cUseSI cfg' }.
(** Two partitions that put the same cells together. *)
Definition same_parts (sm : smesh) (pv pv' : list N) : Prop := forall g h sg sh, SM_cell sm g = Some sg -> SM_cell sm h = Some sh -> same_part pv g h = same_part pv' g h.
