(** What a listing tells. *)
From Verif Require Import Prelude Bytes DeckModel MeshModel.
Local Open Scope N_scope.

(** A text of digits as a number, by the place-value rule. *)
Fixpoint place_value (s : chars) : N := match s with [] => 0 | c :: s' => (c - 48) * 10 ^ N.of_nat (length s') + place_value s' end.
(** The decimal numeral of [n]: digits, no leading zero except for zero itself. *)
Definition numeral (s : chars) (n : N) : Prop := s <> [] /\ Forall (fun c => 48 <= c <= 57) s /\ place_value s = n /\ (hd 0 s = 48 -> s = [48]).
(** The texts of numbers with a decimal point contain no comma, parenthesis or line end. *)
Definition plain (showf : N -> chars) : Prop := forall x c, In c (showf x) -> c <> 44 /\ c <> 41 /\ c <> 10.
(** The same mesh but for digits of coordinates that are not shown. *)
Definition same_point (showf : N -> chars) (p q : q3 N) : Prop := showf (t0 p) = showf (t0 q) /\ showf (t1 p) = showf (t1 q) /\ showf (t2 p) = showf (t2 q).
Definition same_serial (showf : N -> chars) (m m' : smesh) : Prop :=
  sm_cells m = sm_cells m' /\ sm_faces m = sm_faces m' /\ Forall2 (fun n n' => same_point showf (sn_coords n) (sn_coords n')) (sm_nodes m) (sm_nodes m').
Definition same_part (showf : N -> chars) (p p' : partition) : Prop :=
  pt_cells p = pt_cells p' /\ pt_faces p = pt_faces p' /\ Forall2 (fun n n' => same_point showf (pn_coords n) (pn_coords n') /\ pn_gid n = pn_gid n') (pt_nodes p) (pt_nodes p').
Definition same_parallel (showf : N -> chars) (m m' : pmesh) : Prop := pm_bytesOffset m = pm_bytesOffset m' /\ Forall2 (same_part showf) (pm_parts m) (pm_parts m').
