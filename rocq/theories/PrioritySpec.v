(** Distances in the downwind graph. *)
From Verif Require Import Prelude TraverseModel TraverseSpec.

Section Paths.
  Variables (nRanks nAngles : nat) (M : nat -> rmesh) (mate : site -> option site).
  (** [k] steps downwind from cell [c] of rank [r]: over cells of the rank, only the last step may leave it. *)
  Inductive downpath (r a : nat) : nat -> nat -> Prop :=
  | dp_here c : downpath r a c 0
  | dp_local c f c' f' k : f < 4 -> mate (r, c, f) = Some (r, c', f') -> rm_out (M r) a c f = true -> downpath r a c' k -> downpath r a c (S k)
  | dp_leave c f q c' f' : f < 4 -> mate (r, c, f) = Some (q, c', f') -> q <> r -> rm_out (M r) a c f = true -> downpath r a c 1.
  (** The same over all ranks: the b-level of the user guide is the longest of these (user_guide.tex:350-353). *)
  Inductive anypath (a : nat) : nat -> nat -> nat -> Prop :=
  | ap_here r c : anypath a r c 0
  | ap_step r c f q c' f' k : f < 4 -> mate (r, c, f) = Some (q, c', f') -> rm_out (M r) a c f = true -> anypath a q c' k -> anypath a r c (S k).
  Definition longest (P : nat -> Prop) (n : nat) : Prop := P n /\ forall k, P k -> k <= n.
End Paths.
