(** C86: faults of an input deck and the words for them. *)
From Verif Require Import Prelude DeckSpec InfoSpec.
From Coq Require Import String Ascii.
From Verif Require Import DeckModel.
Local Open Scope N_scope.

Inductive fault := Malformed | Duplicate.
(** Line [i] (from 0) of the deck is neither blank nor an assignment; or it assigns a key that a line before it assigns. *)
Definition faulty (ls : list (list N)) (i : nat) (f : fault) : Prop :=
  exists line, nth_error ls i = Some line /\
  match f with
  | Malformed => ~ line_blank line /\ forall k v, ~ line_kv line k v
  | Duplicate => exists k v j line' k' v', line_kv line k v /\ (j < i)%nat /\ nth_error ls j = Some line' /\ line_kv line' k' v' /\ same_key k' k
  end.
(** A message about line number n, with [shown] in the place of the number. *)
Definition about (fname : list N) (f : fault) (shown : list N) : list N :=
  str "KeyValueReader error in file " ++ fname ++ [10] ++ str "   " ++
  match f with Malformed => str "Parse error on line " | Duplicate => str "Duplicate key on line " end ++ shown ++ [10].
(** What stands in the place of the number n: the character with this code modulo 256, nothing if that is zero. *)
Definition shown_for (n : N) : list N := if n mod 256 =? 0 then [] else [n mod 256].
Fixpoint increasing (l : list nat) : Prop := match l with [] => True | i :: t => Forall (fun j => (i < j)%nat) t /\ increasing t end.
(** A file name as a program gets it. *)
Definition name_ok (s : list N) : Prop := ~ In 0 s.
