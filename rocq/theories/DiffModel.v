(** test/diff.py: the comparison of two output files that the regression tests rest on. *)
From Coq Require Import ZArith.
From Verif Require Import Prelude Bytes DeckModel MeshModel GeometryModel CommandModel.

Section Diff.
  Context {T : Type} (A : arith T) (dec : N -> T).
  (** The order in which numpy adds up an array (parameter), and float() of an argument. *)
  Context (nsum : list T -> T) (pyfloat : chars -> option T).

  (** test/diff.py:20-26 numpy.fromfile reads all whole doubles; the first eight are the header. *)
  Definition payload (f : bytes) : list T := skipn 8 (map dec (bytes_words f)).
  (** test/diff.py:43 entry by entry; the lengths are equal there. *)
  Fixpoint minus (u v : list T) : list T :=
    match u, v with x :: u', y :: v' => asub A x y :: minus u' v' | _, _ => [] end.
  (** test/diff.py:44 numpy.linalg.norm(v, 1). *)
  Definition norm1 (v : list T) : T := nsum (map (aabs A) v).
  (** test/diff.py:45 max(abs(v)), Python's max: the first entry, replaced by later ones that are greater; an exception on an empty array. *)
  Definition largest (v : list T) : option T :=
    match map (aabs A) v with [] => None | x :: l => Some (fold_left (fun m y => if agt A y m then y else m) l x) end.
  (** test/diff.py:29-57 true: exit status 0. An exception gives status 1. *)
  Definition compareFiles (tolerance : T) (f1 f2 : bytes) : bool :=
    let v1 := payload f1 in let v2 := payload f2 in
    if negb (Nat.eqb (length v1) (length v2)) then false else
    let d := minus v1 v2 in
    match largest d, largest v2 with
    | Some m1, Some m2 =>
        let errL1 := adiv A (norm1 d) (norm1 v2) in let errLinf := adiv A m1 m2 in
        if agt A tolerance errL1 then if agt A tolerance errLinf then agt A tolerance (azero A) else false else false
    | _, _ => false
    end.
  (** test/diff.py:8-57 with the arguments; a missing file and a tolerance that is no number are exceptions. The result is the exit status. *)
  Definition diffMain (argv : list chars) (fs : files) : N :=
    match argv with
    | _ :: a :: b :: rest =>
        match fs a, fs b, match rest with [t] => pyfloat t | _ => Some (aneg A (aone A)) end with
        | Some f1, Some f2, Some tolerance => if compareFiles tolerance f1 f2 then 0%N else 1%N
        | _, _, _ => 1%N
        end
    | _ => 1%N
    end.
End Diff.
