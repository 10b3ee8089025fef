(** C02: every angle is owned by exactly one thread, in balanced contiguous chunks. *)
From Verif Require Import Prelude AngleModel AngleProofs.

(** The lists of angles given to the threads, concatenated in thread order, are 0..nAngles-1:
    every angle occurs in exactly one of them, chunks are contiguous and increasing. *)
Theorem C02_split_covers : forall nAngles nThreads, nThreads > 0 ->
  concat (map (sweeperAngles nAngles nThreads) (seq 0 nThreads)) = seq 0 nAngles.
Proof. exact split_concat. Qed.
Print Assumptions C02_split_covers.

Example C02_split_covers_ex : map (sweeperAngles 20 3) (seq 0 3) = [seq 0 7; seq 7 7; seq 14 6].
Proof. reflexivity. Qed.

Theorem C02_split_balanced : forall nAngles nThreads t t', t < nThreads -> t' < nThreads ->
  length (sweeperAngles nAngles nThreads t) <= S (length (sweeperAngles nAngles nThreads t')).
Proof. exact split_balanced. Qed.
Print Assumptions C02_split_balanced.

Example C02_split_balanced_ex :
  length (sweeperAngles 20 3 0) = 7 /\ length (sweeperAngles 20 3 2) = 6.
Proof. split; reflexivity. Qed.

(** The graph traversal's owner of an angle exists, and is the thread to which the
    OriginalTycho split gives the angle. *)
Theorem C02_owner_exists : forall nAngles nThreads a, nThreads > 0 -> a < nAngles ->
  exists t, angleGroupIndex nAngles nThreads a = Some t /\ t < nThreads.
Proof. exact angleGroup_total. Qed.
Print Assumptions C02_owner_exists.

Theorem C02_owner_agrees : forall nAngles nThreads a t,
  nThreads > 0 -> a < nAngles -> t < nThreads ->
  (angleGroupIndex nAngles nThreads a = Some t <-> In a (sweeperAngles nAngles nThreads t)).
Proof. exact angleGroup_sweeper. Qed.
Print Assumptions C02_owner_agrees.

Example C02_owner_ex : map (angleGroupIndex 20 3) [0; 6; 7; 13; 14; 19; 20] =
  [Some 0; Some 0; Some 1; Some 1; Some 2; Some 2; None].
Proof. reflexivity. Qed.

Theorem C02_owner_monotone : forall nAngles nThreads a a' t t',
  nThreads > 0 -> a <= a' -> a' < nAngles ->
  angleGroupIndex nAngles nThreads a = Some t -> angleGroupIndex nAngles nThreads a' = Some t' ->
  t <= t'.
Proof. exact angleGroup_mono. Qed.
Print Assumptions C02_owner_monotone.

(** An angle index out of range trips the assertion instead of being given to a thread. *)
Theorem C02_owner_out_of_range : forall nAngles nThreads a, nThreads > 0 -> nAngles <= a ->
  angleGroupIndex nAngles nThreads a = None.
Proof. exact angleGroup_none. Qed.
Print Assumptions C02_owner_out_of_range.

Example C02_out_of_range_ex : angleGroupIndex 2 5 2 = None /\ angleGroupIndex 2 5 1 = Some 1.
Proof. split; reflexivity. Qed.
