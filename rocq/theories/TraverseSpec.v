(** What the meshes of all ranks must look like together, and what a sweep must compute. *)
From Verif Require Import Prelude TraverseModel.

(** [mate] pairs the faces of cells that touch: (rank, cell, face). *)
Definition site := (nat * nat * nat)%type.
Record sys_ok (nRanks nAngles : nat) (M : nat -> rmesh) (mate : site -> option site) : Prop := {
  so_range : forall r c f y, mate (r, c, f) = Some y -> r < nRanks /\ c < rm_nCells (M r) /\ f < 4;
  so_sym : forall x y, mate x = Some y -> mate y = Some x;
  so_irr : forall r c f f', mate (r, c, f) <> Some (r, c, f');
  so_cell : forall r c f, r < nRanks -> c < rm_nCells (M r) -> f < 4 ->
    rm_adjCell (M r) c f = match mate (r, c, f) with Some (q, c', _) => if q =? r then Some c' else None | None => None end;
  so_rank : forall r c f, r < nRanks -> c < rm_nCells (M r) -> f < 4 ->
    rm_adjRank (M r) c f = match mate (r, c, f) with Some (q, _, _) => Some q | None => None end;
  so_side : forall r c f q c' f', mate (r, c, f) = Some (q, c', f') -> q <> r ->
    rm_glSide (M q) (rm_lgSide (M r) (rm_side (M r) c f)) = Some (rm_side (M q) c' f') /\ rm_sideCell (M q) (rm_side (M q) c' f') = c';
  so_inj : forall r c f q c' f' d g q' d' g', mate (r, c, f) = Some (q, c', f') -> q <> r -> mate (r, d, g) = Some (q', d', g') -> q' <> r ->
    rm_side (M r) c f = rm_side (M r) d g -> c = d /\ f = g;
  so_flow : forall r c f q c' f' a, mate (r, c, f) = Some (q, c', f') -> a < nAngles -> rm_out (M r) a c f = negb (rm_out (M q) a c' f');
  so_size : forall r, r < nRanks -> (N.of_nat nAngles * N.of_nat (rm_nCells (M r)) < two64)%N
}.

(** The same with less about the flow: a face is not outgoing for both of its cells, but it can be incoming for both
    (a direction in the plane of the face gives zero, which counts as incoming). *)
Record sys_fit (dir : direction) (nRanks nAngles : nat) (M : nat -> rmesh) (mate : site -> option site) : Prop := {
  sf_range : forall r c f y, mate (r, c, f) = Some y -> r < nRanks /\ c < rm_nCells (M r) /\ f < 4;
  sf_sym : forall x y, mate x = Some y -> mate y = Some x;
  sf_irr : forall r c f f', mate (r, c, f) <> Some (r, c, f');
  sf_cell : forall r c f, r < nRanks -> c < rm_nCells (M r) -> f < 4 ->
    rm_adjCell (M r) c f = match mate (r, c, f) with Some (q, c', _) => if q =? r then Some c' else None | None => None end;
  sf_rank : forall r c f, r < nRanks -> c < rm_nCells (M r) -> f < 4 ->
    rm_adjRank (M r) c f = match mate (r, c, f) with Some (q, _, _) => Some q | None => None end;
  sf_side : forall r c f q c' f', mate (r, c, f) = Some (q, c', f') -> q <> r ->
    rm_glSide (M q) (rm_lgSide (M r) (rm_side (M r) c f)) = Some (rm_side (M q) c' f') /\ rm_sideCell (M q) (rm_side (M q) c' f') = c';
  sf_inj : forall r c f q c' f' d g q' d' g', mate (r, c, f) = Some (q, c', f') -> q <> r -> mate (r, d, g) = Some (q', d', g') -> q' <> r ->
    rm_side (M r) c f = rm_side (M r) d g -> c = d /\ f = g;
  sf_flow : forall r c f q c' f' a, mate (r, c, f) = Some (q, c', f') -> a < nAngles -> isOutgoingWrt dir (M r) a c f = true -> isIncoming dir (M q) a c' f' = true;
  sf_size : forall r, r < nRanks -> (N.of_nat nAngles * N.of_nat (rm_nCells (M r)) < two64)%N
}.
Lemma ok_fit dir nRanks nAngles M mate : sys_ok nRanks nAngles M mate -> sys_fit dir nRanks nAngles M mate.
Proof.
  intros [S1 S2 S3 S4 S5 S6 S7 S8 S9]. constructor; auto. intros r c f q c' f' a H Ha. specialize (S8 _ _ _ _ _ _ a H Ha).
  unfold isOutgoingWrt, isIncoming. rewrite S8. destruct dir, (rm_out (M q) a c' f'); auto.
Qed.

Section Spec.
  Context {V D : Type}.
  Variables (dir : direction) (doComm : bool) (nRanks nAngles : nat) (M : nat -> rmesh) (T : tdata V D) (mate : site -> option site).

  Definition valid (r c a : nat) : Prop := r < nRanks /\ c < rm_nCells (M r) /\ a < nAngles.
  (** What cell [c] of rank [r] should see through face [f]: with communication the value of the cell
      across; without, the neighbour on the same rank or the given data of the side. *)
  Definition seen (val : nat -> nat -> nat -> V) (bnd : nat -> nat -> nat -> D) (r c a f : nat) : option D :=
    if isIncoming dir (M r) a c f then
      match mate (r, c, f) with
      | Some (q, c', f') =>
          Some (if q =? r then td_read T r c f a (val r c' a)
                else if doComm then td_getData T q c' f' a (val q c' a) else bnd r (rm_side (M r) c f) a)
      | None => None
      end
    else None.
  (** The upwind recursion. *)
  Definition solution (bnd : nat -> nat -> nat -> D) (val : nat -> nat -> nat -> V) : Prop :=
    forall r c a, valid r c a -> val r c a = td_update T r c a (map (seen val bnd r c a) (seq 0 4)).
  (** [up (q, c') (r, c)]: at angle [a], cell [c] of rank [r] needs the result of cell [c'] of rank [q]. *)
  Definition upwind (a : nat) (y x : nat * nat) : Prop :=
    let '(r, c) := x in let '(q, c') := y in
    r < nRanks /\ c < rm_nCells (M r) /\
    exists f f', f < 4 /\ mate (r, c, f) = Some (q, c', f') /\ isIncoming dir (M r) a c f = true /\ (doComm = true \/ q = r).
  (** No cycles: some level decreases upwind. *)
  Definition acyclic : Prop := exists lvl : nat -> nat -> nat -> nat, forall a r c q c',
    a < nAngles -> upwind a (q, c') (r, c) -> lvl q c' a < lvl r c a.
End Spec.
(** Without cycles through the whole mesh no face is incoming on both sides. *)
Lemma fit_ok dir nRanks nAngles M mate : sys_fit dir nRanks nAngles M mate -> acyclic dir true nRanks nAngles M mate -> sys_ok nRanks nAngles M mate.
Proof.
  intros [S1 S2 S3 S4 S5 S6 S7 S8 S9] (lvl & L). constructor; auto. intros r c f q c' f' a H Ha. pose proof (S2 _ _ H) as H'.
  pose proof (S8 _ _ _ _ _ _ a H Ha) as F1. pose proof (S8 _ _ _ _ _ _ a H' Ha) as F2. destruct (S1 _ _ _ _ H) as (Hr & Hc & Hf), (S1 _ _ _ _ H') as (Hq & Hc' & Hf').
  assert (NB : ~ (isIncoming dir (M r) a c f = true /\ isIncoming dir (M q) a c' f' = true)).
  { intros (A & B). assert (L1 : lvl q c' a < lvl r c a) by (apply L; auto; split; auto; split; auto; exists f, f'; auto).
    assert (L2 : lvl r c a < lvl q c' a) by (apply L; auto; split; auto; split; auto; exists f', f; auto). lia. }
  unfold isIncoming, isOutgoingWrt in *. destruct dir, (rm_out (M r) a c f), (rm_out (M q) a c' f'); cbn in *; auto; try discriminate F1; auto; destruct NB; auto.
Qed.
