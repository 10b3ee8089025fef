(** A pair that is ready is not passed over by one of lower priority. *)
From Coq Require Import Permutation.
From Verif Require Import Prelude MeshModel TraverseModel TraverseSpec TraverseInv TraverseProofs TraverseTerm TychoProofs ScheduleModel ScheduleSpec ScheduleProofs ScheduleLevels.

Section Turn.
  Variables (M : nat -> rmesh) (angles : list nat) (give : nat -> nat -> nat -> nat -> bool) (prio : nat -> nat -> nat -> N) (mx : N) (r : nat).
  Notation topo := (topo M angles give prio mx r). Notation ang a := (nth a angles 0).
  (** The pair (c, a) is released on the rank by (e, a). *)
  Definition releases (a e c : nat) : Prop := exists f, f < 4 /\ give r a e f = true /\ rm_adjCell (M r) e f = Some c.
  Lemma topoChild_q c a fs : forall s, (forall f, In f fs -> f < 4) -> forall d b, In (d, b) (snd (fold_left (topoChild M give r c a) fs s)) -> In (d, b) (snd s) \/ b = a /\ releases a c d.
  Proof.
    induction fs as [|f fs IH]; intros s Hf d b I; cbn [fold_left] in I; [auto|]. apply IH in I; [|intros; apply Hf; now right]. destruct I as [I|I]; [|auto].
    unfold topoChild in I. destruct (give r a c f) eqn:Eg; [|auto]. destruct (rm_adjCell (M r) c f) as [c'|] eqn:Ec; [|auto]. unfold srelease in I. destruct s as [nd q]. destruct (N.eqb _ 0); cbn [snd] in *; [|auto].
    destruct I as [I|I]; [|auto]. injection I as <- <-. right. split; [reflexivity|]. exists f. split; [apply Hf; now left|auto].
  Qed.
  (** The added pairs [x] are listed by index of the angle; a pair that is added or left in the queue was there at the start or is released by an earlier one. *)
  Lemma topo_from s w s' w' : topo s w s' w' -> exists x, w' = w ++ map (fun u => (fst u, ang (snd u))) x /\
    (forall j d b, nth_error x j = Some (d, b) -> In (d, b) (snd s) \/ exists i e, i < j /\ nth_error x i = Some (e, b) /\ releases b e d) /\
    (forall i j c a d b, i < j -> nth_error x i = Some (c, a) -> nth_error x j = Some (d, b) -> (prio r a c < prio r b d)%N -> exists k e, i <= k < j /\ nth_error x k = Some (e, b) /\ releases b e d) /\
    (forall d b, In (d, b) (snd s') -> In (d, b) (snd s) \/ exists i e, nth_error x i = Some (e, b) /\ releases b e d) /\
    forall i c a d b, nth_error x i = Some (c, a) -> In (d, b) (snd s') -> (prio r a c < prio r b d)%N -> exists k e, i <= k /\ nth_error x k = Some (e, b) /\ releases b e d.
  Proof.
    induction 1 as [s w _|nd q1 q2 c a w s' w' Hl Hp HT IH].
    - exists []. split; [now rewrite app_nil_r|]. split; [intros [|j]; discriminate|]. split; [intros [|i]; discriminate|]. split; [auto|intros [|i]; discriminate].
    - destruct IH as (x & -> & F & T & F' & T'). exists ((c, a) :: x). split; [now rewrite <- app_assoc|].
      assert (Q : forall d b, In (d, b) (snd (fold_left (topoChild M give r c a) (seq 0 4) (nd, q1 ++ q2))) -> In (d, b) (q1 ++ (c, a) :: q2) \/ b = a /\ releases a c d).
      { intros d b I. apply topoChild_q in I; [|intros f If; apply in_seq in If; lia]. cbn [snd] in I. destruct I as [I|I]; [left; apply in_app_or in I; apply in_or_app; destruct I; [auto|right; now right]|auto]. }
      assert (K : forall j d b, nth_error x j = Some (d, b) -> In (d, b) (q1 ++ (c, a) :: q2) \/ exists i e, i < S j /\ nth_error ((c, a) :: x) i = Some (e, b) /\ releases b e d).
      { intros j d b Ej. destruct (F j d b Ej) as [I|(i & e & Hi & Ei & R)]; [|right; exists (S i), e; split; [lia|auto]].
        apply Q in I. destruct I as [I|(-> & R)]; [auto|right; exists 0, c; split; [lia|auto]]. }
      assert (K' : forall d b, In (d, b) (snd s') -> In (d, b) (q1 ++ (c, a) :: q2) \/ exists i e, nth_error ((c, a) :: x) i = Some (e, b) /\ releases b e d).
      { intros d b I. destruct (F' d b I) as [J|(i & e & Ei & R)]; [|right; exists (S i), e; auto].
        apply Q in J. destruct J as [J|(-> & R)]; [auto|right; exists 0, c; auto]. }
      split; [|split; [|split]].
      + intros [|j] d b Ej; cbn [nth_error snd] in *; [injection Ej as <- <-; left; apply in_or_app; right; now left|now apply K].
      + intros [|i] [|j] c0 a0 d b Hij Ei Ej Hpr; try lia; cbn [nth_error] in *.
        * injection Ei as <- <-. destruct (K j d b Ej) as [I|(i & e & Hi & Ei & R)]; [|exists i, e; split; [lia|auto]]. apply Hp in I. lia.
        * destruct (T i j c0 a0 d b ltac:(lia) Ei Ej Hpr) as (k & e & Hk & Ek & R). exists (S k), e. split; [lia|auto].
      + exact K'.
      + intros [|i] c0 a0 d b Ei I Hpr; cbn [nth_error] in *.
        * injection Ei as <- <-. destruct (K' d b I) as [J|(i & e & Ei & R)]; [|exists i, e; split; [lia|auto]]. apply Hp in J. lia.
        * destruct (T' i c0 a0 d b Ei I Hpr) as (k & e & Hk & Ek & R). exists (S k), e. split; [lia|auto].
  Qed.
End Turn.

Lemma srun_at {X D : Type} nRanks M angles give prio mx after payload accept (S0 : nat -> srank (X:=X)) L S : srun (X:=X) (D:=D) nRanks M angles give prio mx after payload accept S0 L S ->
  forall k w, nth_error L k = Some w -> exists L1 L2 S1 S2, L = L1 ++ w :: L2 /\ length L1 = k /\ srun nRanks M angles give prio mx after payload accept S0 L1 S1 /\ sround nRanks M angles give prio mx after payload accept S1 S2 w.
Proof.
  induction 1 as [|L S1 w' S2 Hr IH Hs]; intros k w E; [destruct k; discriminate|].
  destruct (Nat.lt_ge_cases k (length L)) as [Hk|Hk].
  - rewrite nth_error_app1 in E by auto. destruct (IH k w E) as (L1 & L2 & T1 & T2 & -> & El & R1 & R2). exists L1, (L2 ++ [w']), T1, T2. rewrite <- app_assoc. auto.
  - rewrite nth_error_app2 in E by auto. destruct (k - length L) as [|n] eqn:Ek; [|destruct n; discriminate]. cbn in E. injection E as <-. exists L, [], S1, S2. split; [reflexivity|]. split; [lia|auto].
Qed.
