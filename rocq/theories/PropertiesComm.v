(** C34: boundary exchange of the block methods. *)
From Coq Require Import Permutation.
From Verif Require Import Prelude MeshModel TraverseModel TraverseSpec TraverseProofs TraverseCases CommModel CommProofs.

(** Every rank expects from a neighbour as many packets as the neighbour sends. *)
Theorem C34_counts : forall nRanks nAngles M mate, sys_ok nRanks nAngles M mate -> forall r q, r < nRanks -> q < nRanks -> q <> r ->
  numRecvPackets nAngles M r q = numSendPackets nAngles M q r /\ (In q (commAdjRanks M r) <-> In r (commAdjRanks M q)).
Proof.
  intros nRanks nAngles M mate OK r q Hr Hq Hne. split; [eapply counts; eauto|]. unfold commAdjRanks.
  pose proof (ok_fit Forward _ _ _ _ OK) as FT. split; intros H; eapply adjRanks_sym; eauto.
Qed.
(** In whatever order the messages arrive, the exchange succeeds, stores at every incoming (side, angle) between
    ranks the data of the cell across, and changes nothing else. *)
Theorem C34_exchange : forall V D nRanks nAngles M mate (getData : nat -> nat -> nat -> nat -> V -> D) zeroD psi bnd r order,
  sys_ok nRanks nAngles M mate -> r < nRanks -> Permutation order (posted nAngles M r) ->
  exists bnd', commSides nAngles M getData zeroD psi r order bnd = Some bnd' /\
    (forall c f a q c' f', mate (r, c, f) = Some (q, c', f') -> q <> r -> a < nAngles -> rm_out (M r) a c f = false ->
       bnd' (rm_side (M r) c f) a = getData q c' f' a (psi q c' a)) /\
    (forall s a, (forall c f q c' f', mate (r, c, f) = Some (q, c', f') -> q <> r -> a < nAngles -> rm_out (M r) a c f = false -> rm_side (M r) c f <> s) ->
       bnd' s a = bnd s a).
Proof. intros. eapply comm_sides; eauto. Qed.
Example C34_ex : exists bnd', commSides 2 twoMesh (fun _ _ _ _ v => v) 0 (fun r c a => 100 + 10 * r + a) 1 [0] (fun _ _ => 7) = Some bnd' /\ bnd' 0 0 = 100 /\ bnd' 0 1 = 7.
Proof.
  destruct (C34_exchange nat nat 2 2 twoMesh twoMate (fun _ _ _ _ v => v) 0 (fun r c a => 100 + 10 * r + a) (fun _ _ => 7) 1 [0] two_ok) as (b & E & K1 & K2); [lia|vm_compute; auto|].
  exists b. split; [exact E|]. split.
  - apply (K1 0 0 0 0 0 0); [reflexivity|discriminate|lia|reflexivity].
  - apply K2. intros c f q c' f' Hm _ Ha Ho. apply two_mate in Hm. destruct Hm as (_ & -> & -> & _). discriminate.
Qed.

(** Without [so_flow] for grazing faces (both cells take the face as incoming, C20) the exchange fails: *)
Definition grazing (g : nat -> bool) (r : nat) : rmesh :=
  mkRmesh 1 (fun _ _ => None) (fun _ f => if f =? 0 then Some (1 - r) else None) (fun _ f => f) N.of_nat (fun g => Some (N.to_nat g)) (fun _ => 0)
    (fun a _ f => if f =? 0 then negb (g a) && (r =? 0) else true).
(** if the face grazes every angle, both ranks wait for a message nobody sends; *)
Theorem C34_grazing_hangs_refuted : forall psi, arrives 1 (grazing (fun _ => true)) (fun _ _ _ _ (v : nat) => v) 0 psi 0 1 = Hang /\ arrives 1 (grazing (fun _ => true)) (fun _ _ _ _ v => v) 0 psi 1 0 = Hang.
Proof. intros psi. split; reflexivity. Qed.
(** if it grazes angle 1 only, the unused end of the buffer is stored as data of angle 0 of side 0. *)
Theorem C34_grazing_overwrites_refuted : forall psi bnd, exists bnd',
  commSides 2 (grazing (Nat.eqb 1)) (fun _ _ _ _ (v : nat) => v) 0 psi 1 [0] bnd = Some bnd' /\ bnd' 0 0 = 0.
Proof. intros psi bnd. eexists. split; [reflexivity|]. reflexivity. Qed.

Print Assumptions C34_counts. Print Assumptions C34_exchange. Print Assumptions C34_grazing_hangs_refuted. Print Assumptions C34_grazing_overwrites_refuted.
