(** Small concrete runs of the traversal. *)
From Coq Require Import Permutation.
From Verif Require Import Prelude Bytes MeshModel AngleModel TraverseModel TraverseSpec TraverseSafe TraverseRun.

(** ** Two ranks with one cell each, two opposite angles *)
Definition twoMesh (r : nat) : rmesh :=
  mkRmesh 1 (fun _ _ => None) (fun _ f => if f =? 0 then Some (1 - r) else None) (fun _ f => f) N.of_nat (fun g => Some (N.to_nat g)) (fun _ => 0)
    (fun a _ f => if f =? 0 then a =? r else true).
Definition twoMate (x : site) : option site :=
  let '(r, c, f) := x in if (r <? 2) && (c =? 0) && (f =? 0) then Some (1 - r, 0, 0) else None.
Definition sumData : tdata nat nat :=
  mkTdata nat nat (fun r c a l => 10 * r + a + fold_left (fun s x => match x with Some y => s + 100 * (1 + y) | None => s end) l 1)
    (fun _ _ _ _ v => v) (fun _ _ _ _ v => v) (fun _ _ a => N.of_nat a).
Definition twoRun (mpi : mpiType) : run nat nat := mkRun Forward true mpi 2 2 1 10 24 twoMesh sumData twoMate.

Lemma two_mate r c f y : twoMate (r, c, f) = Some y -> r < 2 /\ c = 0 /\ f = 0 /\ y = (1 - r, 0, 0).
Proof. unfold twoMate. destruct (Nat.ltb_spec r 2), (Nat.eqb_spec c 0), (Nat.eqb_spec f 0); cbn [andb]; try discriminate. intros E. apply Some_inj in E. auto. Qed.
Lemma two_ok : sys_ok 2 2 twoMesh twoMate.
Proof.
  pose proof two_mate as MT.
  constructor.
  - intros r c f y H. apply MT in H. destruct H as (A & -> & -> & _). split; [exact A|]. split; [exact (le_n 1)|lia].
  - intros [[r c] f] y H. apply MT in H. destruct H as (A & -> & -> & ->). destruct r as [|[|r]]; [reflexivity|reflexivity|lia].
  - intros r c f f' H. apply MT in H. destruct H as (A & _ & _ & E). destruct r as [|[|r]]; [discriminate|discriminate|lia].
  - intros r c f Hr Hc Hf. cbn in Hc. assert (c = 0) as -> by lia. unfold twoMate. destruct r as [|[|r]]; [| |lia]; destruct (f =? 0); reflexivity.
  - intros r c f Hr Hc Hf. cbn in Hc. assert (c = 0) as -> by lia. unfold twoMate. destruct r as [|[|r]]; [| |lia]; cbn; destruct (f =? 0); reflexivity.
  - intros r c f q c' f' H _. apply MT in H. destruct H as (A & -> & -> & E). injection E as -> -> ->. cbn. auto.
  - intros r c f q c' f' d g q' d' g' H _ H' _ _. apply MT in H. apply MT in H'. destruct H as (_ & -> & -> & _), H' as (_ & -> & -> & _). auto.
  - intros r c f q c' f' a H Ha. apply MT in H. destruct H as (A & -> & -> & E). injection E as -> -> ->. cbn. destruct r as [|[|r]]; [| |lia]; destruct a as [|[|a]]; reflexivity || lia.
  - intros r Hr. vm_compute. reflexivity.
Qed.
Lemma two_good mpi : good_run (twoRun mpi).
Proof. split; [apply ok_fit; exact two_ok|]. split; [cbn; lia|]. split; [reflexivity|]. intros r Hr. vm_compute. reflexivity. Qed.
Lemma two_acyclic mpi : racyclic (twoRun mpi).
Proof.
  exists (fun r _ a => if a =? r then 0 else 1). intros a r c q c' Ha (Hr & Hc & f & f' & Hf & Hm & Hi & _). apply two_mate in Hm. destruct Hm as (Hr2 & -> & -> & E).
  destruct r as [|[|r]]; [| |lia]; injection E as -> -> ->; (destruct a as [|[|a]]; [| |cbn in Ha; lia]); (discriminate Hi || (cbn; lia)).
Qed.
Definition getRank (mpi : mpiType) (r : nat) : rst nat nat :=
  match initRank Forward true mpi 2 1 twoMesh sumData r (fun _ _ => 0) (fun _ _ => 0) with Some st => st | None => mkRst (fun _ _ => 0%N) (fun _ => []) 0%N (fun _ _ => []) (fun _ => []) (fun _ => false) (fun _ _ => 0) (fun _ _ => 0) Done 0 [] end.
Definition twoInit (mpi : mpiType) : gst nat nat := mkGst (getRank mpi) (fun _ _ => []) (fun _ _ => []) (fun _ _ => 0) (fun _ _ => 0).
Lemma two_starts mpi : starts (twoRun mpi) (fun _ _ _ => 0) (fun _ _ _ => 0) (twoInit mpi).
Proof.
  split; [|repeat split]. intros r Hr. cbn in Hr. unfold twoInit, getRank. cbn [g_r]. destruct r as [|[|r]]; [| |lia]; destruct mpi; reflexivity.
Qed.

(** With the Capsaicin exchange both ranks send, then wait. *)
Lemma two_waits : exists S, reaches (twoRun CapsaicinTwoSided) (twoInit CapsaicinTwoSided) S /\
  r_ph (g_r S 0) = CWait /\ r_ph (g_r S 1) = CWait /\ length (ch1 S 0 1) = 1 /\ length (ch1 S 1 0) = 1.
Proof.
  eexists. split.
  - eapply reach_step with (r := 1); [eapply reach_step with (r := 1); [eapply reach_step with (r := 1); [eapply reach_step with (r := 1); [eapply reach_step with (r := 0); [eapply reach_step with (r := 0); [eapply reach_step with (r := 0); [eapply reach_step with (r := 0); [constructor
      |cbn; lia|eapply (step_work _ _ _ _ _ _ _ _ _ 0 _ 0 (fun _ => 0) 0 0 0 [] []); [reflexivity|cbn; lia|cbn; lia|reflexivity|cbn; intros c' a' p' [E|[]]; injection E as <- <- <-; lia]]
      |cbn; lia|eapply step_end; [reflexivity|intros [|t] Ht; [left; reflexivity|cbn in Ht; lia]]]
      |cbn; lia|eapply step_csend; reflexivity]
      |cbn; lia|eapply step_csent; reflexivity]
      |cbn; lia|eapply (step_work _ _ _ _ _ _ _ _ _ 1 _ 0 (fun _ => 0) 0 1 1 [] []); [reflexivity|cbn; lia|cbn; lia|reflexivity|cbn; intros c' a' p' [E|[]]; injection E as <- <- <-; lia]]
      |cbn; lia|eapply step_end; [reflexivity|intros [|t] Ht; [left; reflexivity|cbn in Ht; lia]]]
      |cbn; lia|eapply step_csend; reflexivity]
      |cbn; lia|eapply step_csent; reflexivity].
  - vm_compute. auto.
Qed.

(** ** One rank, two cells, and a face that both cells take as incoming (see C20) *)
Definition grazeMesh (r : nat) : rmesh :=
  mkRmesh 2 (fun c f => if f =? 0 then Some (1 - c) else None) (fun _ f => if f =? 0 then Some 0 else None) (fun _ f => f) N.of_nat (fun g => Some (N.to_nat g)) (fun _ => 0)
    (fun _ _ f => negb (f =? 0)).
Definition grazeRun (maxCompute : nat) : run nat nat := mkRun Forward true TychoTwoSided 1 1 1 maxCompute 24 grazeMesh sumData (fun _ => None).
(** All a rank that waits for data that never comes can be doing. *)
Definition idleRank (st : rst nat nat) : Prop :=
  (forall t, r_queue st t = []) /\ r_left st = 2%N /\
  match r_ph st with Work _ | Send false [] | Recv false [] None [] | WaitSends false [] => True | _ => False end.
Lemma graze_step mx S r l S' : rstep (grazeRun mx) r S l S' -> idleRank (g_r S 0) -> idleRank (g_r S' 0).
Proof.
  intros (Hr & H) (Q & L & P). cbn in Hr. assert (r = 0) as -> by lia.
  assert (SR : forall st', g_r (setR S 0 st') 0 = st') by (intros st'; now rewrite g_setR, Nat.eqb_refl).
  destruct H; rewrite H in P; try destruct P; repeat rewrite SR.
  - rewrite Q in H2. destruct rest1; discriminate.
  - split; [exact Q|]. split; [exact L|exact Logic.I].
  - destruct kill; destruct P.
  - destruct kill; [destruct P|]. split; [exact Q|]. split; [exact L|exact Logic.I].
  - destruct kill; [destruct P|]. destruct p1; destruct P.
  - destruct kill; [destruct P|]. destruct pend; destruct P.
  - destruct kill; [destruct P|]. destruct pk; [|destruct P]. split; [exact Q|]. split; [exact L|exact Logic.I].
  - destruct kill; [destruct P|]. destruct pk; [|destruct P]. split; [exact Q|]. split; [exact L|]. unfold endExchange. cbn [fold_left]. rewrite L. exact Logic.I.
Qed.
Lemma graze_idle mx val0 bnd0 S0 S : starts (grazeRun mx) val0 bnd0 S0 -> reaches (grazeRun mx) S0 S -> idleRank (g_r S 0).
Proof.
  intros (I & _) H. induction H as [|S r l S' H IH Hr ST].
  - specialize (I 0 ltac:(cbn; lia)). unfold initRank in I. cbn in I. apply Some_inj in I. rewrite <- I. split; [intros t; reflexivity|]. split; reflexivity || exact Logic.I.
  - eapply graze_step; eauto. split; eauto.
Qed.
Definition grazeInit (mx : nat) : gst nat nat :=
  mkGst (fun r => match initRank Forward true TychoTwoSided 1 1 grazeMesh sumData r (fun _ _ => 0) (fun _ _ => 0) with Some st => st | None => getRank TychoTwoSided 0 end)
    (fun _ _ => []) (fun _ _ => []) (fun _ _ => 0) (fun _ _ => 0).
Lemma graze_starts mx : starts (grazeRun mx) (fun _ _ _ => 0) (fun _ _ _ => 0) (grazeInit mx).
Proof. split; [|repeat split]. intros r Hr. cbn in Hr. destruct r as [|r]; [reflexivity|lia]. Qed.

(** ** One rank, one cell, two angles, two threads *)
Definition loneMesh (r : nat) : rmesh :=
  mkRmesh 1 (fun _ _ => None) (fun _ _ => None) (fun _ f => f) N.of_nat (fun g => Some (N.to_nat g)) (fun _ => 0) (fun _ _ _ => true).
Definition loneRun : run nat nat := mkRun Forward true TychoTwoSided 1 2 2 10 24 loneMesh sumData (fun _ => None).
Definition loneInit : gst nat nat :=
  mkGst (fun r => match initRank Forward true TychoTwoSided 2 2 loneMesh sumData r (fun _ _ => 0) (fun _ _ => 0) with Some st => st | None => getRank TychoTwoSided 0 end)
    (fun _ _ => []) (fun _ _ => []) (fun _ _ => 0) (fun _ _ => 0).
Lemma lone_starts : starts loneRun (fun _ _ _ => 0) (fun _ _ _ => 0) loneInit.
Proof. split; [|repeat split]. intros r Hr. cbn in Hr. destruct r as [|r]; [reflexivity|lia]. Qed.
Lemma lone_good : good_run loneRun.
Proof.
  split; [|split; [cbn; lia|split; [reflexivity|intros r Hr; vm_compute; reflexivity]]].
  apply ok_fit. constructor; try discriminate; try (intros; reflexivity).
Qed.

(** ** The two cells of [twoRun] on a single rank *)
Definition oneMesh (r : nat) : rmesh :=
  mkRmesh 2 (fun c f => if f =? 0 then Some (1 - c) else None) (fun _ f => if f =? 0 then Some 0 else None) (fun _ f => f) N.of_nat (fun g => Some (N.to_nat g)) (fun _ => 0)
    (fun a c f => if f =? 0 then a =? c else true).
Definition oneMate (x : site) : option site :=
  let '(r, c, f) := x in if (r =? 0) && (c <? 2) && (f =? 0) then Some (0, 1 - c, 0) else None.
Definition oneData : tdata nat nat :=
  mkTdata nat nat (fun _ c a l => 10 * c + a + fold_left (fun s x => match x with Some y => s + 100 * (1 + y) | None => s end) l 1)
    (fun _ _ _ _ v => v) (fun _ _ _ _ v => v) (fun _ c _ => N.of_nat c).
Definition oneRun : run nat nat := mkRun Forward true CapsaicinTwoSided 1 2 2 1 24 oneMesh oneData oneMate.
Lemma one_mate r c f y : oneMate (r, c, f) = Some y -> r = 0 /\ c < 2 /\ f = 0 /\ y = (0, 1 - c, 0).
Proof. unfold oneMate. destruct (Nat.eqb_spec r 0), (Nat.ltb_spec c 2), (Nat.eqb_spec f 0); cbn [andb]; try discriminate. intros E. apply Some_inj in E. auto. Qed.
Lemma one_good : good_run oneRun.
Proof.
  split; [|split; [cbn; lia|split; [reflexivity|intros r Hr; vm_compute; reflexivity]]]. pose proof one_mate as MT. apply ok_fit. constructor; cbn [u_ranks u_angles u_mesh u_mate oneRun].
  - intros r c f y H. apply MT in H. destruct H as (-> & A & -> & _). split; [lia|]. split; [exact A|lia].
  - intros [[r c] f] y H. apply MT in H. destruct H as (-> & A & -> & ->). destruct c as [|[|c]]; [reflexivity|reflexivity|lia].
  - intros r c f f' H. apply MT in H. destruct H as (_ & A & _ & E). destruct c as [|[|c]]; [discriminate|discriminate|lia].
  - intros r c f Hr Hc Hf. cbn in Hc. assert (r = 0) as -> by lia. unfold oneMate. destruct c as [|[|c]]; [| |lia]; cbn; destruct (f =? 0); reflexivity.
  - intros r c f Hr Hc Hf. cbn in Hc. assert (r = 0) as -> by lia. unfold oneMate. destruct c as [|[|c]]; [| |lia]; cbn; destruct (f =? 0); reflexivity.
  - intros r c f q c' f' H NE. apply MT in H. destruct H as (-> & A & -> & E). injection E as -> -> ->. congruence.
  - intros r c f q c' f' d g q' d' g' H NE. apply MT in H. destruct H as (-> & A & -> & E). injection E as -> -> ->. congruence.
  - intros r c f q c' f' a H Ha. apply MT in H. destruct H as (-> & A & -> & E). injection E as -> -> ->. cbn. destruct c as [|[|c]]; [| |lia]; destruct a as [|[|a]]; reflexivity || lia.
  - intros r Hr. vm_compute. reflexivity.
Qed.
Lemma one_acyclic : racyclic oneRun.
Proof.
  exists (fun _ c a => if a =? c then 0 else 1). intros a r c q c' Ha (Hr & Hc & f & f' & Hf & Hm & Hi & _). apply one_mate in Hm. destruct Hm as (-> & Hc2 & -> & E).
  destruct c as [|[|c]]; [| |lia]; injection E as -> -> ->; (destruct a as [|[|a]]; [| |cbn in Ha; lia]); (discriminate Hi || (cbn; lia)).
Qed.
Definition pairProblem : problem nat nat :=
  mkProblem (fun x => let '(c, f) := x in if (c <? 2) && (f =? 0) then Some (1 - c, 0) else None) (fun a c f => if f =? 0 then a =? c else true)
    (fun c a => td_update oneData 0 c a) (fun _ _ _ v => v).
Lemma one_pair : partition_of pairProblem oneRun (fun _ c => c).
Proof.
  intros r c f Hr Hc Hf. cbn in Hr, Hc. assert (r = 0) as -> by lia. split.
  - destruct c as [|[|c]]; [| |lia]; destruct f; reflexivity.
  - intros a Ha. split; [reflexivity|]. split; [reflexivity|]. split; reflexivity.
Qed.
Lemma two_pair mpi : partition_of pairProblem (twoRun mpi) (fun r _ => r).
Proof.
  intros r c f Hr Hc Hf. cbn in Hr, Hc. assert (c = 0) as -> by lia. split.
  - destruct r as [|[|r]]; [| |lia]; destruct f; reflexivity.
  - intros a Ha. split; [reflexivity|]. split; [reflexivity|]. split; reflexivity.
Qed.
