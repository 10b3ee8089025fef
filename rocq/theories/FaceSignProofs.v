(** The sign of the computed scalar product with the computed normal of a triangle. *)
From Coq Require Import ZArith Reals Lra Lia.
From Flocq Require Import Core IEEE754.BinarySingleNaN IEEE754.Binary IEEE754.Bits.
From Verif Require Import Prelude MeshModel GeometryModel GeometrySpec DoubleModel DoubleSpec DoubleProofs RoundProofs RoundSpec TripleProofs.
Local Open Scope R_scope.

Lemma moderate_tame x : moderate x -> tame (-100) 100 x.
Proof.
  intros (F & L & U). split; [exact F|]. assert (E : bpow radix2 100 = 2 ^ 100) by (rewrite <- (powerRZ_2_bpow 100) || (cbn; lra)).
  split; [|rewrite E; exact U]. destruct L as [L|L]; [left; exact L|right]. change (bpow radix2 (-100)) with (/ bpow radix2 100). rewrite E. exact L.
Qed.
Lemma tame_le a b a' b' x : (a' <= a)%Z -> (b <= b')%Z -> tame a b x -> tame a' b' x.
Proof.
  intros A B (F & L & U). split; [exact F|]. split; [|eapply Rle_trans; [exact U|now apply bpow_le]]. destruct L as [L|L]; auto. right. eapply Rle_trans; [|exact L]. now apply bpow_le.
Qed.
Lemma unit_small : unitR < / 2.
Proof. unfold unitR. change (/ 2) with (bpow radix2 (-1)). apply bpow_lt. lia. Qed.
Lemma rel_nonneg v r : rel v r -> 0 <= r -> 0 <= v.
Proof. intros (d & D & ->) H. apply Rmult_le_pos; auto. pose proof unit_small. apply Rabs_le_inv in D. lra. Qed.
Lemma rel_pos v r : rel v r -> 0 < r -> 0 < v.
Proof. intros (d & D & ->) H. apply Rmult_lt_0_compat; auto. pose proof unit_small. apply Rabs_le_inv in D. lra. Qed.
Lemma rel_0 : rel 0 0.
Proof. exists 0. rewrite Rabs_R0. split; [left; exact unit_pos|ring]. Qed.

Definition tame3 (lo hi : Z) (p : q3 binary64) : Prop := tame lo hi (t0 p) /\ tame lo hi (t1 p) /\ tame lo hi (t2 p).
(** Differences of points. *)
Lemma vsub_ok p q : tame3 (-100) 100 p -> tame3 (-100) 100 q ->
  tame3 (-152) 101 (vsub Dops p q) /\ (rel (val (t0 (vsub Dops p q))) (t0 (subR (real3 p) (real3 q))) /\ rel (val (t1 (vsub Dops p q))) (t1 (subR (real3 p) (real3 q))) /\ rel (val (t2 (vsub Dops p q))) (t2 (subR (real3 p) (real3 q)))).
Proof.
  intros (P0 & P1 & P2) (Q0 & Q1 & Q2).
  destruct (sub_tame _ _ _ _ _ _ P0 Q0 ltac:(lia) ltac:(lia) ltac:(lia)) as (A0 & B0). destruct (sub_tame _ _ _ _ _ _ P1 Q1 ltac:(lia) ltac:(lia) ltac:(lia)) as (A1 & B1). destruct (sub_tame _ _ _ _ _ _ P2 Q2 ltac:(lia) ltac:(lia) ltac:(lia)) as (A2 & B2).
  split; [split; [exact A0|split; [exact A1|exact A2]]|split; [exact B0|split; [exact B1|exact B2]]].
Qed.
(** One component of the cross product. *)
Lemma comp_ok a b c d A B C D : tame (-152) 101 a -> tame (-152) 101 b -> tame (-152) 101 c -> tame (-152) 101 d ->
  rel (val a) A -> rel (val b) B -> rel (val c) C -> rel (val d) D ->
  tame (-356) 203 (asub Dops (amul Dops a b) (amul Dops c d)) /\ crossed (val (asub Dops (amul Dops a b) (amul Dops c d))) (A * B) (C * D).
Proof.
  intros Ta Tb Tc Td Ra Rb Rc Rd. destruct (mul_tame _ _ _ _ _ _ Ta Tb ltac:(lia) ltac:(lia)) as (Tp & Rp). destruct (mul_tame _ _ _ _ _ _ Tc Td ltac:(lia) ltac:(lia)) as (Tq & Rq).
  destruct (sub_tame _ _ _ _ _ _ Tp Tq ltac:(lia) ltac:(lia) ltac:(lia)) as (Tr & Rr). split; [exact Tr|].
  eapply cross_ok; [apply pert_rel; exact Ra|apply pert_rel; exact Rb|apply pert_rel; exact Rc|apply pert_rel; exact Rd|exact Rp|exact Rq|exact Rr].
Qed.
(** The squared length. *)
Lemma square_ok c : tame3 (-356) 203 c -> tame (-816) 408 (vdot Dops c c) /\ 0 <= val (vdot Dops c c) /\ (val (t0 c) <> 0 \/ val (t1 c) <> 0 \/ val (t2 c) <> 0 -> 0 < val (vdot Dops c c)).
Proof.
  intros (T0 & T1 & T2). destruct (mul_tame _ _ _ _ _ _ T0 T0 ltac:(lia) ltac:(lia)) as (S0 & R0). destruct (mul_tame _ _ _ _ _ _ T1 T1 ltac:(lia) ltac:(lia)) as (S1 & R1). destruct (mul_tame _ _ _ _ _ _ T2 T2 ltac:(lia) ltac:(lia)) as (S2 & R2).
  destruct (add_tame _ _ _ _ _ _ S0 S1 ltac:(lia) ltac:(lia) ltac:(lia)) as (S3 & R3). destruct (add_tame _ _ _ _ _ _ S3 S2 ltac:(lia) ltac:(lia) ltac:(lia)) as (S4 & R4).
  assert (SQ : forall x : R, 0 <= x * x) by (intros x; apply Rle_0_sqr). assert (SP : forall x : R, x <> 0 -> 0 < x * x) by (intros x Hx; apply Rsqr_pos_lt; exact Hx).
  pose proof (rel_nonneg _ _ R0 (SQ _)) as N0. pose proof (rel_nonneg _ _ R1 (SQ _)) as N1. pose proof (rel_nonneg _ _ R2 (SQ _)) as N2.
  assert (N3 : 0 <= val (aadd Dops (amul Dops (t0 c) (t0 c)) (amul Dops (t1 c) (t1 c)))) by (apply (rel_nonneg _ _ R3); lra).
  unfold vdot. split; [exact S4|]. split; [apply (rel_nonneg _ _ R4); lra|]. intros [H|[H|H]]; apply (rel_pos _ _ R4).
  - assert (0 < val (aadd Dops (amul Dops (t0 c) (t0 c)) (amul Dops (t1 c) (t1 c)))); [|lra]. apply (rel_pos _ _ R3). pose proof (rel_pos _ _ R0 (SP _ H)). lra.
  - assert (0 < val (aadd Dops (amul Dops (t0 c) (t0 c)) (amul Dops (t1 c) (t1 c)))); [|lra]. apply (rel_pos _ _ R3). pose proof (rel_pos _ _ R1 (SP _ H)). lra.
  - pose proof (rel_pos _ _ R2 (SP _ H)). lra.
Qed.

Section Face.
  Context (F : q3 (q3 binary64)) (H0 : tame3 (-100) 100 (t0 F)) (H1 : tame3 (-100) 100 (t1 F)) (H2 : tame3 (-100) 100 (t2 F)).
  Notation RF := (Q3 (real3 (t0 F)) (real3 (t1 F)) (real3 (t2 F))).
  Notation a := (subR (real3 (t1 F)) (real3 (t0 F))).
  Notation b := (subR (real3 (t2 F)) (real3 (t0 F))).
  Notation c := (getCrossProduct Dops (vsub Dops (t1 F) (t0 F)) (vsub Dops (t2 F) (t0 F))).
  Lemma cross_parts : tame3 (-356) 203 c /\ crossed (val (t0 c)) (t1 a * t2 b) (t2 a * t1 b) /\ crossed (val (t1 c)) (t2 a * t0 b) (t0 a * t2 b) /\ crossed (val (t2 c)) (t0 a * t1 b) (t1 a * t0 b).
  Proof.
    destruct (vsub_ok _ _ H1 H0) as ((A0 & A1 & A2) & (B0 & B1 & B2)). destruct (vsub_ok _ _ H2 H0) as ((C0 & C1 & C2) & (D0 & D1 & D2)).
    destruct (comp_ok _ _ _ _ _ _ _ _ A1 C2 A2 C1 B1 D2 B2 D1) as (X0 & Y0). destruct (comp_ok _ _ _ _ _ _ _ _ A2 C0 A0 C2 B2 D0 B0 D2) as (X1 & Y1). destruct (comp_ok _ _ _ _ _ _ _ _ A0 C1 A1 C0 B0 D1 B1 D0) as (X2 & Y2).
    split; [split; [exact X0|split; [exact X1|exact X2]]|]. split; [exact Y0|]. split; [exact Y1|exact Y2].
  Qed.
  Lemma cross_nonzero O : clear_of O RF -> val (t0 c) <> 0 \/ val (t1 c) <> 0 \/ val (t2 c) <> 0.
  Proof.
    intros CL. destruct (Req_dec (val (t0 c)) 0) as [E0|]; auto. destruct (Req_dec (val (t1 c)) 0) as [E1|]; auto. destruct (Req_dec (val (t2 c)) 0) as [E2|]; auto. exfalso.
    destruct cross_parts as (_ & C0 & C1 & C2). rewrite E0 in C0. rewrite E1 in C1. rewrite E2 in C2.
    assert (P : forall o x y, crossed 0 x y -> parts 0 0 1 o x y).
    { intros o x y K. apply (part_ok 0 0 0 1 o o x y); [lra|exact K|replace (0 / 1) with 0 by lra; exact rel_0|rewrite Rmult_0_r; exact rel_0|apply (pert_le 0); [lia|apply pert_0]]. }
    assert (R0 : rel 0 (0 + 0)) by (rewrite Rplus_0_r; exact rel_0).
    pose proof (total_err 0 0 0 0 0 1 O a b (P _ _ _ C0) (P _ _ _ C1) (P _ _ _ C2) R0 R0) as E. unfold clear_of in CL. cbn [t0 t1 t2] in CL. rewrite Rmult_0_l, Rminus_0_l, Rabs_Ropp in E. lra.
  Qed.
  (** The computed normal. *)
  Lemma normal_ok O : clear_of O RF -> exists s, 0 < s /\ tame3 (-560) 611 (triNormal Dops F) /\
    rel (val (t0 (triNormal Dops F))) (val (t0 c) / s) /\ rel (val (t1 (triNormal Dops F))) (val (t1 c) / s) /\ rel (val (t2 (triNormal Dops F))) (val (t2 c) / s).
  Proof.
    intros CL. destruct cross_parts as ((T0 & T1 & T2) & _). destruct (square_ok c (conj T0 (conj T1 T2))) as (SQ & NN & PP). specialize (PP (cross_nonzero O CL)).
    destruct (sqrt_tame (-408) 204 _ SQ NN ltac:(lia) ltac:(lia)) as (ST & SP). specialize (SP PP). exists (val (asqrt Dops (vdot Dops c c))). split; [exact SP|]. assert (NZ : val (asqrt Dops (vdot Dops c c)) <> 0) by lra.
    destruct (div_tame _ _ _ _ _ _ T0 ST NZ ltac:(lia) ltac:(lia)) as (A0 & B0). destruct (div_tame _ _ _ _ _ _ T1 ST NZ ltac:(lia) ltac:(lia)) as (A1 & B1). destruct (div_tame _ _ _ _ _ _ T2 ST NZ ltac:(lia) ltac:(lia)) as (A2 & B2).
    unfold triNormal. cbv zeta. cbn [t0 t1 t2]. split; [split; [exact A0|split; [exact A1|exact A2]]|]. split; [exact B0|]. split; [exact B1|exact B2].
  Qed.
  (** Scalar products with it, the vector on either side. *)
  Definition dots (o n : q3 binary64) (d : binary64) : Prop := d = vdot Dops o n \/ d = vdot Dops n o.
  Lemma sign_ok o O d : tame3 (-152) 101 o -> pert 1 (val (t0 o)) (t0 O) -> pert 1 (val (t1 o)) (t1 O) -> pert 1 (val (t2 o)) (t2 O) -> clear_of O RF -> dots o (triNormal Dops F) d ->
    fin d = true /\ val d <> 0 /\ (0 < val d <-> 0 < triple O a b).
  Proof.
    intros (T0 & T1 & T2) P0 P1 P2 CL DD. destruct (normal_ok O CL) as (s & SP & (N0 & N1 & N2) & R0 & R1 & R2). destruct cross_parts as (_ & C0 & C1 & C2). assert (NZ : s <> 0) by lra.
    set (n := triNormal Dops F) in *.
    assert (M : forall x y, tame (-152) 101 x -> tame (-560) 611 y -> forall z, z = amul Dops x y \/ z = amul Dops y x -> tame (-712) 712 z /\ rel (val z) (val x * val y)).
    { intros x y X Y z [->| ->]; [exact (mul_tame _ _ _ _ _ _ X Y ltac:(lia) ltac:(lia))|]. rewrite (Rmult_comm (val x)). exact (mul_tame _ _ _ _ _ _ Y X ltac:(lia) ltac:(lia)). }
    assert (G : exists g0 g1 g2, d = aadd Dops (aadd Dops g0 g1) g2 /\ (g0 = amul Dops (t0 o) (t0 n) \/ g0 = amul Dops (t0 n) (t0 o)) /\ (g1 = amul Dops (t1 o) (t1 n) \/ g1 = amul Dops (t1 n) (t1 o)) /\ (g2 = amul Dops (t2 o) (t2 n) \/ g2 = amul Dops (t2 n) (t2 o))).
    { destruct DD as [->| ->]; unfold vdot; eexists _, _, _; (split; [reflexivity|]); auto. }
    destruct G as (g0 & g1 & g2 & -> & G0 & G1 & G2). destruct (M _ _ T0 N0 _ G0) as (A0 & B0). destruct (M _ _ T1 N1 _ G1) as (A1 & B1). destruct (M _ _ T2 N2 _ G2) as (A2 & B2).
    destruct (add_tame _ _ _ _ _ _ A0 A1 ltac:(lia) ltac:(lia) ltac:(lia)) as (A3 & B3). destruct (add_tame _ _ _ _ _ _ A3 A2 ltac:(lia) ltac:(lia) ltac:(lia)) as (A4 & B4).
    pose proof (total_err _ _ _ _ _ s O a b (part_ok _ _ _ s _ _ _ _ NZ C0 R0 B0 P0) (part_ok _ _ _ s _ _ _ _ NZ C1 R1 B1 P1) (part_ok _ _ _ s _ _ _ _ NZ C2 R2 B2 P2) B3 B4) as E.
    unfold clear_of in CL. cbn [t0 t1 t2] in CL. set (x := val (aadd Dops (aadd Dops g0 g1) g2)) in *.
    assert (L : Rabs (x * s - triple O a b) < Rabs (triple O a b)) by (eapply Rle_lt_trans; [exact E|exact CL]). split; [exact (proj1 A4)|].
    assert (K : (0 < x * s <-> 0 < triple O a b) /\ x * s <> 0).
    { clear -L. revert L. generalize (x * s) (triple O a b). intros y t L. unfold Rabs in L. destruct (Rcase_abs (y - t)), (Rcase_abs t); (split; [split; intros; lra|lra]). }
    destruct K as (K & K'). split; [intros Z; apply K'; rewrite Z; ring|]. rewrite <- K. split; intros Q; [now apply Rmult_lt_0_compat|]. apply (Rmult_lt_reg_r s); lra.
  Qed.
  (** The apex is computed to be above exactly if it is. *)
  Lemma above_ok v : tame3 (-100) 100 v -> clear_of (subR (real3 v) (real3 (t0 F))) RF -> (above Dops F v = true <-> 0 < triple (subR (real3 v) (real3 (t0 F))) a b).
  Proof.
    intros V CL. destruct (vsub_ok _ _ V H0) as (T & R0 & R1 & R2).
    destruct (sign_ok _ _ _ T (pert_rel _ _ R0) (pert_rel _ _ R1) (pert_rel _ _ R2) CL (or_intror eq_refl)) as (Fd & NZ & S). unfold above. destruct zero_val as (Z & ZF). pose proof (dgt_ok _ _ Fd ZF) as G. rewrite Z in G. rewrite <- S.
    split; intros Q; [pose proof (proj1 G Q); lra|apply (proj2 G); lra].
  Qed.
  Lemma omega_ok o : tame3 (-100) 100 o -> clear_of (real3 o) RF -> fin (vdot Dops o (triNormal Dops F)) = true /\ val (vdot Dops o (triNormal Dops F)) <> 0 /\ (0 < val (vdot Dops o (triNormal Dops F)) <-> 0 < triple (real3 o) a b).
  Proof.
    intros (O0 & O1 & O2) CL. assert (L : forall x, tame (-100) 100 x -> tame (-152) 101 x) by (intros x; apply tame_le; lia). assert (P : forall x, pert 1 x x) by (intros x; apply (pert_le 0); [lia|apply pert_0]).
    exact (sign_ok o (real3 o) _ (conj (L _ O0) (conj (L _ O1) (L _ O2))) (P _) (P _) (P _) CL (or_introl eq_refl)).
  Qed.
End Face.
