(** The computed sign of a triple product. *)
From Coq Require Import ZArith Reals Lra Lia.
From Flocq Require Import Core IEEE754.BinarySingleNaN IEEE754.Binary IEEE754.Bits.
From Verif Require Import Prelude MeshModel GeometryModel GeometrySpec DoubleModel DoubleSpec DoubleProofs RoundProofs RoundSpec.
Local Open Scope R_scope.

(** [k] roundings. *)
Definition pert (k : nat) (v r : R) : Prop := exists d, Rabs d <= (1 + unitR) ^ k - 1 /\ v = r * (1 + d).
Lemma pert_rel v r : rel v r -> pert 1 v r.
Proof. intros (d & D & E). exists d. split; [|exact E]. rewrite pow_1. lra. Qed.
Lemma pert_0 r : pert 0 r r.
Proof. exists 0. rewrite Rabs_R0. cbn. split; lra. Qed.
Lemma pow_ge1 k : 1 <= (1 + unitR) ^ k.
Proof. apply pow_R1_Rle. pose proof unit_pos. lra. Qed.
Lemma bound_mul a b d e : Rabs d <= a - 1 -> Rabs e <= b - 1 -> Rabs ((1 + d) * (1 + e) - 1) <= a * b - 1.
Proof.
  intros D E. replace ((1 + d) * (1 + e) - 1) with (d + e + d * e) by ring. eapply Rle_trans; [apply Rabs_triang|]. eapply Rle_trans; [apply Rplus_le_compat_r, Rabs_triang|]. rewrite Rabs_mult.
  pose proof (Rabs_pos d). pose proof (Rabs_pos e). assert (Rabs d * Rabs e <= (a - 1) * (b - 1)) by (apply Rmult_le_compat; lra). lra.
Qed.
Lemma pert_mul j k v w r s : pert j v r -> pert k w s -> pert (j + k) (v * w) (r * s).
Proof.
  intros (d & D & ->) (e & E & ->). exists ((1 + d) * (1 + e) - 1). split; [|ring]. rewrite pow_add. now apply bound_mul.
Qed.
Lemma pert_trans j k v w r : pert j v w -> pert k w r -> pert (j + k) v r.
Proof.
  intros (d & D & ->) (e & E & ->). exists ((1 + d) * (1 + e) - 1). split; [|ring]. rewrite pow_add. now apply bound_mul.
Qed.
Lemma pert_le j k v r : (j <= k)%nat -> pert j v r -> pert k v r.
Proof.
  intros L (d & D & E). exists d. split; [|exact E]. eapply Rle_trans; [exact D|]. assert ((1 + unitR) ^ j <= (1 + unitR) ^ k) by (apply Rle_pow; [pose proof unit_pos; lra|exact L]). lra.
Qed.
(** Sums of six terms, each perturbed. *)
Definition six (x : nat -> R) : R := x 0%nat + x 1%nat + x 2%nat + x 3%nat + x 4%nat + x 5%nat.
Lemma six_err k (v r : nat -> R) : (forall i, (i < 6)%nat -> pert k (v i) (r i)) -> Rabs (six v - six r) <= ((1 + unitR) ^ k - 1) * six (fun i => Rabs (r i)).
Proof.
  intros H. assert (K : forall i, (i < 6)%nat -> Rabs (v i - r i) <= ((1 + unitR) ^ k - 1) * Rabs (r i)).
  { intros i Hi. destruct (H i Hi) as (d & D & ->). replace (r i * (1 + d) - r i) with (d * r i) by ring. rewrite Rabs_mult. apply Rmult_le_compat_r; auto using Rabs_pos. }
  pose proof (K 0%nat ltac:(lia)). pose proof (K 1%nat ltac:(lia)). pose proof (K 2%nat ltac:(lia)). pose proof (K 3%nat ltac:(lia)). pose proof (K 4%nat ltac:(lia)). pose proof (K 5%nat ltac:(lia)). unfold six.
  replace (v 0%nat + v 1%nat + v 2%nat + v 3%nat + v 4%nat + v 5%nat - (r 0%nat + r 1%nat + r 2%nat + r 3%nat + r 4%nat + r 5%nat)) with
    ((v 0%nat - r 0%nat) + (v 1%nat - r 1%nat) + (v 2%nat - r 2%nat) + (v 3%nat - r 3%nat) + (v 4%nat - r 4%nat) + (v 5%nat - r 5%nat)) by ring.
  repeat (eapply Rle_trans; [apply Rabs_triang|]; rewrite !Rmult_plus_distr_l; apply Rplus_le_compat; [|assumption]; rewrite <- ?Rmult_plus_distr_l). assumption.
Qed.
Lemma nine : (1 + unitR) ^ 9 - 1 <= / 562949953421312.
Proof.
  assert (SM : unitR <= / 1000).
  { unfold unitR. apply Rle_trans with (bpow radix2 (-10)); [apply bpow_le; lia|]. change (bpow radix2 (-10)) with (/ 1024). lra. }
  assert (K : forall k c, (1 + unitR) ^ k <= 1 + c * unitR -> 0 <= c <= 100 -> (1 + unitR) ^ (S k) <= 1 + (c + 1.1) * unitR).
  { intros k c H C. cbn [pow]. pose proof unit_pos. apply Rle_trans with ((1 + unitR) * (1 + c * unitR)); [apply Rmult_le_compat_l; lra|]. nra. }
  assert (K0 : (1 + unitR) ^ 0 <= 1 + 0 * unitR) by (cbn; lra).
  do 9 (apply K in K0; [|lra]). assert (E : / 562949953421312 = 16 * unitR). { unfold unitR. change (bpow radix2 (-53)) with (/ 9007199254740992). lra. } rewrite E. pose proof unit_pos. lra.
Qed.

(** What the three components become: two products of two rounded differences, subtracted. *)
Definition crossed (c x y : R) : Prop := exists e e', pert 4 e x /\ pert 4 e' y /\ c = e - e'.
Lemma cross_ok (a b c d A B C D p q r : R) : pert 1 a A -> pert 1 b B -> pert 1 c C -> pert 1 d D -> rel p (a * b) -> rel q (c * d) -> rel r (p - q) -> crossed r (A * B) (C * D).
Proof.
  intros PA PB PC PD Rp Rq (d0 & D0 & ->). apply pert_rel in Rp, Rq. pose proof (pert_trans _ _ _ _ _ Rp (pert_mul _ _ _ _ _ _ PA PB)) as P. pose proof (pert_trans _ _ _ _ _ Rq (pert_mul _ _ _ _ _ _ PC PD)) as Q.
  assert (T : forall w x, pert 3 w x -> pert 4 (w * (1 + d0)) x). { intros w x H. change 4%nat with (1 + 3)%nat. apply pert_trans with w; [|exact H]. exists d0. split; [rewrite pow_1; lra|reflexivity]. }
  exists (p * (1 + d0)), (q * (1 + d0)). split; [apply T; exact P|]. split; [apply T; exact Q|]. ring.
Qed.
(** One summand of the scalar product with the normal, times the length that was divided out; [j] later roundings. *)
Definition parts (j : nat) (g s o x y : R) : Prop := exists e e', pert (7 + j) e (o * x) /\ pert (7 + j) e' (o * y) /\ g * s = e - e'.
Lemma part_ok c n g s o O x y : s <> 0 -> crossed c x y -> rel n (c / s) -> rel g (o * n) -> pert 1 o O -> parts 0 g s O x y.
Proof.
  intros NZ (e & e' & E & E' & ->) (d1 & D1 & ->) (d2 & D2 & ->) PO.
  assert (T : forall w z, pert 4 w z -> pert 7 (o * w * ((1 + d1) * (1 + d2))) (O * z)).
  { intros w z H. change 7%nat with (2 + (1 + 4))%nat. apply pert_trans with (o * w); [|now apply pert_mul]. exists ((1 + d1) * (1 + d2) - 1). split; [|ring]. cbn [pow]. rewrite !Rmult_1_r. apply bound_mul; lra. }
  exists (o * e * ((1 + d1) * (1 + d2))), (o * e' * ((1 + d1) * (1 + d2))). split; [now apply T|]. split; [now apply T|]. field. exact NZ.
Qed.
Lemma part_scale j g s o x y d : Rabs d <= unitR -> parts j g s o x y -> parts (S j) (g * (1 + d)) s o x y.
Proof.
  intros D (e & e' & E & E' & H). assert (T : forall w z, pert (7 + j) w z -> pert (7 + S j) (w * (1 + d)) z). { intros w z P. replace (7 + S j)%nat with (1 + (7 + j))%nat by lia. apply pert_trans with w; [|exact P]. exists d. split; [rewrite pow_1; lra|reflexivity]. }
  exists (e * (1 + d)), (e' * (1 + d)). split; [now apply T|]. split; [now apply T|]. replace (g * (1 + d) * s) with (g * s * (1 + d)) by ring. rewrite H. ring.
Qed.
Lemma parts_le j k g s o x y : (j <= k)%nat -> parts j g s o x y -> parts k g s o x y.
Proof. intros L (e & e' & E & E' & H). exists e, e'. split; [apply (pert_le (7 + j)); [lia|exact E]|]. split; [apply (pert_le (7 + j)); [lia|exact E']|exact H]. Qed.

Lemma total_err g0 g1 g2 h d s (o a b : q3 R) :
  parts 0 g0 s (t0 o) (t1 a * t2 b) (t2 a * t1 b) -> parts 0 g1 s (t1 o) (t2 a * t0 b) (t0 a * t2 b) -> parts 0 g2 s (t2 o) (t0 a * t1 b) (t1 a * t0 b) ->
  rel h (g0 + g1) -> rel d (h + g2) -> Rabs (d * s - triple o a b) <= / 562949953421312 * tripleAbs o a b.
Proof.
  intros P0 P1 P2 (d1 & D1 & ->) (d2 & D2 & ->).
  apply (part_scale _ _ _ _ _ _ d1 D1) in P0. apply (part_scale _ _ _ _ _ _ d2 D2) in P0. apply (part_scale _ _ _ _ _ _ d1 D1) in P1. apply (part_scale _ _ _ _ _ _ d2 D2) in P1. apply (part_scale _ _ _ _ _ _ d2 D2) in P2. apply (parts_le 1 2) in P2; [|lia].
  destruct P0 as (e0 & f0 & E0 & F0 & H0), P1 as (e1 & f1 & E1 & F1 & H1), P2 as (e2 & f2 & E2 & F2 & H2).
  assert (N : forall k v r, pert k v r -> pert k (- v) (- r)) by (intros k v r (x & X & ->); exists x; split; [exact X|ring]).
  set (v := fun i => match i with 0%nat => e0 | 1%nat => - f0 | 2%nat => e1 | 3%nat => - f1 | 4%nat => e2 | _ => - f2 end).
  set (r := fun i => match i with 0%nat => t0 o * (t1 a * t2 b) | 1%nat => - (t0 o * (t2 a * t1 b)) | 2%nat => t1 o * (t2 a * t0 b) | 3%nat => - (t1 o * (t0 a * t2 b)) | 4%nat => t2 o * (t0 a * t1 b) | _ => - (t2 o * (t1 a * t0 b)) end).
  assert (X : Rabs (six v - six r) <= ((1 + unitR) ^ 9 - 1) * six (fun i => Rabs (r i))).
  { apply six_err. intros i Hi. destruct i as [|[|[|[|[|[|i]]]]]]; cbn [v r]; auto; lia. }
  replace (six v) with (((g0 + g1) * (1 + d1) + g2) * (1 + d2) * s) in X by (unfold six, v; transitivity (g0 * (1 + d1) * (1 + d2) * s + g1 * (1 + d1) * (1 + d2) * s + g2 * (1 + d2) * s); [ring|rewrite H0, H1, H2; ring]).
  replace (six r) with (triple o a b) in X by (unfold six, r, triple; ring).
  replace (six (fun i => Rabs (r i))) with (tripleAbs o a b) in X by (unfold six, r, tripleAbs; rewrite !Rabs_Ropp, (Rabs_mult (t0 o)), (Rabs_mult (t0 o)), (Rabs_mult (t1 o)), (Rabs_mult (t1 o)), (Rabs_mult (t2 o)), (Rabs_mult (t2 o)); ring).
  eapply Rle_trans; [exact X|]. apply Rmult_le_compat_r; [|exact nine]. unfold tripleAbs. pose proof Rabs_pos as RP. 
  repeat apply Rplus_le_le_0_compat; apply Rmult_le_pos; auto; apply Rplus_le_le_0_compat; auto.
Qed.
