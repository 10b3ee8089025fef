(** C85: how far the scalar flux and the measure of convergence, computed in doubles, are from the exact ones. *)
From Coq Require Import ZArith Reals Lra Lia Permutation.
From Flocq Require Import Core Relative IEEE754.BinarySingleNaN IEEE754.Binary IEEE754.Bits.
From Verif Require Import Prelude Bytes DeckModel MeshModel GeometryModel DoubleModel DoubleProofs RoundProofs CommandModel DiffModel DiffSpec DiffProofs DiffDoubles FluxModel FluxSpec FluxProofs PropertiesFlux PropertiesThin SumSpec SumProofs.
Local Open Scope R_scope.
Local Existing Instance prec53.
Local Existing Instance fexp53.

(** C85: the scalar flux of a place of the mesh is finite and off the exact quadrature sum by at most (n+1) gaps
    of the sum of the sizes of the terms, plus n times the smallest double, for n angles. *)
Theorem C85_flux : forall nA nG wt nC psi c v g, (c < nC)%nat -> (v < 4)%nat -> (g < nG)%nat -> INR nA + 1 <= bpow radix2 50 ->
  (forall a, (a < nA)%nat -> fin (wt a) = true /\ fin (psi c a v g) = true) ->
  overAngles nA (fun a => Rabs (val (wt a))) (fun a => Rabs (val (psi c a v g))) <= bpow radix2 1020 ->
  fin (psiToPhi Dops nA nG wt nC psi c v g) = true /\
  Rabs (val (psiToPhi Dops nA nG wt nC psi c v g) - overAngles nA (fun a => val (wt a)) (fun a => val (psi c a v g)))
    <= (INR nA + 1) * gap * overAngles nA (fun a => Rabs (val (wt a))) (fun a => Rabs (val (psi c a v g))) + INR nA * tiny.
Proof.
  intros nA nG wt nC psi c v g Hc Hv Hg N F B. rewrite psiToPhi_eq, (proj2 (in_inside nG nC c v g)) by auto.
  assert (E1 : overAngles nA (fun a => val (wt a)) (fun a => val (psi c a v g)) = exact (fun a => psi c a v g) wt (seq 0 nA)) by (apply lsum_ext; intros; lra).
  assert (E2 : overAngles nA (fun a => Rabs (val (wt a))) (fun a => Rabs (val (psi c a v g))) = absolute (fun a => psi c a v g) wt (seq 0 nA)) by (apply lsum_ext; intros; rewrite Rabs_mult; lra).
  rewrite E1, E2 in *. destruct (dot_ok (fun a => psi c a v g) wt (seq 0 nA)) as (F1 & B1); [intros a I; apply in_seq in I; destruct (F a ltac:(lia)); now split|now rewrite seq_length|exact B|]. rewrite seq_length in B1.
  split; [exact F1|]. eapply Rle_trans; [exact B1|]. apply bound_le; [apply absolute_ge|]. assert (bpow radix2 50 <= bpow radix2 52) by (apply bpow_le; lia). lra.
Qed.
(** C85: without negative weights and fluxes that is a relative error. *)
Theorem C85_flux_relative : forall nA nG wt nC psi c v g, (c < nC)%nat -> (v < 4)%nat -> (g < nG)%nat -> INR nA + 1 <= bpow radix2 50 ->
  (forall a, (a < nA)%nat -> fin (wt a) = true /\ 0 <= val (wt a) /\ fin (psi c a v g) = true /\ 0 <= val (psi c a v g)) ->
  let phi := overAngles nA (fun a => val (wt a)) (fun a => val (psi c a v g)) in phi <= bpow radix2 1020 ->
  fin (psiToPhi Dops nA nG wt nC psi c v g) = true /\ Rabs (val (psiToPhi Dops nA nG wt nC psi c v g) - phi) <= (INR nA + 1) * gap * phi + INR nA * tiny.
Proof.
  intros nA nG wt nC psi c v g Hc Hv Hg N F phi B.
  assert (E : overAngles nA (fun a => Rabs (val (wt a))) (fun a => Rabs (val (psi c a v g))) = phi) by (apply lsum_ext; intros a I; apply in_seq in I; destruct (F a ltac:(lia)) as (_ & W & _ & P); rewrite !Rabs_pos_eq by assumption; reflexivity).
  pose proof (C85_flux nA nG wt nC psi c v g Hc Hv Hg N ltac:(intros a I; destruct (F a I) as (F1 & _ & F2 & _); now split)) as K. rewrite E in K. exact (K B).
Qed.

(** The fluxes are finite and of moderate size, and not too many; gsum adds up the ranks in some order. *)
Definition summable (np nG : nat) (nC : nat -> nat) (gsum : (nat -> binary64) -> binary64) (new old : nat -> nat -> nat -> nat -> binary64) : Prop :=
  (forall f, added Dops (map f (seq 0 np)) (gsum f)) /\
  (forall r c v g, (r < np)%nat -> (c < nC r)%nat -> (v < 4)%nat -> (g < nG)%nat -> fin (new r c v g) = true /\ fin (old r c v g) = true) /\
  3 * number np nC nG + 4 <= bpow radix2 52 /\
  overAll np nC nG (fun r c v g => Rabs (val (new r c v g))) <= bpow radix2 1000 /\
  overAll np nC nG (fun r c v g => Rabs (val (new r c v g) - val (old r c v g))) <= bpow radix2 1000 /\
  0 < overAll np nC nG (fun r c v g => Rabs (val (new r c v g))).
Lemma places_in np nG nC r c v g : In (r, (c, v, g)) (places np nG nC) -> (r < np)%nat /\ (c < nC r)%nat /\ (v < 4)%nat /\ (g < nG)%nat.
Proof.
  unfold places. intros I. apply in_concat in I as (l & I & J). apply in_map_iff in I as (r' & <- & I). apply in_map_iff in J as (k & E & J). apply in_seq in I. unfold tri in J.
  injection E as -> ->. apply in_prod_iff in J as (J & K). apply in_prod_iff in J as (J & L). apply in_seq in J, K, L. lia.
Qed.
Lemma places_number np nG nC : INR (length (places np nG nC)) = number np nC nG.
Proof.
  unfold number. rewrite <- (places_sum np nG nC (fun _ _ _ _ => 1)). induction (places np nG nC) as [|(r, ((c, v), g)) l IH]; [reflexivity|]. cbn [length]. rewrite S_INR, IH. unfold lsum. cbn [fold_right]. lra.
Qed.
Lemma term_le np nG nC f r c v g : (forall r c v g, 0 <= f r c v g) -> In (r, (c, v, g)) (places np nG nC) -> f r c v g <= overAll np nC nG f.
Proof.
  intros P I. rewrite <- (places_sum np nG nC f). induction (places np nG nC) as [|(r', ((c', v'), g')) l IH]; [destruct I|]. unfold lsum in *. cbn [fold_right]. destruct I as [I|I].
  - injection I as -> -> -> ->. assert (0 <= lsum l (fun k => let '(r, (c, v, g)) := k in f r c v g)) by (apply lsum_ge0; intros (?, ((?, ?), ?)) _; apply P). unfold lsum in *. lra.
  - specialize (IH I). specialize (P r' c' v' g'). lra.
Qed.
(** C85: comparing the computed relative change with a bound is comparing a number that is off the exact relative
    change by at most 3n+4 gaps of it and half the smallest double; n: the number of values of the flux. *)
Theorem C85_change : forall np nG nC gsum new old errMax, summable np nG nC gsum new old -> fin errMax = true ->
  let exact := change np nC nG (fun r c v g => val (new r c v g)) (fun r c v g => val (old r c v g)) in
  exists computed, (agt Dops (relError Dops nG nC gsum new old) errMax = true <-> val errMax < computed) /\
    (fin (relError Dops nG nC gsum new old) = true -> val (relError Dops nG nC gsum new old) = computed) /\
    Rabs (computed - exact) <= (3 * number np nC nG + 4) * gap * exact + tiny / 2.
Proof.
  intros np nG nC gsum new old errMax (SUM & FIN & NUM & BN & BD & POS) FE exact.
  assert (BB : bpow radix2 1000 <= bpow radix2 1009) by (apply bpow_le; lia).
  assert (N0 : 0 <= number np nC nG) by (rewrite <- (places_number np nG nC); apply pos_INR).
  assert (LEN : INR (length (places np nG nC)) <= bpow radix2 52) by (rewrite places_number; lra).
  set (t1 := fun k : nat * (nat * nat * nat) => let '(r, (c, v, g)) := k in aabs Dops (asub Dops (new r c v g) (old r c v g))).
  set (t2 := fun k : nat * (nat * nat * nat) => let '(r, (c, v, g)) := k in aabs Dops (new r c v g)).
  set (g1 := fun k : nat * (nat * nat * nat) => let '(r, (c, v, g)) := k in Rabs (val (new r c v g) - val (old r c v g))).
  set (g2 := fun k : nat * (nat * nat * nat) => let '(r, (c, v, g)) := k in Rabs (val (new r c v g))).
  assert (S1 : lsum (places np nG nC) g1 = overAll np nC nG (fun r c v g => Rabs (val (new r c v g) - val (old r c v g)))) by (rewrite <- (places_sum np nG nC); reflexivity).
  assert (S2 : lsum (places np nG nC) g2 = overAll np nC nG (fun r c v g => Rabs (val (new r c v g)))) by (rewrite <- (places_sum np nG nC); reflexivity).
  destruct (added_close t1 g1 (places np nG nC) (gsum (fun r => errorSum Dops nG nC r new old)) 1) as (F1 & Q1).
  { exact (gsum_added np nG nC gsum SUM (fun r c v g => aabs Dops (asub Dops (new r c v g) (old r c v g)))). }
  { intros (r, ((c, v), g)) I. pose proof (places_in _ _ _ _ _ _ _ I) as (Ir & Ic & Iv & Ig). destruct (FIN r c v g Ir Ic Iv Ig) as (Fn & Fo). cbn [t1 g1].
    pose proof (term_le np nG nC (fun r c v g => Rabs (val (new r c v g) - val (old r c v g))) r c v g (fun _ _ _ _ => Rabs_pos _) I) as LE. cbn beta in LE.
    destruct (sub_step (new r c v g) (old r c v g) 1000 Fn Fo ltac:(lia) ltac:(lra)) as (Fs & d & D & V). destruct (abs_ok (asub Dops (new r c v g) (old r c v g))) as (Fa & _ & Va & _).
    split; [now rewrite Fa|]. rewrite Va, V, Rabs_mult. apply factor in D. pose proof u_small. rewrite (Rabs_pos_eq (1 + d)) by lra. pose proof (Rabs_pos (val (new r c v g) - val (old r c v g))) as P0. split; [exact P0|]. cbn [pow]. rewrite !Rmult_1_r. split; apply Rmult_le_compat_l; lra. }
  { lia. } { exact LEN. } { rewrite S1. lra. }
  destruct (added_close t2 g2 (places np nG nC) (gsum (fun r => normSum Dops nG nC r new)) 0) as (F2 & Q2).
  { exact (gsum_added np nG nC gsum SUM (fun r c v g => aabs Dops (new r c v g))). }
  { intros (r, ((c, v), g)) I. pose proof (places_in _ _ _ _ _ _ _ I) as (Ir & Ic & Iv & Ig). destruct (FIN r c v g Ir Ic Iv Ig) as (Fn & Fo). cbn [t2 g2].
    destruct (abs_ok (new r c v g)) as (Fa & _ & Va & _). split; [now rewrite Fa|]. rewrite Va. split; [apply Rabs_pos|]. cbn [pow]. lra. }
  { lia. } { exact LEN. } { rewrite S2. lra. }
  rewrite S1 in Q1. rewrite S2 in Q2. set (n := length (places np nG nC)) in *. rewrite Nat.add_0_r in Q2. rewrite Nat.add_1_r in Q1. apply (near_mono n (S n)) in Q2; [|lia].
  destruct (quot_near _ _ _ _ _ Q1 Q2 POS) as (D0 & Q). fold (change np nC nG (fun r c v g => val (new r c v g)) (fun r c v g => val (old r c v g))) in Q. change (change _ _ _ _ _) with exact in Q.
  pose proof (near_pos _ _ _ Q1) as E0. set (E := gsum (fun r => errorSum Dops nG nC r new old)) in *. set (D := gsum (fun r => normSum Dops nG nC r new)) in *.
  assert (RE : relError Dops nG nC gsum new old = adiv Dops E D) by reflexivity. rewrite RE. exists (rnd (val E / val D)). split; [|split].
  - apply agt_quot; auto; [apply sgn_pos; auto|]. intros NZ. apply sgn_pos; auto. lra.
  - intros F. pose proof (Bdiv_correct 53 1024 (@eq_refl comparison Lt) (@eq_refl comparison Lt) binop_nan_pl64 mode_NE E D ltac:(lra)) as K. change (round_mode mode_NE) with ZnearestE in K. destruct (Rlt_bool _ _); [exact (proj1 K)|].
    apply overflow_inf in K. exfalso. assert (X : true = false) by (rewrite <- F; exact K). discriminate.
  - destruct (error_N_FLT radix2 (-1074) 53 eq_refl (fun x => negb (Z.even x)) (val E / val D)) as (d & t & Dd & T & _ & EQ).
    assert (EQ' : rnd (val E / val D) = val E / val D * (1 + d) + t) by exact EQ. rewrite EQ'. assert (Dd' : Rabs d <= unitR) by (rewrite unit_eq; exact Dd).
    pose proof (near_round _ _ _ d Q Dd') as W. replace (val E / val D * (1 + d) + t - exact) with ((val E / val D * (1 + d) - exact) + t) by ring. eapply Rle_trans; [apply Rabs_triang|]. apply Rplus_le_compat; [|unfold tiny; lra].
    assert (M : INR (S (3 * S n)) = 3 * number np nC nG + 4). { rewrite S_INR, mult_INR, (S_INR n). unfold n. rewrite places_number. cbn [INR]. lra. }
    rewrite <- M. apply near_rel; [exact W|]. rewrite M. lra.
Qed.
(** C85: source iteration that stops before the iteration limit has made an exact relative change within errMax, up
    to these errors. *)
Theorem C85_stop : forall pi nA nG wt nC np sigmaS gsum sweep iterMax errMax source psi iters psi' phiNew phiOld error,
  fixedPoint Dops pi nA nG wt nC sigmaS gsum sweep iterMax errMax source psi iters psi' phiNew phiOld error ->
  (0 < iters)%N -> (iters < iterMax)%N -> fin errMax = true -> summable np nG nC gsum phiNew phiOld ->
  change np nC nG (fun r c v g => val (phiNew r c v g)) (fun r c v g => val (phiOld r c v g)) * (1 - (3 * number np nC nG + 4) * gap) <= val errMax + tiny / 2.
Proof.
  intros pi nA nG wt nC np sigmaS gsum sweep iterMax errMax source psi iters psi' phiNew phiOld error H I0 IM FE S.
  destruct (C40_limits _ _ _ _ _ _ _ _ _ _ _ _ _ _ _ _ _ _ _ H) as (_ & _ & ST & _ & RE). specialize (ST IM). destruct (RE I0) as (RE' & _). rewrite RE' in ST.
  destruct (C85_change np nG nC gsum phiNew phiOld errMax S FE) as (w & W & _ & B). set (q := change _ _ _ _ _) in *.
  assert (L : ~ val errMax < w) by (intros L; apply W in L; congruence). pose proof (Rle_abs (q - w)) as A. rewrite Rabs_minus_sym in A. lra.
Qed.
(** C85: and an iteration after which it goes on for the change has changed the flux by more than errMax, up to these
    errors. *)
Theorem C85_continue : forall np nG nC gsum new old errMax, summable np nG nC gsum new old -> fin errMax = true ->
  agt Dops (relError Dops nG nC gsum new old) errMax = true ->
  val errMax < change np nC nG (fun r c v g => val (new r c v g)) (fun r c v g => val (old r c v g)) * (1 + (3 * number np nC nG + 4) * gap) + tiny / 2.
Proof.
  intros np nG nC gsum new old errMax S FE G. destruct (C85_change np nG nC gsum new old errMax S FE) as (w & W & _ & B). set (q := change _ _ _ _ _) in *. apply W in G. pose proof (Rle_abs (w - q)). lra.
Qed.

(** C85: two directions of weight 1 and fluxes 1; two ranks with a cell each, fluxes 1 after 0. *)
Lemma one_val : fin (D_of_Z 1) = true /\ val (D_of_Z 1) = 1.
Proof. split; [reflexivity|]. rewrite (val_of _ false 4503599627370496 (-52)) by (vm_compute; reflexivity). unfold F2R. cbn. lra. Qed.
Example C85_ex :
  Rabs (val (psiToPhi Dops 2 1 (fun _ => D_of_Z 1) 1 (fun _ _ _ _ => D_of_Z 1) 0 3 0) - 2) <= 3 * gap * 2 + 2 * tiny /\
  summable 2 1 (fun _ => 1%nat) (fun f => aadd Dops (f 1%nat) (f 0%nat)) (fun _ _ _ _ => D_of_Z 1) (fun _ _ _ _ => D_of_Z 0) /\
  change 2 (fun _ => 1%nat) 1 (fun _ _ _ _ => val (D_of_Z 1)) (fun _ _ _ _ => val (D_of_Z 0)) = 1 /\ number 2 (fun _ => 1%nat) 1 = 8.
Proof.
  destruct one_val as (F1 & V1). assert (V0 : val (D_of_Z 0) = 0) by reflexivity.
  assert (B : forall k, (4 <= k)%Z -> 16 <= bpow radix2 k) by (intros k K; change 16 with (bpow radix2 4); apply bpow_le; lia).
  split; [|split; [|split]].
  - destruct (C85_flux_relative 2 1 (fun _ => D_of_Z 1) 1 (fun _ _ _ _ => D_of_Z 1) 0 3 0) as (_ & K); try lia.
    + cbn [INR]. pose proof (B 50%Z ltac:(lia)). lra.
    + intros a _. rewrite V1. split; [exact F1|]. split; [lra|]. split; [exact F1|lra].
    + unfold overAngles, lsum. cbn [seq fold_right]. rewrite V1. pose proof (B 1020%Z ltac:(lia)). lra.
    + unfold overAngles, lsum in K. cbn [seq fold_right INR] in K. rewrite V1 in K. eapply Rle_trans; [eapply Rle_trans; [|exact K]|]; right; [f_equal; ring|ring].
  - unfold summable, number, overAll, lsum. cbn [seq fold_right]. rewrite V1, V0, Rminus_0_r, Rabs_R1. split; [|split; [|split; [|split; [|split]]]].
    + intros f. cbn [map]. apply (added_two Dops _ [f 1%nat] [f 0%nat]); [apply perm_swap|constructor|constructor].
    + intros. split; [exact F1|reflexivity].
    + assert (64 <= bpow radix2 52) by (change 64 with (bpow radix2 6); apply bpow_le; lia). lra.
    + pose proof (B 1000%Z ltac:(lia)). lra.
    + pose proof (B 1000%Z ltac:(lia)). lra.
    + lra.
  - unfold change, overAll, lsum. cbn [seq fold_right]. rewrite V1, V0, Rminus_0_r, Rabs_R1. field.
  - unfold number, overAll, lsum. cbn [seq fold_right]. lra.
Qed.

Print Assumptions C85_flux.
Print Assumptions C85_flux_relative.
Print Assumptions C85_change.
Print Assumptions C85_stop.
Print Assumptions C85_continue.
Print Assumptions C85_ex.
