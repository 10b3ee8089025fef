(** Rounding errors of sums in doubles. *)
From Coq Require Import ZArith Reals Lra Lia Permutation.
From Flocq Require Import Core Relative Plus_error IEEE754.BinarySingleNaN IEEE754.Binary IEEE754.Bits.
From Verif Require Import Prelude Bytes DeckModel MeshModel GeometryModel DoubleModel DoubleProofs RoundProofs CommandModel DiffModel DiffSpec DiffProofs DiffDoubles FluxModel FluxSpec FluxProofs SumSpec.
Local Open Scope R_scope.
Local Existing Instance prec53.
Local Existing Instance fexp53.

(** ** Single operations *)
Definition ulow : R := / 2 * bpow radix2 (-1074).
Lemma ulow_pos : 0 < ulow.
Proof. unfold ulow. pose proof (bpow_gt_0 radix2 (-1074)). lra. Qed.
Lemma fin_small (r : R) k : (-1074 <= k < 1024)%Z -> Rabs r <= bpow radix2 k -> Rlt_bool (Rabs (rnd r)) (bpow radix2 1024) = true.
Proof. intros K H. apply Rlt_bool_true. apply (Rle_lt_trans _ (bpow radix2 k)); [apply round_le; [lia|exact H]|]. apply below. lia. Qed.
Lemma mul_step x y k : fin x = true -> fin y = true -> (-1074 <= k < 1024)%Z -> Rabs (val x * val y) <= bpow radix2 k ->
  fin (amul Dops x y) = true /\ exists d t, Rabs d <= unitR /\ Rabs t <= ulow /\ val (amul Dops x y) = val x * val y * (1 + d) + t.
Proof.
  intros Fx Fy K H. pose proof (Bmult_correct 53 1024 (@eq_refl comparison Lt) (@eq_refl comparison Lt) binop_nan_pl64 mode_NE x y) as P. change (round_mode mode_NE) with ZnearestE in P.
  rewrite (fin_small _ k K H) in P. destruct P as (V & F & _). rewrite Fx, Fy in F. split; [exact F|].
  destruct (error_N_FLT radix2 (-1074) 53 eq_refl (fun x => negb (Z.even x)) (val x * val y)) as (d & t & D & T & _ & E). exists d, t. rewrite unit_eq. split; [exact D|]. split; [exact T|]. exact (eq_trans V E).
Qed.
Lemma u_le (d : R) : Rabs d <= u_ro radix2 53 / (1 + u_ro radix2 53) -> Rabs d <= unitR.
Proof.
  intros H. eapply Rle_trans; [exact H|]. assert (U : u_ro radix2 53 = unitR) by (unfold u_ro; now rewrite unit_eq). rewrite U. pose proof unit_pos. apply (Rmult_le_reg_r (1 + unitR)); [lra|]. unfold Rdiv. rewrite Rmult_assoc, Rinv_l, Rmult_1_r by lra.
  pose proof (Rmult_lt_0_compat _ _ unit_pos unit_pos). lra.
Qed.
Lemma add_step x y k : fin x = true -> fin y = true -> (-1074 <= k < 1024)%Z -> Rabs (val x + val y) <= bpow radix2 k ->
  fin (aadd Dops x y) = true /\ exists d, Rabs d <= unitR /\ val (aadd Dops x y) = (val x + val y) * (1 + d).
Proof.
  intros Fx Fy K H. pose proof (Bplus_correct 53 1024 (@eq_refl comparison Lt) (@eq_refl comparison Lt) binop_nan_pl64 mode_NE x y Fx Fy) as P. change (round_mode mode_NE) with ZnearestE in P.
  rewrite (fin_small _ k K H) in P. destruct P as (V & F & _). split; [exact F|].
  destruct (FLT_plus_error_N_ex radix2 (-1074) 53 (fun x => negb (Z.even x)) (val x) (val y)) as (d & D & E); [apply generic_format_B2R|apply generic_format_B2R|]. exists d. split; [now apply u_le|]. exact (eq_trans V E).
Qed.
Lemma sub_step x y k : fin x = true -> fin y = true -> (-1074 <= k < 1024)%Z -> Rabs (val x - val y) <= bpow radix2 k ->
  fin (asub Dops x y) = true /\ exists d, Rabs d <= unitR /\ val (asub Dops x y) = (val x - val y) * (1 + d).
Proof.
  intros Fx Fy K H. pose proof (Bminus_correct 53 1024 (@eq_refl comparison Lt) (@eq_refl comparison Lt) binop_nan_pl64 mode_NE x y Fx Fy) as P. change (round_mode mode_NE) with ZnearestE in P.
  rewrite (fin_small _ k K H) in P. destruct P as (V & F & _). split; [exact F|].
  destruct (FLT_plus_error_N_ex radix2 (-1074) 53 (fun x => negb (Z.even x)) (val x) (- val y)) as (d & D & E); [apply generic_format_B2R|apply generic_format_opp, generic_format_B2R|]. exists d. split; [now apply u_le|]. exact (eq_trans V E).
Qed.

(** ** Powers of 1 + u and 1 - u *)
Lemma pow_up m : 2 * INR m * unitR <= 1 -> (1 + unitR) ^ m <= 1 + 2 * INR m * unitR.
Proof.
  induction m as [|m IH]; [intros _; cbn; lra|]. rewrite S_INR. intros H. pose proof unit_pos as U. pose proof (pos_INR m) as P.
  assert (H1 : 2 * INR m * unitR <= 1). { assert (0 <= INR m * unitR) by (apply Rmult_le_pos; lra). lra. }
  specialize (IH H1). cbn [pow]. apply Rle_trans with ((1 + unitR) * (1 + 2 * INR m * unitR)); [apply Rmult_le_compat_l; lra|].
  assert (2 * INR m * unitR * unitR <= 1 * unitR) by (apply Rmult_le_compat_r; lra). lra.
Qed.
Lemma pow_down m : INR m * unitR <= 1 -> 1 - INR m * unitR <= (1 - unitR) ^ m.
Proof.
  induction m as [|m IH]; [intros _; cbn; lra|]. rewrite S_INR. intros H. pose proof unit_pos as U. pose proof (pos_INR m) as P.
  assert (U1 : unitR <= 1) by (change 1 with (bpow radix2 0); apply bpow_le; lia).
  assert (Q : 0 <= INR m * unitR) by (apply Rmult_le_pos; lra). specialize (IH ltac:(lra)). cbn [pow]. apply Rle_trans with ((1 - unitR) * (1 - INR m * unitR)); [|apply Rmult_le_compat_l; lra].
  assert (0 <= INR m * unitR * unitR) by (apply Rmult_le_pos; lra). lra.
Qed.
Lemma pow_ge1 m : 1 <= (1 + unitR) ^ m.
Proof. apply pow_R1_Rle. pose proof unit_pos. lra. Qed.
Lemma u_small : unitR <= / 4.
Proof. replace (/ 4) with (bpow radix2 (-2)); [apply bpow_le; lia|]. cbn. lra. Qed.
Lemma pow_le1 m : 0 < (1 - unitR) ^ m <= 1.
Proof.
  pose proof unit_pos. pose proof u_small. induction m as [|m IH]; cbn [pow]; [lra|]. split; [apply Rmult_lt_0_compat; lra|]. apply Rle_trans with (1 * 1); [apply Rmult_le_compat; lra|lra].
Qed.
Lemma pow_up_mono m n : (m <= n)%nat -> (1 + unitR) ^ m <= (1 + unitR) ^ n.
Proof. intros H. apply Rle_pow; [pose proof unit_pos; lra|exact H]. Qed.
Lemma pow_down_mono m n : (m <= n)%nat -> (1 - unitR) ^ n <= (1 - unitR) ^ m.
Proof. intros H. replace n with (m + (n - m))%nat by lia. rewrite pow_add. pose proof (pow_le1 m). pose proof (pow_le1 (n - m)). apply Rle_trans with ((1 - unitR) ^ m * 1); [apply Rmult_le_compat_l; lra|lra]. Qed.

(** ** Sums of products *)
Section Dot.
  Variables (x y : nat -> binary64).
  Definition dot (l : list nat) (s : binary64) : binary64 := fold_left (fun s a => aadd Dops s (amul Dops (x a) (y a))) l s.
  Definition exact (l : list nat) : R := lsum l (fun a => val (x a) * val (y a)).
  Definition absolute (l : list nat) : R := lsum l (fun a => Rabs (val (x a) * val (y a))).
End Dot.
Lemma lsum_app {X : Type} l1 l2 (f : X -> R) : lsum (l1 ++ l2) f = lsum l1 f + lsum l2 f.
Proof. unfold lsum. induction l1 as [|a l1 IH]; cbn; [lra|]. rewrite IH. lra. Qed.
Lemma lsum_ge0 {X : Type} l (f : X -> R) : (forall a, In a l -> 0 <= f a) -> 0 <= lsum l f.
Proof. unfold lsum. induction l as [|a l IH]; cbn; intros H; [lra|]. specialize (IH (fun z I => H z (or_intror I))). specialize (H a (or_introl eq_refl)). lra. Qed.
Lemma absolute_ge x y l : 0 <= absolute x y l /\ Rabs (exact x y l) <= absolute x y l.
Proof.
  split; [apply lsum_ge0; intros; apply Rabs_pos|]. unfold exact, absolute, lsum. induction l as [|a l IH]; cbn; [rewrite Rabs_R0; lra|]. eapply Rle_trans; [apply Rabs_triang|]. lra.
Qed.
Definition bound (n : nat) (A : R) : R := ((1 + unitR) ^ S n - 1) * A + INR n * (1 + unitR) ^ n * ulow.
Lemma dot_step n s p S A X d t e : 0 <= A -> Rabs S <= A -> Rabs (s - S) <= bound n A -> Rabs d <= unitR -> Rabs t <= ulow -> p = X * (1 + d) + t -> Rabs e <= unitR ->
  Rabs ((s + p) * (1 + e) - (S + X)) <= bound (Datatypes.S n) (A + Rabs X).
Proof.
  intros A0 HS H D T -> E. pose proof unit_pos as U. pose proof ulow_pos as L.
  replace ((s + (X * (1 + d) + t)) * (1 + e) - (S + X)) with ((s - S) * (1 + e) + S * e + ((X * d + t) * (1 + e) + X * e)) by ring.
  assert (E1 : Rabs (1 + e) <= 1 + unitR) by (eapply Rle_trans; [apply Rabs_triang|]; rewrite Rabs_R1; lra).
  pose proof (Rabs_pos e). pose proof (Rabs_pos (1 + e)). pose proof (Rabs_pos X). pose proof (Rabs_pos d).
  eapply Rle_trans; [apply Rabs_triang|]. eapply Rle_trans; [apply Rplus_le_compat; apply Rabs_triang|]. rewrite !Rabs_mult.
  assert (B1 : Rabs (s - S) * Rabs (1 + e) <= bound n A * (1 + unitR)) by (apply Rmult_le_compat; auto using Rabs_pos).
  assert (B2 : Rabs S * Rabs e <= A * unitR) by (apply Rmult_le_compat; auto using Rabs_pos).
  assert (B3 : Rabs (X * d + t) <= Rabs X * unitR + ulow). { eapply Rle_trans; [apply Rabs_triang|]. rewrite Rabs_mult. apply Rplus_le_compat; [|exact T]. apply Rmult_le_compat_l; auto using Rabs_pos. }
  assert (B4 : Rabs (X * d + t) * Rabs (1 + e) <= (Rabs X * unitR + ulow) * (1 + unitR)) by (apply Rmult_le_compat; auto using Rabs_pos).
  assert (B5 : Rabs X * Rabs e <= Rabs X * unitR) by (apply Rmult_le_compat_l; auto).
  pose proof (pow_ge1 n) as G. set (g := (1 + unitR) ^ n) in *.
  assert (Q1 : bound (Datatypes.S n) (A + Rabs X) = ((1 + unitR) * ((1 + unitR) * g) - 1) * (A + Rabs X) + (INR n + 1) * ((1 + unitR) * g) * ulow) by (unfold bound; rewrite S_INR; cbn [pow]; fold g; ring).
  assert (Q2 : bound n A = ((1 + unitR) * g - 1) * A + INR n * g * ulow) by reflexivity. rewrite Q1. rewrite Q2 in B1.
  assert (C1 : (1 + unitR) * (1 + unitR) * Rabs X * 1 <= (1 + unitR) * (1 + unitR) * Rabs X * g) by (apply Rmult_le_compat_l; [|exact G]; repeat apply Rmult_le_pos; lra).
  assert (C2 : (1 + unitR) * ulow * 1 <= (1 + unitR) * ulow * g) by (apply Rmult_le_compat_l; [|exact G]; apply Rmult_le_pos; lra).
  lra.
Qed.
Lemma pow_two (m : nat) : INR m <= bpow radix2 52 -> 2 * INR m * unitR <= 1.
Proof.
  intros H. assert (E : bpow radix2 52 * unitR = / 2). { unfold unitR. rewrite <- bpow_plus. cbn. lra. }
  pose proof (Rmult_le_compat_r unitR _ _ (Rlt_le _ _ unit_pos) H) as K. rewrite E in K. lra.
Qed.
Lemma bound_le n A : 0 <= A -> INR n + 1 <= bpow radix2 52 -> bound n A <= (INR n + 1) * gap * A + INR n * tiny.
Proof.
  intros A0 H. unfold bound. assert (G : gap = 2 * unitR). { unfold gap, unitR. change (-52)%Z with (1 + -53)%Z. rewrite bpow_plus. reflexivity. }
  assert (T : tiny = 2 * ulow) by (unfold tiny, ulow; lra). rewrite G, T.
  pose proof (pow_up (S n)) as P. rewrite S_INR in P. specialize (P ltac:(rewrite <- S_INR; apply pow_two; rewrite S_INR; exact H)).
  pose proof (pow_up n (pow_two n ltac:(lra))) as P2. pose proof (pow_two n ltac:(lra)) as P3. pose proof ulow_pos. pose proof (pos_INR n).
  apply Rplus_le_compat.
  - apply Rmult_le_compat_r; [exact A0|]. lra.
  - rewrite Rmult_assoc. apply Rmult_le_compat_l; [lra|]. apply Rmult_le_compat_r; lra.
Qed.
Lemma dot_ok x y l : (forall a, In a l -> fin (x a) = true /\ fin (y a) = true) -> INR (length l) + 1 <= bpow radix2 50 -> absolute x y l <= bpow radix2 1020 ->
  fin (dot x y l (azero Dops)) = true /\ Rabs (val (dot x y l (azero Dops)) - exact x y l) <= bound (length l) (absolute x y l).
Proof.
  induction l as [|a l IH] using rev_ind; intros F N M.
  - unfold dot, exact, absolute, bound. cbn [fold_left lsum fold_right length]. split; [reflexivity|]. rewrite (proj1 zero_val), Rminus_0_r, Rabs_R0. cbn. lra.
  - rewrite app_length in *. cbn [length] in *. rewrite Nat.add_1_r in *. rewrite S_INR in N.
    assert (AX : absolute x y (l ++ [a]) = absolute x y l + Rabs (val (x a) * val (y a))) by (unfold absolute; rewrite lsum_app; cbn; lra).
    assert (EX : exact x y (l ++ [a]) = exact x y l + val (x a) * val (y a)) by (unfold exact; rewrite lsum_app; cbn; lra).
    rewrite AX in *. rewrite EX. destruct (absolute_ge x y l) as (A0 & AE). pose proof (Rabs_pos (val (x a) * val (y a))) as P0.
    destruct IH as (F1 & B1); [intros z I; apply F; apply in_or_app; now left|lra|lra|].
    destruct (F a) as (Fx & Fy); [apply in_or_app; right; now left|].
    destruct (mul_step (x a) (y a) 1020 Fx Fy ltac:(lia) ltac:(lra)) as (Fp & d & t & D & T & Ep).
    assert (B0 : bpow radix2 50 <= bpow radix2 52) by (apply bpow_le; lia).
    assert (SZ : Rabs (val (dot x y l (azero Dops)) + val (amul Dops (x a) (y a))) <= bpow radix2 1023).
    { assert (E1 : bpow radix2 1023 = 8 * bpow radix2 1020) by (change 1023%Z with (3 + 1020)%Z; rewrite bpow_plus; reflexivity).
      pose proof (bound_le (length l) (absolute x y l) A0 ltac:(lra)) as BL.
      assert (N0 : 0 <= INR (length l)) by apply pos_INR.
      assert (G1 : (INR (length l) + 1) * gap <= 1). { apply Rle_trans with (bpow radix2 50 * gap); [apply Rmult_le_compat_r; [apply bpow_ge_0|lra]|]. unfold gap. rewrite <- bpow_plus. change 1 with (bpow radix2 0). apply bpow_le. lia. }
      assert (T1 : INR (length l) * tiny <= bpow radix2 1020). { apply Rle_trans with (bpow radix2 50 * tiny); [apply Rmult_le_compat_r; [apply bpow_ge_0|lra]|]. unfold tiny. rewrite <- bpow_plus. apply bpow_le. lia. }
      assert (G2 : (INR (length l) + 1) * gap * absolute x y l <= 1 * absolute x y l) by (apply Rmult_le_compat_r; lra).
      assert (UL : ulow <= bpow radix2 1020). { unfold ulow. assert (bpow radix2 (-1074) <= bpow radix2 1020) by (apply bpow_le; lia). pose proof (bpow_gt_0 radix2 (-1074)). lra. }
      assert (PP : Rabs (val (amul Dops (x a) (y a))) <= 3 * bpow radix2 1020).
      { rewrite Ep. eapply Rle_trans; [apply Rabs_triang|]. rewrite Rabs_mult. assert (Rabs (1 + d) <= 2). { eapply Rle_trans; [apply Rabs_triang|]. rewrite Rabs_R1. pose proof u_small. lra. }
        assert (Rabs (val (x a) * val (y a)) * Rabs (1 + d) <= bpow radix2 1020 * 2) by (apply Rmult_le_compat; auto using Rabs_pos; lra). lra. }
      assert (SS : Rabs (val (dot x y l (azero Dops))) <= 3 * bpow radix2 1020).
      { replace (val (dot x y l (azero Dops))) with ((val (dot x y l (azero Dops)) - exact x y l) + exact x y l) by ring. eapply Rle_trans; [apply Rabs_triang|]. lra. }
      eapply Rle_trans; [apply Rabs_triang|]. pose proof (bpow_gt_0 radix2 1020). lra. }
    destruct (add_step _ _ 1023 F1 Fp ltac:(lia) SZ) as (Fs & e & E & Es).
    assert (DE : dot x y (l ++ [a]) (azero Dops) = aadd Dops (dot x y l (azero Dops)) (amul Dops (x a) (y a))) by (unfold dot; rewrite fold_left_app; reflexivity).
    rewrite DE. split; [exact Fs|]. rewrite Es. exact (dot_step _ _ _ _ _ _ d t e A0 AE B1 D T Ep E).
Qed.

(** ** Sums of numbers that are not negative, in any order *)
Definition near (m : nat) (s S : R) : Prop := 0 <= S /\ S * (1 - unitR) ^ m <= s <= S * (1 + unitR) ^ m.
Lemma near_mono m n s S : (m <= n)%nat -> near m s S -> near n s S.
Proof.
  intros L (P & A & B). split; [exact P|]. split.
  - eapply Rle_trans; [|exact A]. apply Rmult_le_compat_l; [exact P|]. now apply pow_down_mono.
  - eapply Rle_trans; [exact B|]. apply Rmult_le_compat_l; [exact P|]. now apply pow_up_mono.
Qed.
Lemma near_plus m a A b B : near m a A -> near m b B -> near m (a + b) (A + B).
Proof. intros (P & A1 & A2) (Q & B1 & B2). split; [lra|]. rewrite !Rmult_plus_distr_r. lra. Qed.
Lemma near_pos m s S : near m s S -> 0 <= s.
Proof. intros (P & A & _). eapply Rle_trans; [|exact A]. apply Rmult_le_pos; [exact P|]. pose proof (pow_le1 m). lra. Qed.
Lemma factor d : Rabs d <= unitR -> 1 - unitR <= 1 + d <= 1 + unitR.
Proof. intros H. unfold Rabs in H. destruct (Rcase_abs d); lra. Qed.
Lemma near_round m s S d : near m s S -> Rabs d <= unitR -> near (Datatypes.S m) (s * (1 + d)) S.
Proof.
  intros H D. pose proof (near_pos _ _ _ H) as P0. destruct H as (P & A & B). apply factor in D. pose proof u_small. pose proof unit_pos. split; [exact P|]. cbn [pow]. split.
  - replace (S * ((1 - unitR) * (1 - unitR) ^ m)) with (S * (1 - unitR) ^ m * (1 - unitR)) by ring. apply Rmult_le_compat; try lra. apply Rmult_le_pos; [exact P|]. pose proof (pow_le1 m). lra.
  - replace (S * ((1 + unitR) * (1 + unitR) ^ m)) with (S * (1 + unitR) ^ m * (1 + unitR)) by ring. apply Rmult_le_compat; lra.
Qed.
Lemma near_comp m n s t S : near m s t -> near n t S -> near (m + n) s S.
Proof.
  intros (P & A & B) (Q & C & D). split; [exact Q|]. rewrite !pow_add. pose proof (pow_le1 m). pose proof (pow_ge1 m). split.
  - eapply Rle_trans; [|exact A]. replace (S * ((1 - unitR) ^ m * (1 - unitR) ^ n)) with (S * (1 - unitR) ^ n * (1 - unitR) ^ m) by ring. apply Rmult_le_compat_r; lra.
  - eapply Rle_trans; [exact B|]. replace (S * ((1 + unitR) ^ m * (1 + unitR) ^ n)) with (S * (1 + unitR) ^ n * (1 + unitR) ^ m) by ring. apply Rmult_le_compat_r; lra.
Qed.
Definition total (l : list binary64) : R := lsum l (fun x => val x).
Lemma total_perm l l' : Permutation l l' -> total l = total l'.
Proof. unfold total, lsum. induction 1; cbn; lra. Qed.
Lemma added_nil l s : added Dops l s -> l = [] -> val s = 0.
Proof.
  induction 1 as [|x|l l1 l2 a b P _ IH1 _ IH2]; intros E; [apply zero_val|discriminate|]. subst l. apply Permutation_nil in P. apply app_eq_nil in P as (-> & ->).
  specialize (IH1 eq_refl). specialize (IH2 eq_refl). destruct (fin a) eqn:Fa; [destruct (fin b) eqn:Fb|].
  - destruct (add_step a b 0 Fa Fb ltac:(lia)) as (_ & d & _ & ->); [rewrite IH1, IH2, Rplus_0_r, Rabs_R0; apply bpow_ge_0|]. rewrite IH1, IH2. ring.
  - destruct (fin (aadd Dops a b)) eqn:F; [destruct (plus_fin a b F); congruence|]. destruct (aadd Dops a b); try discriminate; reflexivity.
  - destruct (fin (aadd Dops a b)) eqn:F; [destruct (plus_fin a b F); congruence|]. destruct (aadd Dops a b); try discriminate; reflexivity.
Qed.
Lemma added_near l s : added Dops l s -> (forall x, In x l -> fin x = true /\ 0 <= val x) -> INR (length l) <= bpow radix2 52 -> total l <= bpow radix2 1010 ->
  fin s = true /\ near (length l) (val s) (total l).
Proof.
  induction 1 as [|x|l l1 l2 a b P A1 IH1 A2 IH2]; intros F N M.
  - split; [reflexivity|]. unfold near, total. rewrite (proj1 zero_val). cbn. lra.
  - split; [now apply F; left|]. destruct (F x (or_introl eq_refl)) as (_ & X0). assert (E : total [x] = val x) by (unfold total; cbn; lra). rewrite E. apply (near_mono 0); [cbn; lia|]. unfold near. cbn. lra.
  - assert (E : total l = total l1 + total l2) by (rewrite (total_perm _ _ P); unfold total; apply lsum_app). pose proof (Permutation_length P) as LE. rewrite app_length in LE.
    assert (H1 : forall x, In x l1 -> fin x = true /\ 0 <= val x) by (intros x I; apply F; apply (Permutation_in x (Permutation_sym P)); apply in_or_app; now left).
    assert (H2 : forall x, In x l2 -> fin x = true /\ 0 <= val x) by (intros x I; apply F; apply (Permutation_in x (Permutation_sym P)); apply in_or_app; now right).
    assert (T1 : 0 <= total l1) by (apply lsum_ge0; intros x I; now apply H1). assert (T2 : 0 <= total l2) by (apply lsum_ge0; intros x I; now apply H2).
    rewrite LE, plus_INR in N. pose proof (pos_INR (length l1)). pose proof (pos_INR (length l2)).
    destruct (IH1 H1 ltac:(lra) ltac:(lra)) as (Fa & Na). destruct (IH2 H2 ltac:(lra) ltac:(lra)) as (Fb & Nb).
    assert (BIG : forall t T (q : list binary64), near (length q) t T -> T <= bpow radix2 1010 -> INR (length q) <= bpow radix2 52 -> 0 <= t <= bpow radix2 1011).
    { intros t T q Hn HT HL. split; [exact (near_pos _ _ _ Hn)|]. destruct Hn as (P0 & _ & B). eapply Rle_trans; [exact B|]. pose proof (pow_two _ HL) as P2. pose proof (pow_up _ P2).
      change 1011%Z with (1010 + 1)%Z. rewrite bpow_plus. apply Rmult_le_compat; [exact P0|pose proof (pow_ge1 (length q)); lra|exact HT|]. change (bpow radix2 1) with 2. lra. }
    pose proof (BIG _ _ _ Na ltac:(lra) ltac:(lra)) as Ba. pose proof (BIG _ _ _ Nb ltac:(lra) ltac:(lra)) as Bb.
    destruct (add_step a b 1012 Fa Fb ltac:(lia)) as (Fs & d & D & V).
    { rewrite Rabs_pos_eq by lra. change 1012%Z with (1011 + 1)%Z. rewrite bpow_plus. change (bpow radix2 1) with 2. lra. }
    split; [exact Fs|]. rewrite LE, E. destruct l1 as [|x1 l1].
    + pose proof (added_nil _ _ A1 eq_refl) as Z. cbn [length Nat.add]. replace (total [] + total l2) with (total l2) by (unfold total; cbn; ring).
      assert (W : val (aadd Dops a b) = val b). { rewrite (proj1 (plus_val a b Fs)), Z, Rplus_0_l. apply round_val. } rewrite W. exact Nb.
    + destruct l2 as [|x2 l2].
      * pose proof (added_nil _ _ A2 eq_refl) as Z. rewrite Nat.add_0_r. replace (total (x1 :: l1) + total []) with (total (x1 :: l1)) by (unfold total; cbn; ring).
        assert (W : val (aadd Dops a b) = val a). { rewrite (proj1 (plus_val a b Fs)), Z, Rplus_0_r. apply round_val. } rewrite W. exact Na.
      * set (m := Nat.max (length (x1 :: l1)) (length (x2 :: l2))). apply (near_mono (S m)); [unfold m; cbn [length]; lia|]. rewrite V. apply near_round; [|exact D].
        apply near_plus; [apply (near_mono (length (x1 :: l1)))|apply (near_mono (length (x2 :: l2)))]; unfold m; auto; lia.
Qed.
Lemma added_perm {T : Type} (A : arith T) l l' s : Permutation l l' -> added A l s -> added A l' s.
Proof.
  intros P H. destruct H as [|x|l l1 l2 a b P' A1 A2].
  - apply Permutation_nil in P. subst. constructor.
  - apply Permutation_length_1_inv in P. subst. constructor.
  - apply (added_two A l' l1 l2); auto. eapply Permutation_trans; [apply Permutation_sym; exact P|exact P'].
Qed.
Lemma added_fold {T X : Type} (A : arith T) (f : X -> T) l : added A (map f l) (fold_left (fun s k => aadd A s (f k)) l (azero A)).
Proof.
  induction l as [|x l IH] using rev_ind; [constructor|]. rewrite map_app, fold_left_app. cbn [map fold_left]. eapply added_two; [apply Permutation_refl|exact IH|constructor].
Qed.
Lemma concat_perm {X : Type} (L L' : list (list X)) : Permutation L L' -> Permutation (concat L) (concat L').
Proof. induction 1; cbn; auto; [now apply Permutation_app_head|rewrite !app_assoc; apply Permutation_app_tail, Permutation_app_comm|now transitivity (concat l')]. Qed.
Lemma added_nest {T : Type} (A : arith T) l s : added A l s -> forall Ls, Forall2 (fun x L => added A L x) l Ls -> added A (concat Ls) s.
Proof.
  induction 1 as [|x|l l1 l2 a b P _ IH1 _ IH2]; intros Ls H.
  - inversion H. constructor.
  - inversion H as [|? L ? ? HL HN]; subst. inversion HN; subst. cbn. now rewrite app_nil_r.
  - destruct (Permutation_Forall2 P H) as (Ls' & P' & H'). apply Forall2_app_inv_l in H' as (La & Lb & Ha & Hb & ->).
    apply (added_two A _ (concat La) (concat Lb)); auto. rewrite <- concat_app. now apply concat_perm.
Qed.
Lemma forall2_map {X Y Z : Type} (P : Y -> Z -> Prop) (f : X -> Y) (g : X -> Z) l : (forall x, In x l -> P (f x) (g x)) -> Forall2 P (map f l) (map g l).
Proof. induction l as [|x l IH]; intros H; constructor; [apply H; now left|apply IH; intros y I; apply H; now right]. Qed.

(** ** The measure of convergence *)
Section Change.
  Variables (np nG : nat) (nC : nat -> nat) (gsum : (nat -> binary64) -> binary64).
  Hypothesis SUM : forall f, added Dops (map f (seq 0 np)) (gsum f).
  Definition places : list (nat * (nat * nat * nat)) := concat (map (fun r => map (pair r) (tri nG (nC r))) (seq 0 np)).
  Lemma places_sum f : lsum places (fun k => let '(r, (c, v, g)) := k in f r c v g) = overAll np nC nG f.
  Proof.
    unfold places, overAll. generalize (seq 0 np). intros l. unfold lsum at 2. induction l as [|r l IH]; [reflexivity|]. cbn [map concat fold_right]. rewrite lsum_app, IH. f_equal. clear IH.
    assert (MP : forall (X Y : Type) (a : list X) (q : X -> Y) h, lsum (map q a) h = lsum a (fun x => h (q x))).
    { intros X Y a q h. unfold lsum. induction a as [|x a IH]; [reflexivity|]. cbn. now rewrite IH. }
    assert (PR : forall (X Y : Type) (a : list X) (b : list Y) h, lsum (list_prod a b) h = lsum a (fun x => lsum b (fun y => h (x, y)))).
    { intros X Y a b h. induction a as [|x a IH]; [reflexivity|]. cbn [list_prod]. rewrite lsum_app, IH, MP. reflexivity. }
    rewrite MP. unfold tri. rewrite PR, PR. reflexivity.
  Qed.
  Lemma gsum_added f : added Dops (map (fun k => let '(r, (c, v, g)) := k in f r c v g) places) (gsum (fun r => fold_left (fun s k => let '(c, v, g) := k in aadd Dops s (f r c v g)) (tri nG (nC r)) (azero Dops))).
  Proof.
    unfold places. rewrite concat_map, map_map. eapply added_nest; [apply SUM|]. apply forall2_map. intros r _. rewrite map_map.
    replace (fold_left _ (tri nG (nC r)) (azero Dops)) with (fold_left (fun s k => aadd Dops s ((fun k => let '(c, v, g) := k in f r c v g) k)) (tri nG (nC r)) (azero Dops)); [apply added_fold|].
    generalize (azero Dops). induction (tri nG (nC r)) as [|((c, v), g) l IH]; intros s; [reflexivity|]. cbn [fold_left]. apply IH.
  Qed.
End Change.

Lemma quot_near m E A D B : near m E A -> near m D B -> 0 < B -> 0 < D /\ near (3 * m) (E / D) (A / B).
Proof.
  intros (A0 & E1 & E2) (_ & D1 & D2) B0. pose proof unit_pos as U. pose proof u_small as US. pose proof (pow_le1 m) as PL. pose proof (pow_ge1 m) as PG.
  assert (D0 : 0 < D) by (eapply Rlt_le_trans; [|exact D1]; apply Rmult_lt_0_compat; lra). split; [exact D0|].
  assert (AB : 0 <= A / B) by (apply Rmult_le_pos; [exact A0|left; now apply Rinv_0_lt_compat]).
  assert (C1 : 1 <= ((1 + unitR) * (1 + unitR) * (1 - unitR)) ^ m). { apply pow_R1_Rle. replace ((1 + unitR) * (1 + unitR) * (1 - unitR)) with (1 + unitR * (1 - unitR - unitR * unitR)) by ring. assert (unitR * unitR <= / 4 * / 4) by (apply Rmult_le_compat; lra). assert (0 <= unitR * (1 - unitR - unitR * unitR)) by (apply Rmult_le_pos; lra). lra. }
  assert (C2 : ((1 - unitR) * (1 - unitR) * (1 + unitR)) ^ m <= 1).
  { eapply Rle_trans; [|right; apply (pow1 m)]. apply pow_incr. split; [repeat apply Rmult_le_pos; lra|]. replace ((1 - unitR) * (1 - unitR) * (1 + unitR)) with ((1 - unitR) * (1 - unitR * unitR)) by ring. apply Rle_trans with (1 * 1); [|lra]. assert (0 <= unitR * unitR <= / 4 * / 4) by (split; [apply Rmult_le_pos; lra|apply Rmult_le_compat; lra]). apply Rmult_le_compat; lra. }
  rewrite !Rpow_mult_distr in C1, C2. assert (P3 : forall a : R, a ^ (3 * m) = a ^ m * a ^ m * a ^ m) by (intros a; replace (3 * m)%nat with (m + m + m)%nat by lia; rewrite !pow_add; reflexivity).
  unfold near. rewrite !P3. set (p := (1 + unitR) ^ m) in *. set (q := (1 - unitR) ^ m) in *. split; [exact AB|].
  assert (X : forall z, A / B * z * B = A * z) by (intros z; field; lra).
  split; apply (Rmult_le_reg_r D); try exact D0; unfold Rdiv at 2; try (rewrite (Rmult_assoc E), Rinv_l, Rmult_1_r by lra).
  - apply Rle_trans with (A / B * (q * q * q) * (B * p)); [apply Rmult_le_compat_l; [apply Rmult_le_pos; [exact AB|repeat apply Rmult_le_pos; lra]|exact D2]|].
    rewrite <- Rmult_assoc, X. replace (A * (q * q * q) * p) with (A * q * (q * q * p)) by ring. apply Rle_trans with (A * q * 1); [apply Rmult_le_compat_l; [apply Rmult_le_pos; lra|exact C2]|lra].
  - unfold Rdiv at 1. rewrite (Rmult_assoc E), Rinv_l, Rmult_1_r by lra. fold (A / B). apply Rle_trans with (A / B * (p * p * p) * (B * q)); [|apply Rmult_le_compat_l; [apply Rmult_le_pos; [exact AB|repeat apply Rmult_le_pos; lra]|exact D1]].
    rewrite <- Rmult_assoc, X. replace (A * (p * p * p) * q) with (A * p * (p * p * q)) by ring. apply Rle_trans with (A * p * 1); [lra|]. apply Rmult_le_compat_l; [apply Rmult_le_pos; lra|exact C1].
Qed.
Lemma near_rel M w q : near M w q -> INR M <= bpow radix2 52 -> Rabs (w - q) <= INR M * gap * q.
Proof.
  intros (Q & L & U) H. pose proof (pow_two M H) as P. pose proof (pow_up M P) as PU. pose proof unit_pos. pose proof (pos_INR M). assert (0 <= INR M * unitR) by (apply Rmult_le_pos; lra). pose proof (pow_down M ltac:(lra)) as PD.
  assert (G : gap = 2 * unitR). { unfold gap, unitR. change (-52)%Z with (1 + -53)%Z. rewrite bpow_plus. reflexivity. } rewrite G.
  assert (X1 : q * (1 + unitR) ^ M <= q * (1 + 2 * INR M * unitR)) by (apply Rmult_le_compat_l; lra). assert (X2 : q * (1 - INR M * unitR) <= q * (1 - unitR) ^ M) by (apply Rmult_le_compat_l; lra).
  assert (0 <= INR M * unitR * q) by (apply Rmult_le_pos; lra). apply Rabs_le. lra.
Qed.
Lemma total_map {X : Type} (f : X -> binary64) l : total (map f l) = lsum l (fun k => val (f k)).
Proof. unfold total, lsum. induction l as [|x l IH]; [reflexivity|]. cbn. now rewrite IH. Qed.
Lemma near_sum {X : Type} m (f g : X -> R) l : (forall k, In k l -> near m (f k) (g k)) -> near m (lsum l f) (lsum l g).
Proof.
  unfold lsum. induction l as [|x l IH]; intros H; cbn; [unfold near; rewrite !Rmult_0_l; lra|]. apply near_plus; [apply H; now left|]. apply IH. intros k I. apply H. now right.
Qed.
(** A sum, in any order, of numbers each close to an exact one. *)
Lemma added_close {X : Type} (f : X -> binary64) (g : X -> R) l s m : added Dops (map f l) s -> (forall k, In k l -> fin (f k) = true /\ near m (val (f k)) (g k)) ->
  (m <= 1)%nat -> INR (length l) <= bpow radix2 52 -> lsum l g <= bpow radix2 1009 -> fin s = true /\ near (length l + m) (val s) (lsum l g).
Proof.
  intros A H M N B. assert (NS : near m (total (map f l)) (lsum l g)) by (rewrite total_map; apply near_sum; intros k I; now apply H).
  destruct (added_near (map f l) s A) as (F & Q).
  - intros x I. apply in_map_iff in I as (k & <- & I). destruct (H k I) as (F & Nk). split; [exact F|exact (near_pos _ _ _ Nk)].
  - now rewrite map_length.
  - destruct NS as (P & _ & U). eapply Rle_trans; [exact U|]. change 1010%Z with (1009 + 1)%Z. rewrite bpow_plus. apply Rmult_le_compat; [exact P|pose proof (pow_ge1 m); lra|exact B|]. change (bpow radix2 1) with 2. pose proof u_small. pose proof (pow_up_mono m 1 M). cbn [pow] in *. lra.
  - split; [exact F|]. rewrite map_length in Q. exact (near_comp _ _ _ _ _ Q NS).
Qed.
(** What division and comparison make of two finite numbers. *)
Lemma agt_quot a b t : fin a = true -> fin b = true -> fin t = true -> 0 <= val a -> 0 < val b -> sgn b = false -> (val a <> 0 -> sgn a = false) -> (agt Dops (adiv Dops a b) t = true <-> val t < rnd (val a / val b)).
Proof.
  intros Fa Fb Ft A0 B0 Sb Sa. pose proof (Bdiv_correct 53 1024 (@eq_refl comparison Lt) (@eq_refl comparison Lt) binop_nan_pl64 mode_NE a b ltac:(lra)) as K. change (round_mode mode_NE) with ZnearestE in K.
  set (z := Bdiv _ _ _ _ _ _ _ _) in *. change (adiv Dops a b) with z. destruct (Rlt_bool_spec (Rabs (rnd (val a / val b))) (bpow radix2 1024)) as [L|L].
  - destruct K as (V & F & _). rewrite Fa in F. rewrite (dgt_ok z t F Ft). rewrite V. split; intros H; exact H.
  - assert (NZ : val a <> 0). { intros Z. rewrite Z in L. unfold Rdiv in L. rewrite Rmult_0_l, round_0, Rabs_R0 in L; [|exact _]. pose proof (bpow_gt_0 radix2 1024). lra. }
    rewrite (Sa NZ), Sb in K. apply overflow_sign in K. rewrite K. split; intros _.
    + assert (Q : 0 <= rnd (val a / val b)). { rewrite <- (round_0 radix2 (SpecFloat.fexp 53 1024) ZnearestE). apply Generic_fmt.round_le; [exact _|exact _|]. apply Rmult_le_pos; [exact A0|left; now apply Rinv_0_lt_compat]. }
      rewrite Rabs_pos_eq in L by exact Q. pose proof (abs_B2R_lt_emax 53 1024 t) as T. pose proof (Rle_abs (val t)). lra.
    + cbn [agt Dops]. unfold b64_compare. destruct t as [s|s|s p e|s m e b']; try discriminate; reflexivity.
Qed.
Lemma sgn_pos x : fin x = true -> 0 < val x -> sgn x = false.
Proof.
  intros F P. destruct x as [s|s|s p e|s m e b]; try discriminate; [cbn in P; lra|]. destruct s; [exfalso|reflexivity]. assert (G : val (Binary.B754_finite 53 1024 true m e b) < 0) by (apply F2R_lt_0; reflexivity). lra.
Qed.
