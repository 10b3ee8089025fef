(** Doubles: the relative error of one operation away from underflow and overflow. *)
From Coq Require Import ZArith Reals Lra Lia.
From Flocq Require Import Core Relative Plus_error IEEE754.BinarySingleNaN IEEE754.Binary IEEE754.Bits.
From Verif Require Import Prelude MeshModel GeometryModel DoubleModel DoubleProofs.
Local Open Scope R_scope.

(** Half a unit in the last place of 1. *)
Definition unitR : R := bpow radix2 (-53).
Definition rel (v r : R) : Prop := exists d, Rabs d <= unitR /\ v = r * (1 + d).
(** Finite, zero or at least 2^lo, at most 2^hi. *)
Definition tame (lo hi : Z) (x : binary64) : Prop := fin x = true /\ (val x = 0 \/ bpow radix2 lo <= Rabs (val x)) /\ Rabs (val x) <= bpow radix2 hi.
Notation rnd := (round radix2 (SpecFloat.fexp 53 1024) ZnearestE).

Lemma fexp_flt : SpecFloat.fexp 53 1024 = FLT_exp (-1074) 53.
Proof. reflexivity. Qed.
Local Instance prec53 : Prec_gt_0 53 := eq_refl.
Local Instance fexp53 : Valid_exp (SpecFloat.fexp 53 1024) := FLT_exp_valid (-1074) 53.
Lemma unit_eq : unitR = / 2 * bpow radix2 (-53 + 1).
Proof. unfold unitR. rewrite bpow_plus. change (bpow radix2 1) with 2. lra. Qed.
Lemma unit_pos : 0 < unitR.
Proof. apply bpow_gt_0. Qed.
Lemma round_rel r : r = 0 \/ bpow radix2 (-1022) <= Rabs r -> rel (rnd r) r.
Proof.
  intros [->|H].
  - exists 0. rewrite Rabs_R0. split; [left; exact unit_pos|]. rewrite round_0; [ring|apply valid_rnd_N].
  - destruct (relative_error_N_FLT_ex radix2 (-1074) 53 eq_refl (fun x => negb (Z.even x)) r H) as (d & D & E). exists d. rewrite unit_eq. split; [exact D|]. exact E.
Qed.
Lemma round_le r k : (-1074 <= k)%Z -> Rabs r <= bpow radix2 k -> Rabs (rnd r) <= bpow radix2 k.
Proof. intros K H. apply abs_round_le_generic; [exact _|exact _| |exact H]. rewrite fexp_flt. apply generic_format_FLT_bpow; [reflexivity|lia]. Qed.
Lemma round_ge r k : (-1074 <= k)%Z -> r = 0 \/ bpow radix2 k <= Rabs r -> rnd r = 0 \/ bpow radix2 k <= Rabs (rnd r).
Proof.
  intros K [->|H]; [left; apply round_0, valid_rnd_N|right]. apply abs_round_ge_generic; [exact _|exact _| |exact H]. rewrite fexp_flt. apply generic_format_FLT_bpow; [reflexivity|lia].
Qed.
Lemma below k : (k < 1024)%Z -> bpow radix2 k < bpow radix2 1024.
Proof. intros H. now apply bpow_lt. Qed.

Lemma mul_tame a b c d x y : tame a b x -> tame c d y -> (-1022 <= a + c)%Z -> (-1022 <= b + d < 1024)%Z ->
  tame (a + c) (b + d) (amul Dops x y) /\ rel (val (amul Dops x y)) (val x * val y).
Proof.
  intros (Fx & Lx & Ux) (Fy & Ly & Uy) H1 H2.
  assert (U : Rabs (val x * val y) <= bpow radix2 (b + d)) by (rewrite Rabs_mult, bpow_plus; apply Rmult_le_compat; auto using Rabs_pos).
  assert (L : val x * val y = 0 \/ bpow radix2 (a + c) <= Rabs (val x * val y)).
  { destruct Lx as [->|Lx]; [left; ring|]. destruct Ly as [->|Ly]; [left; ring|right]. rewrite Rabs_mult, bpow_plus. apply Rmult_le_compat; auto; apply bpow_ge_0. }
  pose proof (Bmult_correct 53 1024 (@eq_refl comparison Lt) (@eq_refl comparison Lt) binop_nan_pl64 mode_NE x y) as K. change (round_mode mode_NE) with ZnearestE in K.
  rewrite Rlt_bool_true in K by (eapply Rle_lt_trans; [apply (round_le _ (b + d)); [lia|exact U]|apply below; lia]). destruct K as (E0 & F0 & _). rewrite Fx, Fy in F0.
  assert (E : val (amul Dops x y) = rnd (val x * val y)) by exact E0. assert (F : fin (amul Dops x y) = true) by exact F0. clear E0 F0.
  split.
  - split; [exact F|]. rewrite E. split; [apply round_ge; [lia|exact L]|apply round_le; [lia|exact U]].
  - rewrite E. apply round_rel. destruct L as [L|L]; auto. right. eapply Rle_trans; [apply bpow_le; exact H1|exact L].
Qed.
(** A double that is zero or at least 2^lo is a multiple of 2^(lo-52). *)
Lemma grid lo hi x : tame lo hi x -> (-1022 <= lo)%Z -> exists m : Z, val x = IZR m * bpow radix2 (lo - 52).
Proof.
  intros (F & [->|L] & _) H; [exists 0%Z; cbn; ring|]. pose proof (generic_format_B2R 53 1024 x) as G.
  assert (M : (lo + 1 <= mag radix2 (val x))%Z) by (apply mag_ge_bpow; replace (lo + 1 - 1)%Z with lo by ring; exact L).
  assert (X : (lo - 52 <= cexp radix2 (SpecFloat.fexp 53 1024) (val x))%Z) by (unfold cexp; rewrite fexp_flt; unfold FLT_exp; lia).
  unfold generic_format in G. set (e := cexp radix2 (SpecFloat.fexp 53 1024) (val x)) in *. set (k := Ztrunc _) in G. clearbody e k. rewrite G. exists (k * 2 ^ (e - (lo - 52)))%Z.
  unfold F2R. cbn [Fnum Fexp]. rewrite mult_IZR. replace (IZR (2 ^ (e - (lo - 52)))) with (bpow radix2 (e - (lo - 52))) by (symmetry; apply (IZR_Zpower radix2); lia).
  rewrite Rmult_assoc, <- bpow_plus. do 2 f_equal. ring.
Qed.
Lemma sum_low a b c d x y s : tame a b x -> tame c d y -> (-1022 <= a)%Z -> (-1022 <= c)%Z -> s = 1 \/ s = -1 ->
  val x + s * val y = 0 \/ bpow radix2 (Z.min a c - 52) <= Rabs (val x + s * val y).
Proof.
  intros X Y A C S. destruct (grid _ _ _ X A) as (m & M). destruct (grid _ _ _ Y C) as (n & Hn).
  assert (W : exists k : Z, val x + s * val y = IZR k * bpow radix2 (Z.min a c - 52)).
  { exists (m * 2 ^ (a - Z.min a c) + (if Req_EM_T s 1 then 1 else -1) * (n * 2 ^ (c - Z.min a c)))%Z. rewrite M, Hn.
    replace (bpow radix2 (a - 52)) with (bpow radix2 (a - Z.min a c) * bpow radix2 (Z.min a c - 52)) by (rewrite <- bpow_plus; f_equal; ring).
    replace (bpow radix2 (c - 52)) with (bpow radix2 (c - Z.min a c) * bpow radix2 (Z.min a c - 52)) by (rewrite <- bpow_plus; f_equal; ring).
    rewrite plus_IZR, !mult_IZR. replace (IZR (2 ^ (a - Z.min a c))) with (bpow radix2 (a - Z.min a c)) by (symmetry; apply (IZR_Zpower radix2); lia). replace (IZR (2 ^ (c - Z.min a c))) with (bpow radix2 (c - Z.min a c)) by (symmetry; apply (IZR_Zpower radix2); lia).
    replace (IZR (if Req_EM_T s 1 then 1 else -1)) with s by (destruct (Req_EM_T s 1); destruct S; subst; lra). ring. }
  destruct W as (k & ->). destruct (Z.eq_dec k 0) as [->|NZ]; [left; ring|right]. rewrite Rabs_mult, (Rabs_pos_eq (bpow _ _)) by apply bpow_ge_0.
  rewrite <- (Rmult_1_l (bpow radix2 (Z.min a c - 52))) at 1. apply Rmult_le_compat_r; [apply bpow_ge_0|]. rewrite <- abs_IZR. apply IZR_le. lia.
Qed.
Lemma sum_rel a b c d x y s : tame a b x -> tame c d y -> s = 1 \/ s = -1 -> rel (rnd (val x + s * val y)) (val x + s * val y).
Proof.
  intros (Fx & _) (Fy & _) S.
  destruct (FLT_plus_error_N_ex radix2 (-1074) 53 (fun x => negb (Z.even x)) (val x) (s * val y)) as (e & E & K).
  - rewrite <- fexp_flt. apply generic_format_B2R.
  - rewrite <- fexp_flt. destruct S as [->| ->]; [rewrite Rmult_1_l; apply generic_format_B2R|]. replace (-1 * val y) with (- val y) by ring. apply generic_format_opp, generic_format_B2R.
  - exists e. split; [|exact K]. eapply Rle_trans; [exact E|]. assert (U : u_ro radix2 53 = unitR) by (unfold u_ro; rewrite unit_eq; reflexivity). rewrite U. pose proof unit_pos.
    apply Rmult_le_reg_r with (1 + unitR); [lra|]. unfold Rdiv. rewrite Rmult_assoc, Rinv_l by lra. nra.
Qed.
Lemma sum_high a b c d x y s : tame a b x -> tame c d y -> s = 1 \/ s = -1 -> Rabs (val x + s * val y) <= bpow radix2 (Z.max b d + 1).
Proof.
  intros (_ & _ & Ux) (_ & _ & Uy) S. eapply Rle_trans; [apply Rabs_triang|]. replace (Rabs (s * val y)) with (Rabs (val y)) by (destruct S as [->| ->]; [now rewrite Rmult_1_l|replace (-1 * val y) with (- val y) by ring; now rewrite Rabs_Ropp]).
  rewrite bpow_plus. change (bpow radix2 1) with 2. assert (bpow radix2 b <= bpow radix2 (Z.max b d)) by (apply bpow_le; lia). assert (bpow radix2 d <= bpow radix2 (Z.max b d)) by (apply bpow_le; lia). lra.
Qed.
Lemma add_tame a b c d x y : tame a b x -> tame c d y -> (-970 <= a)%Z -> (-970 <= c)%Z -> (-1022 <= Z.max b d < 1023)%Z ->
  tame (Z.min a c - 52) (Z.max b d + 1) (aadd Dops x y) /\ rel (val (aadd Dops x y)) (val x + val y).
Proof.
  intros X Y A C H. pose proof (sum_low a b c d x y 1 X Y ltac:(lia) ltac:(lia) (or_introl eq_refl)) as L. pose proof (sum_high a b c d x y 1 X Y (or_introl eq_refl)) as U. pose proof (sum_rel a b c d x y 1 X Y (or_introl eq_refl)) as R0.
  rewrite Rmult_1_l in L, U, R0. destruct X as (Fx & _), Y as (Fy & _).
  pose proof (Bplus_correct 53 1024 (@eq_refl comparison Lt) (@eq_refl comparison Lt) binop_nan_pl64 mode_NE x y Fx Fy) as K. change (round_mode mode_NE) with ZnearestE in K.
  rewrite Rlt_bool_true in K by (eapply Rle_lt_trans; [apply (round_le _ (Z.max b d + 1)); [lia|exact U]|apply below; lia]). destruct K as (E0 & F0 & _).
  assert (E : val (aadd Dops x y) = rnd (val x + val y)) by exact E0. assert (F : fin (aadd Dops x y) = true) by exact F0. clear E0 F0.
  rewrite E. split; [|exact R0]. split; [exact F|]. rewrite E. split; [apply round_ge; [lia|exact L]|apply round_le; [lia|exact U]].
Qed.
Lemma sub_tame a b c d x y : tame a b x -> tame c d y -> (-970 <= a)%Z -> (-970 <= c)%Z -> (-1022 <= Z.max b d < 1023)%Z ->
  tame (Z.min a c - 52) (Z.max b d + 1) (asub Dops x y) /\ rel (val (asub Dops x y)) (val x - val y).
Proof.
  intros X Y A C H. pose proof (sum_low a b c d x y (-1) X Y ltac:(lia) ltac:(lia) (or_intror eq_refl)) as L. pose proof (sum_high a b c d x y (-1) X Y (or_intror eq_refl)) as U. pose proof (sum_rel a b c d x y (-1) X Y (or_intror eq_refl)) as R0.
  replace (val x + -1 * val y) with (val x - val y) in L, U, R0 by ring. destruct X as (Fx & _), Y as (Fy & _).
  pose proof (Bminus_correct 53 1024 (@eq_refl comparison Lt) (@eq_refl comparison Lt) binop_nan_pl64 mode_NE x y Fx Fy) as K. change (round_mode mode_NE) with ZnearestE in K.
  rewrite Rlt_bool_true in K by (eapply Rle_lt_trans; [apply (round_le _ (Z.max b d + 1)); [lia|exact U]|apply below; lia]). destruct K as (E0 & F0 & _).
  assert (E : val (asub Dops x y) = rnd (val x - val y)) by exact E0. assert (F : fin (asub Dops x y) = true) by exact F0. clear E0 F0.
  rewrite E. split; [|exact R0]. split; [exact F|]. rewrite E. split; [apply round_ge; [lia|exact L]|apply round_le; [lia|exact U]].
Qed.
Lemma div_tame a b c d x y : tame a b x -> tame c d y -> val y <> 0 -> (-1022 <= a - d)%Z -> (-1022 <= b - c < 1024)%Z ->
  tame (a - d) (b - c) (adiv Dops x y) /\ rel (val (adiv Dops x y)) (val x / val y).
Proof.
  intros (Fx & Lx & Ux) (Fy & [Z|Ly] & Uy) NZ H1 H2; [contradiction|]. assert (P : 0 < Rabs (val y)) by now apply Rabs_pos_lt.
  assert (U : Rabs (val x / val y) <= bpow radix2 (b - c)).
  { unfold Rdiv. rewrite Rabs_mult, Rabs_inv. replace (b - c)%Z with (b + - c)%Z by ring. rewrite bpow_plus, bpow_opp. apply Rmult_le_compat; auto using Rabs_pos; [left; now apply Rinv_0_lt_compat|]. apply Rinv_le; [apply bpow_gt_0|exact Ly]. }
  assert (L : val x / val y = 0 \/ bpow radix2 (a - d) <= Rabs (val x / val y)).
  { destruct Lx as [->|Lx]; [left; unfold Rdiv; ring|right]. unfold Rdiv. rewrite Rabs_mult, Rabs_inv. replace (a - d)%Z with (a + - d)%Z by ring. rewrite bpow_plus, bpow_opp.
    apply Rmult_le_compat; auto; [apply bpow_ge_0|left; apply Rinv_0_lt_compat, bpow_gt_0|]. now apply Rinv_le. }
  pose proof (Bdiv_correct 53 1024 (@eq_refl comparison Lt) (@eq_refl comparison Lt) binop_nan_pl64 mode_NE x y NZ) as K. change (round_mode mode_NE) with ZnearestE in K.
  rewrite Rlt_bool_true in K by (eapply Rle_lt_trans; [apply (round_le _ (b - c)); [lia|exact U]|apply below; lia]). destruct K as (E0 & F0 & _). rewrite Fx in F0.
  assert (E : val (adiv Dops x y) = rnd (val x / val y)) by exact E0. assert (F : fin (adiv Dops x y) = true) by exact F0. clear E0 F0.
  split.
  - split; [exact F|]. rewrite E. split; [apply round_ge; [lia|exact L]|apply round_le; [lia|exact U]].
  - rewrite E. apply round_rel. destruct L as [L|L]; auto. right. eapply Rle_trans; [apply bpow_le; exact H1|exact L].
Qed.
Lemma sqrt_tame a b x : tame (2 * a) (2 * b) x -> 0 <= val x -> (-1022 <= a)%Z -> (-1022 <= b)%Z ->
  tame a b (asqrt Dops x) /\ (0 < val x -> 0 < val (asqrt Dops x)).
Proof.
  intros (Fx & Lx & Ux) P A B. pose proof (Bsqrt_correct 53 1024 (@eq_refl comparison Lt) (@eq_refl comparison Lt) unop_nan_pl64 mode_NE x) as (E0 & F0 & _). change (round_mode mode_NE) with ZnearestE in E0.
  assert (E : val (asqrt Dops x) = rnd (sqrt (val x))) by exact E0. assert (F : fin (asqrt Dops x) = match x with B754_zero _ _ _ => true | B754_finite _ _ false _ _ _ => true | _ => false end) by exact F0. clear E0 F0.
  assert (SB : forall k, sqrt (bpow radix2 (2 * k)) = bpow radix2 k). { intros k. replace (2 * k)%Z with (k + k)%Z by ring. rewrite bpow_plus. apply sqrt_square, bpow_ge_0. }
  rewrite (Rabs_pos_eq _ P) in *.
  assert (U : Rabs (sqrt (val x)) <= bpow radix2 b). { rewrite Rabs_pos_eq by apply sqrt_pos. rewrite <- SB. now apply sqrt_le_1_alt. }
  assert (L : sqrt (val x) = 0 \/ bpow radix2 a <= Rabs (sqrt (val x))).
  { destruct Lx as [->|Lx]; [left; apply sqrt_0|right]. rewrite Rabs_pos_eq by apply sqrt_pos. rewrite <- SB. now apply sqrt_le_1_alt. }
  split.
  - split; [|rewrite E; split; [apply round_ge; [lia|exact L]|apply round_le; [lia|exact U]]]. rewrite F. destruct x as [s|s|s p e|s m e bx]; try discriminate; [reflexivity|]. destruct s; [|reflexivity]. exfalso. cbn in P.
    assert (F2R (Float radix2 (Z.neg m) e) < 0) by (apply F2R_lt_0; reflexivity). change (cond_Zopp true (Z.pos m)) with (Z.neg m) in P. lra.
  - intros PP. rewrite E. destruct L as [L|L]; [apply sqrt_eq_0 in L; lra|]. eapply Rlt_le_trans; [apply (bpow_gt_0 radix2 a)|]. apply round_ge_generic; [exact _|exact _| |rewrite <- (Rabs_pos_eq (sqrt (val x))) by apply sqrt_pos; exact L].
    rewrite fexp_flt. apply generic_format_FLT_bpow; [reflexivity|lia].
Qed.
