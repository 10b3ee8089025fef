(** Doubles: comparison and change of sign. *)
From Coq Require Import ZArith Reals Lra.
From Flocq Require Import Core IEEE754.BinarySingleNaN IEEE754.Binary IEEE754.Bits.
From Verif Require Import Prelude MeshModel GeometryModel DoubleModel.

Notation val := (B2R 53 1024).
Notation fin := (is_finite 53 1024).
Lemma dgt_ok x y : fin x = true -> fin y = true -> (agt Dops x y = true <-> (val x > val y)%R).
Proof.
  intros Fx Fy. cbn [agt Dops]. unfold b64_compare. rewrite (Bcompare_correct 53 1024 x y Fx Fy). destruct (Rcompare_spec (val x) (val y)); split; intros; try discriminate; try lra; reflexivity.
Qed.
Lemma dltb_ok m n : fin (ddec m) = true -> fin (ddec n) = true -> (dltb m n = true <-> (val (ddec m) < val (ddec n))%R).
Proof.
  intros Fx Fy. unfold dltb, b64_compare. rewrite (Bcompare_correct 53 1024 _ _ Fx Fy). destruct (Rcompare_spec (val (ddec m)) (val (ddec n))); split; intros; try discriminate; try lra; reflexivity.
Qed.
Lemma zero_val : val (azero Dops) = 0%R /\ fin (azero Dops) = true.
Proof. split; reflexivity. Qed.

Lemma plus_fin x y : fin (aadd Dops x y) = true -> fin x = true /\ fin y = true.
Proof. cbn [aadd Dops]. unfold b64_plus. destruct x as [sx|sx|sx px ex|sx mx ex bx], y as [sy|sy|sy py ey|sy my ey bby]; cbn; try (destruct sx, sy; cbn; now auto); auto; try discriminate. Qed.
Lemma mult_fin x y : fin (amul Dops x y) = true -> fin x = true /\ fin y = true.
Proof. cbn [amul Dops]. unfold b64_mult. destruct x as [sx|sx|sx px ex|sx mx ex bx], y as [sy|sy|sy py ey|sy my ey bby]; cbn; try discriminate; auto. Qed.
Lemma neg_ok x : fin (aneg Dops x) = fin x /\ val (aneg Dops x) = (- val x)%R.
Proof. cbn [aneg Dops]. unfold b64_opp. split; [apply is_finite_Bopp|apply B2R_Bopp]. Qed.
Lemma overflow_inf (z : binary64) s : B2FF 53 1024 z = binary_overflow 53 1024 mode_NE s -> fin z = false.
Proof. destruct z; cbn; intros H; try discriminate; reflexivity. Qed.
Lemma mult_val x y : fin (amul Dops x y) = true -> val (amul Dops x y) = round radix2 (SpecFloat.fexp 53 1024) ZnearestE (val x * val y) /\ (Rabs (round radix2 (SpecFloat.fexp 53 1024) ZnearestE (val x * val y)) < bpow radix2 1024)%R.
Proof.
  cbn [amul Dops]. unfold b64_mult. intros F. pose proof (Bmult_correct 53 1024 (@eq_refl comparison Lt) (@eq_refl comparison Lt) binop_nan_pl64 mode_NE x y) as K. destruct (Rlt_bool_spec (Rabs (round radix2 (SpecFloat.fexp 53 1024) (round_mode mode_NE) (val x * val y))) (bpow radix2 1024)) as [L|L].
  - destruct K as (K & _). split; [exact K|exact L].
  - apply overflow_inf in K. exfalso. assert (X : true = false) by (rewrite <- F; exact K). discriminate.
Qed.
Lemma plus_val x y : fin (aadd Dops x y) = true -> val (aadd Dops x y) = round radix2 (SpecFloat.fexp 53 1024) ZnearestE (val x + val y) /\ (Rabs (round radix2 (SpecFloat.fexp 53 1024) ZnearestE (val x + val y)) < bpow radix2 1024)%R.
Proof.
  intros F. destruct (plus_fin x y F) as (Fx & Fy). revert F. cbn [aadd Dops]. unfold b64_plus. intros F. pose proof (Bplus_correct 53 1024 (@eq_refl comparison Lt) (@eq_refl comparison Lt) binop_nan_pl64 mode_NE x y Fx Fy) as K. destruct (Rlt_bool_spec (Rabs (round radix2 (SpecFloat.fexp 53 1024) (round_mode mode_NE) (val x + val y))) (bpow radix2 1024)) as [L|L].
  - destruct K as (K & _). split; [exact K|exact L].
  - destruct K as (K & _). apply overflow_inf in K. exfalso. assert (X : true = false) by (rewrite <- F; exact K). discriminate.
Qed.
Lemma mult_neg x y y' : fin (amul Dops x y) = true -> fin y' = true -> val y' = (- val y)%R -> fin (amul Dops x y') = true /\ val (amul Dops x y') = (- val (amul Dops x y))%R.
Proof.
  intros F Fy' V. destruct (mult_fin x y F) as (Fx & Fy). destruct (mult_val x y F) as (E & L). rewrite E.
  assert (R' : round radix2 (SpecFloat.fexp 53 1024) ZnearestE (val x * val y') = (- round radix2 (SpecFloat.fexp 53 1024) ZnearestE (val x * val y))%R).
  { rewrite V, <- round_NE_opp. f_equal. ring. }
  cbn [amul Dops]. unfold b64_mult. pose proof (Bmult_correct 53 1024 (@eq_refl comparison Lt) (@eq_refl comparison Lt) binop_nan_pl64 mode_NE x y') as K. change (round_mode mode_NE) with ZnearestE in K. rewrite R', Rabs_Ropp, (Rlt_bool_true _ _ L) in K.
  destruct K as (K1 & K2 & _). split; [|exact K1]. rewrite Fx, Fy' in K2. exact K2.
Qed.
Lemma plus_neg x y x' y' : fin (aadd Dops x y) = true -> fin x' = true -> fin y' = true -> val x' = (- val x)%R -> val y' = (- val y)%R -> fin (aadd Dops x' y') = true /\ val (aadd Dops x' y') = (- val (aadd Dops x y))%R.
Proof.
  intros F Fx' Fy' Vx Vy. destruct (plus_val x y F) as (E & L). rewrite E.
  assert (R' : round radix2 (SpecFloat.fexp 53 1024) ZnearestE (val x' + val y') = (- round radix2 (SpecFloat.fexp 53 1024) ZnearestE (val x + val y))%R).
  { rewrite Vx, Vy, <- round_NE_opp. f_equal. ring. }
  cbn [aadd Dops]. unfold b64_plus. pose proof (Bplus_correct 53 1024 (@eq_refl comparison Lt) (@eq_refl comparison Lt) binop_nan_pl64 mode_NE x' y' Fx' Fy') as K. change (round_mode mode_NE) with ZnearestE in K. rewrite R', Rabs_Ropp, (Rlt_bool_true _ _ L) in K.
  destruct K as (K1 & K2 & _). split; [exact K2|exact K1].
Qed.
(** Turning a vector round changes the sign of the computed scalar product, exactly. *)
Lemma dot_neg om n : fin (vdot Dops om n) = true -> let n' := Q3 (aneg Dops (t0 n)) (aneg Dops (t1 n)) (aneg Dops (t2 n)) in
  fin (vdot Dops om n') = true /\ val (vdot Dops om n') = (- val (vdot Dops om n))%R.
Proof.
  intros F n'. unfold vdot in *. destruct (plus_fin _ _ F) as (F1 & F2). destruct (plus_fin _ _ F1) as (F3 & F4). cbn [t0 t1 t2 n'].
  assert (N : forall x y, fin (amul Dops x y) = true -> fin (amul Dops x (aneg Dops y)) = true /\ val (amul Dops x (aneg Dops y)) = (- val (amul Dops x y))%R).
  { intros x y G. destruct (mult_fin x y G) as (_ & Gy). destruct (neg_ok y) as (N1 & N2). apply mult_neg; auto. congruence. }
  destruct (N _ _ F2) as (A2 & B2). destruct (N _ _ F3) as (A3 & B3). destruct (N _ _ F4) as (A4 & B4).
  destruct (plus_neg _ _ _ _ F1 A3 A4 B3 B4) as (A1 & B1). exact (plus_neg _ _ _ _ F A1 A2 B1 B2).
Qed.
