(** Doubles that are not negative: sums, quotients and comparisons, with overflow and not-a-number. *)
From Coq Require Import ZArith Reals Lra Lia Permutation.
From Flocq Require Import Core Relative Plus_error IEEE754.BinarySingleNaN IEEE754.Binary IEEE754.Bits.
From Verif Require Import Prelude Bytes DeckModel MeshModel GeometryModel DoubleModel DoubleProofs RoundProofs CommandModel DiffModel DiffSpec DiffProofs.

Notation isnan := (Binary.is_nan 53 1024).
Notation sgn := (Binary.Bsign 53 1024).
Local Existing Instance prec53.
Local Existing Instance fexp53.
(** A number that is not negative: +0, positive or +infinity; and positive. *)
Definition nn (x : binary64) : Prop := isnan x = false /\ sgn x = false.
Definition positive (x : binary64) : Prop := nn x /\ (fin x = true -> 0 < val x)%R.
Definition pzero : binary64 := Binary.B754_zero 53 1024 false.

Lemma abs_ok x : fin (aabs Dops x) = fin x /\ isnan (aabs Dops x) = isnan x /\ val (aabs Dops x) = Rabs (val x) /\ (isnan x = true \/ nn (aabs Dops x)).
Proof.
  cbn [aabs Dops]. unfold b64_abs. split; [apply is_finite_Babs|]. split; [now destruct x|]. split; [apply B2R_Babs|]. destruct x as [s|s|s p e|s m e b]; [right|right|left|right]; try split; reflexivity.
Qed.
Lemma overflow_sign (z : binary64) s : B2FF 53 1024 z = binary_overflow 53 1024 mode_NE s -> z = Binary.B754_infinity 53 1024 s.
Proof. destruct z as [s'|s'|s' p e|s' m e b]; cbn; intros H; try discriminate. now injection H as ->. Qed.
Lemma nn_val x : nn x -> (0 <= val x)%R.
Proof. intros (_ & S). destruct x as [s|s|s p e|s m e b]; cbn in *; try lra. subst s. apply F2R_ge_0. cbn. lia. Qed.
Lemma round_val x : rnd (val x) = val x.
Proof. apply round_generic; [exact _|]. apply generic_format_B2R. Qed.

(** Sums. *)
Lemma plus_nan x y : isnan x = true \/ isnan y = true -> isnan (aadd Dops x y) = true.
Proof. cbn [aadd Dops]. unfold b64_plus. destruct x as [sx|sx|sx px ex|sx mx ex bx], y as [sy|sy|sy py ey|sy my ey bby]; cbn; intros [H|H]; try discriminate; reflexivity. Qed.
Lemma plus_finite x y : fin x = true -> fin y = true -> nn x -> nn y -> nn (aadd Dops x y) /\ (fin (aadd Dops x y) = true -> (val x <= val (aadd Dops x y) /\ val y <= val (aadd Dops x y))%R).
Proof.
  intros Fx Fy Nx Ny. pose proof (nn_val x Nx) as Vx. pose proof (nn_val y Ny) as Vy. destruct Nx as (_ & Sx). destruct Ny as (_ & Sy).
  pose proof (Bplus_correct 53 1024 (@eq_refl comparison Lt) (@eq_refl comparison Lt) binop_nan_pl64 mode_NE x y Fx Fy) as K. cbn [aadd Dops]. unfold b64_plus. set (z := Bplus _ _ _ _ _ _ _ _) in *. change (round_mode mode_NE) with ZnearestE in K.
  destruct (Rlt_bool _ _).
  - destruct K as (V & F & S). split.
    + split; [destruct z; try reflexivity; discriminate|]. change (sgn z = false). rewrite S, Sx. cbn. destruct (Rcompare_spec (val x + val y) 0); try reflexivity. lra.
    + intros _. change (val x <= val z /\ val y <= val z)%R. rewrite V. split; [rewrite <- (round_val x) at 1|rewrite <- (round_val y) at 1]; (apply Generic_fmt.round_le; [exact _|exact _|lra]).
  - destruct K as (K & _). rewrite Sx in K. apply overflow_sign in K. change (nn z /\ (fin z = true -> (val x <= val z /\ val y <= val z)%R)). rewrite K. split; [split; reflexivity|discriminate].
Qed.
Lemma plus_ok x y : nn x -> nn y -> nn (aadd Dops x y) /\ (positive x \/ positive y -> positive (aadd Dops x y)).
Proof.
  intros Nx Ny. destruct (fin x) eqn:Fx.
  - destruct (fin y) eqn:Fy.
    + destruct (plus_finite x y Fx Fy Nx Ny) as (N & V). split; [exact N|]. intros [(_ & P)|(_ & P)]; (split; [exact N|]; intros F; specialize (V F); specialize (P ltac:(auto)); lra).
    + assert (E : aadd Dops x y = Binary.B754_infinity 53 1024 false).
      { destruct Ny as (N2 & S2). cbn [aadd Dops]. unfold b64_plus. destruct x as [sx|sx|sx px ex|sx mx ex bx], y as [sy|sy|sy py ey|sy my ey bby]; cbn in *; try discriminate; subst; reflexivity. }
      rewrite E. split; [split; reflexivity|]. intros _. split; [split; reflexivity|discriminate].
  - assert (E : aadd Dops x y = Binary.B754_infinity 53 1024 false).
    { destruct Nx as (N1 & S1). destruct Ny as (N2 & S2). cbn [aadd Dops]. unfold b64_plus. destruct x as [sx|sx|sx px ex|sx mx ex bx], y as [sy|sy|sy py ey|sy my ey bby]; cbn in *; try discriminate; subst; reflexivity. }
    rewrite E. split; [split; reflexivity|]. intros _. split; [split; reflexivity|discriminate].
Qed.
Lemma zero_nn : nn (azero Dops).
Proof. split; reflexivity. Qed.
Lemma added_ok l s : added Dops l s -> (forall x, In x l -> isnan x = true \/ nn x) -> (isnan s = true \/ nn s) /\ (fin s = true -> forall x, In x l -> fin x = true).
Proof.
  induction 1 as [|x|l l1 l2 a b P _ IH1 _ IH2]; intros H.
  - split; [right; exact zero_nn|intros _ x []].
  - split; [apply H; now left|]. intros F y [->|[]]. exact F.
  - destruct IH1 as (A1 & A2). { intros x I. apply H. apply (Permutation_in x (Permutation_sym P)). apply in_or_app. now left. }
    destruct IH2 as (B1 & B2). { intros x I. apply H. apply (Permutation_in x (Permutation_sym P)). apply in_or_app. now right. }
    split.
    + destruct A1 as [A1|A1]; [left; apply plus_nan; now left|]. destruct B1 as [B1|B1]; [left; apply plus_nan; now right|]. right. exact (proj1 (plus_ok a b A1 B1)).
    + intros F x I. destruct (plus_fin a b F) as (Fa & Fb). apply (Permutation_in x P) in I. apply in_app_or in I as [I|I]; auto.
Qed.
Lemma added_pos l s : added Dops l s -> (forall x, In x l -> nn x) -> nn s /\ ((exists x, In x l /\ positive x) -> positive s).
Proof.
  induction 1 as [|x|l l1 l2 a b P _ IH1 _ IH2]; intros H.
  - split; [exact zero_nn|intros (x & [] & _)].
  - split; [apply H; now left|]. intros (y & [->|[]] & Q). exact Q.
  - destruct IH1 as (A1 & A2). { intros x I. apply H. apply (Permutation_in x (Permutation_sym P)). apply in_or_app. now left. }
    destruct IH2 as (B1 & B2). { intros x I. apply H. apply (Permutation_in x (Permutation_sym P)). apply in_or_app. now right. }
    destruct (plus_ok a b A1 B1) as (N & Q). split; [exact N|]. intros (x & I & PX). apply Q. apply (Permutation_in x P) in I. apply in_app_or in I as [I|I]; [left; apply A2|right; apply B2]; eauto.
Qed.
Lemma added_zero l s : added Dops l s -> (forall x, In x l -> x = pzero) -> s = pzero.
Proof.
  induction 1 as [|x|l l1 l2 a b P _ IH1 _ IH2]; intros H; [reflexivity|apply H; now left|].
  rewrite IH1, IH2; [reflexivity| |]; intros x I; apply H; apply (Permutation_in x (Permutation_sym P)); apply in_or_app; auto.
Qed.
(** Quotients. *)
Lemma agt_nan t z : isnan z = true -> agt Dops t z = false.
Proof. destruct z as [s|s|s p e|s m e b]; cbn; try discriminate. intros _. destruct t as [s'|s'|s' p' e'|s' m' e' b']; reflexivity. Qed.
Lemma agt_inf t : agt Dops t (Binary.B754_infinity 53 1024 false) = false.
Proof. destruct t as [[]|[]|s p e|[] m e b]; reflexivity. Qed.
Lemma quotient_ok t a b : isnan a = true \/ nn a -> isnan b = true \/ nn b -> agt Dops t (adiv Dops a b) = true -> fin a = true /\ nn a /\ positive b.
Proof.
  intros Na Nb G.
  assert (X : isnan (adiv Dops a b) = true \/ adiv Dops a b = Binary.B754_infinity 53 1024 false \/ (fin a = true /\ nn a /\ positive b)).
  { clear G. destruct a as [sa|sa|sa pa ea|sa ma ea ba].
    - destruct Na as [?|Na]; [discriminate|]. destruct b as [sb|sb|sb pb eb|sb mb eb bb]; [left; reflexivity| |left; reflexivity|]; (destruct Nb as [?|Nb]; [discriminate|]); right; right; (split; [reflexivity|]; split; [exact Na|]; split; [exact Nb|]); [discriminate|].
      intros _. destruct Nb as (_ & S). cbn in S. subst sb. apply F2R_gt_0. reflexivity.
    - destruct Na as [?|(_ & S)]; [discriminate|]. cbn in S. subst sa. destruct b as [sb|sb|sb pb eb|sb mb eb bb]; [|left; reflexivity|left; reflexivity|]; (destruct Nb as [?|(_ & S)]; [discriminate|]; cbn in S; subst sb; right; left; reflexivity).
    - left. reflexivity.
    - destruct Na as [?|Na]; [discriminate|]. destruct b as [sb|sb|sb pb eb|sb mb eb bb]; [| |left; reflexivity|]; (destruct Nb as [?|Nb]; [discriminate|]).
      + right. left. destruct Na as (_ & S). destruct Nb as (_ & S'). cbn in S, S'. subst. reflexivity.
      + right. right. split; [reflexivity|]. split; [exact Na|]. split; [exact Nb|discriminate].
      + right. right. split; [reflexivity|]. split; [exact Na|]. split; [exact Nb|]. intros _. destruct Nb as (_ & S). cbn in S. subst sb. apply F2R_gt_0. reflexivity. }
  destruct X as [X|[X|X]]; [rewrite (agt_nan _ _ X) in G; discriminate|rewrite X, agt_inf in G; discriminate|exact X].
Qed.
Lemma zero_quotient b : positive b -> adiv Dops pzero b = pzero.
Proof.
  intros ((N & S) & P). cbn [adiv Dops]. unfold b64_div. destruct b as [sb|sb|sb pb eb|sb mb eb bb]; cbn in *; try discriminate; subst; try reflexivity. specialize (P eq_refl). lra.
Qed.
Lemma quotient_lt t a b : fin t = true -> fin a = true -> nn a -> fin b = true -> (0 < val b)%R -> nn b -> agt Dops t (adiv Dops a b) = true -> (val a < val t * val b)%R.
Proof.
  intros Ft Fa Na Fb Pb Nb G. pose proof (Bdiv_correct 53 1024 (@eq_refl comparison Lt) (@eq_refl comparison Lt) binop_nan_pl64 mode_NE a b ltac:(lra)) as K. change (round_mode mode_NE) with ZnearestE in K.
  set (z := Bdiv _ _ _ _ _ _ _ _) in *. assert (Z : adiv Dops a b = z) by reflexivity. rewrite Z in G. destruct (Rlt_bool _ _).
  - destruct K as (V & F & _). rewrite Fa in F. apply (dgt_ok t z Ft F) in G. rewrite V in G. destruct (Rlt_le_dec (val a) (val t * val b)) as [L|L]; [exact L|exfalso].
    assert (Q : (val t <= val a / val b)%R). { apply (Rmult_le_reg_r (val b)); [exact Pb|]. unfold Rdiv. rewrite Rmult_assoc, Rinv_l by lra. lra. }
    apply (Generic_fmt.round_le radix2 (SpecFloat.fexp 53 1024) ZnearestE) in Q. rewrite round_val in Q. lra.
  - destruct Na as (_ & Sa). destruct Nb as (_ & Sb). rewrite Sa, Sb in K. apply overflow_sign in K. rewrite K, agt_inf in G. discriminate.
Qed.
(** Differences. *)
Lemma minus_fin x y : fin (asub Dops x y) = true -> fin x = true /\ fin y = true.
Proof. cbn [asub Dops]. unfold b64_minus. destruct x as [sx|sx|sx px ex|sx mx ex bx], y as [sy|sy|sy py ey|sy my ey bby]; cbn; try (destruct sx, sy; cbn; now auto); auto; try discriminate. Qed.
Lemma minus_close x y : fin (asub Dops x y) = true -> (Rabs (val x - val y) <= (1 + unitR) * Rabs (val (asub Dops x y)))%R.
Proof.
  intros F. destruct (minus_fin x y F) as (Fx & Fy). pose proof (Bminus_correct 53 1024 (@eq_refl comparison Lt) (@eq_refl comparison Lt) binop_nan_pl64 mode_NE x y Fx Fy) as K. change (round_mode mode_NE) with ZnearestE in K.
  set (z := Bminus _ _ _ _ _ _ _ _) in *. assert (Z : asub Dops x y = z) by reflexivity. rewrite Z in *. destruct (Rlt_bool _ _).
  - destruct K as (V & _). destruct (FLT_plus_error_N_round_ex radix2 (-1074) 53 (fun x => negb (Z.even x)) (val x) (- val y)) as (e & E & Q); [apply generic_format_B2R|apply generic_format_opp, generic_format_B2R|].
    assert (W : val z = round radix2 (FLT_exp (-1074) 53) ZnearestE (val x + - val y)) by exact V. fold ZnearestE in Q. rewrite <- W in Q. unfold Rminus. rewrite Q, Rabs_mult, Rmult_comm.
    apply Rmult_le_compat_r; [apply Rabs_pos|]. eapply Rle_trans; [apply Rabs_triang|]. rewrite Rabs_R1. apply Rplus_le_compat_l. eapply Rle_trans; [exact E|]. right. unfold u_ro. now rewrite unit_eq.
  - destruct K as (K & _). apply overflow_inf in K. rewrite K in F. discriminate.
Qed.
Lemma minus_self x : fin x = true -> asub Dops x x = pzero.
Proof.
  intros F. pose proof (Bminus_correct 53 1024 (@eq_refl comparison Lt) (@eq_refl comparison Lt) binop_nan_pl64 mode_NE x x F F) as K. change (round_mode mode_NE) with ZnearestE in K.
  set (z := Bminus _ _ _ _ _ _ _ _) in *. change (z = pzero). replace (val x - val x)%R with 0%R in K by ring. rewrite round_0, Rabs_R0, Rlt_bool_true in K; [|apply bpow_gt_0|exact _]. destruct K as (V & Fz & S). rewrite Rcompare_Eq in S by reflexivity.
  assert (S0 : sgn z = false) by (rewrite S; cbn; destruct (sgn x); reflexivity). clear S. clearbody z. destruct z as [s|s|s p e|s m e b]; cbn in *; try discriminate; [rewrite S0; reflexivity|exfalso]. subst s. pose proof (F2R_gt_0 radix2 (Float radix2 (Zpos m) e) eq_refl) as G. cbn [cond_Zopp] in V. lra.
Qed.
