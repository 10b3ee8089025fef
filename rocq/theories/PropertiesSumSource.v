(** C85: how far the total source of a sweep, computed in doubles, is from the exact one. *)
From Coq Require Import ZArith Reals Lra Lia Machin.
From Flocq Require Import Core Relative Mult_error IEEE754.BinarySingleNaN IEEE754.Binary IEEE754.Bits.
From Verif Require Import Prelude Bytes DeckModel MeshModel GeometryModel DoubleModel DoubleProofs RoundProofs CommandModel DiffModel DiffSpec DiffProofs DiffDoubles FluxModel FluxSpec FluxProofs PropertiesFlux PropertiesThin SumSpec SumProofs PropertiesSum.
Local Open Scope R_scope.
Local Existing Instance prec53.
Local Existing Instance fexp53.

(** ** Single operations *)
Lemma div_step x y k : fin x = true -> val y <> 0 -> (-1074 <= k < 1024)%Z -> Rabs (val x / val y) <= bpow radix2 k ->
  fin (adiv Dops x y) = true /\ exists d t, Rabs d <= unitR /\ Rabs t <= ulow /\ val (adiv Dops x y) = val x / val y * (1 + d) + t.
Proof.
  intros Fx Y K H. pose proof (Bdiv_correct 53 1024 (@eq_refl comparison Lt) (@eq_refl comparison Lt) binop_nan_pl64 mode_NE x y Y) as P. change (round_mode mode_NE) with ZnearestE in P.
  rewrite (fin_small _ k K H) in P. destruct P as (V & F & _). rewrite Fx in F. split; [exact F|].
  destruct (error_N_FLT radix2 (-1074) 53 eq_refl (fun x => negb (Z.even x)) (val x / val y)) as (d & t & D & T & _ & E). exists d, t. rewrite unit_eq. split; [exact D|]. split; [exact T|]. exact (eq_trans V E).
Qed.
Lemma four : fin (alit Dops 4) = true /\ val (alit Dops 4) = 4.
Proof.
  split; [reflexivity|]. change (alit Dops 4) with (D_of_Z 4). rewrite (val_of (D_of_Z 4) false 4503599627370496 (-50)) by reflexivity. unfold F2R. cbn. lra.
Qed.
(** Four times a double is a double, if it is not too large. *)
Lemma times4 x : fin x = true -> Rabs (val x) <= 4 -> fin (amul Dops (alit Dops 4) x) = true /\ val (amul Dops (alit Dops 4) x) = 4 * val x.
Proof.
  intros Fx H. destruct four as (F4 & V4). pose proof (Bmult_correct 53 1024 (@eq_refl comparison Lt) (@eq_refl comparison Lt) binop_nan_pl64 mode_NE (alit Dops 4) x) as P. change (round_mode mode_NE) with ZnearestE in P.
  assert (B : Rabs (val (alit Dops 4) * val x) <= bpow radix2 4). { rewrite V4, Rabs_mult, (Rabs_pos_eq 4) by lra. replace (bpow radix2 4) with 16 by (cbn; lra). lra. }
  rewrite (fin_small _ 4 ltac:(lia) B) in P. destruct P as (V & F & _). rewrite F4, Fx in F. split; [exact F|]. refine (eq_trans V _).
  replace (val (alit Dops 4) * val x) with (val x * bpow radix2 2) by (rewrite V4; cbn; lra). rewrite round_generic; [cbn; lra|apply valid_rnd_N|]. apply mult_bpow_pos_exact_FLT; [apply generic_format_B2R|lia].
Qed.

(** C85: with a flux and cross sections of moderate size the total source of a place of the mesh is finite and off
    the exact one by at most 2 gaps of the sizes of its two terms, plus the smallest double times (the flux + 1).
    "pi" is the double that stands for it; nothing but its rough size matters. *)
Theorem C85_source : forall pi nA nG nC sigmaS source phi total c a v g, (c < nC)%nat -> (a < nA)%nat -> (v < 4)%nat -> (g < nG)%nat ->
  fin pi = true -> 1 <= val pi <= 4 -> fin (sigmaS c) = true -> fin (source c a v g) = true -> fin (phi c v g) = true ->
  let q := val (source c a v g) in let s := scattered (val pi) (val (sigmaS c)) 0 (val (phi c v g)) in
  Rabs (val (sigmaS c)) <= bpow radix2 1000 -> Rabs (val (phi c v g)) <= bpow radix2 1000 -> Rabs q + Rabs s <= bpow radix2 1000 ->
  let computed := calcTotalSource Dops pi nA nG nC sigmaS source phi total c a v g in
  fin computed = true /\ Rabs (val computed - scattered (val pi) (val (sigmaS c)) q (val (phi c v g))) <= 2 * gap * (Rabs q + Rabs s) + (Rabs (val (phi c v g)) + 1) * tiny.
Proof.
  intros pi nA nG nC sigmaS source phi total c a v g Hc Ha Hv Hg Fpi Bpi Fs Fq Fp q s Bs Bp Bq computed.
  assert (E : computed = aadd Dops (source c a v g) (amul Dops (adiv Dops (sigmaS c) (amul Dops (alit Dops 4) pi)) (phi c v g))) by (apply (C42_total binary64 Dops); auto). clearbody computed. subst computed.
  destruct (times4 pi Fpi) as (F4 & V4); [rewrite Rabs_pos_eq; lra|]. set (D := amul Dops (alit Dops 4) pi) in *.
  pose proof unit_pos as U. pose proof u_small as US. pose proof ulow_pos as L.
  set (sg := val (sigmaS c)) in *. set (f := val (phi c v g)) in *. set (P := val pi) in *.
  assert (DB : Rabs (sg / val D) <= bpow radix2 1000).
  { rewrite V4. unfold Rdiv. rewrite Rabs_mult, (Rabs_pos_eq (/ (4 * P))); [|apply Rlt_le, Rinv_0_lt_compat; lra]. apply Rle_trans with (Rabs sg * 1); [|lra]. apply Rmult_le_compat_l; [apply Rabs_pos|]. rewrite <- Rinv_1. apply Rinv_le_contravar; lra. }
  destruct (div_step (sigmaS c) D 1000 Fs ltac:(rewrite V4; lra) ltac:(lia) DB) as (FW & d1 & t1 & D1 & T1 & EW). fold sg in EW. set (w := adiv Dops (sigmaS c) D) in *.
  set (X := sg / val D * f). assert (SX : s = X). { unfold s, X, scattered. rewrite V4. lra. }
  assert (SQ : scattered P sg q f = q + X). { unfold X, scattered. rewrite V4. reflexivity. }
  rewrite SX in *. rewrite SQ.
  assert (PW : val w * f = X * (1 + d1) + t1 * f) by (rewrite EW; unfold X; ring).
  assert (TF : Rabs (t1 * f) <= ulow * Rabs f) by (rewrite Rabs_mult; apply Rmult_le_compat_r; [apply Rabs_pos|exact T1]).
  assert (X0 : 0 <= Rabs X) by apply Rabs_pos. assert (Q0 : 0 <= Rabs q) by apply Rabs_pos. assert (f0 : 0 <= Rabs f) by apply Rabs_pos.
  assert (L1 : ulow <= 1). { unfold ulow. assert (bpow radix2 (-1074) <= bpow radix2 0) by (apply bpow_le; lia). cbn [bpow] in *. change (bpow radix2 0) with 1 in *. lra. }
  assert (LF : ulow * Rabs f <= bpow radix2 1000). { apply Rle_trans with (1 * Rabs f); [apply Rmult_le_compat_r; lra|lra]. }
  assert (B2 : bpow radix2 1002 = 4 * bpow radix2 1000) by (change 1002%Z with (2 + 1000)%Z; rewrite bpow_plus; cbn [bpow]; f_equal; cbn; lra).
  assert (B4 : bpow radix2 1004 = 16 * bpow radix2 1000) by (change 1004%Z with (4 + 1000)%Z; rewrite bpow_plus; f_equal; cbn; lra).
  pose proof (bpow_gt_0 radix2 1000) as BP.
  assert (abs1 : forall e x, Rabs e <= unitR -> Rabs (x * e) <= Rabs x * unitR) by (intros e x H; rewrite Rabs_mult; apply Rmult_le_compat_l; [apply Rabs_pos|exact H]).
  assert (QU : Rabs X * unitR <= Rabs X * / 4) by (apply Rmult_le_compat_l; lra).
  assert (WB : Rabs (val w * val (phi c v g)) <= bpow radix2 1002).
  { fold f. rewrite PW. replace (X * (1 + d1) + t1 * f) with (X + X * d1 + t1 * f) by ring. eapply Rle_trans; [apply Rabs_triang|]. pose proof (Rabs_triang X (X * d1)). pose proof (abs1 d1 X D1). lra. }
  destruct (mul_step w (phi c v g) 1002 FW Fp ltac:(lia) WB) as (FM & d2 & t2 & D2 & T2 & EM). fold f in EM, WB. set (p := amul Dops w (phi c v g)) in *.
  (* the error of the product *)
  assert (PX : Rabs (val p - X) <= Rabs X * (unitR + unitR * (1 + unitR)) + (1 + unitR) * (ulow * Rabs f) + ulow).
  { rewrite EM, PW. replace ((X * (1 + d1) + t1 * f) * (1 + d2) + t2 - X) with (X * d1 + (X * d2 + X * d1 * d2) + (t1 * f + t1 * f * d2) + t2) by ring.
    pose proof (Rabs_triang (X * d1 + (X * d2 + X * d1 * d2) + (t1 * f + t1 * f * d2)) t2). pose proof (Rabs_triang (X * d1 + (X * d2 + X * d1 * d2)) (t1 * f + t1 * f * d2)). pose proof (Rabs_triang (X * d1) (X * d2 + X * d1 * d2)). pose proof (Rabs_triang (X * d2) (X * d1 * d2)). pose proof (Rabs_triang (t1 * f) (t1 * f * d2)).
    pose proof (abs1 d1 X D1). pose proof (abs1 d2 X D2). pose proof (abs1 d2 (X * d1) D2). pose proof (abs1 d2 (t1 * f) D2).
    assert (Rabs (X * d1) * unitR <= Rabs X * unitR * unitR) by (apply Rmult_le_compat_r; lra). assert (Rabs (t1 * f) * unitR <= ulow * Rabs f * unitR) by (apply Rmult_le_compat_r; lra). lra. }
  assert (U2 : unitR * (1 + unitR) <= unitR * 2) by (apply Rmult_le_compat_l; lra).
  assert (PB : Rabs (q + val p) <= bpow radix2 1004).
  { replace (val p) with (X + (val p - X)) by ring. pose proof (Rabs_triang q (X + (val p - X))). pose proof (Rabs_triang X (val p - X)).
    assert (Rabs X * (unitR + unitR * (1 + unitR)) <= Rabs X * 1) by (apply Rmult_le_compat_l; lra). assert ((1 + unitR) * (ulow * Rabs f) <= 2 * (ulow * Rabs f)) by (apply Rmult_le_compat_r; [apply Rmult_le_pos|]; lra).
    assert (1 <= bpow radix2 1000) by (change 1 with (bpow radix2 0); apply bpow_le; lia). lra. }
  destruct (add_step (source c a v g) p 1004 Fq FM ltac:(lia) PB) as (FA & d3 & D3 & EA). fold q in EA. split; [exact FA|]. rewrite EA.
  replace ((q + val p) * (1 + d3) - (q + X)) with ((val p - X) + ((q + X) * d3 + (val p - X) * d3)) by ring.
  pose proof (Rabs_triang (val p - X) ((q + X) * d3 + (val p - X) * d3)). pose proof (Rabs_triang ((q + X) * d3) ((val p - X) * d3)). pose proof (abs1 d3 (q + X) D3). pose proof (abs1 d3 (val p - X) D3). pose proof (Rabs_triang q X).
  assert (Rabs (q + X) * unitR <= (Rabs q + Rabs X) * unitR) by (apply Rmult_le_compat_r; lra).
  set (Z := Rabs (val p - X)) in *. assert (Z * unitR <= (Rabs X * (unitR + unitR * (1 + unitR)) + (1 + unitR) * (ulow * Rabs f) + ulow) * unitR) by (apply Rmult_le_compat_r; lra).
  assert (G : gap = 2 * unitR). { rewrite unit_eq. unfold gap. change (-53 + 1)%Z with (-52)%Z. lra. }
  assert (TY : tiny = 2 * ulow) by (unfold tiny, ulow; lra). rewrite G, TY.
  assert (UU : unitR * unitR <= / 4 * unitR) by (apply Rmult_le_compat_r; lra).
  assert (K1 : Rabs X * (unitR + unitR * (1 + unitR)) * (1 + unitR) + Rabs X * unitR <= Rabs X * (4 * unitR)).
  { replace (Rabs X * (unitR + unitR * (1 + unitR)) * (1 + unitR) + Rabs X * unitR) with (Rabs X * ((unitR + unitR * (1 + unitR)) * (1 + unitR) + unitR)) by ring. apply Rmult_le_compat_l; [lra|].
    assert (unitR * unitR * unitR <= / 4 * unitR * / 4). { apply Rmult_le_compat; try lra. apply Rmult_le_pos; lra. } lra. }
  assert (K2 : (1 + unitR) * (ulow * Rabs f) * (1 + unitR) <= 2 * (ulow * Rabs f)).
  { replace ((1 + unitR) * (ulow * Rabs f) * (1 + unitR)) with ((1 + unitR) * (1 + unitR) * (ulow * Rabs f)) by ring. apply Rmult_le_compat_r; [apply Rmult_le_pos; lra|]. lra. }
  assert (K3 : ulow * unitR <= ulow * 1) by (apply Rmult_le_compat_l; lra). assert (K4 : 0 <= Rabs q * unitR) by (apply Rmult_le_pos; lra). lra.
Qed.

(** ** Pi *)
(** Partial sums of the series for pi/4 = 2 arctan (1/3) + arctan (1/7), as fractions. *)
Definition den (n : nat) : Z := (2 * Z.of_nat n + 1) * 21 ^ (2 * Z.of_nat n + 1).
Definition num (n : nat) : Z := (-1) ^ Z.of_nat n * (2 * 7 ^ (2 * Z.of_nat n + 1) + 3 ^ (2 * Z.of_nat n + 1)).
Lemma den_pos n : (0 < den n)%Z.
Proof. unfold den. apply Z.mul_pos_pos; [lia|]. apply Z.pow_pos_nonneg; lia. Qed.
Lemma term_eq n : tg_alt PI_2_3_7_tg n = IZR (num n) / IZR (den n).
Proof.
  unfold tg_alt, PI_2_3_7_tg, Ratan_seq, num, den. set (m := (2 * n + 1)%nat). replace (2 * Z.of_nat n + 1)%Z with (Z.of_nat m) by lia. rewrite !mult_IZR, !plus_IZR, !mult_IZR.
  rewrite <- !pow_IZR. replace (IZR 21) with (3 * 7) by lra. rewrite Rpow_mult_distr, INR_IZR_INZ, !pow_inv. change (IZR (-1)) with (-1).
  assert (IZR (Z.of_nat m) <> 0) by (apply not_0_IZR; lia). assert (3 ^ m <> 0) by (apply pow_nonzero; lra). assert (7 ^ m <> 0) by (apply pow_nonzero; lra). field. auto.
Qed.
Fixpoint frac (n : nat) : Z * Z := match n with O => (num 0, den 0) | S k => let '(a, b) := frac k in (a * den (S k) + num (S k) * b, b * den (S k))%Z end.
Lemma frac_ok n : (0 < snd (frac n))%Z /\ sum_f_R0 (tg_alt PI_2_3_7_tg) n = IZR (fst (frac n)) / IZR (snd (frac n)).
Proof.
  induction n as [|n (P & E)]; [split; [apply den_pos|apply term_eq]|]. cbn [sum_f_R0 frac]. rewrite E, term_eq. destruct (frac n) as (a, b). cbn [fst snd] in *. pose proof (den_pos (S n)) as D. split; [now apply Z.mul_pos_pos|].
  rewrite plus_IZR, !mult_IZR. apply IZR_lt in P, D. field. split; lra.
Qed.
Lemma frac_le a b c d : (0 < b)%Z -> (0 < d)%Z -> (a * d <=? c * b)%Z = true -> IZR a / IZR b <= IZR c / IZR d.
Proof.
  intros B D H. apply Z.leb_le, IZR_le in H. rewrite !mult_IZR in H. apply IZR_lt in B, D. apply (Rmult_le_reg_r (IZR b * IZR d)); [now apply Rmult_lt_0_compat|].
  replace (IZR a / IZR b * (IZR b * IZR d)) with (IZR a * IZR d) by (field; lra). replace (IZR c / IZR d * (IZR b * IZR d)) with (IZR c * IZR b) by (field; lra). exact H.
Qed.
Lemma PI_close : IZR 14148475504056879 / IZR 4503599627370496 <= PI <= IZR 14148475504056881 / IZR 4503599627370496.
Proof.
  pose proof (PI_2_3_7_ineq 8) as (H1 & H2). rewrite (proj2 (frac_ok _)) in H1. rewrite (proj2 (frac_ok _)) in H2.
  assert (A : IZR 14148475504056879 / IZR 18014398509481984 <= IZR (fst (frac (S (2 * 8)))) / IZR (snd (frac (S (2 * 8))))) by (apply frac_le; [reflexivity|apply frac_ok|vm_compute; reflexivity]).
  assert (B : IZR (fst (frac (2 * 8))) / IZR (snd (frac (2 * 8))) <= IZR 14148475504056881 / IZR 18014398509481984) by (apply frac_le; [apply frac_ok|reflexivity|vm_compute; reflexivity]).
  set (x := IZR (fst (frac (S _))) / _) in *. set (y := IZR (fst _) / IZR (snd (frac (2 * 8)))) in *. clearbody x y. lra.
Qed.

(** M_PI of the C library, and how far it is from pi: half a unit in its last place. *)
Definition M_PI : binary64 := b64_of_bits 0x400921FB54442D18.
Theorem C85_pi : fin M_PI = true /\ Rabs (val M_PI - PI) <= gap /\ 3 <= val M_PI <= 4 /\ 3 <= PI <= 4.
Proof.
  split; [reflexivity|]. assert (V : val M_PI = IZR 7074237752028440 / IZR 2251799813685248). { rewrite (val_of M_PI false 7074237752028440 (-51)) by (vm_compute; reflexivity). unfold F2R. cbn -[IZR]. change (Z.pow_pos 2 51) with 2251799813685248%Z. reflexivity. }
  rewrite V. assert (G : gap = / IZR 4503599627370496). { unfold gap. cbn -[IZR]. reflexivity. } rewrite G. pose proof PI_close as (P1 & P2). split; [apply Rabs_le|]; lra.
Qed.
(** C85: the same with M_PI, compared with the exact source, which has the true pi. *)
Theorem C85_source_exact : forall nA nG nC sigmaS source phi total c a v g, (c < nC)%nat -> (a < nA)%nat -> (v < 4)%nat -> (g < nG)%nat ->
  fin (sigmaS c) = true -> fin (source c a v g) = true -> fin (phi c v g) = true ->
  let q := val (source c a v g) in let s := scattered PI (val (sigmaS c)) 0 (val (phi c v g)) in
  Rabs (val (sigmaS c)) <= bpow radix2 1000 -> Rabs (val (phi c v g)) <= bpow radix2 1000 -> Rabs q + Rabs s <= bpow radix2 999 ->
  let computed := calcTotalSource Dops M_PI nA nG nC sigmaS source phi total c a v g in
  fin computed = true /\ Rabs (val computed - scattered PI (val (sigmaS c)) q (val (phi c v g))) <= 3 * gap * (Rabs q + Rabs s) + (Rabs (val (phi c v g)) + 1) * tiny.
Proof.
  intros nA nG nC sigmaS source phi total c a v g Hc Ha Hv Hg Fs Fq Fp q s Bs Bp Bq computed. destruct C85_pi as (FP & EP & BP & BT).
  set (s' := scattered (val M_PI) (val (sigmaS c)) 0 (val (phi c v g))).
  assert (G : 0 < gap <= / 4). { split; [apply bpow_gt_0|]. replace (/ 4) with (bpow radix2 (-2)) by (cbn; lra). apply bpow_le. lia. }
  assert (SS : s' = s * (PI / val M_PI)) by (unfold s', s, scattered; field; lra).
  assert (SD : s' - s = s * ((PI - val M_PI) / val M_PI)) by (rewrite SS; field; lra).
  assert (RD : Rabs ((PI - val M_PI) / val M_PI) <= gap * / 3).
  { unfold Rdiv. rewrite Rabs_mult, <- Rabs_Ropp. replace (- (PI - val M_PI)) with (val M_PI - PI) by ring. rewrite (Rabs_pos_eq (/ val M_PI)); [|apply Rlt_le, Rinv_0_lt_compat; lra]. apply Rmult_le_compat; [apply Rabs_pos|apply Rlt_le, Rinv_0_lt_compat; lra|exact EP|]. apply Rinv_le_contravar; lra. }
  assert (SE : Rabs (s' - s) <= Rabs s * (gap * / 3)) by (rewrite SD, Rabs_mult; apply Rmult_le_compat_l; [apply Rabs_pos|exact RD]).
  assert (S0 : 0 <= Rabs s) by apply Rabs_pos. assert (Q0 : 0 <= Rabs q) by apply Rabs_pos.
  assert (SG : Rabs s * (gap * / 3) <= Rabs s * / 12) by (apply Rmult_le_compat_l; lra).
  assert (SB : Rabs s' <= Rabs s + Rabs (s' - s)) by (pose proof (Rabs_triang s (s' - s)) as K; replace (s + (s' - s)) with s' in K by ring; exact K).
  assert (BB : bpow radix2 1000 = 2 * bpow radix2 999) by (change 1000%Z with (1 + 999)%Z; rewrite bpow_plus; f_equal; cbn; lra).
  destruct (C85_source M_PI nA nG nC sigmaS source phi total c a v g Hc Ha Hv Hg FP ltac:(lra) Fs Fq Fp Bs Bp) as (F & E); [fold q s'; lra|]. split; [exact F|]. fold computed q s' in E.
  assert (T : scattered (val M_PI) (val (sigmaS c)) q (val (phi c v g)) = scattered PI (val (sigmaS c)) q (val (phi c v g)) + (s' - s)) by (unfold s', s, scattered; ring).
  rewrite T in E. set (x := scattered PI (val (sigmaS c)) q (val (phi c v g))) in *. clearbody x.
  pose proof (Rabs_triang (val computed - (x + (s' - s))) (s' - s)) as K. replace (val computed - (x + (s' - s)) + (s' - s)) with (val computed - x) in K by ring.
  assert (M : gap * Rabs s' <= gap * (Rabs s + Rabs s * / 12)) by (apply Rmult_le_compat_l; lra). assert (0 <= gap * Rabs s) by (apply Rmult_le_pos; lra). assert (0 <= gap * Rabs q) by (apply Rmult_le_pos; lra).
  set (F1 := (Rabs (val (phi c v g)) + 1) * tiny) in *. clearbody F1. lra.
Qed.
(** C85: both steps of the code together, from the angular fluxes to the total source: n+5 gaps of the sizes of the
    terms for n angles. *)
Theorem C85_emission : forall nA nG wt nC sigmaS source psi total c a v g, (c < nC)%nat -> (a < nA)%nat -> (v < 4)%nat -> (g < nG)%nat -> INR nA + 1 <= bpow radix2 50 ->
  (forall b, (b < nA)%nat -> fin (wt b) = true /\ fin (psi c b v g) = true) -> fin (sigmaS c) = true -> fin (source c a v g) = true ->
  let phi := overAngles nA (fun b => val (wt b)) (fun b => val (psi c b v g)) in let sizes := overAngles nA (fun b => Rabs (val (wt b))) (fun b => Rabs (val (psi c b v g))) in
  let q := val (source c a v g) in let s := val (sigmaS c) in
  Rabs s <= bpow radix2 1000 -> sizes <= bpow radix2 998 -> scattered PI (Rabs s) (Rabs q) sizes <= bpow radix2 997 ->
  let computed := calcTotalSource Dops M_PI nA nG nC sigmaS source (psiToPhi Dops nA nG wt nC psi) total c a v g in
  fin computed = true /\ Rabs (val computed - scattered PI s q phi) <= (INR nA + 5) * gap * scattered PI (Rabs s) (Rabs q) sizes + (2 * INR nA * Rabs s + 2 * sizes + 2) * tiny.
Proof.
  intros nA nG wt nC sigmaS source psi total c a v g Hc Ha Hv Hg N F Fs Fq phi A q s Bs BA BX computed. destruct C85_pi as (_ & _ & _ & BT).
  destruct (C85_flux nA nG wt nC psi c v g Hc Hv Hg N F) as (FP & EP). { fold A. eapply Rle_trans; [exact BA|]. apply bpow_le. lia. }
  fold phi A in EP. set (f := val (psiToPhi Dops nA nG wt nC psi c v g)) in *. set (n := INR nA) in *.
  assert (n0 : 0 <= n) by apply pos_INR.
  assert (A0 : Rabs phi <= A). { unfold phi, A, overAngles, lsum. induction (seq 0 nA) as [|b l IH]; cbn [fold_right]; [rewrite Rabs_R0; lra|]. eapply Rle_trans; [apply Rabs_triang|]. rewrite Rabs_mult. lra. }
  pose proof (Rabs_pos phi) as P0. pose proof (Rabs_pos s) as s0. pose proof (Rabs_pos q) as q0.
  assert (G : 0 < gap) by apply bpow_gt_0. assert (TY : 0 < tiny) by apply bpow_gt_0.
  assert (NG : (n + 1) * gap <= / 4). { replace (/ 4) with (bpow radix2 50 * gap) by (unfold gap; rewrite <- bpow_plus; cbn; lra). apply Rmult_le_compat_r; lra. }
  assert (NT : bpow radix2 1000 * (n * tiny) <= 1).
  { apply Rle_trans with (bpow radix2 1000 * (bpow radix2 50 * tiny)); [apply Rmult_le_compat_l; [apply bpow_ge_0|]; apply Rmult_le_compat_r; lra|]. unfold tiny. rewrite <- !bpow_plus. change 1 with (bpow radix2 0). apply bpow_le. lia. }
  assert (NT0 : 0 <= n * tiny) by (apply Rmult_le_pos; lra). assert (B1 : 1 <= bpow radix2 997) by (change 1 with (bpow radix2 0); apply bpow_le; lia).
  assert (B8 : bpow radix2 998 = 2 * bpow radix2 997) by (change 998%Z with (1 + 997)%Z; rewrite bpow_plus; f_equal; cbn; lra).
  assert (B9 : bpow radix2 999 = 4 * bpow radix2 997) by (change 999%Z with (2 + 997)%Z; rewrite bpow_plus; f_equal; cbn; lra).
  assert (BK : bpow radix2 1000 = 8 * bpow radix2 997) by (change 1000%Z with (3 + 997)%Z; rewrite bpow_plus; f_equal; cbn; lra).
  assert (NT1 : n * tiny <= 1). { assert (1 * (n * tiny) <= bpow radix2 1000 * (n * tiny)) by (apply Rmult_le_compat_r; lra). lra. }
  assert (SN : Rabs s * (n * tiny) <= 1). { assert (Rabs s * (n * tiny) <= bpow radix2 1000 * (n * tiny)) by (apply Rmult_le_compat_r; lra). lra. }
  (* D bounds the error of the scalar flux *)
  set (D := (n + 1) * gap * A + n * tiny) in *. assert (DA : (n + 1) * gap * A <= / 4 * A) by (apply Rmult_le_compat_r; lra).
  assert (DD : D <= / 4 * A + 1) by (unfold D; lra).
  assert (FB : Rabs f <= A + D) by (pose proof (Rabs_triang phi (f - phi)) as K; replace (phi + (f - phi)) with f in K by ring; lra).
  set (k := / (4 * PI)). assert (K0 : 0 < k <= 1). { unfold k. split; [apply Rinv_0_lt_compat; lra|]. rewrite <- Rinv_1. apply Rinv_le_contravar; lra. }
  assert (AB : forall x y, Rabs (x * k * y) = Rabs x * k * Rabs y) by (intros; rewrite !Rabs_mult, (Rabs_pos_eq k); lra).
  assert (SC : forall u x y, scattered PI u x y = x + u * k * y) by reflexivity. rewrite !SC in *.
  set (m := Rabs s * k) in *. assert (m0 : 0 <= m) by (apply Rmult_le_pos; lra). assert (mS : m <= Rabs s). { unfold m. rewrite <- (Rmult_1_r (Rabs s)) at 2. apply Rmult_le_compat_l; lra. }
  assert (mD : m * D <= / 4 * (m * A) + m * (n * tiny)). { unfold D. rewrite Rmult_plus_distr_l. assert (m * ((n + 1) * gap * A) <= m * (/ 4 * A)) by (apply Rmult_le_compat_l; lra). lra. }
  assert (mN : m * (n * tiny) <= Rabs s * (n * tiny)) by (apply Rmult_le_compat_r; lra).
  assert (mf : m * Rabs f <= m * (A + D)) by (apply Rmult_le_compat_l; lra). assert (mA : 0 <= m * A) by (apply Rmult_le_pos; lra).
  destruct (C85_source_exact nA nG nC sigmaS source (psiToPhi Dops nA nG wt nC psi) total c a v g Hc Ha Hv Hg Fs Fq FP Bs) as (FC & EC); [fold f; lra| |].
  { fold f q s. rewrite SC, Rplus_0_l, AB. fold m. lra. }
  fold f q s computed in EC. split; [exact FC|]. rewrite !SC, Rplus_0_l, AB in EC. fold m in EC.
  replace (val computed - (q + s * k * phi)) with (val computed - (q + s * k * f) + s * k * (f - phi)) by ring. eapply Rle_trans; [apply Rabs_triang|]. rewrite AB. fold m.
  assert (mE : m * Rabs (f - phi) <= m * D) by (apply Rmult_le_compat_l; lra).
  assert (E1 : gap * (m * Rabs f) <= gap * (/ 4 * (m * A) + m * (n * tiny) + m * A)) by (apply Rmult_le_compat_l; lra).
  assert (GL : gap <= / 4). { assert (0 <= n * gap) by (apply Rmult_le_pos; lra). lra. }
  assert (E2 : gap * (m * (n * tiny)) <= / 4 * (m * (n * tiny))) by (apply Rmult_le_compat_r; [apply Rmult_le_pos|]; lra).
  assert (E3 : Rabs f * tiny <= (A + (/ 4 * A + 1)) * tiny) by (apply Rmult_le_compat_r; lra).
  assert (E4 : m * D = (n + 1) * gap * (m * A) + m * (n * tiny)) by (unfold D; ring).
  assert (E5 : 0 <= gap * (m * A)) by (apply Rmult_le_pos; lra). assert (E6 : 0 <= (n + 2) * gap * Rabs q) by (repeat apply Rmult_le_pos; lra).
  assert (E7 : 0 <= A * tiny) by (apply Rmult_le_pos; lra). assert (E8 : 0 <= Rabs s * (n * tiny)) by (apply Rmult_le_pos; lra). lra.
Qed.
(** With one angle of weight 1, a flux of 1, a source of 1 and a cross section of 1 the total source is about 1 + 1/(4 pi). *)
Example C85_source_ex : let one := D_of_Z 1 in
  Rabs (val (calcTotalSource Dops M_PI 1 1 1 (fun _ => one) (fun _ _ _ _ => one) (psiToPhi Dops 1 1 (fun _ => one) 1 (fun _ _ _ _ => one)) (fun _ _ _ _ => one) 0 0 2 0) - (1 + 1 / (4 * PI))) <= 7 * gap.
Proof.
  intros one. destruct one_val as (F1 & V1). destruct C85_pi as (_ & _ & _ & BT).
  assert (B : forall k, (4 <= k)%Z -> 16 <= bpow radix2 k) by (intros k K; change 16 with (bpow radix2 4); apply bpow_le; lia).
  assert (K : 0 < / (4 * PI) <= / 12) by (split; [apply Rinv_0_lt_compat|apply Rinv_le_contravar]; lra).
  assert (O : overAngles 1 (fun _ => 1) (fun _ => 1) = 1) by (unfold overAngles, lsum; cbn; lra).
  destruct (C85_emission 1 1 (fun _ => one) 1 (fun _ => one) (fun _ _ _ _ => one) (fun _ _ _ _ => one) (fun _ _ _ _ => one) 0 0 2 0) as (_ & E); try lia; auto.
  - cbn [INR]. pose proof (B 50%Z ltac:(lia)). lra.
  - unfold one. rewrite V1, Rabs_R1. pose proof (B 1000%Z ltac:(lia)). lra.
  - unfold one. rewrite V1, Rabs_R1, O. pose proof (B 998%Z ltac:(lia)). lra.
  - unfold one. rewrite V1, Rabs_R1, O. unfold scattered, Rdiv. pose proof (B 997%Z ltac:(lia)). lra.
  - unfold one in E. rewrite V1, Rabs_R1, O in E. fold one in E. cbn [INR] in E. unfold scattered, Rdiv in E. unfold Rdiv. set (x := val _) in *. clearbody x.
    replace (1 + 1 * / (4 * PI)) with (1 + 1 * / (4 * PI) * 1) by ring. eapply Rle_trans; [exact E|]. assert (G : 0 < gap) by apply bpow_gt_0. assert (TG : tiny <= / 64 * gap). { unfold tiny, gap. replace (/ 64) with (bpow radix2 (-6)) by (cbn; lra). rewrite <- bpow_plus. apply bpow_le. lia. }
    assert (gap * / (4 * PI) <= gap * / 12) by (apply Rmult_le_compat_l; lra). lra.
Qed.
Print Assumptions C85_source.
Print Assumptions C85_pi.
Print Assumptions C85_source_exact.
Print Assumptions C85_emission.
