(** Midpoints and comparisons with tolerance are exact on a grid. *)
From Coq Require Import ZArith Reals Lra Lia.
From Flocq Require Import Core IEEE754.BinarySingleNaN IEEE754.Binary IEEE754.Bits.
From Verif Require Import Prelude Bytes MeshModel MeshSpec CreateSpec GeometryModel DoubleModel DoubleProofs RefineModel RefineSpec TychoSpec ViewSpec RefinedSpec GridModel GridSpec.

Local Open Scope R_scope.
Notation rnd := (round radix2 (SpecFloat.fexp 53 1024) ZnearestE).
Notation P53 := 9007199254740992%Z.
Lemma rnd_id r m k : r = IZR m * bpow radix2 k -> (Z.abs m <= P53)%Z -> (-1074 <= k)%Z -> rnd r = r.
Proof.
  intros -> B K. apply round_generic; [apply valid_rnd_N|]. change (generic_format radix2 (FLT_exp (-1074) 53) (IZR m * bpow radix2 k)).
  destruct (Z.eq_dec (Z.abs m) P53) as [E|NE].
  - assert (C : m = P53 \/ m = (-9007199254740992)%Z) by lia. apply generic_format_FLT. destruct C as [-> | ->]; [exists (Float radix2 4503599627370496 (k + 1))|exists (Float radix2 (-4503599627370496) (k + 1))]; try (cbn; lia);
      unfold F2R; cbn [Fnum Fexp]; rewrite bpow_plus; change (bpow radix2 1) with 2; lra.
  - apply generic_format_FLT. exists (Float radix2 m k); [reflexivity|cbn [Fnum]; change (radix2 ^ 53)%Z with P53; lia|exact K].
Qed.
Lemma rnd_le a b : a <= b -> rnd a <= rnd b.
Proof. intros H. apply round_le; auto; try apply valid_rnd_N. exact (fexp_correct 53 1024 eq_refl). Qed.
Lemma rnd_bound r m k : Rabs r <= IZR m * bpow radix2 k -> (0 <= m <= P53)%Z -> (-1074 <= k <= 960)%Z -> Rabs (rnd r) <= IZR m * bpow radix2 k /\ Rabs (rnd r) < bpow radix2 1024.
Proof.
  intros H M K. assert (A : Rabs (rnd r) <= IZR m * bpow radix2 k).
  { apply Rabs_le. apply Rabs_le_inv in H. split.
    - rewrite <- (rnd_id (- (IZR m * bpow radix2 k)) (- m) k); [apply rnd_le; lra|rewrite opp_IZR; ring|lia|lia].
    - rewrite <- (rnd_id (IZR m * bpow radix2 k) m k); [apply rnd_le; lra|reflexivity|lia|lia]. }
  split; auto. eapply Rle_lt_trans; [exact A|]. apply Rle_lt_trans with (IZR P53 * bpow radix2 960)%R.
  - apply Rmult_le_compat; [apply IZR_le; lia|apply bpow_ge_0|apply IZR_le; lia|apply bpow_le; lia].
  - change (IZR P53) with (bpow radix2 53). rewrite <- bpow_plus. apply bpow_lt. lia.
Qed.
Lemma add_rnd x y : fin x = true -> fin y = true -> Rabs (rnd (val x + val y)) < bpow radix2 1024 -> fin (aadd Dops x y) = true /\ val (aadd Dops x y) = rnd (val x + val y).
Proof.
  intros Fx Fy L. cbn [aadd Dops]. unfold b64_plus. pose proof (Bplus_correct 53 1024 (@eq_refl comparison Lt) (@eq_refl comparison Lt) binop_nan_pl64 mode_NE x y Fx Fy) as K. change (round_mode mode_NE) with ZnearestE in K.
  rewrite (Rlt_bool_true _ _ L) in K. destruct K as (K1 & K2 & _). split; [exact K2|exact K1].
Qed.
Lemma sub_rnd x y : fin x = true -> fin y = true -> Rabs (rnd (val x - val y)) < bpow radix2 1024 -> fin (asub Dops x y) = true /\ val (asub Dops x y) = rnd (val x - val y).
Proof.
  intros Fx Fy L. cbn [asub Dops]. unfold b64_minus. pose proof (Bminus_correct 53 1024 (@eq_refl comparison Lt) (@eq_refl comparison Lt) binop_nan_pl64 mode_NE x y Fx Fy) as K. change (round_mode mode_NE) with ZnearestE in K.
  rewrite (Rlt_bool_true _ _ L) in K. destruct K as (K1 & K2 & _). split; [exact K2|exact K1].
Qed.
Lemma mul_rnd x y : fin x = true -> fin y = true -> Rabs (rnd (val x * val y)) < bpow radix2 1024 -> fin (amul Dops x y) = true /\ val (amul Dops x y) = rnd (val x * val y).
Proof.
  intros Fx Fy L. cbn [amul Dops]. unfold b64_mult. pose proof (Bmult_correct 53 1024 (@eq_refl comparison Lt) (@eq_refl comparison Lt) binop_nan_pl64 mode_NE x y) as K. change (round_mode mode_NE) with ZnearestE in K.
  rewrite (Rlt_bool_true _ _ L) in K. destruct K as (K1 & K2 & _). split; [|exact K1]. rewrite Fx, Fy in K2. exact K2.
Qed.
Lemma dbits_ok x : ddec (dbits x) = x /\ (dbits x < two64)%N.
Proof.
  unfold ddec, dbits. pose proof (bits_of_binary_float_range 52 11 ltac:(lia) ltac:(lia) x) as R. change (2 ^ (52 + 11 + 1))%Z with 18446744073709551616%Z in R. fold (bits_of_b64 x) in R. split.
  - rewrite Z2N.id by (destruct R; assumption). exact (binary_float_of_bits_of_binary_float 52 11 eq_refl eq_refl eq_refl x).
  - unfold two64. lia.
Qed.

Section Grid.
  Context (e : Z) (E : (-1072 <= e <= 960)%Z).
  Notation u := (bpow radix2 e).
  (** a multiple of 2^e *)
  Definition mult (b : Z) (x : N) : Prop := fin (ddec x) = true /\ exists m : Z, (Z.abs m <= b)%Z /\ number x = IZR m * u.
  Lemma u_pos : 0 < u. Proof. apply bpow_gt_0. Qed.
  Lemma gmid_ok b x y : (b <= 2 ^ 44)%Z -> (exists m, (Z.abs m <= b)%Z /\ number x = IZR (2 * m) * u) -> (exists m, (Z.abs m <= b)%Z /\ number y = IZR (2 * m) * u) -> fin (ddec x) = true -> fin (ddec y) = true ->
    mult (2 * b) (gmid x y) /\ number (gmid x y) = (number x + number y) / 2.
  Proof.
    intros LB (m & Bm & Vx) (k & Bk & Vy) Fx Fy. change (2 ^ 44)%Z with 17592186044416%Z in *. unfold number in *.
    assert (S : val (ddec x) + val (ddec y) = IZR (2 * m + 2 * k) * u) by (rewrite Vx, Vy, plus_IZR; ring).
    assert (RS : rnd (val (ddec x) + val (ddec y)) = IZR (2 * m + 2 * k) * u) by (rewrite S; eapply rnd_id; [reflexivity|lia|lia]).
    destruct (add_rnd _ _ Fx Fy) as (F1 & V1).
    { apply (rnd_bound _ (Z.abs (2 * m + 2 * k)) e); [|lia|lia]. rewrite S, Rabs_mult, (Rabs_pos_eq u) by apply bpow_ge_0. rewrite abs_IZR. apply Rle_refl. }
    rewrite RS in V1. remember (aadd Dops (ddec x) (ddec y)) as s eqn:Es.
    assert (H : fin (ahalf Dops) = true /\ val (ahalf Dops) = / 2) by (split; [reflexivity|cbn [ahalf Dops]; vm_compute; lra]). destruct H as (FH & VH). remember (ahalf Dops) as h eqn:Eh.
    assert (T : val h * val s = IZR (m + k) * u) by (rewrite VH, V1, !plus_IZR, !mult_IZR; field).
    assert (RT : rnd (val h * val s) = IZR (m + k) * u) by (rewrite T; eapply rnd_id; [reflexivity|lia|lia]).
    destruct (mul_rnd h s FH F1) as (F2 & V2).
    { apply (rnd_bound _ (Z.abs (m + k)) e); [|lia|lia]. rewrite T, Rabs_mult, (Rabs_pos_eq u) by apply bpow_ge_0. rewrite abs_IZR. apply Rle_refl. }
    assert (EQ : gmid x y = dbits (amul Dops h s)) by (unfold gmid; now rewrite <- Eh, <- Es). destruct (dbits_ok (amul Dops h s)) as (DB & _). unfold mult, number. rewrite EQ, DB, V2, RT, Vx, Vy. split.
    - split; [exact F2|]. exists (m + k)%Z. split; [lia|reflexivity].
    - rewrite !plus_IZR, !mult_IZR. field.
  Qed.
  Lemma mult_weak b c x : (b <= c)%Z -> mult b x -> mult c x.
  Proof. intros L (F & m & B & V). split; auto. exists m. split; [lia|auto]. Qed.
  Lemma gsub_ok x y : mult (2 ^ 45) x -> mult (2 ^ 45) y -> mult (2 ^ 46) (gsub x y) /\ number (gsub x y) = number x - number y.
  Proof.
    intros (Fx & m & Bm & Vx) (Fy & k & Bk & Vy). change (2 ^ 46)%Z with 70368744177664%Z in *. change (2 ^ 45)%Z with 35184372088832%Z in *. unfold number in *.
    assert (S : val (ddec x) - val (ddec y) = IZR (m - k) * u) by (rewrite Vx, Vy, minus_IZR; ring).
    assert (RS : rnd (val (ddec x) - val (ddec y)) = IZR (m - k) * u) by (rewrite S; eapply rnd_id; [reflexivity|lia|lia]).
    destruct (sub_rnd _ _ Fx Fy) as (F1 & V1).
    { apply (rnd_bound _ (Z.abs (m - k)) e); [|lia|lia]. rewrite S, Rabs_mult, (Rabs_pos_eq u) by apply bpow_ge_0. rewrite abs_IZR. apply Rle_refl. }
    destruct (dbits_ok (asub Dops (ddec x) (ddec y))) as (DB & _). unfold mult, number, gsub. rewrite DB, V1, RS. split; [|rewrite S; reflexivity].
    split; [exact F1|]. exists (m - k)%Z. split; [lia|reflexivity].
  Qed.
  (** The tolerance is less than one step. *)
  Lemma gtol_ok d : mult (2 ^ 46) d -> 0 <= number d -> fin (gtol d) = true /\ 0 <= val (gtol d) <= 3 * bpow radix2 (e - 2).
  Proof.
    intros (Fd & m & Bm & Vd) P. change (2 ^ 46)%Z with 70368744177664%Z in *. unfold number in *. unfold gtol.
    assert (H : fin (b64_of_bits 0x3D06849B86A12B9B) = true /\ val (b64_of_bits 0x3D06849B86A12B9B) = 6338253001141147 / 633825300114114700748351602688) by (split; [reflexivity|vm_compute; lra]).
    destruct H as (FH & VH). set (h := b64_of_bits _) in *. clearbody h.
    assert (UU : u = 4 * bpow radix2 (e - 2)) by (replace e with (2 + (e - 2))%Z at 1 by ring; rewrite bpow_plus; reflexivity). pose proof (bpow_gt_0 radix2 (e - 2)) as U2.
    assert (M0 : (0 <= m)%Z) by (apply le_IZR; rewrite Vd in P; pose proof u_pos; nra). assert (M1 : 0 <= IZR m <= 70368744177664) by (split; [apply IZR_le; lia|apply IZR_le; lia]).
    assert (T : 0 <= val h * val (ddec d) <= 3 * bpow radix2 (e - 2)).
    { rewrite VH, Vd, UU. replace (6338253001141147 / 633825300114114700748351602688 * (IZR m * (4 * bpow radix2 (e - 2)))) with (6338253001141147 / 633825300114114700748351602688 * IZR m * 4 * bpow radix2 (e - 2)) by ring. split.
      - apply Rmult_le_pos; [|lra]. apply Rmult_le_pos; [|lra]. apply Rmult_le_pos; lra.
      - apply Rmult_le_compat_r; [lra|]. lra. }
    destruct (mul_rnd h (ddec d) FH Fd) as (F2 & V2).
    { apply (rnd_bound _ 3 (e - 2)); [|lia|lia]. rewrite Rabs_pos_eq; lra. }
    split; [exact F2|]. rewrite V2. split.
    - rewrite <- (rnd_id 0 0 0) by (try lia; ring). apply rnd_le. lra.
    - rewrite <- (rnd_id (3 * bpow radix2 (e - 2)) 3 (e - 2)) by (try lia; reflexivity). apply rnd_le. lra.
  Qed.
  Lemma step x y : (exists m, number x = IZR m * u) -> (exists m, number y = IZR m * u) -> number x < number y -> number x + u <= number y.
  Proof.
    intros (m & Vx) (k & Vy) L. pose proof u_pos. rewrite Vx, Vy in *. assert (M : (m < k)%Z) by (apply lt_IZR; nra). assert (IZR m + 1 <= IZR k) by (rewrite <- plus_IZR; apply IZR_le; lia). nra.
  Qed.
  Lemma sep_ok d x y : mult (2 ^ 46) d -> 0 <= number d -> mult (2 ^ 45) x -> mult (2 ^ 45) y ->
    (gltMinus d x y = true <-> number x < number y) /\ (ggtPlus d x y = true <-> number x > number y).
  Proof.
    intros Hd P Hx Hy. destruct (gtol_ok d Hd P) as (FT & T). unfold gltMinus, ggtPlus. set (t := gtol d) in *. clearbody t.
    pose proof (step x y) as SX. pose proof (step y x) as SY. destruct Hx as (Fx & m & Bm & Vx), Hy as (Fy & k & Bk & Vy). change (2 ^ 45)%Z with 35184372088832%Z in *. specialize (SX (ex_intro _ m Vx) (ex_intro _ k Vy)). specialize (SY (ex_intro _ k Vy) (ex_intro _ m Vx)).
    assert (UU : u = 4 * bpow radix2 (e - 2)) by (replace e with (2 + (e - 2))%Z at 1 by ring; rewrite bpow_plus; reflexivity). pose proof (bpow_gt_0 radix2 (e - 2)) as U2. unfold number in *.
    assert (K : -35184372088832 <= IZR k <= 35184372088832) by (split; apply IZR_le; lia).
    assert (LO : rnd (val (ddec y) - 3 * bpow radix2 (e - 2)) = val (ddec y) - 3 * bpow radix2 (e - 2)) by (apply (rnd_id _ (4 * k - 3) (e - 2)); [rewrite Vy, UU, minus_IZR, mult_IZR; ring|lia|lia]).
    assert (HI : rnd (val (ddec y) + 3 * bpow radix2 (e - 2)) = val (ddec y) + 3 * bpow radix2 (e - 2)) by (apply (rnd_id _ (4 * k + 3) (e - 2)); [rewrite Vy, UU, plus_IZR, mult_IZR; ring|lia|lia]).
    assert (MI : rnd (val (ddec y)) = val (ddec y)) by (apply (rnd_id _ k e); [exact Vy|lia|lia]).
    assert (AB : forall r, val (ddec y) - 3 * bpow radix2 (e - 2) <= r <= val (ddec y) + 3 * bpow radix2 (e - 2) -> Rabs (rnd r) < bpow radix2 1024).
    { intros r R. apply (rnd_bound r 35184372088836 e); [|lia|lia]. apply Rabs_le. rewrite Vy in R. split; nra. }
    destruct (sub_rnd (ddec y) t Fy FT) as (F1 & V1); [apply AB; lra|]. destruct (add_rnd (ddec y) t Fy FT) as (F2 & V2); [apply AB; lra|].
    pose proof (rnd_le (val (ddec y) - 3 * bpow radix2 (e - 2)) (val (ddec y) - val t) ltac:(lra)) as A1. pose proof (rnd_le (val (ddec y) - val t) (val (ddec y)) ltac:(lra)) as A2.
    pose proof (rnd_le (val (ddec y)) (val (ddec y) + val t) ltac:(lra)) as A3. pose proof (rnd_le (val (ddec y) + val t) (val (ddec y) + 3 * bpow radix2 (e - 2)) ltac:(lra)) as A4.
    rewrite LO in A1. rewrite MI in A2, A3. rewrite HI in A4. rewrite <- V1 in A1, A2. rewrite <- V2 in A3, A4. split.
    - rewrite (dgt_ok _ _ F1 Fx). split; intros; [lra|]. specialize (SX H). lra.
    - rewrite (dgt_ok _ _ Fx F2). split; intros; [lra|]. apply Rgt_lt in H. specialize (SY H). lra.
  Qed.

  (** ** The diameter *)
  Definition okp (mn mx : N) : Prop := mult (2 ^ 45) mn /\ mult (2 ^ 45) mx /\ number mn <= number mx.
  Definition inv1 (mn mx : N) : Prop := (mn = gmax /\ mx = gmin) \/ okp mn mx.
  Lemma ext_val : fin (ddec gmax) = true /\ fin (ddec gmin) = true /\ val (ddec gmax) = 9007199254740991 * bpow radix2 971 /\ val (ddec gmin) = - (9007199254740991 * bpow radix2 971).
  Proof.
    split; [reflexivity|]. split; [reflexivity|]. split.
    - transitivity (F2R (Float radix2 9007199254740991 971)); [vm_compute; reflexivity|reflexivity].
    - transitivity (F2R (Float radix2 (-9007199254740991) 971)); [vm_compute; reflexivity|unfold F2R; cbn [Fnum Fexp]; ring].
  Qed.
  Lemma mult_bound x : mult (2 ^ 45) x -> - (9007199254740991 * bpow radix2 971) < number x < 9007199254740991 * bpow radix2 971.
  Proof.
    intros (_ & m & B & V). change (2 ^ 45)%Z with 35184372088832%Z in B. rewrite V. assert (M : -35184372088832 <= IZR m <= 35184372088832) by (split; apply IZR_le; lia).
    pose proof u_pos as U. assert (L : u <= bpow radix2 971) by (apply bpow_le; lia). split; nra.
  Qed.
  Lemma minOf_ok p mn mx : mult (2 ^ 45) p -> inv1 mn mx -> okp (minOf dltb p mn) (maxOf dltb p mx).
  Proof.
    intros Hp I. pose proof (mult_bound p Hp) as B. destruct ext_val as (F1 & F2 & V1 & V2). assert (Fp : fin (ddec p) = true) by apply Hp. unfold minOf, maxOf. unfold number in *. destruct I as [(-> & ->)|(Hn & Hx & L)].
    - rewrite (proj2 (dltb_ok p gmax Fp F1)) by lra. rewrite (proj2 (dltb_ok gmin p F2 Fp)) by lra. split; [exact Hp|split; [exact Hp|apply Rle_refl]].
    - assert (Fn : fin (ddec mn) = true) by apply Hn. assert (Fx : fin (ddec mx) = true) by apply Hx. pose proof (dltb_ok p mn Fp Fn) as D1. pose proof (dltb_ok mx p Fx Fp) as D2. unfold okp, number in *.
      destruct (dltb p mn), (dltb mx p).
      + split; [exact Hp|split; [exact Hp|apply Rle_refl]].
      + split; [exact Hp|split; [exact Hx|]]. assert (val (ddec p) < val (ddec mn)) by (apply D1; reflexivity). lra.
      + split; [exact Hn|split; [exact Hp|]]. assert (val (ddec mx) < val (ddec p)) by (apply D2; reflexivity). lra.
      + split; [exact Hn|split; [exact Hx|exact L]].
  Qed.
  Definition inv3 (P : N -> N -> Prop) (a : q3 N * q3 N) : Prop := P (t0 (fst a)) (t0 (snd a)) /\ P (t1 (fst a)) (t1 (snd a)) /\ P (t2 (fst a)) (t2 (snd a)).
  Definition estep (a : q3 N * q3 N) (p : q3 N) := (q3zip (minOf dltb) p (fst a), q3zip (maxOf dltb) p (snd a)).
  Lemma estep_ok a p : (forall x, In x (q3l p) -> mult (2 ^ 45) x) -> inv3 inv1 a -> inv3 okp (estep a p).
  Proof.
    intros H (I0 & I1 & I2). destruct p as [x y z]. cbn [q3l t0 t1 t2] in H. unfold inv3, estep, q3zip. cbn [fst snd t0 t1 t2].
    split; [|split]; (apply minOf_ok; [apply H; cbn [In q3l t0 t1 t2]; tauto|assumption]).
  Qed.
  Lemma inv_weak a : inv3 okp a -> inv3 inv1 a.
  Proof. intros (A & B & C). split; [|split]; right; assumption. Qed.
  Lemma efold_ok l a : (forall p x, In p l -> In x (q3l p) -> mult (2 ^ 45) x) -> inv3 inv1 a -> inv3 inv1 (fold_left estep l a) /\ (l <> [] -> inv3 okp (fold_left estep l a)).
  Proof.
    revert a. induction l as [|p l IH]; intros a H I; [split; [exact I|congruence]|]. cbn [fold_left]. assert (O : inv3 okp (estep a p)) by (apply estep_ok; [intros x; apply H; now left|exact I]).
    destruct (IH (estep a p)) as (A & B); [intros q x Hq; apply H; now right|apply inv_weak, O|]. split; [exact A|]. intros _. destruct l; [exact O|apply B; discriminate].
  Qed.
  Lemma fmax_ok x y : mult (2 ^ 46) x -> 0 <= number x -> mult (2 ^ 46) y -> 0 <= number y -> mult (2 ^ 46) (fmax dltb x y) /\ 0 <= number (fmax dltb x y).
  Proof. intros. unfold fmax. destruct (dltb x y); auto. Qed.
  Lemma diam_ok sm d : (forall n s x, SM_node sm n = Some s -> In x (q3l (sn_coords s)) -> mult (2 ^ 45) x) -> sm_cells sm <> [] ->
    graphDiameter dltb gmax gmin gsub sm = Some d -> mult (2 ^ 46) d /\ 0 <= number d.
  Proof.
    intros G NE. unfold graphDiameter, extremes. change (fun a p => (q3zip (minOf dltb) p (fst a), q3zip (maxOf dltb) p (snd a))) with estep.
    assert (T : forall c t, coarseTet sm c = Some t -> forall p x, In p (q4l t) -> In x (q3l p) -> mult (2 ^ 45) x).
    { intros c t. unfold coarseTet. assert (CN : forall n q, coarseNode sm n = Some q -> forall x, In x (q3l q) -> mult (2 ^ 45) x).
      { intros n q. unfold coarseNode. destruct (nthN (sm_nodes sm) n) as [s|] eqn:En; [|discriminate]. cbn [option_map]. intros Eq x Hx. apply Some_inj in Eq. subst q. unfold nthN in En. destruct (n <? N.of_nat (length (sm_nodes sm)))%N; [exact (G n s x En Hx)|discriminate]. }
      destruct (coarseNode sm (r0 (sc_nodes c))) as [p0|] eqn:E0; [|discriminate]. destruct (coarseNode sm (r1 (sc_nodes c))) as [p1|] eqn:E1; [|discriminate].
      destruct (coarseNode sm (r2 (sc_nodes c))) as [p2|] eqn:E2; [|discriminate]. destruct (coarseNode sm (r3 (sc_nodes c))) as [p3|] eqn:E3; [|discriminate].
      cbn [obind]. intros Et p x Hp. apply Some_inj in Et. subst t. cbn [q4l r0 r1 r2 r3 In] in Hp. destruct Hp as [<-|[<-|[<-|[<-|[]]]]]; eauto. }
    set (f := fun (acc : option (q3 N * q3 N)) c => _). 
    assert (N0 : forall l, fold_left f l None = None) by (induction l; auto).
    assert (FO : forall l a r, inv3 inv1 a -> fold_left f l (Some a) = Some r -> l <> [] -> inv3 okp r).
    { induction l as [|c l IH]; intros a r I H NL; [congruence|]. cbn [fold_left] in H. unfold f at 2 in H. cbn [obind] in H. destruct (coarseTet sm c) as [t|] eqn:Et; cbn [obind] in H; [|rewrite N0 in H; discriminate].
      destruct (efold_ok (q4l t) a (T c t Et) I) as (A & B). assert (O : inv3 okp (fold_left estep (q4l t) a)) by (apply B; destruct t; discriminate).
      destruct l as [|c' l]; [cbn [fold_left] in H; apply Some_inj in H; subst r; exact O|]. eapply IH; [exact A|exact H|discriminate]. }
    destruct (fold_left f (sm_cells sm) (Some (Q3 gmax gmax gmax, Q3 gmin gmin gmin))) as [(mn, mx)|] eqn:EF; [|discriminate]. cbn [obind]. intros Ed. apply Some_inj in Ed. subst d.
    assert (I0 : inv3 inv1 (Q3 gmax gmax gmax, Q3 gmin gmin gmin)) by (split; [|split]; left; split; reflexivity).
    destruct (FO _ _ _ I0 EF NE) as ((A0 & B0 & C0) & (A1 & B1 & C1) & (A2 & B2 & C2)). cbn [fst snd] in *.
    destruct (gsub_ok _ _ B0 A0) as (M0 & V0), (gsub_ok _ _ B1 A1) as (M1 & V1), (gsub_ok _ _ B2 A2) as (M2 & V2).
    destruct (fmax_ok _ _ M1 ltac:(rewrite V1; lra) M2 ltac:(rewrite V2; lra)) as (M3 & P3). apply fmax_ok; auto. rewrite V0. lra.
  Qed.
End Grid.

Lemma grid_coord sm b e k sc x : grid_mesh sm b e -> In k [t0; t1; t2] -> cell_coord sm k sc x -> fin (ddec x) = true /\ exists m : Z, (Z.abs m <= b)%Z /\ number x = IZR (2 * m) * bpow radix2 e.
Proof.
  intros G Hk (n & sn & _ & Hn & ->). apply (G n sn _ Hn). destruct (sn_coords sn) as [x y z]. destruct Hk as [<-|[<-|[<-|[]]]]; cbn [q3l t0 t1 t2 In]; auto.
Qed.
Lemma grid_refined sm b e k x : (-1072 <= e <= 960)%Z -> (b <= 2 ^ 44)%Z -> grid_mesh sm b e -> In k [t0; t1; t2] -> refined_coord sm gmid k x -> mult e (2 * b) x.
Proof.
  intros E LB G Hk (sc & _ & [Hx|(y & z & Hy & Hz & ->)]).
  - destruct (grid_coord sm b e k sc x G Hk Hx) as (F & m & B & V). split; [exact F|]. exists (2 * m)%Z. split; [lia|exact V].
  - destruct (grid_coord sm b e k sc y G Hk Hy) as (Fy & My), (grid_coord sm b e k sc z G Hk Hz) as (Fz & Mz). apply (gmid_ok e E b y z LB My Mz Fy Fz).
Qed.
Lemma grid_exact sm b e : (-1072 <= e <= 960)%Z -> (b <= 2 ^ 44)%Z -> grid_mesh sm b e -> exact_midpoints sm number gmid /\
  (forall d, sm_cells sm <> [] -> graphDiameter dltb gmax gmin gsub sm = Some d -> separates sm number gmid (gltMinus d) (ggtPlus d)).
Proof.
  intros E LB G. assert (L2 : (2 * b <= 2 ^ 45)%Z) by (change (2 ^ 45)%Z with (2 * 2 ^ 44)%Z; apply Z.mul_le_mono_nonneg_l; [discriminate|exact LB]). split.
  - constructor.
    + intros k sc x y Hk _ Hx Hy. destruct (grid_coord sm b e k sc x G Hk Hx) as (Fx & Mx), (grid_coord sm b e k sc y G Hk Hy) as (Fy & My). apply (gmid_ok e E b x y LB Mx My Fx Fy).
    + intros x y. apply dbits_ok.
  - intros d NE Ed. destruct (diam_ok e E sm d) as (Md & Pd); [|exact NE|exact Ed|].
    { intros n s x Hn Hx. destruct (G n s x Hn Hx) as (F & m & B & V). apply (mult_weak e (2 * b)); [exact L2|]. split; [exact F|]. exists (2 * m)%Z. split; [lia|exact V]. }
    intros k x y Hk Hx Hy. apply (sep_ok e E d x y Md Pd); apply (mult_weak e (2 * b)); try exact L2; eapply grid_refined; eauto.
Qed.
