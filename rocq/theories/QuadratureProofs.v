(** The angular quadrature: proofs. *)
From Coq Require Import Reals Lra Permutation.
From Verif Require Import Prelude MeshModel TychoModel TychoProofs QuadratureModel QuadratureSpec.
Local Open Scope R_scope.

(** ---- facts about the tables, by computation ---- *)
Definition eqLists (a b : list Z) : bool := if list_eq_dec Z.eq_dec a b then true else false.
(** Sum of w x^k, times 10^(16 (k+1)). *)
Definition moment (gn gw : list Z) (k : nat) : Z := fold_right Z.add 0%Z (map (fun p => (snd p * fst p ^ Z.of_nat k)%Z) (combine gn gw)).
(** (k+1) times the integral of x^k over [-1,1]. *)
Definition intNum (k : nat) : Z := if Nat.even k then 2%Z else 0%Z.
(** The even moments are enclosed between integers in units of 2^-64: x^2 and w at the start, w x^(2j) at step j. *)
Definition unit64 : Z := (2 ^ 64)%Z.
Definition encStart (p : Z * Z) : (Z * Z) * (Z * Z) :=
  let y := (fst p * fst p * unit64 / 10 ^ 32)%Z in let a := (snd p * unit64 / 10 ^ 16)%Z in ((y, y + 1), (a, a + 1))%Z.
Definition encStep (e : (Z * Z) * (Z * Z)) : (Z * Z) * (Z * Z) :=
  (fst e, (Z.shiftr (fst (snd e) * fst (fst e)) 64, Z.shiftr (snd (snd e) * snd (fst e)) 64 + 1))%Z.
(** The sums lie within 10^-14 of 2/(2j+1). *)
Definition encOk (j : nat) (l : list ((Z * Z) * (Z * Z))) : bool :=
  let K := Z.of_nat (S (2 * j)) in
  ((2 * 10^14 - K) * unit64 <=? fold_right Z.add 0 (map (fun e => fst (snd e)) l) * (K * 10^14))%Z &&
  (fold_right Z.add 0 (map (fun e => snd (snd e)) l) * (K * 10^14) <=? (2 * 10^14 + K) * unit64)%Z.
Fixpoint evenOk (fuel j : nat) (l : list ((Z * Z) * (Z * Z))) : bool :=
  match fuel with O => true | S f => encOk j l && evenOk f (S j) (map encStep l) end.
Definition tableOk (e : nat * (list Z * list Z)) : bool :=
  let '(n, (gn, gw)) := e in
  (0 <? n)%nat && Nat.even n && (length gn =? n)%nat && (length gw =? n)%nat && eqLists (rev gn) (map Z.opp gn) && eqLists (rev gw) gw &&
  forallb (fun x => Z.abs x <? 10^16)%Z gn && forallb (fun w => 0 <? w)%Z gw && evenOk n 0 (map encStart (combine gn gw)).
Lemma tables_ok : forallb tableOk gaussTables = true.
Proof. vm_compute. reflexivity. Qed.

Lemma eqLists_eq a b : eqLists a b = true -> a = b.
Proof. unfold eqLists. destruct (list_eq_dec Z.eq_dec a b); [auto|discriminate]. Qed.

Record table_ok (n : nat) (gn gw : list Z) : Prop := {
  tk_pos : (0 < n)%nat; tk_even : exists h, n = (2 * h)%nat; tk_ln : length gn = n; tk_lw : length gw = n;
  tk_sn : rev gn = map Z.opp gn; tk_sw : rev gw = gw;
  tk_in : forall x, In x gn -> (Z.abs x < 10^16)%Z; tk_wp : forall w, In w gw -> (0 < w)%Z;
  tk_m : evenOk n 0 (map encStart (combine gn gw)) = true }.
Lemma gauss_ok n gn gw : gauss n = Some (gn, gw) -> table_ok n gn gw.
Proof.
  unfold gauss. intros H. destruct (find _ gaussTables) as [[m [a b]]|] eqn:E; [|discriminate]. cbn in H. injection H as -> ->.
  apply find_some in E as (I & E). cbn in E. apply Nat.eqb_eq in E. subst m.
  pose proof tables_ok as T. rewrite forallb_forall in T. specialize (T _ I). unfold tableOk in T. rewrite !andb_true_iff in T.
  destruct T as ((((((((T1 & T2) & T3) & T4) & T5) & T6) & T7) & T8) & T9).
  apply Nat.ltb_lt in T1. apply Nat.even_spec in T2. apply Nat.eqb_eq in T3, T4. apply eqLists_eq in T5, T6. rewrite forallb_forall in T7, T8.
  constructor; auto.
  - intros x Hx. apply Z.ltb_lt. auto.
  - intros x Hx. apply Z.ltb_lt. auto.
Qed.

(** ---- the loop ---- *)
Lemma prod_pos n m : forall s j i k, nth_error (list_prod (seq s n) (seq 0 m)) j = Some (i, k) -> (s <= i)%nat /\ j = ((i - s) * m + k)%nat.
Proof.
  induction n as [|n IH]; intros s j i k H; cbn [seq list_prod] in H. { destruct j; discriminate. }
  assert (L : length (map (fun y => (s, y)) (seq 0 m)) = m) by now rewrite map_length, seq_length.
  destruct (Nat.lt_ge_cases j m) as [Lj|Gj].
  - rewrite nth_error_app1 in H by lia. rewrite nth_error_map, nth_error_seq0 in H by auto. injection H as <- <-. split; [lia|]. rewrite Nat.sub_diag. reflexivity.
  - rewrite nth_error_app2 in H by lia. rewrite L in H. destruct (IH (S s) _ _ _ H) as (A & B). split; [lia|].
    replace (i - s)%nat with (S (i - S s)) by lia. cbn [Nat.mul]. lia.
Qed.

Definition idx (n : nat) : list (nat * nat) := list_prod (seq 0 n) (seq 0 (2 * n)).
Lemma idx_In n i k : In (i, k) (idx n) <-> (i < n)%nat /\ (k < 2 * n)%nat.
Proof. unfold idx. rewrite in_prod_iff, !in_seq. lia. Qed.
Lemma idx_nodup n : NoDup (idx n). Proof. apply NoDup_list_prod; apply seq_NoDup. Qed.
Lemma idx_length n : length (idx n) = (2 * n * n)%nat.
Proof. unfold idx. rewrite prod_length, !seq_length. lia. Qed.

Definition D (n : nat) (gn gw : list Z) (ik : nat * nat) : dir := direction n (lit (nth (fst ik) gn 0%Z)) (lit (nth (fst ik) gw 0%Z)) (snd ik).

Lemma quadrature_eq n gn gw : gauss n = Some (gn, gw) -> quadrature n = Some (map (D n gn gw) (idx n)).
Proof.
  intros G. destruct (gauss_ok n gn gw G) as [_ _ LN LW _ _ _ _ _]. unfold quadrature. rewrite G. cbn [obind fst snd].
  set (step := fun (q : list dir) (ik : nat * nat) => _).
  destruct (foldM_inv step (fun pre q => q = map (D n gn gw) pre ++ repeat (mkDir 0 0 0 0) (2 * n * n - length pre)) (idx n) (repeat (mkDir 0 0 0 0) (2 * n * n))) as (q & E & Q).
  - cbn [map app length]. now rewrite Nat.sub_0_r.
  - intros pre (i, k) suf q El ->.
    assert (P : nth_error (idx n) (length pre) = Some (i, k)) by (rewrite El, nth_error_app2, Nat.sub_diag by lia; reflexivity).
    apply prod_pos in P as (_ & P). rewrite Nat.sub_0_r in P.
    assert (I : In (i, k) (idx n)) by (rewrite El; apply in_or_app; right; now left). apply idx_In in I as (Li & Lk).
    unfold step. cbn [fst snd]. rewrite (nth_error_nth' gn 0%Z), (nth_error_nth' gw 0%Z) by lia. cbn [obind].
    assert (LL : length (idx n) = (length pre + S (length suf))%nat) by (rewrite El, app_length; reflexivity). rewrite idx_length in LL.
    unfold setNth. replace (i * 2 * n + k)%nat with (length pre) by lia.
    assert (LM : length (map (D n gn gw) pre) = length pre) by apply map_length.
    replace (2 * n * n - length pre)%nat with (S (2 * n * n - S (length pre))) by lia. cbn [repeat].
    rewrite app_length, LM. cbn [length]. destruct (Nat.ltb_spec (length pre) (length pre + S (length (repeat (mkDir 0 0 0 0) (2 * n * n - S (length pre)))))); [|lia].
    eexists. split; [reflexivity|]. rewrite map_app, app_length. cbn [map length].
    rewrite firstn_app, LM, Nat.sub_diag, firstn_O, app_nil_r, firstn_all2 by lia.
    rewrite skipn_app, LM. replace (S (length pre) - length pre)%nat with 1%nat by lia. rewrite skipn_all2 by lia. cbn [skipn app].
    rewrite <- app_assoc. cbn [app]. do 3 f_equal. f_equal. lia.
  - fold step. unfold idx in E at 1. rewrite E. rewrite Q, idx_length, Nat.sub_diag. cbn [repeat]. now rewrite app_nil_r.
Qed.

(** ---- symmetries ---- *)
Section Table.
  Variables (n : nat) (gn gw : list Z).
  Hypothesis OK : table_ok n gn gw.

  Lemma n0 : INR (2 * n) <> 0.
  Proof. pose proof (tk_pos _ _ _ OK). apply not_0_INR. lia. Qed.
  Lemma n1 : INR n <> 0.
  Proof. pose proof (tk_pos _ _ _ OK). apply not_0_INR. lia. Qed.
  Definition phi (k : nat) : R := (2 * PI) / INR (2 * n) * (INR k + /2).
  Lemma phi_n k : phi k = PI / INR n * (INR k + / 2).
  Proof. unfold phi. rewrite mult_INR. replace (INR 2) with 2 by reflexivity. pose proof n1. field. auto. Qed.

  Lemma permuted (f : dir -> dir) (s s' : nat * nat -> nat * nat) :
    (forall ik, In ik (idx n) -> In (s ik) (idx n) /\ s' (s ik) = ik /\ In (s' ik) (idx n) /\ s (s' ik) = ik /\ f (D n gn gw ik) = D n gn gw (s ik)) ->
    Permutation (map f (map (D n gn gw) (idx n))) (map (D n gn gw) (idx n)).
  Proof.
    intros H. rewrite map_map. rewrite (map_ext_in _ (fun ik => D n gn gw (s ik))) by (intros ik I; apply H; auto).
    rewrite <- (map_map s (D n gn gw)). apply Permutation_map. apply Permutation_sym, NoDup_Permutation_bis; [apply idx_nodup|now rewrite map_length|].
    intros ik I. apply in_map_iff. exists (s' ik). destruct (H ik I) as (_ & _ & A & B & _). auto.
  Qed.

  Lemma opp_node i : (i < n)%nat -> lit (nth (n - 1 - i) gn 0%Z) = - lit (nth i gn 0%Z).
  Proof.
    intros H. pose proof (tk_ln _ _ _ OK) as L. replace (n - 1 - i)%nat with (length gn - S i)%nat by lia. rewrite <- rev_nth by lia.
    rewrite (tk_sn _ _ _ OK). rewrite (nth_indep _ 0%Z (- 0)%Z) by (rewrite map_length; lia). rewrite map_nth. unfold lit. rewrite opp_IZR. field.
  Qed.
  Lemma same_weight i : (i < n)%nat -> nth (n - 1 - i) gw 0%Z = nth i gw 0%Z.
  Proof. intros H. pose proof (tk_lw _ _ _ OK) as L. replace (n - 1 - i)%nat with (length gw - S i)%nat by lia. rewrite <- rev_nth by lia. now rewrite (tk_sw _ _ _ OK). Qed.

  Lemma dir_eq a b c w a' b' c' w' : a = a' -> b = b' -> c = c' -> w = w' -> mkDir a b c w = mkDir a' b' c' w'.
  Proof. congruence. Qed.

  Lemma flip_z : Permutation (map (flip 1 1 (-1)) (map (D n gn gw) (idx n))) (map (D n gn gw) (idx n)).
  Proof.
    apply (permuted _ (fun ik => (n - 1 - fst ik, snd ik))%nat (fun ik => (n - 1 - fst ik, snd ik))%nat). intros (i, k) I. apply idx_In in I as (Li & Lk). cbn [fst snd].
    split; [apply idx_In; lia|]. split; [f_equal; lia|]. split; [apply idx_In; lia|]. split; [f_equal; lia|].
    unfold D, direction, flip. cbn [fst snd d_xi d_eta d_mu d_w]. rewrite opp_node, same_weight by auto.
    replace (- lit (nth i gn 0%Z) * - lit (nth i gn 0%Z)) with (lit (nth i gn 0%Z) * lit (nth i gn 0%Z)) by ring.
    apply dir_eq; try ring.
  Qed.
  Lemma flip_y : Permutation (map (flip 1 (-1) 1) (map (D n gn gw) (idx n))) (map (D n gn gw) (idx n)).
  Proof.
    apply (permuted _ (fun ik => (fst ik, 2 * n - 1 - snd ik))%nat (fun ik => (fst ik, 2 * n - 1 - snd ik))%nat). intros (i, k) I. apply idx_In in I as (Li & Lk). cbn [fst snd].
    split; [apply idx_In; lia|]. split; [f_equal; lia|]. split; [apply idx_In; lia|]. split; [f_equal; lia|].
    unfold D, direction, flip. cbn [fst snd d_xi d_eta d_mu d_w]. fold (phi k). fold (phi (2 * n - 1 - k)).
    assert (E : phi (2 * n - 1 - k) = - phi k + 2 * PI).
    { unfold phi. rewrite !minus_INR by lia. replace (INR 1) with 1 by reflexivity. pose proof n0. field. auto. }
    rewrite E. replace (2 * PI) with (2 * INR 1 * PI) by (cbn; ring). rewrite cos_period, sin_period, cos_neg, sin_neg. apply dir_eq; ring.
  Qed.
  Lemma flip_x : Permutation (map (flip (-1) 1 1) (map (D n gn gw) (idx n))) (map (D n gn gw) (idx n)).
  Proof.
    set (s := fun k => if (k <? n)%nat then (n - 1 - k)%nat else (3 * n - 1 - k)%nat).
    apply (permuted _ (fun ik => (fst ik, s (snd ik))) (fun ik => (fst ik, s (snd ik)))). intros (i, k) I. apply idx_In in I as (Li & Lk). cbn [fst snd].
    assert (S1 : (s k < 2 * n)%nat) by (unfold s; destruct (Nat.ltb_spec k n); lia).
    assert (S2 : s (s k) = k). { unfold s. destruct (Nat.ltb_spec k n). - destruct (Nat.ltb_spec (n - 1 - k) n); lia. - destruct (Nat.ltb_spec (3 * n - 1 - k) n); lia. }
    split; [apply idx_In; lia|]. split; [f_equal; auto|]. split; [apply idx_In; lia|]. split; [f_equal; auto|].
    unfold D, direction, flip. cbn [fst snd d_xi d_eta d_mu d_w]. fold (phi k). fold (phi (s k)).
    assert (E : cos (phi (s k)) = - cos (phi k) /\ sin (phi (s k)) = sin (phi k)).
    { unfold s. destruct (Nat.ltb_spec k n) as [L|L].
      - assert (E : phi (n - 1 - k) = PI - phi k).
        { rewrite !phi_n, !minus_INR by lia. replace (INR 1) with 1 by reflexivity. pose proof n1. field. auto. }
        rewrite E. split; [|now rewrite sin_PI_x]. rewrite cos_minus, cos_PI, sin_PI. ring.
      - assert (E : phi (3 * n - 1 - k) = (PI - phi k) + 2 * INR 1 * PI).
        { rewrite !phi_n, !minus_INR, mult_INR by lia. replace (INR 3) with 3 by (cbn; ring). replace (INR 1) with 1 by reflexivity. pose proof n1. field. auto. }
        rewrite E, cos_period, sin_period. split; [|now rewrite sin_PI_x]. rewrite cos_minus, cos_PI, sin_PI. ring. }
    destruct E as (-> & ->). apply dir_eq; ring.
  Qed.
  Lemma turned : Permutation (map turn (map (D n gn gw) (idx n))) (map (D n gn gw) (idx n)).
  Proof.
    destruct (tk_even _ _ _ OK) as (h & Eh). pose proof (tk_pos _ _ _ OK) as NP.
    set (s := fun k => if (k + h <? 2 * n)%nat then (k + h)%nat else (k + h - 2 * n)%nat).
    set (s' := fun k => if (k <? h)%nat then (k + 2 * n - h)%nat else (k - h)%nat).
    apply (permuted _ (fun ik => (fst ik, s (snd ik))) (fun ik => (fst ik, s' (snd ik)))). intros (i, k) I. apply idx_In in I as (Li & Lk). cbn [fst snd].
    assert (S1 : (s k < 2 * n)%nat) by (unfold s; destruct (Nat.ltb_spec (k + h) (2 * n)); lia).
    assert (S1' : (s' k < 2 * n)%nat) by (unfold s'; destruct (Nat.ltb_spec k h); lia).
    assert (S2 : s' (s k) = k).
    { unfold s. destruct (Nat.ltb_spec (k + h) (2 * n)); unfold s'. - destruct (Nat.ltb_spec (k + h) h); lia. - destruct (Nat.ltb_spec (k + h - 2 * n) h); lia. }
    assert (S3 : s (s' k) = k).
    { unfold s'. destruct (Nat.ltb_spec k h); unfold s. - destruct (Nat.ltb_spec (k + 2 * n - h + h) (2 * n)); lia. - destruct (Nat.ltb_spec (k - h + h) (2 * n)); lia. }
    split; [apply idx_In; lia|]. split; [f_equal; auto|]. split; [apply idx_In; lia|]. split; [f_equal; auto|].
    unfold D, direction, turn. cbn [fst snd d_xi d_eta d_mu d_w]. fold (phi k). fold (phi (s k)).
    assert (NH : INR n = 2 * INR h) by (rewrite Eh, mult_INR; reflexivity). assert (H0 : INR h <> 0) by (pose proof n1; lra).
    assert (E : cos (phi (s k)) = - sin (phi k) /\ sin (phi (s k)) = cos (phi k)).
    { unfold s. destruct (Nat.ltb_spec (k + h) (2 * n)) as [L|L].
      - assert (E : phi (k + h) = phi k + PI / 2). { rewrite !phi_n, plus_INR, NH. field. auto. }
        rewrite E, cos_plus, sin_plus, cos_PI2, sin_PI2. split; ring.
      - assert (E : phi (k + h - 2 * n) + 2 * INR 1 * PI = phi k + PI / 2).
        { rewrite !phi_n, minus_INR, plus_INR, mult_INR, NH by lia. replace (INR 2) with 2 by reflexivity. replace (INR 1) with 1 by reflexivity. field. auto. }
        rewrite <- (cos_period (phi (k + h - 2 * n)) 1), <- (sin_period (phi (k + h - 2 * n)) 1), E, cos_plus, sin_plus, cos_PI2, sin_PI2. split; ring. }
    destruct E as (-> & ->). apply dir_eq; ring.
  Qed.

  (** ---- single directions ---- *)
  Lemma lit_in i : (i < n)%nat -> -1 < lit (nth i gn 0%Z) < 1.
  Proof.
    intros H. assert (I : In (nth i gn 0%Z) gn) by (apply nth_In; rewrite (tk_ln _ _ _ OK); auto). apply (tk_in _ _ _ OK) in I. set (z := nth i gn 0%Z) in *.
    unfold lit. assert (T : 10^16 = IZR (10^16)) by exact (pow_IZR 10 16).
    assert (P : 0 < 10^16) by (apply pow_lt; lra).
    assert (B : - 10^16 < IZR z < 10^16).
    { rewrite T. rewrite <- opp_IZR. split; apply IZR_lt; lia. }
    split; apply (Rmult_lt_reg_r (10^16)); auto; unfold Rdiv; rewrite Rmult_assoc, Rinv_l by lra; lra.
  Qed.
  Lemma unit_dir ik : In ik (idx n) -> let d := D n gn gw ik in
    d_xi d ^ 2 + d_eta d ^ 2 + d_mu d ^ 2 = 1 /\ 0 < d_w d.
  Proof.
    destruct ik as (i, k). intros I d. apply idx_In in I as (Li & Lk). subst d. unfold D, direction. cbn [fst snd d_xi d_eta d_mu d_w].
    pose proof (lit_in i Li) as B. set (x := lit (nth i gn 0%Z)) in *. fold (phi k). split.
    - pose proof (sin2_cos2 (phi k)) as SC. unfold Rsqr in SC.
      assert (Q : sqrt (1 - x * x) * sqrt (1 - x * x) = 1 - x * x). { apply sqrt_sqrt. assert (x * x < 1); [|lra]. destruct B. assert (0 < (1 - x) * (1 + x)) by (apply Rmult_lt_0_compat; lra). lra. }
      replace ((sqrt (1 - x * x) * cos (phi k)) ^ 2 + (sqrt (1 - x * x) * sin (phi k)) ^ 2 + x ^ 2)
        with (sqrt (1 - x * x) * sqrt (1 - x * x) * (sin (phi k) * sin (phi k) + cos (phi k) * cos (phi k)) + x * x) by ring.
      rewrite SC, Q. ring.
    - assert (W : (0 < nth i gw 0)%Z). { apply (tk_wp _ _ _ OK). apply nth_In. rewrite (tk_lw _ _ _ OK). auto. }
      assert (0 < lit (nth i gw 0%Z)). { unfold lit. apply Rdiv_lt_0_compat; [now apply IZR_lt|apply pow_lt; lra]. }
      apply Rdiv_lt_0_compat; [apply Rmult_lt_0_compat; auto; pose proof PI_RGT_0; lra|]. apply lt_0_INR. pose proof (tk_pos _ _ _ OK). lia.
  Qed.

  (** ---- sums over the polar nodes ---- *)
  Definition q : list dir := map (D n gn gw) (idx n).
  Definition gsum (h : R -> R) : R := fold_right Rplus 0 (map (fun p => lit (snd p) * h (lit (fst p))) (combine gn gw)).
  Lemma sum_app (a b : list R) : fold_right Rplus 0 (a ++ b) = fold_right Rplus 0 a + fold_right Rplus 0 b.
  Proof. induction a; cbn; lra. Qed.
  Lemma sum_const {X} (l : list X) c : fold_right Rplus 0 (map (fun _ => c) l) = INR (length l) * c.
  Proof. induction l as [|x l IH]; cbn [map fold_right length]; [cbn; ring|]. rewrite IH, S_INR. ring. Qed.
  Lemma qsum_mu (h : R -> R) : qsum q (fun _ _ mu => h mu) = 2 * PI * gsum h.
  Proof.
    unfold qsum, q, gsum. rewrite map_map. unfold idx.
    pose proof (tk_ln _ _ _ OK) as LN. pose proof (tk_lw _ _ _ OK) as LW.
    assert (C : combine gn gw = map (fun i => (nth i gn 0%Z, nth i gw 0%Z)) (seq 0 n)).
    { rewrite <- LN. assert (LG : length gn = length gw) by lia. clear -LG. revert gw LG. induction gn as [|x l IH]; intros [|w m] LG; cbn in *; auto; try discriminate.
      f_equal. rewrite <- seq_shift, map_map. apply IH. lia. }
    rewrite C, map_map. cbn [fst snd]. clear C. induction (seq 0 n) as [|i l IH]; cbn [list_prod map fold_right]; [ring|].
    rewrite map_app, sum_app, IH. rewrite map_map. unfold D, direction. cbn [fst snd d_xi d_eta d_mu d_w].
    rewrite sum_const, seq_length. pose proof n0. field. auto.
  Qed.

  Lemma gsum_add h1 h2 : gsum (fun x => h1 x + h2 x) = gsum h1 + gsum h2.
  Proof. unfold gsum. induction (combine gn gw) as [|p l IH]; cbn; [lra|]. rewrite IH. ring. Qed.
  Lemma gsum_scal c h : gsum (fun x => c * h x) = c * gsum h.
  Proof. unfold gsum. induction (combine gn gw) as [|p l IH]; cbn; [lra|]. rewrite IH. ring. Qed.
  Lemma gsum_ext h1 h2 : (forall x, h1 x = h2 x) -> gsum h1 = gsum h2.
  Proof. intros H. unfold gsum. induction (combine gn gw) as [|p l IH]; cbn; auto. now rewrite IH, H. Qed.

  Lemma ten k : 10 ^ k = IZR (10 ^ Z.of_nat k).
  Proof. rewrite <- pow_IZR. reflexivity. Qed.
  Lemma gsum_moment k : gsum (fun x => x ^ k) = IZR (moment gn gw k) / 10 ^ (16 * S k).
  Proof.
    unfold gsum, moment. assert (P : 10 ^ (16 * S k) <> 0) by (apply pow_nonzero; lra).
    induction (combine gn gw) as [|p l IH]; cbn [map fold_right]. { field. auto. }
    rewrite IH, plus_IZR, mult_IZR, <- pow_IZR. unfold lit.
    assert (E : 10 ^ (16 * S k) = 10 ^ 16 * (10 ^ 16) ^ k) by (rewrite pow_mult; reflexivity).
    unfold Rdiv at 2. rewrite Rpow_mult_distr, pow_inv. rewrite E in *. field. repeat split; repeat apply pow_nonzero; lra.
  Qed.
  Definition mono (k : nat) : R := IZR (intNum k) / INR (S k).
  (** Odd moments vanish by symmetry. *)
  Lemma combine_app' (a b c d : list Z) : length a = length c -> combine (a ++ b) (c ++ d) = combine a c ++ combine b d.
  Proof. revert c. induction a as [|x a IH]; intros [|y c] H; cbn in *; try discriminate; auto. f_equal. apply IH. lia. Qed.
  Lemma combine_rev (a b : list Z) : length a = length b -> rev (combine a b) = combine (rev a) (rev b).
  Proof.
    revert b. induction a as [|x a IH]; intros [|y b] H; cbn [combine rev] in *; try discriminate; auto.
    rewrite IH by (cbn in H; lia). rewrite combine_app' by (rewrite !rev_length; cbn in H; lia). reflexivity.
  Qed.
  Lemma sum_rev (l : list R) : fold_right Rplus 0 (rev l) = fold_right Rplus 0 l.
  Proof. induction l as [|x l IH]; cbn [rev fold_right]; auto. rewrite sum_app, IH. cbn. lra. Qed.
  Lemma gsum_opp h : gsum h = gsum (fun x => h (- x)).
  Proof.
    unfold gsum at 1. rewrite <- sum_rev, <- map_rev, combine_rev by (rewrite (tk_ln _ _ _ OK), (tk_lw _ _ _ OK); auto).
    rewrite (tk_sn _ _ _ OK), (tk_sw _ _ _ OK). unfold gsum. generalize gw. clear OK. induction gn as [|x l IH]; intros [|w m]; cbn [map combine fold_right]; auto.
    rewrite IH. cbn [fst snd]. replace (lit (- x)) with (- lit x); [reflexivity|]. unfold lit. rewrite opp_IZR. field.
  Qed.

  (** What an enclosure means. *)
  Let T : R := IZR unit64.
  Definition encl (j : nat) (p : Z * Z) (e : (Z * Z) * (Z * Z)) : Prop :=
    0 <= IZR (fst (fst e)) <= lit (fst p) ^ 2 * T /\ lit (fst p) ^ 2 * T <= IZR (snd (fst e)) /\
    0 <= IZR (fst (snd e)) <= lit (snd p) * lit (fst p) ^ (2 * j) * T /\ lit (snd p) * lit (fst p) ^ (2 * j) * T <= IZR (snd (snd e)).
  Lemma T_pos : 0 < T.
  Proof. apply IZR_lt. reflexivity. Qed.
  Lemma floor_div (a b : Z) : (0 <= a)%Z -> (0 < b)%Z -> 0 <= IZR (a / b) <= IZR a / IZR b /\ IZR a / IZR b <= IZR (a / b + 1).
  Proof.
    intros A B. pose proof (Z.mul_div_le a b B) as L. pose proof (Z.mul_succ_div_gt a b B) as G. pose proof (Z.div_pos a b A B) as P.
    apply IZR_le in L, P. apply IZR_lt in G, B. rewrite mult_IZR in L, G. unfold Z.succ in G.
    split; [split; auto|]; apply (Rmult_le_reg_l (IZR b)); auto; replace (IZR b * (IZR a / IZR b)) with (IZR a) by (field; lra); lra.
  Qed.
  Lemma enc_start p : (0 < snd p)%Z -> encl 0 p (encStart p).
  Proof.
    intros W. unfold encl, encStart. cbn [fst snd].
    assert (E : lit (fst p) ^ 2 * T = IZR (fst p * fst p * unit64) / IZR (10 ^ 32)).
    { unfold lit, T. rewrite !mult_IZR. replace (IZR (10 ^ 32)) with (10 ^ 16 * 10 ^ 16); [field; apply pow_nonzero; lra|]. rewrite (pow_IZR 10 16), <- mult_IZR. f_equal. }
    assert (E' : lit (snd p) * lit (fst p) ^ (2 * 0) * T = IZR (snd p * unit64) / IZR (10 ^ 16)).
    { unfold lit, T. rewrite !mult_IZR. replace (IZR (10 ^ 16)) with (10 ^ 16) by exact (pow_IZR 10 16). cbn [Nat.mul]. rewrite pow_O. field. }
    rewrite E, E'. destruct (floor_div (fst p * fst p * unit64) (10 ^ 32)) as (A & B); [apply Z.mul_nonneg_nonneg; [apply Z.square_nonneg|discriminate]|reflexivity|].
    destruct (floor_div (snd p * unit64) (10 ^ 16)) as (A' & B'); [apply Z.mul_nonneg_nonneg; [lia|discriminate]|reflexivity|]. auto.
  Qed.
  Lemma enc_step j p e : encl j p e -> encl (S j) p (encStep e).
  Proof.
    destruct e as ((y & y') & (a & a')). unfold encl, encStep. cbn [fst snd]. set (X := lit (fst p)). set (W := lit (snd p)).
    intros ((Y0 & Y1) & Y2 & (A0 & A1) & A2). pose proof T_pos as TP.
    rewrite !Z.shiftr_div_pow2 by discriminate. change (2 ^ 64)%Z with unit64.
    assert (E : W * X ^ (2 * S j) * T = (W * X ^ (2 * j) * T) * (X ^ 2 * T) / T).
    { replace (2 * S j)%nat with (2 * j + 2)%nat by lia. rewrite pow_add. field. lra. }
    rewrite E. assert (P0 : (0 <= a)%Z) by now apply le_IZR. assert (Q0 : (0 <= y)%Z) by now apply le_IZR.
    assert (P1 : (0 <= a')%Z) by (apply le_IZR; lra). assert (Q1 : (0 <= y')%Z) by (apply le_IZR; lra).
    destruct (floor_div (a * y) unit64) as ((B0 & B1) & _); [now apply Z.mul_nonneg_nonneg|reflexivity|].
    destruct (floor_div (a' * y') unit64) as (_ & B2); [now apply Z.mul_nonneg_nonneg|reflexivity|]. fold T in B1, B2. rewrite mult_IZR in B1, B2.
    split; [auto|]. split; [auto|]. split; [split; auto|].
    - eapply Rle_trans; [apply B1|]. apply Rmult_le_compat_r; [left; now apply Rinv_0_lt_compat|]. now apply Rmult_le_compat.
    - eapply Rle_trans; [|apply B2]. apply Rmult_le_compat_r; [left; now apply Rinv_0_lt_compat|]. apply Rmult_le_compat; lra.
  Qed.
  Lemma even_close : forall fuel j l, Forall2 (encl j) (combine gn gw) l -> evenOk fuel j l = true ->
    forall i, (j <= i < j + fuel)%nat -> Rabs (gsum (fun x => x ^ (2 * i)) - 2 / INR (S (2 * i))) <= / 10 ^ 14.
  Proof.
    induction fuel as [|f IH]; intros j l F H i Hi; [lia|]. cbn [evenOk] in H. apply andb_true_iff in H as (H1 & H2).
    destruct (Nat.eq_dec i j) as [->|N].
    - clear IH H2. unfold encOk in H1. apply andb_true_iff in H1 as (L & U). apply Z.leb_le, IZR_le in L, U.
      assert (B : IZR (fold_right Z.add 0%Z (map (fun e => fst (snd e)) l)) <= gsum (fun x => x ^ (2 * j)) * T <= IZR (fold_right Z.add 0%Z (map (fun e => snd (snd e)) l))).
      { unfold gsum. clear L U. induction F as [|p e ps es E F IHF]; cbn [map fold_right]; [lra|]. rewrite !plus_IZR. destruct E as (_ & _ & (_ & E1) & E2). lra. }
      rewrite !mult_IZR in L, U. rewrite minus_IZR, mult_IZR in L. rewrite plus_IZR, mult_IZR in U. rewrite INR_IZR_INZ.
      set (K := IZR (Z.of_nat (S (2 * j)))) in *. assert (KP : 0 < K) by (apply IZR_lt; lia). fold T in L, U.
      replace (IZR (10 ^ 14)) with (10 ^ 14) in L, U by exact (pow_IZR 10 14). set (H14 := 10 ^ 14) in *. assert (P14 : 0 < H14) by (apply pow_lt; lra).
      set (g := gsum _) in *. pose proof T_pos as TP.
      assert (KH : 0 < K * H14) by now apply Rmult_lt_0_compat.
      assert (L' : (2 * H14 - K) * T <= g * (K * H14) * T). { eapply Rle_trans; [apply L|]. replace (g * (K * H14) * T) with (g * T * (K * H14)) by ring. apply Rmult_le_compat_r; lra. }
      assert (U' : g * (K * H14) * T <= (2 * H14 + K) * T). { eapply Rle_trans; [|apply U]. replace (g * (K * H14) * T) with (g * T * (K * H14)) by ring. apply Rmult_le_compat_r; lra. }
      apply Rmult_le_reg_r in L', U'; auto.
      apply Rabs_le. split; apply (Rmult_le_reg_r (K * H14)); auto.
      + replace (- / H14 * (K * H14)) with (- K) by (field; lra). replace ((g - 2 / K) * (K * H14)) with (g * (K * H14) - 2 * H14) by (field; lra). lra.
      + replace (/ H14 * (K * H14)) with K by (field; lra). replace ((g - 2 / K) * (K * H14)) with (g * (K * H14) - 2 * H14) by (field; lra). lra.
    - apply (IH (S j) (map encStep l)); auto; [|lia]. clear -F. induction F; constructor; auto. now apply enc_step.
  Qed.
  Lemma moment_close k : (k < 2 * n)%nat -> Rabs (gsum (fun x => x ^ k) - mono k) <= / 10 ^ 14.
  Proof.
    intros H. destruct (Nat.even k) eqn:Ev.
    - apply Nat.even_spec in Ev as E2. destruct E2 as (i & ->). unfold mono, intNum. rewrite Ev. apply (even_close n 0 (map encStart (combine gn gw))); [|apply (tk_m _ _ _ OK)|lia].
      assert (P : forall p, In p (combine gn gw) -> (0 < snd p)%Z) by (intros (x, w) I; apply in_combine_r in I; now apply (tk_wp _ _ _ OK)).
      induction (combine gn gw) as [|p l IH]; constructor; [apply enc_start, P; now left|]. apply IH. intros p' I. apply P. now right.
    - assert (E : gsum (fun x => x ^ k) = 0).
      { assert (O : gsum (fun x => x ^ k) = - gsum (fun x => x ^ k)); [|lra]. rewrite gsum_opp at 1. replace (- gsum (fun x => x ^ k)) with (-1 * gsum (fun x => x ^ k)) by ring. rewrite <- gsum_scal. apply gsum_ext.
        intros x. assert (OD : Nat.odd k = true) by (rewrite <- Nat.negb_even, Ev; auto). apply Nat.odd_spec in OD as (i & ->).
        rewrite !pow_add, !pow_mult. replace ((- x) ^ 2) with (x ^ 2) by ring. ring. }
      rewrite E. unfold mono, intNum. rewrite Ev. unfold Rdiv. rewrite Rmult_0_l, Rminus_0_r, Rabs_R0. left. apply Rinv_0_lt_compat, pow_lt. lra.
  Qed.
End Table.
