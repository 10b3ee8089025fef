From Coq Require Import Reals Lra Permutation.
From Verif Require Import Prelude Bytes MeshModel GeometryModel GaussModel GaussSpec.
Local Open Scope R_scope.

Notation rmat := (q4 (q4 R)).
Ltac cbm := cbn [get4 set4 r0 r1 r2 r3 fst snd Rops aadd asub amul adiv aneg aabs agt aeq azero aone].
Ltac cbm_in H := cbn [get4 set4 r0 r1 r2 r3 fst snd Rops aadd asub amul adiv aneg aabs agt aeq azero aone] in H.
Ltac dmat M := destruct M as [[m00 m01 m02 m03] [m10 m11 m12 m13] [m20 m21 m22 m23] [m30 m31 m32 m33]].

Definition rows (M : rmat) (b : q4 R) : list (q4 R * R) := [(r0 M, r0 b); (r1 M, r1 b); (r2 M, r2 b); (r3 M, r3 b)].
Lemma solves_rows M b x : solves M b x <-> Forall (fun rb => dot4 (fst rb) x = snd rb) (rows M b).
Proof.
  unfold solves, rows. split.
  - intros (H0 & H1 & H2 & H3). repeat constructor; assumption.
  - intros H. inversion_clear H as [|? ? H0 H']. inversion_clear H' as [|? ? H1 H'']. inversion_clear H'' as [|? ? H2 H3']. inversion_clear H3' as [|? ? H3 _]. auto.
Qed.

(** The matrix that a partially factored array stands for. *)
Definition recon (c : nat) (M : rmat) : rmat :=
  match M with Q4 (Q4 m00 m01 m02 m03) (Q4 m10 m11 m12 m13) (Q4 m20 m21 m22 m23) (Q4 m30 m31 m32 m33) =>
  match c with
  | 0%nat => M
  | 1%nat => Q4 (Q4 (/m00) m01 m02 m03) (Q4 (m10*/m00) (m11+m10*m01) m12 m13) (Q4 (m20*/m00) (m21+m20*m01) m22 m23) (Q4 (m30*/m00) (m31+m30*m01) m32 m33)
  | 2%nat => Q4 (Q4 (/m00) m01 m02 m03) (Q4 (m10*/m00) (/m11+m10*m01) (m12+m10*m02) m13)
           (Q4 (m20*/m00) (m21*/m11+m20*m01) (m22+m20*m02+m21*m12) m23) (Q4 (m30*/m00) (m31*/m11+m30*m01) (m32+m30*m02+m31*m12) m33)
  | _ => Q4 (Q4 (/m00) m01 m02 m03) (Q4 (m10*/m00) (/m11+m10*m01) (m12+m10*m02) (m13+m10*m03))
           (Q4 (m20*/m00) (m21*/m11+m20*m01) (/m22+m20*m02+m21*m12) (m23+m20*m03+m21*m13))
           (Q4 (m30*/m00) (m31*/m11+m30*m01) (m32*/m22+m30*m02+m31*m12) (m33+m30*m03+m31*m13+m32*m23))
  end end.

Definition Inv (c : nat) (M0 : rmat) (b0 : q4 R) (S : rmat * q4 R) : Prop :=
  Permutation (rows (recon c (fst S)) (snd S)) (rows M0 b0) /\ forall k, (k < c)%nat -> mget (fst S) k k <> 0.

Lemma rowmax_ok M c : (c < 3)%nat -> let r := rowmaxOf Rops M c in (c <= r < 4)%nat /\
  forall i, (c <= i < 4)%nat -> Rabs (mget M i c) <= Rabs (mget M r c).
Proof.
  intros Hc. destruct c as [|[|[|c]]]; [| | |lia]; unfold rowmaxOf; cbn [seq plus minus fold_left rowmaxStep fst snd Rops aabs agt];
  repeat match goal with |- context [Rgt_dec ?a ?b] => destruct (Rgt_dec a b); cbn [fst snd rowmaxStep Rops aabs agt] end;
  (split; [lia|]); intros i Hi; destruct i as [|[|[|[|i]]]]; try lia; lra.
Qed.

Lemma perm_swap01 {X} (a b c d : X) : Permutation [b;a;c;d] [a;b;c;d]. Proof. apply perm_swap. Qed.
Lemma perm_swap02 {X} (a b c d : X) : Permutation [c;b;a;d] [a;b;c;d].
Proof. apply (Permutation_trans (l' := [b;c;a;d])); [apply perm_swap|]. apply (Permutation_trans (l' := [b;a;c;d])); [apply perm_skip, perm_swap|apply perm_swap]. Qed.
Lemma perm_swap12 {X} (a b c d : X) : Permutation [a;c;b;d] [a;b;c;d]. Proof. apply perm_skip, perm_swap. Qed.
Lemma perm_swap23 {X} (a b c d : X) : Permutation [a;b;d;c] [a;b;c;d]. Proof. apply perm_skip, perm_skip, perm_swap. Qed.
Lemma perm_swap13 {X} (a b c d : X) : Permutation [a;d;c;b] [a;b;c;d].
Proof. apply perm_skip. apply (Permutation_trans (l' := [c;d;b])); [apply perm_swap|]. apply (Permutation_trans (l' := [c;b;d])); [apply perm_skip, perm_swap|apply perm_swap]. Qed.
Lemma perm_swap03 {X} (a b c d : X) : Permutation [d;b;c;a] [a;b;c;d].
Proof.
  apply (Permutation_trans (l' := [b;d;c;a])); [apply perm_swap|]. apply (Permutation_trans (l' := [b;a;c;d])); [|apply perm_swap].
  apply perm_skip. apply (Permutation_trans (l' := [c;d;a])); [apply perm_swap|]. apply (Permutation_trans (l' := [c;a;d])); [apply perm_skip, perm_swap|apply perm_swap].
Qed.

Lemma swap_rows c r M b : (c < 3)%nat -> (c <= r < 4)%nat ->
  let S := swapRows r c (M, b) in Permutation (rows (recon c (fst S)) (snd S)) (rows (recon c M) b) /\
   (forall k, (k < c)%nat -> mget (fst S) k k = mget M k k) /\ (forall i, mget (fst S) i c = mget M (if Nat.eqb i c then r else if Nat.eqb i r then c else i) c \/ (4 <= i)%nat).
Proof.
  intros Hc Hr. dmat M. destruct b as [b0 b1 b2 b3].
  destruct c as [|[|[|c]]]; [| | |lia]; destruct r as [|[|[|[|r]]]]; try lia;
  (split; [unfold rows; cbn; first [apply Permutation_refl|apply perm_swap01|apply perm_swap02|apply perm_swap03|apply perm_swap12|apply perm_swap13|apply perm_swap23]
   |split; [intros k Hk; destruct k as [|[|k]]; try lia; reflexivity|intros i; destruct i as [|[|[|[|i]]]]; [left; reflexivity|left; reflexivity|left; reflexivity|left; reflexivity|right; lia]]]).
Qed.

Lemma factor_recon c M M' : (c < 3)%nat -> factorColumn Rops c M = Some M' -> (forall k, (k < c)%nat -> mget M k k <> 0) ->
  recon (S c) M' = recon c M /\ forall k, (k < S c)%nat -> mget M' k k <> 0.
Proof.
  intros Hc H Hd. unfold factorColumn in H. destruct (aeq Rops (mget M c c) (azero Rops)) eqn:E; [discriminate|].
  assert (Hp : mget M c c <> 0). { cbn [aeq Rops azero] in E. destruct (Req_EM_T (mget M c c) 0); [discriminate|auto]. } clear E.
  apply Some_inj in H. subst M'. dmat M.
  destruct c as [|[|[|c]]]; [| | |lia].
  - cbn in Hp. cbn. split; [repeat f_equal; field; auto|]. intros k Hk. destruct k; [|lia]. cbn. unfold Rdiv. rewrite Rmult_1_l. now apply Rinv_neq_0_compat.
  - cbn in Hp. pose proof (Hd 0%nat ltac:(lia)) as H0. cbn in H0. cbn. split; [repeat f_equal; field; auto|].
    intros k Hk. destruct k as [|[|k]]; [exact H0| |lia]. cbn. unfold Rdiv. rewrite Rmult_1_l. now apply Rinv_neq_0_compat.
  - cbn in Hp. pose proof (Hd 0%nat ltac:(lia)) as H0. pose proof (Hd 1%nat ltac:(lia)) as H1. cbn in H0, H1. cbn. split; [repeat f_equal; field; auto|].
    intros k Hk. destruct k as [|[|[|k]]]; [exact H0|exact H1| |lia]. cbn. unfold Rdiv. rewrite Rmult_1_l. now apply Rinv_neq_0_compat.
Qed.

Lemma elim_inv c M0 b0 S S' : (c < 3)%nat -> Inv c M0 b0 S -> elimColumn Rops c S = Some S' -> Inv (Datatypes.S c) M0 b0 S'.
Proof.
  intros Hc (P & D) H. destruct S as [M b]. unfold elimColumn in H. cbn [fst] in H. set (r := rowmaxOf Rops M c) in *.
  destruct (rowmax_ok M c Hc) as (Hr & _). fold r in Hr.
  destruct (swap_rows c r M b Hc Hr) as (P1 & D1 & _). destruct (swapRows r c (M, b)) as [M1 b1]. cbn [fst snd] in *.
  destruct (factorColumn Rops c M1) as [M2|] eqn:E; [|discriminate]. cbn [obind] in H. apply Some_inj in H. subst S'.
  destruct (factor_recon c M1 M2 Hc E) as (R & D2). { intros k Hk. rewrite D1; auto. }
  split; cbn [fst snd]; auto. rewrite R. now rewrite P1.
Qed.

(** A column of zeros from the diagonal down means that the original matrix is singular. *)
Lemma singular_at c M0 b0 M b : (c < 4)%nat -> Inv c M0 b0 (M, b) -> (forall i, (c <= i < 4)%nat -> mget M i c = 0) -> ~ nonsingular M0.
Proof.
  intros Hc (P & D) Z NS. cbn [fst snd] in *.
  assert (K : exists x, x <> zero4 /\ Forall (fun r => dot4 r x = 0) (q4l (recon c M))).
  { clear P NS. dmat M. destruct c as [|[|[|[|c]]]]; [| | | |lia].
    - pose proof (Z 0%nat ltac:(lia)) as Z0; pose proof (Z 1%nat ltac:(lia)) as Z1; pose proof (Z 2%nat ltac:(lia)) as Z2; pose proof (Z 3%nat ltac:(lia)) as Z3.
      cbn in Z0, Z1, Z2, Z3. subst. exists (Q4 1 0 0 0). split; [intros E; injection E; lra|]. unfold dot4; cbn. repeat constructor; cbn; ring.
    - pose proof (Z 1%nat ltac:(lia)) as Z1; pose proof (Z 2%nat ltac:(lia)) as Z2; pose proof (Z 3%nat ltac:(lia)) as Z3. pose proof (D 0%nat ltac:(lia)) as D0.
      cbn in Z1, Z2, Z3, D0. subst. exists (Q4 (- m01 * m00) 1 0 0). split; [intros E; injection E; lra|]. unfold dot4; cbn. repeat constructor; cbn; field; auto.
    - pose proof (Z 2%nat ltac:(lia)) as Z2; pose proof (Z 3%nat ltac:(lia)) as Z3. pose proof (D 0%nat ltac:(lia)) as D0. pose proof (D 1%nat ltac:(lia)) as D1.
      cbn in Z2, Z3, D0, D1. subst. exists (Q4 ((- m01 * (- m12 * m11) - m02) * m00) (- m12 * m11) 1 0). split; [intros E; injection E; lra|].
      unfold dot4; cbn. repeat constructor; cbn; field; auto.
    - pose proof (Z 3%nat ltac:(lia)) as Z3. pose proof (D 0%nat ltac:(lia)) as D0. pose proof (D 1%nat ltac:(lia)) as D1. pose proof (D 2%nat ltac:(lia)) as D2.
      cbn in Z3, D0, D1, D2. subst.
      set (x2 := - m23 * m22). set (x1 := (- m12 * x2 - m13) * m11).
      exists (Q4 ((- m01 * x1 - m02 * x2 - m03) * m00) x1 x2 1). split; [intros E; injection E; lra|].
      unfold dot4, x1, x2; cbn. repeat constructor; cbn; field; auto. }
  destruct K as (x & Hx & F). apply Hx, NS. apply solves_rows.
  assert (Q : Permutation (q4l (recon c M)) (q4l M0)).
  { apply (Permutation_map fst) in P. exact P. }
  rewrite Q in F. unfold rows, q4l, zero4 in *. cbn [r0 r1 r2 r3].
  inversion_clear F as [|? ? F0 F']. inversion_clear F' as [|? ? F1 F'']. inversion_clear F'' as [|? ? F2 F3']. inversion_clear F3' as [|? ? F3 _].
  repeat constructor; assumption.
Qed.

Lemma elim_total c M0 b0 S : (c < 3)%nat -> Inv c M0 b0 S -> nonsingular M0 -> exists S', elimColumn Rops c S = Some S'.
Proof.
  intros Hc I NS. destruct S as [M b]. unfold elimColumn. cbn [fst]. set (r := rowmaxOf Rops M c).
  destruct (rowmax_ok M c Hc) as (Hr & Hmax). fold r in Hr, Hmax.
  destruct (swap_rows c r M b Hc Hr) as (P1 & D1 & G). destruct (swapRows r c (M, b)) as [M1 b1]. cbn [fst snd] in *.
  unfold factorColumn. destruct (aeq Rops (mget M1 c c) (azero Rops)) eqn:E; [|eexists; reflexivity].
  exfalso. cbn [aeq Rops azero] in E. destruct (Req_EM_T (mget M1 c c) 0) as [Z|]; [|discriminate]. clear E.
  assert (Zr : mget M r c = 0). { destruct (G c) as [Gc|]; [|lia]. rewrite Nat.eqb_refl in Gc. congruence. }
  refine (singular_at c M0 b0 M b ltac:(lia) I _ NS). intros i Hi. specialize (Hmax i Hi). rewrite Zr, Rabs_R0 in Hmax.
  destruct (Req_dec (mget M i c) 0) as [|Hn]; auto. apply Rabs_pos_lt in Hn. lra.
Qed.

Lemma back_ok M b : mget M 0 0 <> 0 -> mget M 1 1 <> 0 -> mget M 2 2 <> 0 -> mget M 3 3 <> 0 ->
  let M' := mset M 3 3 (1 / mget M 3 3) in solves (recon 3 M) b (backSub Rops M' (forwardSub Rops M' b)).
Proof.
  dmat M. destruct b as [b0 b1 b2 b3]. unfold mget, mset. cbm. intros H0 H1 H2 H3.
  cbv [backSub forwardSub seq rev app plus minus Nat.add Nat.sub fold_left mget mset get4 set4 r0 r1 r2 r3 Rops aadd asub amul adiv aone].
  set (y1 := b1 - m10 * b0). set (y2 := b2 - m20 * b0 - m21 * y1). set (y3 := b3 - m30 * b0 - m31 * y1 - m32 * y2).
  set (x3 := y3 * (1 / m33)). set (x2 := (y2 - m23 * x3) * m22). set (x1 := (y1 - m13 * x3 - m12 * x2) * m11).
  set (x0 := (b0 - m03 * x3 - m02 * x2 - m01 * x1) * m00).
  assert (E3 : m33 * x3 = y3) by (unfold x3; field; auto).
  assert (E2 : / m22 * x2 = y2 - m23 * x3) by (unfold x2; field; auto).
  assert (E1 : / m11 * x1 = y1 - m13 * x3 - m12 * x2) by (unfold x1; field; auto).
  assert (E0 : / m00 * x0 = b0 - m03 * x3 - m02 * x2 - m01 * x1) by (unfold x0; field; auto).
  clearbody x0 x1 x2 x3. unfold recon, solves, dot4. cbm.
  split; [rewrite E0; ring|].
  split; [replace (m10 * / m00 * x0) with (m10 * (/ m00 * x0)) by ring; rewrite E0, Rmult_plus_distr_r, E1; unfold y1; ring|].
  split.
  - replace (m20 * / m00 * x0) with (m20 * (/ m00 * x0)) by ring. rewrite E0.
    replace ((m21 * / m11 + m20 * m01) * x1) with (m21 * (/ m11 * x1) + m20 * m01 * x1) by ring. rewrite E1.
    replace ((/ m22 + m20 * m02 + m21 * m12) * x2) with (/ m22 * x2 + (m20 * m02 + m21 * m12) * x2) by ring. rewrite E2. unfold y2, y1. ring.
  - replace (m30 * / m00 * x0) with (m30 * (/ m00 * x0)) by ring. rewrite E0.
    replace ((m31 * / m11 + m30 * m01) * x1) with (m31 * (/ m11 * x1) + m30 * m01 * x1) by ring. rewrite E1.
    replace ((m32 * / m22 + m30 * m02 + m31 * m12) * x2) with (m32 * (/ m22 * x2) + (m30 * m02 + m31 * m12) * x2) by ring. rewrite E2.
    replace ((m33 + m30 * m03 + m31 * m13 + m32 * m23) * x3) with (m33 * x3 + (m30 * m03 + m31 * m13 + m32 * m23) * x3) by ring. rewrite E3. unfold y3, y2, y1. ring.
Qed.

Lemma inv_init M b : Inv 0 M b (M, b).
Proof. split; [unfold recon; dmat M; apply Permutation_refl|intros; lia]. Qed.

Lemma original_sound M b x : gaussOriginal Rops M b = Some x -> solves M b x.
Proof.
  unfold gaussOriginal. intros H.
  destruct (elimColumn Rops 0 (M, b)) as [S1|] eqn:E0; [|discriminate]. cbn [obind] in H.
  destruct (elimColumn Rops 1 S1) as [S2|] eqn:E1; [|discriminate]. cbn [obind] in H.
  destruct (elimColumn Rops 2 S2) as [[M3 b3]|] eqn:E2; [|discriminate]. cbn [obind] in H.
  pose proof (elim_inv 0 M b _ _ ltac:(lia) (inv_init M b) E0) as I1.
  pose proof (elim_inv 1 M b _ _ ltac:(lia) I1 E1) as I2.
  pose proof (elim_inv 2 M b _ _ ltac:(lia) I2 E2) as (P & D). cbn [fst snd] in *.
  destruct (aeq Rops (mget M3 3 3) (azero Rops)) eqn:Ez; [discriminate|]. cbn [aeq Rops azero] in Ez. destruct (Req_EM_T (mget M3 3 3) 0) as [|Z]; [discriminate|].
  apply Some_inj in H. subst x. apply solves_rows. rewrite <- P. apply solves_rows. apply back_ok; auto; apply D; lia.
Qed.
Lemma original_total M b : nonsingular M -> exists x, gaussOriginal Rops M b = Some x.
Proof.
  intros NS. unfold gaussOriginal. 
  destruct (elim_total 0 M b _ ltac:(lia) (inv_init M b) NS) as (S1 & E0). pose proof (elim_inv 0 M b _ _ ltac:(lia) (inv_init M b) E0) as I1.
  destruct (elim_total 1 M b _ ltac:(lia) I1 NS) as (S2 & E1). pose proof (elim_inv 1 M b _ _ ltac:(lia) I1 E1) as I2.
  destruct (elim_total 2 M b _ ltac:(lia) I2 NS) as ([M3 b3] & E2). pose proof (elim_inv 2 M b _ _ ltac:(lia) I2 E2) as I3.
  rewrite E0. cbn [obind]. rewrite E1. cbn [obind]. rewrite E2. cbn [obind].
  destruct (aeq Rops (mget M3 3 3) (azero Rops)) eqn:Ez; [|eexists; reflexivity]. exfalso.
  cbn [aeq Rops azero] in Ez. destruct (Req_EM_T (mget M3 3 3) 0) as [Z|]; [|discriminate].
  refine (singular_at 3 M b M3 b3 ltac:(lia) I3 _ NS). intros i Hi. assert (i = 3)%nat by lia. now subst.
Qed.
(** conversely, on a singular matrix the assertion fails *)
Lemma dot4_sub a x y : dot4 a (Q4 (r0 x - r0 y) (r1 x - r1 y) (r2 x - r2 y) (r3 x - r3 y)) = dot4 a x - dot4 a y.
Proof. unfold dot4. cbm. ring. Qed.
Lemma solves_unique M b x y : nonsingular M -> solves M b x -> solves M b y -> x = y.
Proof.
  intros NS (X0 & X1 & X2 & X3) (Y0 & Y1 & Y2 & Y3).
  assert (Z : Q4 (r0 x - r0 y) (r1 x - r1 y) (r2 x - r2 y) (r3 x - r3 y) = zero4).
  { apply NS. unfold solves. rewrite !dot4_sub, X0, X1, X2, X3, Y0, Y1, Y2, Y3. unfold zero4; cbm. repeat split; ring. }
  destruct x as [x0 x1 x2 x3], y as [y0 y1 y2 y3]. unfold zero4 in Z. cbm_in Z. injection Z as Z0 Z1 Z2 Z3. f_equal; lra.
Qed.

(** ** Pivot-free elimination *)
Definition phase0 (S : rmat * q4 R) := npCol03 Rops (npCol02 Rops (npCol01 Rops (npRow0 Rops S))).
Definition phase1 (S : rmat * q4 R) := npCol13 Rops (npCol12 Rops (npRow1 Rops S)).
Definition phase2 (S : rmat * q4 R) := npCol23 Rops (npRow2 Rops S).
Ltac npc := cbv [phase0 phase1 phase2 npRow0 npRow1 npRow2 npCol01 npCol02 npCol03 npCol12 npCol13 npCol23 mget mset get4 set4 r0 r1 r2 r3 Rops aadd asub amul adiv aone azero].
Lemma np_phases S : npForward Rops S = phase2 (phase1 (phase0 S)). Proof. reflexivity. Qed.

Lemma phase0_ok m00 m01 m02 m03 m10 m11 m12 m13 m20 m21 m22 m23 m30 m31 m32 m33 b0 b1 b2 b3 : m00 <> 0 ->
  let M := Q4 (Q4 m00 m01 m02 m03) (Q4 m10 m11 m12 m13) (Q4 m20 m21 m22 m23) (Q4 m30 m31 m32 m33) in
  exists u1 u2 u3 a11 a12 a13 a21 a22 a23 a31 a32 a33 c0 c1 c2 c3,
    phase0 (M, Q4 b0 b1 b2 b3) = (Q4 (Q4 1 u1 u2 u3) (Q4 0 a11 a12 a13) (Q4 0 a21 a22 a23) (Q4 0 a31 a32 a33), Q4 c0 c1 c2 c3) /\
    m00 * a11 = minor2 M /\ m00 * (a11 * a22 - a12 * a21) = minor3 M /\ m00 * det3 a11 a12 a13 a21 a22 a23 a31 a32 a33 = det4 M /\
    (forall x, solves (Q4 (Q4 1 u1 u2 u3) (Q4 0 a11 a12 a13) (Q4 0 a21 a22 a23) (Q4 0 a31 a32 a33)) (Q4 c0 c1 c2 c3) x -> solves M (Q4 b0 b1 b2 b3) x).
Proof.
  intros Hp M. do 16 eexists. split; [unfold M; npc; reflexivity|]. unfold M, minor2, minor3, det4, det3. cbm.
  split; [field; auto|]. split; [field; auto|]. split; [field; auto|].
  intros [x0 x1 x2 x3]. unfold solves, dot4. cbm. intros (H0 & H1 & H2 & H3).
  assert (E : m00 * x0 + m01 * x1 + m02 * x2 + m03 * x3 = b0).
  { transitivity (m00 * (1 * x0 + m01 * (1 / m00) * x1 + m02 * (1 / m00) * x2 + m03 * (1 / m00) * x3)); [field; auto|]. rewrite H0. field; auto. }
  split; auto. split; [|split].
  - transitivity (m10 * (1 * x0 + m01 * (1 / m00) * x1 + m02 * (1 / m00) * x2 + m03 * (1 / m00) * x3) + (b1 - b0 * (1 / m00) * m10)); [|rewrite H0; ring]. rewrite <- H1. ring.
  - transitivity (m20 * (1 * x0 + m01 * (1 / m00) * x1 + m02 * (1 / m00) * x2 + m03 * (1 / m00) * x3) + (b2 - b0 * (1 / m00) * m20)); [|rewrite H0; ring]. rewrite <- H2. ring.
  - transitivity (m30 * (1 * x0 + m01 * (1 / m00) * x1 + m02 * (1 / m00) * x2 + m03 * (1 / m00) * x3) + (b3 - b0 * (1 / m00) * m30)); [|rewrite H0; ring]. rewrite <- H3. ring.
Qed.
Lemma phase1_ok u1 u2 u3 m11 m12 m13 m21 m22 m23 m31 m32 m33 b0 b1 b2 b3 : m11 <> 0 ->
  exists v2 v3 a22 a23 a32 a33 c1 c2 c3,
    phase1 (Q4 (Q4 1 u1 u2 u3) (Q4 0 m11 m12 m13) (Q4 0 m21 m22 m23) (Q4 0 m31 m32 m33), Q4 b0 b1 b2 b3)
     = (Q4 (Q4 1 u1 u2 u3) (Q4 0 1 v2 v3) (Q4 0 0 a22 a23) (Q4 0 0 a32 a33), Q4 b0 c1 c2 c3) /\
    m11 * a22 = m11 * m22 - m12 * m21 /\ m11 * (a22 * a33 - a23 * a32) = det3 m11 m12 m13 m21 m22 m23 m31 m32 m33 /\
    (forall x, solves (Q4 (Q4 1 u1 u2 u3) (Q4 0 1 v2 v3) (Q4 0 0 a22 a23) (Q4 0 0 a32 a33)) (Q4 b0 c1 c2 c3) x ->
       solves (Q4 (Q4 1 u1 u2 u3) (Q4 0 m11 m12 m13) (Q4 0 m21 m22 m23) (Q4 0 m31 m32 m33)) (Q4 b0 b1 b2 b3) x).
Proof.
  intros Hp. do 9 eexists. split; [npc; reflexivity|]. unfold det3.
  split; [field; auto|]. split; [field; auto|].
  intros [x0 x1 x2 x3]. unfold solves, dot4. cbm. intros (H0 & H1 & H2 & H3). split; auto.
  split; [|split].
  - transitivity (m11 * (0 * x0 + 1 * x1 + m12 * (1 / m11) * x2 + m13 * (1 / m11) * x3)); [field; auto|]. rewrite H1. field; auto.
  - transitivity (m21 * (0 * x0 + 1 * x1 + m12 * (1 / m11) * x2 + m13 * (1 / m11) * x3) + (b2 - b1 * (1 / m11) * m21)); [|rewrite H1; ring]. rewrite <- H2. ring.
  - transitivity (m31 * (0 * x0 + 1 * x1 + m12 * (1 / m11) * x2 + m13 * (1 / m11) * x3) + (b3 - b1 * (1 / m11) * m31)); [|rewrite H1; ring]. rewrite <- H3. ring.
Qed.
Lemma phase2_ok u1 u2 u3 v2 v3 m22 m23 m32 m33 b0 b1 b2 b3 : m22 <> 0 ->
  exists w3 a33 c2 c3,
    phase2 (Q4 (Q4 1 u1 u2 u3) (Q4 0 1 v2 v3) (Q4 0 0 m22 m23) (Q4 0 0 m32 m33), Q4 b0 b1 b2 b3)
     = (Q4 (Q4 1 u1 u2 u3) (Q4 0 1 v2 v3) (Q4 0 0 1 w3) (Q4 0 0 0 a33), Q4 b0 b1 c2 c3) /\
    m22 * a33 = m22 * m33 - m23 * m32 /\
    (forall x, solves (Q4 (Q4 1 u1 u2 u3) (Q4 0 1 v2 v3) (Q4 0 0 1 w3) (Q4 0 0 0 a33)) (Q4 b0 b1 c2 c3) x ->
       solves (Q4 (Q4 1 u1 u2 u3) (Q4 0 1 v2 v3) (Q4 0 0 m22 m23) (Q4 0 0 m32 m33)) (Q4 b0 b1 b2 b3) x).
Proof.
  intros Hp. do 4 eexists. split; [npc; reflexivity|].
  split; [field; auto|].
  intros [x0 x1 x2 x3]. unfold solves, dot4. cbm. intros (H0 & H1 & H2 & H3). split; auto. split; auto. split.
  - transitivity (m22 * (0 * x0 + 0 * x1 + 1 * x2 + m23 * (1 / m22) * x3)); [field; auto|]. rewrite H2. field; auto.
  - transitivity (m32 * (0 * x0 + 0 * x1 + 1 * x2 + m23 * (1 / m22) * x3) + (b3 - b2 * (1 / m22) * m32)); [|rewrite H2; ring]. rewrite <- H3. ring.
Qed.
Lemma npBack_ok u1 u2 u3 v2 v3 w3 a33 b0 b1 b2 b3 : a33 <> 0 ->
  let M := Q4 (Q4 1 u1 u2 u3) (Q4 0 1 v2 v3) (Q4 0 0 1 w3) (Q4 0 0 0 a33) in let b := Q4 b0 b1 b2 b3 in solves M b (npBack Rops (M, b)).
Proof. intros H. cbn. unfold solves, dot4. cbm. split; [ring|split; [ring|split; [ring|field; auto]]]. Qed.

Lemma nopivot_ok M b : minor1 M <> 0 -> minor2 M <> 0 -> minor3 M <> 0 -> det4 M <> 0 -> solves M b (gaussNoPivot Rops M b).
Proof.
  intros H1 H2 H3 H4. unfold gaussNoPivot. rewrite np_phases. destruct b as [b0 b1 b2 b3]. dmat M. unfold minor1 in H1. cbm_in H1.
  destruct (phase0_ok m00 m01 m02 m03 m10 m11 m12 m13 m20 m21 m22 m23 m30 m31 m32 m33 b0 b1 b2 b3 H1)
    as (u1 & u2 & u3 & a11 & a12 & a13 & a21 & a22 & a23 & a31 & a32 & a33 & c0 & c1 & c2 & c3 & -> & E2 & E3 & E4 & S0). apply S0. clear S0.
  assert (P1 : a11 <> 0) by (intros Z; apply H2; rewrite <- E2, Z; ring).
  destruct (phase1_ok u1 u2 u3 a11 a12 a13 a21 a22 a23 a31 a32 a33 c0 c1 c2 c3 P1) as (v2 & v3 & e22 & e23 & e32 & e33 & d1 & d2 & d3 & -> & F3 & F4 & S1).
  apply S1. clear S1.
  assert (P2 : e22 <> 0) by (intros Z; apply H3; rewrite <- E3, <- F3, Z; ring).
  destruct (phase2_ok u1 u2 u3 v2 v3 e22 e23 e32 e33 c0 d1 d2 d3 P2) as (w3 & g33 & f2 & f3 & -> & G4 & S2). apply S2. clear S2.
  apply npBack_ok. intros Z. apply H4. rewrite <- E4, <- F4, <- G4, Z. ring.
Qed.

(** ** Cramer's rule *)
Lemma apply_inv_ok M v b : (forall i k, (i < 4)%nat -> (k < 4)%nat -> 
   mget M i 0 * v k + mget M i 1 * v (4 + k)%nat + mget M i 2 * v (8 + k)%nat + mget M i 3 * v (12 + k)%nat = if Nat.eqb i k then 1 else 0) ->
  solves M b (applyInv Rops v b).
Proof.
  intros H. assert (K : forall i, (i < 4)%nat -> dot4 (get4 M i) (applyInv Rops v b) = get4 b i).
  { intros i Hi. transitivity ((if Nat.eqb i 0 then 1 else 0) * r0 b + (if Nat.eqb i 1 then 1 else 0) * r1 b + (if Nat.eqb i 2 then 1 else 0) * r2 b + (if Nat.eqb i 3 then 1 else 0) * r3 b).
    - rewrite <- !(H i) by lia. unfold dot4, applyInv, mget. cbn [plus]. cbm. cbn [plus]. ring.
    - destruct i as [|[|[|[|i]]]]; [| | | |lia]; cbn; ring. }
  split; [exact (K 0%nat ltac:(lia))|split; [exact (K 1%nat ltac:(lia))|split; [exact (K 2%nat ltac:(lia))|exact (K 3%nat ltac:(lia))]]].
Qed.
Lemma glu_ok M b : det4 M <> 0 -> solves M b (gaussGlu Rops M b).
Proof.
  intros H. unfold gaussGlu. apply apply_inv_ok. intros i k Hi Hk.
  match goal with |- context [adiv Rops (aone Rops) ?d] => assert (E : d = det4 M) by (dmat M; cbn; unfold det3; ring); rewrite E; clear E end.
  cbn [adiv aone Rops amul]. set (D := det4 M) in *.
  match goal with |- ?l = _ => match l with ?a * (?p * _) + ?b' * (?q * _) + ?c * (?r * _) + ?d * (?s * _) =>
    replace l with ((a * p + b' * q + c * r + d * s) / D) by (field; auto);
    replace (a * p + b' * q + c * r + d * s) with (D * (if Nat.eqb i k then 1 else 0)) end end; [field; auto|].
  unfold D. clear D H. dmat M. destruct i as [|[|[|[|i]]]]; [| | | |lia]; destruct k as [|[|[|[|k]]]]; try lia; cbn; unfold det3; ring.
Qed.
Lemma intel_ok M b : det4 M <> 0 -> solves M b (gaussIntel Rops M b).
Proof.
  intros H. unfold gaussIntel. apply apply_inv_ok. intros i k Hi Hk.
  match goal with |- context [adiv Rops (aone Rops) ?d] => assert (E : d = det4 M) by (dmat M; cbn; unfold det3; ring); rewrite E; clear E end.
  cbn [adiv aone Rops amul]. set (D := det4 M) in *.
  match goal with |- ?l = _ => match l with ?a * (?p * _) + ?b' * (?q * _) + ?c * (?r * _) + ?d * (?s * _) =>
    replace l with ((a * p + b' * q + c * r + d * s) / D) by (field; auto);
    replace (a * p + b' * q + c * r + d * s) with (D * (if Nat.eqb i k then 1 else 0)) end end; [field; auto|].
  unfold D. clear D H. dmat M. destruct i as [|[|[|[|i]]]]; [| | | |lia]; destruct k as [|[|[|[|k]]]]; try lia; cbn; unfold det3; ring.
Qed.
(** A matrix with a nonzero determinant has a trivial kernel. *)
Lemma det_nonsingular M : det4 M <> 0 -> nonsingular M.
Proof.
  intros H [x0 x1 x2 x3] (K0 & K1 & K2 & K3). revert H K0 K1 K2 K3. dmat M. unfold dot4, zero4. cbn [r0 r1 r2 r3].
  set (D := det4 _). intros H K0 K1 K2 K3.
  set (m := fun k => mget (Q4 (Q4 m00 m01 m02 m03) (Q4 m10 m11 m12 m13) (Q4 m20 m21 m22 m23) (Q4 m30 m31 m32 m33)) (Nat.div k 4) (Nat.modulo k 4)).
  assert (G : forall j xj, D * xj = gluInv Rops m (4 * j) * (m00 * x0 + m01 * x1 + m02 * x2 + m03 * x3) + gluInv Rops m (4 * j + 1) * (m10 * x0 + m11 * x1 + m12 * x2 + m13 * x3)
     + gluInv Rops m (4 * j + 2) * (m20 * x0 + m21 * x1 + m22 * x2 + m23 * x3) + gluInv Rops m (4 * j + 3) * (m30 * x0 + m31 * x1 + m32 * x2 + m33 * x3) -> xj = 0).
  { intros j xj E. rewrite K0, K1, K2, K3 in E. assert (D * xj = 0) by (rewrite E; ring). apply Rmult_integral in H0. tauto. }
  f_equal; [apply (G 0%nat)|apply (G 1%nat)|apply (G 2%nat)|apply (G 3%nat)]; unfold D, m; cbn; unfold det3; ring.
Qed.
