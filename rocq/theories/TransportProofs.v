From Coq Require Import Reals Lra Permutation.
From Verif Require Import Prelude Bytes MeshModel RefineSpec GeometryModel GeometrySpec GeometryProofs GaussModel GaussSpec GaussProofs TransportModel TransportSpec.
Local Open Scope R_scope.

Definition pp (x : R) : R := if Rgt_dec x 0 then x else 0.
Definition nn (x : R) : R := if Rgt_dec 0 x then x else 0.
Lemma pp_nonneg x : 0 <= pp x. Proof. unfold pp. destruct (Rgt_dec x 0); lra. Qed.
Lemma nn_nonpos x : nn x <= 0. Proof. unfold nn. destruct (Rgt_dec 0 x); lra. Qed.
Lemma pp_nn x : x = pp x + nn x. Proof. unfold pp, nn. destruct (Rgt_dec x 0), (Rgt_dec 0 x); lra. Qed.

Ltac tr := cbv [outgoing0 outgoing1 outgoing2 outgoing3 incoming0 incoming1 incoming2 incoming3 mget mset get4 set4 r0 r1 r2 r3 Rops aadd asub amul adiv aone azero agt alit pp nn].
Ltac q44 := repeat match goal with |- Q4 _ _ _ _ = Q4 _ _ _ _ => f_equal end.

Lemma outgoing0_eq a m00 m01 m02 m03 m10 m11 m12 m13 m20 m21 m22 m23 m30 m31 m32 m33 : let p := pp (r0 a) in
  outgoing0 Rops a (Q4 (Q4 m00 m01 m02 m03) (Q4 m10 m11 m12 m13) (Q4 m20 m21 m22 m23) (Q4 m30 m31 m32 m33)) =
  Q4 (Q4 m00 m01 m02 m03) (Q4 m10 (m11+2*p/12) (m12+p/12) (m13+p/12)) (Q4 m20 (m21+p/12) (m22+2*p/12) (m23+p/12)) (Q4 m30 (m31+p/12) (m32+p/12) (m33+2*p/12)).
Proof. destruct a as [a0 a1 a2 a3]. tr. destruct (Rgt_dec a0 0); q44; field. Qed.
Lemma outgoing1_eq a m00 m01 m02 m03 m10 m11 m12 m13 m20 m21 m22 m23 m30 m31 m32 m33 : let p := pp (r1 a) in
  outgoing1 Rops a (Q4 (Q4 m00 m01 m02 m03) (Q4 m10 m11 m12 m13) (Q4 m20 m21 m22 m23) (Q4 m30 m31 m32 m33)) =
  Q4 (Q4 (m00+2*p/12) m01 (m02+p/12) (m03+p/12)) (Q4 m10 m11 m12 m13) (Q4 (m20+p/12) m21 (m22+2*p/12) (m23+p/12)) (Q4 (m30+p/12) m31 (m32+p/12) (m33+2*p/12)).
Proof. destruct a as [a0 a1 a2 a3]. tr. destruct (Rgt_dec a1 0); q44; field. Qed.
Lemma outgoing2_eq a m00 m01 m02 m03 m10 m11 m12 m13 m20 m21 m22 m23 m30 m31 m32 m33 : let p := pp (r2 a) in
  outgoing2 Rops a (Q4 (Q4 m00 m01 m02 m03) (Q4 m10 m11 m12 m13) (Q4 m20 m21 m22 m23) (Q4 m30 m31 m32 m33)) =
  Q4 (Q4 (m00+2*p/12) (m01+p/12) m02 (m03+p/12)) (Q4 (m10+p/12) (m11+2*p/12) m12 (m13+p/12)) (Q4 m20 m21 m22 m23) (Q4 (m30+p/12) (m31+p/12) m32 (m33+2*p/12)).
Proof. destruct a as [a0 a1 a2 a3]. tr. destruct (Rgt_dec a2 0); q44; field. Qed.
Lemma outgoing3_eq a m00 m01 m02 m03 m10 m11 m12 m13 m20 m21 m22 m23 m30 m31 m32 m33 : let p := pp (r3 a) in
  outgoing3 Rops a (Q4 (Q4 m00 m01 m02 m03) (Q4 m10 m11 m12 m13) (Q4 m20 m21 m22 m23) (Q4 m30 m31 m32 m33)) =
  Q4 (Q4 (m00+2*p/12) (m01+p/12) (m02+p/12) m03) (Q4 (m10+p/12) (m11+2*p/12) (m12+p/12) m13) (Q4 (m20+p/12) (m21+p/12) (m22+2*p/12) m23) (Q4 m30 m31 m32 m33).
Proof. destruct a as [a0 a1 a2 a3]. tr. destruct (Rgt_dec a3 0); q44; field. Qed.

(** The assembled matrix; [s] is sigma V / 20. *)
Definition dgMatrix (s : R) (a p : q4 R) : q4 (q4 R) :=
  match a, p with Q4 a0 a1 a2 a3, Q4 p0 p1 p2 p3 =>
  Q4 (Q4 (a0/12+2*s+2*(p1+p2+p3)/12) (a0/12+s+(p2+p3)/12) (a0/12+s+(p1+p3)/12) (a0/12+s+(p1+p2)/12))
     (Q4 (a1/12+s+(p2+p3)/12) (a1/12+2*s+2*(p0+p2+p3)/12) (a1/12+s+(p0+p3)/12) (a1/12+s+(p0+p2)/12))
     (Q4 (a2/12+s+(p1+p3)/12) (a2/12+s+(p0+p3)/12) (a2/12+2*s+2*(p0+p1+p3)/12) (a2/12+s+(p0+p1)/12))
     (Q4 (a3/12+s+(p1+p2)/12) (a3/12+s+(p0+p2)/12) (a3/12+s+(p0+p1)/12) (a3/12+2*s+2*(p0+p1+p2)/12)) end.
Definition map4 (h : R -> R) (a : q4 R) : q4 R := Q4 (h (r0 a)) (h (r1 a)) (h (r2 a)) (h (r3 a)).
Lemma matrix_eq V a sg : cellMatrix Rops V a sg = dgMatrix (sg * V / 20) a (map4 pp a).
Proof.
  unfold cellMatrix, calcOutgoingFlux.
  match goal with |- context [calcVolumeIntegrals ?A ?v ?x ?s ?m] => 
    assert (E : calcVolumeIntegrals A v x s m = dgMatrix (sg * V / 20) a zero4) end.
  { destruct a as [a0 a1 a2 a3]. cbv [calcVolumeIntegrals mset mget get4 set4 r0 r1 r2 r3 Rops aadd asub amul adiv aone azero agt alit dgMatrix zero4]. q44; field. }
  rewrite E. clear E. destruct a as [a0 a1 a2 a3]. unfold dgMatrix, zero4, map4. rewrite outgoing0_eq, outgoing1_eq, outgoing2_eq, outgoing3_eq. cbn [r0 r1 r2 r3].
  set (p0 := pp a0). set (p1 := pp a1). set (p2 := pp a2). set (p3 := pp a3). q44; field.
Qed.

Lemma incoming0_eq c2f a lp c : let n := nn (r0 a) in let w j := lp (c2f 0%nat j) 0%nat in
  incoming0 Rops c2f a lp c = Q4 (r0 c) (r1 c - n/12*(2*w 1%nat+w 2%nat+w 3%nat)) (r2 c - n/12*(w 1%nat+2*w 2%nat+w 3%nat)) (r3 c - n/12*(w 1%nat+w 2%nat+2*w 3%nat)).
Proof. destruct a as [a0 a1 a2 a3], c as [c0 c1 c2 c3]. tr. destruct (Rgt_dec 0 a0); q44; field. Qed.
Lemma incoming1_eq c2f a lp c : let n := nn (r1 a) in let w j := lp (c2f 1%nat j) 1%nat in
  incoming1 Rops c2f a lp c = Q4 (r0 c - n/12*(2*w 0%nat+w 2%nat+w 3%nat)) (r1 c) (r2 c - n/12*(w 0%nat+2*w 2%nat+w 3%nat)) (r3 c - n/12*(w 0%nat+w 2%nat+2*w 3%nat)).
Proof. destruct a as [a0 a1 a2 a3], c as [c0 c1 c2 c3]. tr. destruct (Rgt_dec 0 a1); q44; field. Qed.
Lemma incoming2_eq c2f a lp c : let n := nn (r2 a) in let w j := lp (c2f 2%nat j) 2%nat in
  incoming2 Rops c2f a lp c = Q4 (r0 c - n/12*(2*w 0%nat+w 1%nat+w 3%nat)) (r1 c - n/12*(w 0%nat+2*w 1%nat+w 3%nat)) (r2 c) (r3 c - n/12*(w 0%nat+w 1%nat+2*w 3%nat)).
Proof. destruct a as [a0 a1 a2 a3], c as [c0 c1 c2 c3]. tr. destruct (Rgt_dec 0 a2); q44; field. Qed.
Lemma incoming3_eq c2f a lp c : let n := nn (r3 a) in let w j := lp (c2f 3%nat j) 3%nat in
  incoming3 Rops c2f a lp c = Q4 (r0 c - n/12*(2*w 0%nat+w 1%nat+w 2%nat)) (r1 c - n/12*(w 0%nat+2*w 1%nat+w 2%nat)) (r2 c - n/12*(w 0%nat+w 1%nat+2*w 2%nat)) (r3 c).
Proof. destruct a as [a0 a1 a2 a3], c as [c0 c1 c2 c3]. tr. destruct (Rgt_dec 0 a3); q44; field. Qed.

Lemma upw a psi nb f j : a f * upwind a psi nb f j = pp (a f) * psi j + nn (a f) * nb f j.
Proof. unfold upwind, pp, nn. destruct (Rgt_dec (a f) 0), (Rgt_dec 0 (a f)); try lra. assert (a f = 0) by lra. rewrite H. ring. Qed.

Definition vec (q : q4 R) : nat -> R := get4 q.
(** C25: the assembled system is the DG system. *)
Lemma system_is_dg V a sg c2f lp src x :
  solves (cellMatrix Rops V a sg) (cellRhs Rops V a c2f lp src) x <-> dg V (vec a) sg src (fun f j => lp (c2f f j) f) (vec x).
Proof.
  rewrite matrix_eq. unfold cellRhs, calcIncomingFlux. rewrite incoming0_eq, incoming1_eq, incoming2_eq, incoming3_eq.
  set (nb := fun f j => lp (c2f f j) f).
  assert (R : forall i, dg_row V (vec a) sg src nb (vec x) i <-> 
     sum4 (fun f => if Nat.eqb f i then 0 else / 12 * (pp (vec a f) * (vec x i + sumFace f (vec x)) + nn (vec a f) * (nb f i + sumFace f (nb f))))
      + / 12 * vec a i * sum4 (vec x) + sg * V / 20 * (vec x i + sum4 (vec x)) = V / 20 * (src i + sum4 src)).
  { intros i. unfold dg_row. set (u := upwind (vec a) (vec x) nb).
    assert (E : forall f, / 12 * vec a f * (u f i + sumFace f (u f)) = / 12 * (pp (vec a f) * (vec x i + sumFace f (vec x)) + nn (vec a f) * (nb f i + sumFace f (nb f)))).
    { intros f. transitivity (/ 12 * (vec a f * u f i + sumFace f (fun j => vec a f * u f j))).
      - unfold sumFace, sum4. destruct (Nat.eqb 0 f), (Nat.eqb 1 f), (Nat.eqb 2 f), (Nat.eqb 3 f); ring.
      - unfold u. rewrite upw. unfold sumFace, sum4. rewrite !upw. destruct (Nat.eqb 0 f), (Nat.eqb 1 f), (Nat.eqb 2 f), (Nat.eqb 3 f); ring. }
    unfold sum4 at 1. rewrite !E. reflexivity. }
  destruct a as [a0 a1 a2 a3], x as [x0 x1 x2 x3]. cbn [r0 r1 r2 r3 map4 map4].
  cbv [calcSource Rops amul aadd adiv alit asub]. cbn [r0 r1 r2 r3].
  pose proof (R 0%nat) as E0. pose proof (R 1%nat) as E1. pose proof (R 2%nat) as E2. pose proof (R 3%nat) as E3. clear R.
  cbv [sum4 sumFace Nat.eqb vec get4 r0 r1 r2 r3] in E0, E1, E2, E3.
  unfold solves, dot4, dgMatrix, map4. cbn [r0 r1 r2 r3].
  fold (nb 0%nat 1%nat) (nb 0%nat 2%nat) (nb 0%nat 3%nat) (nb 1%nat 0%nat) (nb 1%nat 2%nat) (nb 1%nat 3%nat) (nb 2%nat 0%nat) (nb 2%nat 1%nat) (nb 2%nat 3%nat) (nb 3%nat 0%nat) (nb 3%nat 1%nat) (nb 3%nat 2%nat).
  change (lp (c2f 0%nat 1%nat) 0%nat) with (nb 0%nat 1%nat) in *. change (lp (c2f 0%nat 2%nat) 0%nat) with (nb 0%nat 2%nat) in *. change (lp (c2f 0%nat 3%nat) 0%nat) with (nb 0%nat 3%nat) in *.
  change (lp (c2f 1%nat 0%nat) 1%nat) with (nb 1%nat 0%nat) in *. change (lp (c2f 1%nat 2%nat) 1%nat) with (nb 1%nat 2%nat) in *. change (lp (c2f 1%nat 3%nat) 1%nat) with (nb 1%nat 3%nat) in *.
  change (lp (c2f 2%nat 0%nat) 2%nat) with (nb 2%nat 0%nat) in *. change (lp (c2f 2%nat 1%nat) 2%nat) with (nb 2%nat 1%nat) in *. change (lp (c2f 2%nat 3%nat) 2%nat) with (nb 2%nat 3%nat) in *.
  change (lp (c2f 3%nat 0%nat) 3%nat) with (nb 3%nat 0%nat) in *. change (lp (c2f 3%nat 1%nat) 3%nat) with (nb 3%nat 1%nat) in *. change (lp (c2f 3%nat 2%nat) 3%nat) with (nb 3%nat 2%nat) in *.
  clearbody nb.
  set (p0 := pp a0) in *. set (p1 := pp a1) in *. set (p2 := pp a2) in *. set (p3 := pp a3) in *. set (n0 := nn a0) in *. set (n1 := nn a1) in *. set (n2 := nn a2) in *. set (n3 := nn a3) in *.
  clearbody p0 p1 p2 p3 n0 n1 n2 n3.
  assert (Q : forall u v w z : R, u - v = w - z -> (u = v <-> w = z)) by (intros; lra).
  unfold dg. split.
  - intros (H0 & H1 & H2 & H3) i Hi. destruct i as [|[|[|[|i]]]]; [| | | |lia].
    + apply E0. refine (proj1 (Q _ _ _ _ _) H0). field.
    + apply E1. refine (proj1 (Q _ _ _ _ _) H1). field.
    + apply E2. refine (proj1 (Q _ _ _ _ _) H2). field.
    + apply E3. refine (proj1 (Q _ _ _ _ _) H3). field.
  - intros H. pose proof (proj1 E0 (H 0%nat ltac:(lia))) as K0. pose proof (proj1 E1 (H 1%nat ltac:(lia))) as K1. pose proof (proj1 E2 (H 2%nat ltac:(lia))) as K2. pose proof (proj1 E3 (H 3%nat ltac:(lia))) as K3.
    split; [refine (proj1 (Q _ _ _ _ _) K0); field|]. split; [refine (proj1 (Q _ _ _ _ _) K1); field|]. split; [refine (proj1 (Q _ _ _ _ _) K2); field|refine (proj1 (Q _ _ _ _ _) K3); field].
Qed.

(** ** Positive definiteness *)
Definition quad (M : q4 (q4 R)) (x : q4 R) : R := r0 x * dot4 (r0 M) x + r1 x * dot4 (r1 M) x + r2 x * dot4 (r2 M) x + r3 x * dot4 (r3 M) x.
Definition posdef (M : q4 (q4 R)) : Prop := forall x, x <> zero4 -> 0 < quad M x.
Lemma sq_pos x : 0 <= x * x. Proof. apply Rle_0_sqr. Qed.
Lemma quad_eq s a0 a1 a2 a3 p0 p1 p2 p3 n0 n1 n2 n3 x0 x1 x2 x3 :
  a0 = p0 + n0 -> a1 = p1 + n1 -> a2 = p2 + n2 -> a3 = p3 + n3 -> a0 + a1 + a2 + a3 = 0 ->
  quad (dgMatrix s (Q4 a0 a1 a2 a3) (Q4 p0 p1 p2 p3)) (Q4 x0 x1 x2 x3) =
  s * (x0*x0+x1*x1+x2*x2+x3*x3 + (x0+x1+x2+x3)*(x0+x1+x2+x3)) + 
  / 24 * ((p0 - n0) * (x1*x1+x2*x2+x3*x3+(x1+x2+x3)*(x1+x2+x3)) + (p1 - n1) * (x0*x0+x2*x2+x3*x3+(x0+x2+x3)*(x0+x2+x3))
        + (p2 - n2) * (x0*x0+x1*x1+x3*x3+(x0+x1+x3)*(x0+x1+x3)) + (p3 - n3) * (x0*x0+x1*x1+x2*x2+(x0+x1+x2)*(x0+x1+x2))).
Proof.
  intros -> -> -> -> Z. assert (n3 = - (p0 + n0 + (p1 + n1) + (p2 + n2) + p3)) by lra. subst n3. unfold quad, dgMatrix, dot4. cbn [r0 r1 r2 r3]. field.
Qed.
Definition sum_q4 (a : q4 R) : R := r0 a + r1 a + r2 a + r3 a.
Lemma dg_posdef s a : 0 < s -> sum_q4 a = 0 -> posdef (dgMatrix s a (map4 pp a)).
Proof.
  intros Hs Hz [x0 x1 x2 x3] Hx. destruct a as [a0 a1 a2 a3]. unfold sum_q4 in Hz. unfold map4. cbn [r0 r1 r2 r3] in *.
  rewrite (quad_eq s a0 a1 a2 a3 _ _ _ _ (nn a0) (nn a1) (nn a2) (nn a3) _ _ _ _ (pp_nn a0) (pp_nn a1) (pp_nn a2) (pp_nn a3) Hz).
  assert (N : 0 < x0*x0+x1*x1+x2*x2+x3*x3).
  { destruct (Rle_or_lt (x0*x0+x1*x1+x2*x2+x3*x3) 0) as [L|]; auto. exfalso. apply Hx.
    pose proof (sq_pos x0). pose proof (sq_pos x1). pose proof (sq_pos x2). pose proof (sq_pos x3).
    assert (x0 * x0 = 0 /\ x1 * x1 = 0 /\ x2 * x2 = 0 /\ x3 * x3 = 0) as (Z0 & Z1 & Z2 & Z3) by lra.
    unfold zero4. apply Rmult_integral in Z0, Z1, Z2, Z3. f_equal; tauto. }
  assert (B : forall a b c, 0 <= a*a+b*b+c*c+(a+b+c)*(a+b+c)).
  { intros a b c. pose proof (sq_pos a). pose proof (sq_pos b). pose proof (sq_pos c). pose proof (sq_pos (a+b+c)). lra. }
  assert (P : forall x y, 0 <= y -> 0 <= (pp x - nn x) * y).
  { intros x y Hy. apply Rmult_le_pos; auto. pose proof (pp_nonneg x). pose proof (nn_nonpos x). lra. }
  pose proof (P a0 _ (B x1 x2 x3)). pose proof (P a1 _ (B x0 x2 x3)). pose proof (P a2 _ (B x0 x1 x3)). pose proof (P a3 _ (B x0 x1 x2)).
  pose proof (sq_pos (x0+x1+x2+x3)).
  assert (0 < s * (x0*x0+x1*x1+x2*x2+x3*x3 + (x0+x1+x2+x3)*(x0+x1+x2+x3))) by (apply Rmult_lt_0_compat; lra). lra.
Qed.

Lemma posdef_nonsingular M : posdef M -> nonsingular M.
Proof.
  intros P x (H0 & H1 & H2 & H3). destruct (Req_EM_T (r0 x) 0) as [E0|E0];
  [destruct (Req_EM_T (r1 x) 0) as [E1|E1]; [destruct (Req_EM_T (r2 x) 0) as [E2|E2]; [destruct (Req_EM_T (r3 x) 0) as [E3|E3]|]|]|].
  1: { destruct x as [x0 x1 x2 x3]; cbn [r0 r1 r2 r3] in *. unfold zero4. now subst. }
  all: exfalso; assert (Hx : x <> zero4) by (intros ->; unfold zero4 in *; cbn [r0 r1 r2 r3] in *; congruence); specialize (P x Hx);
    unfold quad in P; rewrite H0, H1, H2, H3 in P; unfold zero4 in P; cbn [r0 r1 r2 r3] in P; lra.
Qed.
Lemma pos_of_prod a b : 0 < a -> 0 < a * b -> 0 < b.
Proof. intros Ha H. destruct (Rle_or_lt b 0) as [L|]; auto. exfalso. assert (a * b <= a * 0) by (apply Rmult_le_compat_l; lra). lra. Qed.
Lemma posdef_minors M : posdef M -> 0 < minor1 M /\ 0 < minor2 M /\ 0 < minor3 M /\ 0 < det4 M.
Proof.
  intros P. dmat M.
  assert (H1 : 0 < m00).
  { assert (N : Q4 1 0 0 0 <> zero4) by (unfold zero4; intros E; injection E; lra). specialize (P _ N). unfold quad, dot4 in P. cbn [r0 r1 r2 r3] in P. lra. }
  set (D2 := m00 * m11 - m01 * m10).
  assert (H2 : 0 < D2).
  { apply (pos_of_prod m00); auto. assert (N : Q4 (- m01) m00 0 0 <> zero4) by (unfold zero4; intros E; injection E; lra). specialize (P _ N).
    unfold quad, dot4 in P. cbn [r0 r1 r2 r3] in P. match type of P with 0 < ?x => replace (m00 * D2) with x; auto end. unfold D2. ring. }
  set (D3 := det3 m00 m01 m02 m10 m11 m12 m20 m21 m22).
  assert (H3 : 0 < D3).
  { apply (pos_of_prod D2); auto. assert (N : Q4 (m01 * m12 - m02 * m11) (- (m00 * m12 - m02 * m10)) D2 0 <> zero4) by (unfold zero4; intros E; injection E; lra).
    specialize (P _ N). unfold quad, dot4 in P. cbn [r0 r1 r2 r3] in P. match type of P with 0 < ?x => replace (D2 * D3) with x; auto end. unfold D2, D3, det3. ring. }
  set (D4 := det4 (Q4 (Q4 m00 m01 m02 m03) (Q4 m10 m11 m12 m13) (Q4 m20 m21 m22 m23) (Q4 m30 m31 m32 m33))).
  assert (H4 : 0 < D4).
  { apply (pos_of_prod D3); auto.
    assert (N : Q4 (- det3 m01 m02 m03 m11 m12 m13 m21 m22 m23) (det3 m00 m02 m03 m10 m12 m13 m20 m22 m23) (- det3 m00 m01 m03 m10 m11 m13 m20 m21 m23) D3 <> zero4)
      by (unfold zero4; intros E; injection E; lra).
    specialize (P _ N). unfold quad, dot4 in P. cbn [r0 r1 r2 r3] in P. match type of P with 0 < ?x => replace (D3 * D4) with x; auto end. unfold D3, D4, det4, det3. ring. }
  unfold minor1, minor2, minor3. cbn [r0 r1 r2 r3]. auto.
Qed.

(** ** The cell solver *)
Section Cell.
  Variables (V sg : R) (a : q4 R) (c2f : nat -> nat -> nat) (lp : nat -> nat -> R) (src : nat -> R).
  Hypothesis HV : 0 < V.
  Hypothesis Hsg : 0 < sg.
  Hypothesis Hz : sum_q4 a = 0.
  Notation M := (cellMatrix Rops V a sg).
  Lemma cell_posdef : posdef M.
  Proof using HV Hsg Hz. rewrite matrix_eq. apply dg_posdef; auto. apply Rdiv_lt_0_compat; [now apply Rmult_lt_0_compat|lra]. Qed.
  Lemma gauss_solves b g : exists x, gaussElim4 Rops g M b = Some x /\ solves M b x.
  Proof using HV Hsg Hz.
    pose proof cell_posdef as P. destruct (posdef_minors _ P) as (H1 & H2 & H3 & H4). destruct g; cbn [gaussElim4].
    - destruct (original_total M b (posdef_nonsingular _ P)) as (x & E). exists x. split; auto. now apply original_sound.
    - eexists. split; [reflexivity|]. apply nopivot_ok; lra.
    - eexists. split; [reflexivity|]. apply glu_ok; lra.
    - eexists. split; [reflexivity|]. apply intel_ok; lra.
  Qed.
  Lemma solve_group : exists x, (forall g, solveGroup Rops g V a sg c2f lp src = Some x) /\
    dg V (vec a) sg src (fun f j => lp (c2f f j) f) (vec x) /\ (forall y, dg V (vec a) sg src (fun f j => lp (c2f f j) f) (vec y) -> y = x).
  Proof using HV Hsg Hz.
    destruct (gauss_solves (cellRhs Rops V a c2f lp src) Original) as (x & E & S). exists x.
    assert (U : forall y, solves M (cellRhs Rops V a c2f lp src) y -> y = x).
    { intros y Hy. apply (solves_unique M (cellRhs Rops V a c2f lp src)); auto. apply posdef_nonsingular, cell_posdef. }
    split; [|split].
    - intros g. unfold solveGroup. destruct (gauss_solves (cellRhs Rops V a c2f lp src) g) as (y & -> & Sy). f_equal. now apply U.
    - now apply system_is_dg.
    - intros y Hy. apply U. now apply system_is_dg.
  Qed.
End Cell.

Lemma dg_balance V area sg Q nb psi : sum4 area = 0 -> dg V area sg Q nb psi -> balance V area sg Q nb psi.
Proof.
  intros Hz H. pose proof (H 0%nat ltac:(lia)) as E0. pose proof (H 1%nat ltac:(lia)) as E1. pose proof (H 2%nat ltac:(lia)) as E2. pose proof (H 3%nat ltac:(lia)) as E3. clear H.
  unfold balance, outflow, inflow.
  assert (K : forall f, (if Rgt_dec (area f) 0 then area f * (sumFace f psi / 3) else 0) - (if Rlt_dec (area f) 0 then - area f * (sumFace f (nb f) / 3) else 0)
     = area f * (sumFace f (upwind area psi nb f) / 3)).
  { intros f. unfold upwind, sumFace, sum4. destruct (Rgt_dec (area f) 0), (Rlt_dec (area f) 0); try lra. assert (area f = 0) as -> by lra. ring. }
  unfold sum4 at 1 2. 
  match goal with |- ?A0 + ?A1 + ?A2 + ?A3 - (?B0 + ?B1 + ?B2 + ?B3) + ?c = ?d => replace (A0 + A1 + A2 + A3 - (B0 + B1 + B2 + B3) + c) with ((A0 - B0) + (A1 - B1) + (A2 - B2) + (A3 - B3) + c) by ring end.
  rewrite !K. clear K. unfold dg_row in *. set (u := upwind area psi nb) in *. clearbody u.
  unfold sumFace, sum4 in *. cbn [Nat.eqb] in *.
  assert (E : forall l0 l1 l2 l3 r0' r1' r2' r3' : R, l0 = r0' -> l1 = r1' -> l2 = r2' -> l3 = r3' -> l0 + l1 + l2 + l3 = r0' + r1' + r2' + r3') by (intros; subst; reflexivity).
  pose proof (E _ _ _ _ _ _ _ _ E0 E1 E2 E3) as S. clear E E0 E1 E2 E3.
  assert (a3 : area 3%nat = - (area 0%nat + area 1%nat + area 2%nat)) by lra. rewrite a3 in *.
  match type of S with ?l = ?r => match goal with |- ?l' = ?r' => assert (L : l' - l = 0) by field; assert (Rr : r' - r = 0) by field; lra end end.
Qed.
Lemma dg_uniform V area sg nb c : sum4 area = 0 -> (forall f j, area f < 0 -> nb f j = c) -> dg V area sg (fun _ => sg * c) nb (fun _ => c).
Proof.
  intros Hz Hn i Hi. unfold dg_row.
  assert (K : forall f j, area f * upwind area (fun _ => c) nb f j = area f * c).
  { intros f j. unfold upwind. destruct (Rgt_dec (area f) 0); auto. destruct (Rlt_dec (area f) 0); [rewrite Hn; auto|]. assert (area f = 0) as -> by lra. ring. }
  assert (E : forall f, (f < 4)%nat -> / 12 * area f * (upwind area (fun _ => c) nb f i + sumFace f (upwind area (fun _ => c) nb f)) = / 3 * area f * c).
  { intros f Hf. transitivity (/ 12 * (area f * upwind area (fun _ => c) nb f i + sumFace f (fun j => area f * upwind area (fun _ => c) nb f j))).
    - unfold sumFace, sum4. destruct f as [|[|[|[|f]]]]; try lia; cbn [Nat.eqb]; ring.
    - rewrite K. unfold sumFace, sum4. rewrite !K. destruct f as [|[|[|[|f]]]]; try lia; cbn [Nat.eqb]; field. }
  unfold sum4 at 1. rewrite !E by lia. unfold sum4 in *. assert (a3 : area 3%nat = - (area 0%nat + area 1%nat + area 2%nat)) by lra. rewrite a3.
  destruct i as [|[|[|[|i]]]]; try lia; cbn [Nat.eqb]; rewrite ?a3; field.
Qed.

(** The signed areas of a non-degenerate tetrahedron add up to zero. *)
Lemma signed_areas_zero p fs ns om : vol6 p <> 0 ->
  (forall lf, (lf < 4)%nat -> face_of p lf (fs lf) /\ getNormal Rops (fs lf) p = Some (ns lf)) ->
  let q h := Q4 (h 0%nat) (h 1%nat) (h 2%nat) (h 3%nat) in
  sum_q4 (signedAreas Rops (q (fun lf => getTriangleArea Rops (fs lf))) (q (fun lf => vdot Rops om (ns lf)))) = 0.
Proof.
  intros Hp H q. pose proof (closed_surface p fs ns Hp H) as C. cbv beta zeta in C. unfold sum_q4, signedAreas, q. cbn [r0 r1 r2 r3 Rops amul].
  set (A0 := getTriangleArea Rops (fs 0%nat)) in *. set (A1 := getTriangleArea Rops (fs 1%nat)) in *. set (A2 := getTriangleArea Rops (fs 2%nat)) in *. set (A3 := getTriangleArea Rops (fs 3%nat)) in *.
  clearbody A0 A1 A2 A3. pose proof (f_equal t0 C) as C1. pose proof (f_equal t1 C) as C2. pose proof (f_equal t2 C) as C3. unfold addR, scaleR, zeroR in C1, C2, C3. cbn [t0 t1 t2] in C1, C2, C3. unfold vdot. cbn [Rops aadd amul].
  match goal with |- ?l = 0 => replace l with (t0 om * (A0 * t0 (ns 0%nat) + A1 * t0 (ns 1%nat) + (A2 * t0 (ns 2%nat) + A3 * t0 (ns 3%nat)))
    + t1 om * (A0 * t1 (ns 0%nat) + A1 * t1 (ns 1%nat) + (A2 * t1 (ns 2%nat) + A3 * t1 (ns 3%nat))) + t2 om * (A0 * t2 (ns 0%nat) + A1 * t2 (ns 1%nat) + (A2 * t2 (ns 2%nat) + A3 * t2 (ns 3%nat)))) by ring end.
  rewrite C1, C2, C3. ring.
Qed.

(** ** Groups *)
Section Groups.
  Context {T : Type} (A : arith T).
  Variables (g : gaussElim) (V : T) (fa om : q4 T) (sg : T) (c2f : nat -> nat -> nat).
  Notation one lp src G := (solveGroup A g V (signedAreas A fa om) sg c2f (fun fv f => lp fv f G) (fun v => src v G)).
  Lemma groups_fold lp src p0 n : match fold_left (fun st group => let* p := st in let* sol := one lp src group in Some (putGroup p group sol)) (seq 0 n) (Some p0) with
    | Some p => (forall G, (G < n)%nat -> exists x, one lp src G = Some x /\ forall v, (v < 4)%nat -> p v G = get4 x v) /\
                (forall v G, (n <= G \/ 4 <= v)%nat -> p v G = p0 v G)
    | None => exists G, (G < n)%nat /\ one lp src G = None end.
  Proof.
    induction n; [cbn; split; [intros; lia|auto]|]. rewrite seq_S, fold_left_app. cbn [fold_left plus].
    destruct (fold_left _ (seq 0 n) (Some p0)) as [p|] eqn:E; cbn [obind].
    - destruct IHn as (H1 & H2). destruct (one lp src n) as [x|] eqn:En; cbn [obind].
      + split.
        * intros G HG. destruct (Nat.eq_dec G n) as [->|].
          -- exists x. split; auto. intros v Hv. unfold putGroup. rewrite Nat.eqb_refl. destruct (Nat.ltb_spec v 4); [reflexivity|lia].
          -- destruct (H1 G ltac:(lia)) as (y & Ey & Hy). exists y. split; auto. intros v Hv. unfold putGroup. destruct (Nat.eqb_spec G n); [lia|]. cbn. auto.
        * intros v G HG. unfold putGroup. destruct (Nat.eqb_spec G n); cbn [andb]; [|apply H2; lia].
          destruct (Nat.ltb_spec v 4); [lia|]. apply H2. lia.
      + exists n. split; [lia|auto].
    - destruct IHn as (G & HG & EG). exists G. split; [lia|auto].
  Qed.
  Lemma solve_ok n lp src p0 p : solve A g n V fa om sg c2f lp src p0 = Some p ->
    (forall G, (G < n)%nat -> exists x, one lp src G = Some x /\ forall v, (v < 4)%nat -> p v G = get4 x v) /\
    (forall v G, (n <= G \/ 4 <= v)%nat -> p v G = p0 v G).
  Proof. intros H. pose proof (groups_fold lp src p0 n) as K. unfold solve in H. cbv zeta in H. now rewrite H in K. Qed.
  Lemma solve_total n lp src p0 : (forall G, (G < n)%nat -> one lp src G <> None) -> exists p, solve A g n V fa om sg c2f lp src p0 = Some p.
  Proof.
    intros H. pose proof (groups_fold lp src p0 n) as K. unfold solve. cbv zeta. destruct (fold_left _ (seq 0 n) (Some p0)); [eauto|].
    destruct K as (G & HG & E). now apply H in HG.
  Qed.
End Groups.
