From Coq Require Import Reals Lra Permutation.
From Verif Require Import Prelude Bytes MeshModel RefineSpec GeometryModel GeometrySpec.
Local Open Scope R_scope.

Lemma perm3 {A} (a b c : A) l : Permutation [a; b; c] l ->
  l = [a;b;c] \/ l = [a;c;b] \/ l = [b;a;c] \/ l = [b;c;a] \/ l = [c;a;b] \/ l = [c;b;a].
Proof.
  intros H. pose proof (Permutation_length H) as L. destruct l as [|x [|y [|z [|? ?]]]]; try discriminate. clear L.
  destruct (proj1 (Permutation_nth [a;b;c] [x;y;z] a) H) as (_ & f & Hf & Hi & Hn).
  pose proof (Hf 0%nat ltac:(cbn; lia)) as F0. pose proof (Hf 1%nat ltac:(cbn; lia)) as F1. pose proof (Hf 2%nat ltac:(cbn; lia)) as F2.
  pose proof (Hn 0%nat ltac:(cbn; lia)) as N0. pose proof (Hn 1%nat ltac:(cbn; lia)) as N1. pose proof (Hn 2%nat ltac:(cbn; lia)) as N2.
  pose proof (fun e => Hi 0%nat 1%nat ltac:(cbn; lia) ltac:(cbn; lia) e) as I01.
  pose proof (fun e => Hi 0%nat 2%nat ltac:(cbn; lia) ltac:(cbn; lia) e) as I02.
  pose proof (fun e => Hi 1%nat 2%nat ltac:(cbn; lia) ltac:(cbn; lia) e) as I12.
  clear Hf Hi Hn H. cbn in N0, N1, N2, F0, F1, F2.
  destruct (f 0%nat) as [|[|[|]]]; [| | |exfalso; lia]; destruct (f 1%nat) as [|[|[|]]]; try (exfalso; lia);
  destruct (f 2%nat) as [|[|[|]]]; try (exfalso; lia); subst; cbn; auto 10.
Qed.
Lemma perm4 {A} (a b c d : A) l : Permutation [a; b; c; d] l ->
  exists x m, Permutation [a;b;c;d] (x :: m) /\ l = x :: m /\
    ((x = a /\ Permutation [b;c;d] m) \/ (x = b /\ Permutation [a;c;d] m) \/ (x = c /\ Permutation [a;b;d] m) \/ (x = d /\ Permutation [a;b;c] m)).
Proof.
  intros H. pose proof (Permutation_length H) as L. destruct l as [|x m]; [discriminate|].
  destruct (proj1 (Permutation_nth [a;b;c;d] (x :: m) a) H) as (_ & f & Hf & _ & Hn).
  pose proof (Hf 0%nat ltac:(cbn; lia)) as F0. pose proof (Hn 0%nat ltac:(cbn; lia)) as N0. cbn in N0, F0.
  exists x, m. split; auto. split; auto.
  destruct (f 0%nat) as [|[|[|[|]]]]; [| | | |exfalso; lia]; subst x.
  - left. split; auto. now apply Permutation_cons_inv in H.
  - right; left. split; auto. apply (Permutation_cons_inv (a := b)). rewrite <- H. apply perm_swap.
  - right; right; left. split; auto. apply (Permutation_cons_inv (a := c)). rewrite <- H.
    rewrite (perm_swap a c [b;d]). apply perm_skip. apply perm_swap.
  - right; right; right. split; auto. apply (Permutation_cons_inv (a := d)). rewrite <- H.
    rewrite (perm_swap a d [b;c]). apply perm_skip. rewrite (perm_swap b d [c]). apply perm_skip. apply perm_swap.
Qed.

Lemma vol6_perm p q : Permutation (q4l p) (q4l q) -> vol6 q = vol6 p \/ vol6 q = - vol6 p.
Proof.
  destruct p as [a b c d], q as [a' b' c' d']. intros H. unfold q4l in H. cbn [r0 r1 r2 r3] in H.
  destruct (perm4 _ _ _ _ _ H) as (x & m & _ & E & K). injection E as <- <-.
  destruct a as [ax ay az], b as [bx by_ bz], c as [cx cy cz], d as [dx dy dz].
  destruct K as [(-> & K)|[(-> & K)|[(-> & K)|(-> & K)]]]; apply perm3 in K;
  destruct K as [K|[K|[K|[K|[K|K]]]]]; injection K as -> -> ->; cbn [vol6]; first [left; ring|right; ring].
Qed.

Lemma vdot_R a b : vdot Rops a b = dotR a b. Proof. reflexivity. Qed.
Lemma vsub_R a b : vsub Rops a b = subR a b. Proof. reflexivity. Qed.

Lemma volume_ok p : getTetVolume Rops p = Rabs (vol6 p) / 6.
Proof.
  unfold getTetVolume. cbn [Rops aadd asub amul adiv aabs aone asix].
  destruct p as [[ax ay az] [bx by_ bz] [cx cy cz] [dx dy dz]]. cbn [r0 r1 r2 r3 vol6].
  unfold vdot, getCrossProduct, vsub. cbn [Rops t0 t1 t2 aadd asub amul].
  replace (1 / 6) with (/ 6) by lra. unfold Rdiv. rewrite Rmult_comm. f_equal. f_equal. ring.
Qed.

Definition crossR (a b : q3 R) : q3 R := getCrossProduct Rops a b.
Definition faceCross (f : q3 (q3 R)) : q3 R := crossR (subR (t1 f) (t0 f)) (subR (t2 f) (t0 f)).
Lemma dot_self_pos c : 0 <= dotR c c.
Proof.
  unfold dotR. pose proof (Rle_0_sqr (t0 c)). pose proof (Rle_0_sqr (t1 c)). pose proof (Rle_0_sqr (t2 c)). unfold Rsqr in *. lra.
Qed.
Lemma dot_self_zero c : dotR c c = 0 -> c = zeroR.
Proof.
  unfold dotR. intros H. pose proof (Rle_0_sqr (t0 c)). pose proof (Rle_0_sqr (t1 c)). pose proof (Rle_0_sqr (t2 c)). unfold Rsqr in *.
  destruct c as [x y z]. cbn [t0 t1 t2] in *. unfold zeroR.
  assert (x * x = 0) by lra. assert (y * y = 0) by lra. assert (z * z = 0) by lra.
  f_equal; apply Rmult_integral in H3; apply Rmult_integral in H4; apply Rmult_integral in H5; tauto.
Qed.

Lemma area_heron f : 0 <= getTriangleArea Rops f /\ 16 * (getTriangleArea Rops f * getTriangleArea Rops f) = heron16 f.
Proof.
  unfold getTriangleArea. cbn [Rops ahalf amul asqrt]. set (c := getCrossProduct _ _ _). fold c.
  change (vdot Rops c c) with (dotR c c). pose proof (dot_self_pos c) as Hp. split.
  - apply Rmult_le_pos; [lra|apply sqrt_pos].
  - replace (16 * (/ 2 * sqrt (dotR c c) * (/ 2 * sqrt (dotR c c)))) with (4 * (sqrt (dotR c c) * sqrt (dotR c c))) by field.
    rewrite sqrt_sqrt by auto. unfold c, heron16, dist2, dotR, getCrossProduct, vsub. destruct f as [[ax ay az] [bx by_ bz] [cx cy cz]].
    cbn [Rops t0 t1 t2 aadd asub amul]. ring.
Qed.
Lemma heron_perm f g : same_tri f g -> heron16 f = heron16 g.
Proof.
  destruct f as [a b c], g as [a' b' c']. unfold same_tri, q3l. cbn [t0 t1 t2]. intros K. apply perm3 in K.
  destruct a as [ax ay az], b as [bx by_ bz], c as [cx cy cz].
  destruct K as [K|[K|[K|[K|[K|K]]]]]; injection K as -> -> ->; unfold heron16, dist2; cbn [t0 t1 t2]; ring.
Qed.
Lemma area_perm f g : same_tri f g -> getTriangleArea Rops f = getTriangleArea Rops g.
Proof.
  intros H. destruct (area_heron f) as (A1 & A2). destruct (area_heron g) as (B1 & B2). pose proof (heron_perm f g H).
  apply Rsqr_inj; auto. unfold Rsqr. lra.
Qed.

Lemma ptEq_R p q : ptEq Rops p q = true <-> p = q.
Proof.
  unfold ptEq. cbn [Rops aeq]. destruct p as [a b c], q as [a' b' c']. cbn [t0 t1 t2].
  destruct (Req_EM_T a a'), (Req_EM_T b b'), (Req_EM_T c c'); cbn; split; intros; try discriminate; congruence.
Qed.
Lemma ptEq_R_ne p q : p <> q -> ptEq Rops p q = false.
Proof. intros H. destruct (ptEq Rops p q) eqn:E; auto. apply ptEq_R in E. contradiction. Qed.

(** the height of [v] over face [f], times twice the area *)
Definition height (f : q3 (q3 R)) (v : q3 R) : R := dotR (faceCross f) (subR v (t0 f)).
Lemma height_face f v : In v (q3l f) -> height f v = 0.
Proof.
  unfold height, faceCross, crossR, dotR, subR, getCrossProduct, q3l. destruct f as [[ax ay az] [bx by_ bz] [cx cy cz]].
  cbn [t0 t1 t2 Rops asub amul aadd In]. intros [<-|[<-|[<-|[]]]]; cbn [t0 t1 t2]; ring.
Qed.
Lemma vertIndex_ok f p v l1 l2 : q4l p = l1 ++ v :: l2 -> (forall x, In x l1 -> In x (q3l f)) -> height f v <> 0 ->
  vertIndex Rops f p = Some v.
Proof.
  intros E H1 Hh. unfold vertIndex. rewrite E. clear E. induction l1 as [|x l1 IH]; cbn [app find].
  - destruct (existsb (ptEq Rops v) (q3l f)) eqn:Ex; [|reflexivity]. exfalso. apply existsb_exists in Ex. destruct Ex as (y & Hy & Ey).
    apply ptEq_R in Ey. subst y. apply Hh. now apply height_face.
  - assert (Ex : existsb (ptEq Rops x) (q3l f) = true).
    { apply existsb_exists. exists x. split; [apply H1; now left|now apply ptEq_R]. }
    rewrite Ex. cbn [negb]. apply IH. intros; apply H1; now right.
Qed.

(** the normal as a multiple of the cross product *)
Definition sgnR (x : R) : R := if Rgt_dec x 0 then -1 else 1.
Lemma normal_eq f p v : vertIndex Rops f p = Some v -> height f v <> 0 ->
  0 < sqrt (dotR (faceCross f) (faceCross f)) /\
  getNormal Rops f p = Some (scaleR (sgnR (height f v) / sqrt (dotR (faceCross f) (faceCross f))) (faceCross f)).
Proof.
  intros Ev Hh. pose proof (dot_self_pos (faceCross f)) as Hp.
  assert (Hc : 0 < dotR (faceCross f) (faceCross f)).
  { destruct (Rle_lt_or_eq_dec _ _ Hp) as [|E]; auto. exfalso. apply Hh. unfold height. rewrite (dot_self_zero _ (eq_sym E)). unfold dotR, zeroR. cbn. ring. }
  pose proof (sqrt_lt_R0 _ Hc) as Hs. split; auto. unfold getNormal. rewrite Ev. cbn [obind].
  change (getCrossProduct Rops (vsub Rops (t1 f) (t0 f)) (vsub Rops (t2 f) (t0 f))) with (faceCross f).
  change (vdot Rops (faceCross f) (faceCross f)) with (dotR (faceCross f) (faceCross f)).
  cbn [Rops adiv asqrt agt azero aneg]. set (c := faceCross f) in *. set (s := sqrt (dotR c c)) in *.
  set (D := vdot Rops _ _). assert (ED : D = height f v / s).
  { unfold D, height. fold c. unfold dotR, subR, vdot, vsub. cbn [Rops t0 t1 t2 aadd asub amul]. field. lra. }
  f_equal. rewrite ED. unfold sgnR, scaleR.
  destruct (Rgt_dec (height f v) 0) as [G|G].
  - destruct (Rgt_dec (height f v / s) 0) as [G'|G'].
    + cbn [t0 t1 t2]. f_equal; field; lra.
    + exfalso. apply G'. apply Rdiv_lt_0_compat; lra.
  - destruct (Rgt_dec (height f v / s) 0) as [G'|G'].
    + exfalso. apply G. apply (Rmult_lt_compat_r s) in G'; auto. unfold Rdiv in G'. rewrite Rmult_assoc, Rinv_l in G' by lra. lra.
    + cbn [t0 t1 t2]. f_equal; field; lra.
Qed.
Lemma sgnR_sq x : sgnR x * sgnR x = 1. Proof. unfold sgnR. destruct (Rgt_dec x 0); ring. Qed.
Lemma sgnR_neg x : x <> 0 -> sgnR x * x < 0. Proof. intros H. unfold sgnR. destruct (Rgt_dec x 0); lra. Qed.

Lemma normal_ok f p v : vertIndex Rops f p = Some v -> height f v <> 0 ->
  exists n, getNormal Rops f p = Some n /\ dotR n n = 1 /\ dotR n (subR (t1 f) (t0 f)) = 0 /\ dotR n (subR (t2 f) (t0 f)) = 0 /\
    dotR n (subR v (t0 f)) < 0 /\ scaleR (getTriangleArea Rops f) n = scaleR (sgnR (height f v) / 2) (faceCross f).
Proof.
  intros Ev Hh. destruct (normal_eq f p v Ev Hh) as (Hs & En). eexists. split; [exact En|].
  set (c := faceCross f) in *. set (s := sqrt (dotR c c)) in *.
  assert (Ess : s * s = dotR c c) by (apply sqrt_sqrt, dot_self_pos).
  pose proof (sgnR_sq (height f v)) as Q. pose proof (sgnR_neg _ Hh) as Ng. set (g := sgnR (height f v)) in *.
  assert (SD : forall k x, dotR (scaleR k c) x = k * dotR c x) by (intros; unfold dotR, scaleR; cbn [t0 t1 t2]; ring).
  assert (DS : forall k x, dotR x (scaleR k c) = k * dotR x c) by (intros; unfold dotR, scaleR; cbn [t0 t1 t2]; ring).
  split; [|split; [|split; [|split]]].
  - rewrite SD, DS, <- Ess. replace (g / s * (g / s * (s * s))) with (g * g) by (field; lra). exact Q.
  - rewrite SD. replace (dotR c (subR (t1 f) (t0 f))) with (height f (t1 f)) by reflexivity. rewrite height_face; [ring|]. destruct f; cbn; auto.
  - rewrite SD. replace (dotR c (subR (t2 f) (t0 f))) with (height f (t2 f)) by reflexivity. rewrite height_face; [ring|]. destruct f; cbn; auto.
  - rewrite SD. change (dotR c (subR v (t0 f))) with (height f v). replace (g / s * height f v) with ((g * height f v) / s) by (field; lra).
    unfold Rdiv. assert (0 < (- (g * height f v)) * / s) by (apply Rmult_lt_0_compat; [lra|now apply Rinv_0_lt_compat]). lra.
  - unfold getTriangleArea. change (getCrossProduct Rops (vsub Rops (t1 f) (t0 f)) (vsub Rops (t2 f) (t0 f))) with c.
    change (vdot Rops c c) with (dotR c c). cbn [Rops ahalf amul asqrt]. fold s. unfold scaleR. cbn [t0 t1 t2]. f_equal; field; lra.
Qed.

(** Faces of tetrahedra *)
Lemma face_of_cases p lf f : face_of p lf f -> exists v l1 l2 t, corner p lf = Some v /\ q4l p = l1 ++ v :: l2 /\
  (forall x, In x l1 -> In x (q3l f)) /\ nth_error (tet_faces p) lf = Some t /\ same_tri t f /\ (lf < 4)%nat.
Proof.
  intros (t & Ht & S). destruct p as [a b c d]. unfold corner. unfold q4l. unfold tet_faces in Ht. cbn [r0 r1 r2 r3] in *.
  assert (K : forall x, In x (q3l t) -> In x (q3l f)) by (intros x Hx; eapply Permutation_in; eauto).
  destruct lf as [|[|[|[|lf]]]]; cbn [nth_error] in *; [| | | |destruct lf; discriminate]; apply Some_inj in Ht; subst t.
  - exists a, [], [b;c;d]. eexists. split; [reflexivity|]. split; [reflexivity|]. split; [intros ? []|]. split; [reflexivity|]. split; [assumption|lia].
  - exists b, [a], [c;d]. eexists. split; [reflexivity|]. split; [reflexivity|]. split; [|split; [reflexivity|split; [assumption|lia]]].
    intros x [<-|[]]. apply K. cbn. auto.
  - exists c, [a;b], [d]. eexists. split; [reflexivity|]. split; [reflexivity|]. split; [|split; [reflexivity|split; [assumption|lia]]].
    intros x [<-|[<-|[]]]; apply K; cbn; auto.
  - exists d, [a;b;c], []. eexists. split; [reflexivity|]. split; [reflexivity|]. split; [|split; [reflexivity|split; [assumption|lia]]].
    intros x [<-|[<-|[<-|[]]]]; apply K; cbn; auto.
Qed.
Lemma cross_perm t f : same_tri t f -> exists s, (s = 1 \/ s = -1) /\ faceCross f = scaleR s (faceCross t) /\ forall v, height f v = s * height t v.
Proof.
  destruct f as [a' b' c'], t as [a b c]. unfold same_tri, q3l. cbn [t0 t1 t2]. intros K. apply perm3 in K.
  destruct a as [ax ay az], b as [bx by_ bz], c as [cx cy cz].
  destruct K as [K|[K|[K|[K|[K|K]]]]]; injection K as -> -> ->;
  [exists 1|exists (-1)|exists (-1)|exists 1|exists 1|exists (-1)]; (split; [auto|]; split;
    [unfold faceCross, crossR, getCrossProduct, subR, scaleR; cbn [t0 t1 t2 Rops asub amul]; f_equal; ring
    |intros [x y z]; unfold height, faceCross, crossR, getCrossProduct, dotR, subR; cbn [t0 t1 t2 Rops asub amul]; ring]).
Qed.
Definition fsign (lf : nat) : R := match lf with 0%nat | 2%nat => -1 | _ => 1 end.
Lemma height_canon p lf t v : nth_error (tet_faces p) lf = Some t -> corner p lf = Some v -> height t v = fsign lf * vol6 p.
Proof.
  destruct p as [[ax ay az] [bx by_ bz] [cx cy cz] [dx dy dz]]. unfold tet_faces, corner, q4l. cbn [r0 r1 r2 r3].
  destruct lf as [|[|[|[|lf]]]]; cbn [nth_error fsign]; [| | | |destruct lf; discriminate]; intros Ht Hv; apply Some_inj in Ht, Hv; subst t v;
  unfold height, faceCross, crossR, getCrossProduct, dotR, subR; cbn [t0 t1 t2 Rops asub amul vol6]; ring.
Qed.
Lemma fsign_ne lf : fsign lf <> 0. Proof. destruct lf as [|[|[|]]]; cbn; lra. Qed.
Lemma face_height p lf f v : face_of p lf f -> corner p lf = Some v -> vol6 p <> 0 -> height f v <> 0.
Proof.
  intros (t & Ht & S) Hv Hp. destruct (cross_perm t f S) as (s & Hs & _ & Hh). rewrite Hh, (height_canon p lf t v Ht Hv).
  intros E. apply Rmult_integral in E. destruct E as [E|E]; [lra|]. apply Rmult_integral in E. destruct E as [E|E]; auto. now apply fsign_ne in E.
Qed.
Lemma normal_face p lf f : vol6 p <> 0 -> face_of p lf f ->
  exists n v, corner p lf = Some v /\ vertIndex Rops f p = Some v /\ height f v <> 0 /\ getNormal Rops f p = Some n /\ outward_unit_normal p lf f n /\
     scaleR (getTriangleArea Rops f) n = scaleR (sgnR (height f v) / 2) (faceCross f).
Proof.
  intros Hp Hf. destruct (face_of_cases p lf f Hf) as (v & l1 & l2 & t & Hv & E & H1 & _). pose proof (face_height p lf f v Hf Hv Hp) as Hh.
  pose proof (vertIndex_ok f p v l1 l2 E H1 Hh) as Ev.
  destruct (normal_ok f p v Ev Hh) as (n & En & A & B & C & D & Ar). exists n, v. split; auto. split; auto. split; auto. split; auto. split; auto.
  split; auto. split; auto. split; auto. intros v' Hv'. assert (v' = v) by congruence. now subst.
Qed.

(** The outward unit normal is unique. *)
Lemma lin3 (a b c : q3 R) x : dotR x a = 0 -> dotR x b = 0 -> dotR x c = 0 -> dotR (crossR a b) c <> 0 -> x = zeroR.
Proof.
  unfold dotR, crossR, getCrossProduct. destruct a as [a1 a2 a3], b as [b1 b2 b3], c as [c1 c2 c3], x as [x y z]. cbn [t0 t1 t2 Rops asub amul].
  intros A B C D. set (d := _ + _ + _ : R) in D.
  assert (X : d * x = 0).
  { replace (d * x) with ((b2*c3-b3*c2) * (x*a1+y*a2+z*a3) + (c2*a3-c3*a2)*(x*b1+y*b2+z*b3) + (a2*b3-a3*b2)*(x*c1+y*c2+z*c3)) by (unfold d; ring).
    rewrite A, B, C. ring. }
  assert (Y : d * y = 0).
  { replace (d * y) with ((b3*c1-b1*c3) * (x*a1+y*a2+z*a3) + (c3*a1-c1*a3)*(x*b1+y*b2+z*b3) + (a3*b1-a1*b3)*(x*c1+y*c2+z*c3)) by (unfold d; ring).
    rewrite A, B, C. ring. }
  assert (Z : d * z = 0).
  { replace (d * z) with ((b1*c2-b2*c1) * (x*a1+y*a2+z*a3) + (c1*a2-c2*a1)*(x*b1+y*b2+z*b3) + (a1*b2-a2*b1)*(x*c1+y*c2+z*c3)) by (unfold d; ring).
    rewrite A, B, C. ring. }
  apply Rmult_integral in X, Y, Z. unfold zeroR. f_equal; tauto.
Qed.
Lemma normal_unique p lf f n n' : vol6 p <> 0 -> face_of p lf f -> outward_unit_normal p lf f n -> outward_unit_normal p lf f n' -> n = n'.
Proof.
  intros Hp Hf (U & A & B & C) (U' & A' & B' & C').
  destruct (face_of_cases p lf f Hf) as (v & _ & _ & _ & Hv & _). pose proof (face_height p lf f v Hf Hv Hp) as Hh. specialize (C v Hv). specialize (C' v Hv).
  set (w := subR v (t0 f)) in *. set (al := dotR n w) in *. set (be := dotR n' w) in *.
  assert (LC : forall k x y u, dotR (subR (scaleR k x) y) u = k * dotR x u - dotR y u) by (intros; unfold dotR, subR, scaleR; cbn [t0 t1 t2]; ring).
  assert (Z : subR (scaleR (be / al) n) n' = zeroR).
  { apply (lin3 (subR (t1 f) (t0 f)) (subR (t2 f) (t0 f)) w).
    - rewrite LC, A, A'. ring. - rewrite LC, B, B'. ring.
    - rewrite LC. fold al be. field. lra.
    - exact Hh. }
  assert (E : n' = scaleR (be / al) n).
  { destruct n as [x y z], n' as [x' y' z']. unfold subR, scaleR, zeroR in *. cbn [t0 t1 t2] in *. injection Z as Z1 Z2 Z3. f_equal; lra. }
  assert (K : (be / al) * (be / al) = 1).
  { rewrite <- U', E. unfold dotR, scaleR. cbn [t0 t1 t2]. unfold dotR in U.
    replace (be / al * t0 n * (be / al * t0 n) + be / al * t1 n * (be / al * t1 n) + be / al * t2 n * (be / al * t2 n))
      with ((be / al) * (be / al) * (t0 n * t0 n + t1 n * t1 n + t2 n * t2 n)) by ring. rewrite U. ring. }
  assert (P : 0 < be / al).
  { replace (be / al) with ((- be) / (- al)) by (field; lra). apply Rdiv_lt_0_compat; lra. }
  assert (be / al = 1). { set (k := be / al) in *. assert ((k - 1) * (k + 1) = 0) by lra. apply Rmult_integral in H. lra. }
  rewrite E, H. unfold scaleR. destruct n as [x y z]; cbn [t0 t1 t2]. f_equal; ring.
Qed.

(** Area vector in terms of the canonical face. *)
Lemma area_vector p lf f n t v : vol6 p <> 0 -> face_of p lf f -> getNormal Rops f p = Some n ->
  nth_error (tet_faces p) lf = Some t -> corner p lf = Some v ->
  scaleR (getTriangleArea Rops f) n = scaleR (- (Rabs (vol6 p) / vol6 p) * fsign lf / 2) (faceCross t).
Proof.
  intros Hp Hf Hn Ht Hv. destruct (normal_face p lf f Hp Hf) as (n' & v' & Hv' & _ & Hh & Hn' & _ & Ar).
  assert (v' = v) by congruence. subst v'. assert (n' = n) by congruence. subst n'. rewrite Ar.
  destruct Hf as (t' & Ht' & S). assert (t' = t) by congruence. subst t'.
  destruct (cross_perm t f S) as (s & Hs & Ec & Eh). rewrite Ec, Eh, (height_canon p lf t v Ht Hv).
  assert (F : fsign lf = 1 \/ fsign lf = -1) by (destruct lf as [|[|[|]]]; cbn; lra).
  enough (K : sgnR (s * (fsign lf * vol6 p)) / 2 * s = - (Rabs (vol6 p) / vol6 p) * fsign lf / 2).
  { rewrite <- K. unfold scaleR. cbn [t0 t1 t2]. f_equal; ring. }
  unfold sgnR, Rabs. destruct (Rcase_abs (vol6 p)) as [G|G].
  - replace (- (- vol6 p / vol6 p)) with 1 by (field; auto).
    destruct Hs as [-> | ->]; destruct F as [-> | ->]; destruct (Rgt_dec _ _); lra.
  - replace (vol6 p / vol6 p) with 1 by (field; auto).
    destruct Hs as [-> | ->]; destruct F as [-> | ->]; destruct (Rgt_dec _ _); lra.
Qed.
Lemma closed_surface p fs ns : vol6 p <> 0 ->
  (forall lf, (lf < 4)%nat -> face_of p lf (fs lf) /\ getNormal Rops (fs lf) p = Some (ns lf)) ->
  let a lf := scaleR (getTriangleArea Rops (fs lf)) (ns lf) in
  addR (addR (a 0%nat) (a 1%nat)) (addR (a 2%nat) (a 3%nat)) = zeroR.
Proof.
  intros Hp H a. unfold a.
  assert (K : forall lf t v, (lf < 4)%nat -> nth_error (tet_faces p) lf = Some t -> corner p lf = Some v ->
     scaleR (getTriangleArea Rops (fs lf)) (ns lf) = scaleR (- (Rabs (vol6 p) / vol6 p) * fsign lf / 2) (faceCross t)).
  { intros lf t v L Ht Hv. destruct (H lf L) as (A & B). eapply area_vector; eauto. }
  destruct p as [a0 b0 c0 d0].
  rewrite (K 0%nat _ _ ltac:(lia) eq_refl eq_refl), (K 1%nat _ _ ltac:(lia) eq_refl eq_refl), (K 2%nat _ _ ltac:(lia) eq_refl eq_refl), (K 3%nat _ _ ltac:(lia) eq_refl eq_refl).
  cbn [r0 r1 r2 r3 fsign]. set (k := Rabs _ / _). destruct a0 as [ax ay az], b0 as [bx by_ bz], c0 as [cx cy cz], d0 as [dx dy dz].
  unfold addR, scaleR, faceCross, crossR, getCrossProduct, subR, zeroR. cbn [t0 t1 t2 Rops asub amul]. f_equal; field.
Qed.

(** Two tetrahedra on opposite sides of a face. *)
Lemma opposite_normals f p q v w : vertIndex Rops f p = Some v -> vertIndex Rops f q = Some w -> height f v * height f w < 0 ->
  exists n, getNormal Rops f p = Some n /\ getNormal Rops f q = Some (oppR n).
Proof.
  intros Ev Ew Hneg. assert (H1 : height f v <> 0) by (intros E; rewrite E in Hneg; lra). assert (H2 : height f w <> 0) by (intros E; rewrite E in Hneg; lra).
  destruct (normal_eq f p v Ev H1) as (Hs & En). destruct (normal_eq f q w Ew H2) as (_ & Em). eexists. split; [exact En|]. rewrite Em. f_equal.
  assert (sgnR (height f w) = - sgnR (height f v)).
  { unfold sgnR. destruct (Rgt_dec (height f v) 0), (Rgt_dec (height f w) 0); try lra.
    - exfalso. assert (0 < height f v * height f w) by (apply Rmult_lt_0_compat; lra). lra.
    - exfalso. assert (0 < (- height f v) * (- height f w)) by (apply Rmult_lt_0_compat; lra). lra. }
  rewrite H. unfold scaleR, oppR. cbn [t0 t1 t2]. f_equal; field; lra.
Qed.

(** ** Two tetrahedra sharing a face without overlapping lie on opposite sides of it. *)
Lemma inside_perm3 a b c a' b' c' v x : Permutation [a;b;c] [a';b';c'] -> strictly_inside (Q4 a b c v) x -> strictly_inside (Q4 a' b' c' v) x.
Proof.
  intros K (p & q & r & s & (H1 & H2 & H3 & H4 & E) & X). apply perm3 in K.
  destruct K as [K|[K|[K|[K|[K|K]]]]]; injection K as -> -> ->;
  [exists p, q, r, s|exists p, r, q, s|exists q, p, r, s|exists q, r, p, s|exists r, p, q, s|exists r, q, p, s];
  (split; [lra|]); rewrite X; unfold bary; cbn [r0 r1 r2 r3]; f_equal; ring.
Qed.
Lemma inside_face p lf t v x : nth_error (tet_faces p) lf = Some t -> corner p lf = Some v ->
  strictly_inside (Q4 (t0 t) (t1 t) (t2 t) v) x -> strictly_inside p x.
Proof.
  destruct p as [a b c d]. unfold tet_faces, corner, q4l. cbn [r0 r1 r2 r3].
  intros Ht Hv (p & q & r & s & (H1 & H2 & H3 & H4 & E) & X).
  destruct lf as [|[|[|[|lf]]]]; cbn [nth_error] in *; [| | | |destruct lf; discriminate]; apply Some_inj in Ht, Hv; subst t v; cbn [t0 t1 t2] in X;
  [exists s, p, q, r|exists p, s, q, r|exists p, q, s, r|exists p, q, r, s]; (split; [lra|]); rewrite X; unfold bary; cbn [r0 r1 r2 r3]; f_equal; ring.
Qed.
Lemma inside_of_face p lf f v x : face_of p lf f -> corner p lf = Some v -> strictly_inside (Q4 (t0 f) (t1 f) (t2 f) v) x -> strictly_inside p x.
Proof.
  intros (t & Ht & S) Hv H. eapply inside_face; eauto. destruct t as [a b c], f as [a' b' c']. cbn [t0 t1 t2] in *.
  unfold same_tri, q3l in S. cbn [t0 t1 t2] in S. eapply inside_perm3; [exact (Permutation_sym S)|exact H].
Qed.
Lemma height_vol f v : height f v = vol6 (Q4 (t0 f) (t1 f) (t2 f) v).
Proof.
  destruct f as [[ax ay az] [bx by_ bz] [cx cy cz]], v as [dx dy dz]. unfold height, faceCross, crossR, getCrossProduct, dotR, subR.
  cbn [t0 t1 t2 Rops asub amul vol6]. ring.
Qed.
Lemma bary_exists a b c w v : vol6 (Q4 a b c w) <> 0 ->
  exists al be ga, v = bary (Q4 a b c w) al be ga (vol6 (Q4 a b c v) / vol6 (Q4 a b c w)) /\
    al + be + ga + vol6 (Q4 a b c v) / vol6 (Q4 a b c w) = 1.
Proof.
  intros H. exists (vol6 (Q4 v b c w) / vol6 (Q4 a b c w)), (vol6 (Q4 a v c w) / vol6 (Q4 a b c w)), (vol6 (Q4 a b v w) / vol6 (Q4 a b c w)).
  destruct a as [ax ay az], b as [bx by_ bz], c as [cx cy cz], w as [dx dy dz], v as [x y z]. unfold bary. cbn [r0 r1 r2 r3 t0 t1 t2].
  cbn [vol6] in *. split; [f_equal; field; exact H|field; exact H].
Qed.
Lemma small_pos al e : 0 < e -> e * (1 + 3 * Rabs al) < 1 -> 0 < (1 - e) / 3 + e * al.
Proof.
  intros He H. assert (- Rabs al <= al) by (unfold Rabs; destruct (Rcase_abs al); lra).
  assert (e * (- Rabs al) <= e * al) by (apply Rmult_le_compat_l; lra). lra.
Qed.
Lemma same_side_overlap p q lf lg f v w : face_of p lf f -> face_of q lg f -> corner p lf = Some v -> corner q lg = Some w ->
  0 < height f v * height f w -> exists x, strictly_inside p x /\ strictly_inside q x.
Proof.
  intros Fp Fq Cv Cw Hs. assert (Hw : height f w <> 0) by (intros E; rewrite E in Hs; lra).
  rewrite (height_vol f w) in Hw. destruct (bary_exists (t0 f) (t1 f) (t2 f) w v Hw) as (al & be & ga & Ev & Es).
  rewrite !height_vol in Hs. set (V := vol6 (Q4 (t0 f) (t1 f) (t2 f) w)) in *. set (U := vol6 (Q4 (t0 f) (t1 f) (t2 f) v)) in *.
  set (de := U / V) in *.
  assert (Hd : 0 < de). { replace de with (U * V * (/ V * / V)) by (unfold de; field; auto). apply Rmult_lt_0_compat; auto.
    rewrite <- Rinv_mult. apply Rinv_0_lt_compat. destruct (Rdichotomy _ _ Hw); [replace (V * V) with ((-V)*(-V)) by ring|]; apply Rmult_lt_0_compat; lra. }
  set (M := 2 + 3 * (Rabs al + Rabs be + Rabs ga)).
  pose proof (Rabs_pos al). pose proof (Rabs_pos be). pose proof (Rabs_pos ga).
  assert (HM : 2 <= M) by (unfold M; lra). set (e := / M).
  assert (He : 0 < e) by (apply Rinv_0_lt_compat; lra).
  assert (EM : e * M = 1) by (unfold e; field; lra).
  assert (He1 : e < 1). { assert (e * 2 <= e * M) by (apply Rmult_le_compat_l; lra). lra. }
  assert (B : forall y, 0 <= y -> y <= Rabs al + Rabs be + Rabs ga -> e * (1 + 3 * y) < 1).
  { intros y Hy Ly. assert (e * (1 + 3 * y) < e * M) by (apply Rmult_lt_compat_l; auto; unfold M; lra). lra. }
  exists (bary (Q4 (t0 f) (t1 f) (t2 f) v) ((1-e)/3) ((1-e)/3) ((1-e)/3) e). split.
  - eapply (inside_of_face p lf f v); eauto. exists ((1-e)/3), ((1-e)/3), ((1-e)/3), e. split; [lra|reflexivity].
  - eapply (inside_of_face q lg f w); eauto. exists ((1-e)/3 + e * al), ((1-e)/3 + e * be), ((1-e)/3 + e * ga), (e * de). split.
    + split; [apply small_pos; auto; apply B; lra|]. split; [apply small_pos; auto; apply B; lra|].
      split; [apply small_pos; auto; apply B; lra|]. split; [now apply Rmult_lt_0_compat|].
      replace ((1 - e) / 3 + e * al + ((1 - e) / 3 + e * be) + ((1 - e) / 3 + e * ga) + e * de) with (1 - e + e * (al + be + ga + de)) by field.
      rewrite Es. ring.
    + rewrite Ev at 1. unfold bary. cbn [r0 r1 r2 r3 t0 t1 t2]. f_equal; ring.
Qed.
Lemma no_overlap_sides p q lf lg f v w : vol6 p <> 0 -> vol6 q <> 0 -> face_of p lf f -> face_of q lg f -> corner p lf = Some v -> corner q lg = Some w ->
  (forall x, strictly_inside p x -> strictly_inside q x -> False) -> height f v * height f w < 0.
Proof.
  intros Hp Hq Fp Fq Cv Cw NO. pose proof (face_height p lf f v Fp Cv Hp) as H1. pose proof (face_height q lg f w Fq Cw Hq) as H2.
  destruct (Rtotal_order (height f v * height f w) 0) as [L|[E|G]]; auto.
  - exfalso. apply Rmult_integral in E. tauto.
  - exfalso. destruct (same_side_overlap p q lf lg f v w Fp Fq Cv Cw G) as (x & A & B). eauto.
Qed.
Lemma face_corner p lf f : face_of p lf f -> exists v, corner p lf = Some v.
Proof. intros H. destruct (face_of_cases p lf f H) as (v & _ & _ & _ & Hv & _). eauto. Qed.

Lemma shared_face p q lf lg f : vol6 p <> 0 -> vol6 q <> 0 -> face_of p lf f -> face_of q lg f ->
  (forall x, strictly_inside p x -> strictly_inside q x -> False) ->
  exists n, getNormal Rops f p = Some n /\ getNormal Rops f q = Some (oppR n) /\ outward_unit_normal p lf f n.
Proof.
  intros Hp Hq Fp Fq NO. destruct (normal_face p lf f Hp Fp) as (n & v & Cv & Ev & _ & En & Ou & _). destruct (normal_face q lg f Hq Fq) as (m & w & Cw & Ew & _).
  pose proof (no_overlap_sides p q lf lg f v w Hp Hq Fp Fq Cv Cw NO) as Neg.
  destruct (opposite_normals f p q v w Ev Ew Neg) as (n' & E1 & E2). assert (n' = n) by congruence. subst n'. eauto.
Qed.

(** The two cells may list the corners of the face in different orders. *)
Lemma outward_perm p lf f g n : same_tri f g -> outward_unit_normal p lf f n -> outward_unit_normal p lf g n.
Proof.
  intros S (U & A & B & C). destruct f as [a b c], g as [a' b' c']. unfold same_tri, q3l in S. cbn [t0 t1 t2] in *. apply perm3 in S.
  destruct n as [x y z], a as [a1 a2 a3], b as [b1 b2 b3], c as [c1 c2 c3]. unfold dotR, subR in *. cbn [t0 t1 t2] in *.
  destruct S as [S|[S|[S|[S|[S|S]]]]]; injection S as -> -> ->; unfold outward_unit_normal, dotR, subR; cbn [t0 t1 t2];
  (split; [exact U|split; [lra|split; [lra|]]]); intros v Hv; specialize (C v Hv); lra.
Qed.
Lemma face_of_perm p lf f g : same_tri f g -> face_of p lf f -> face_of p lf g.
Proof. intros S (t & Ht & K). exists t. split; auto. unfold same_tri in *. now rewrite K. Qed.
Lemma normal_perm p lf f g : vol6 p <> 0 -> face_of p lf f -> same_tri f g -> getNormal Rops f p = getNormal Rops g p.
Proof.
  intros Hp Hf S. destruct (normal_face p lf f Hp Hf) as (n & _ & _ & _ & _ & -> & O & _).
  destruct (normal_face p lf g Hp (face_of_perm p lf f g S Hf)) as (m & _ & _ & _ & _ & -> & O' & _). f_equal.
  apply (normal_unique p lf g); auto. - eapply face_of_perm; eauto. - eapply outward_perm; eauto.
Qed.
Lemma shared_faces p q lf lg f g : vol6 p <> 0 -> vol6 q <> 0 -> face_of p lf f -> face_of q lg g -> same_tri f g ->
  (forall x, strictly_inside p x -> strictly_inside q x -> False) ->
  exists n, getNormal Rops f p = Some n /\ getNormal Rops g q = Some (oppR n) /\ outward_unit_normal p lf f n.
Proof.
  intros Hp Hq Fp Fq S NO. assert (Fq' : face_of q lg f) by (eapply face_of_perm; [|exact Fq]; now apply Permutation_sym).
  rewrite <- (normal_perm q lg f g Hq Fq' S). now apply (shared_face p q lf lg).
Qed.
Lemma flow p q lf lg f g om : vol6 p <> 0 -> vol6 q <> 0 -> face_of p lf f -> face_of q lg g -> same_tri f g ->
  (forall x, strictly_inside p x -> strictly_inside q x -> False) ->
  exists d b, omegaDotN Rops om f p = Some d /\ omegaDotN Rops om g q = Some (- d) /\
    (d <> 0 -> isOutgoing Rops om f p = Some b /\ isIncoming Rops om f p = Some (negb b) /\
               isOutgoing Rops om g q = Some (negb b) /\ isIncoming Rops om g q = Some b).
Proof.
  intros Hp Hq Fp Fq S NO. destruct (shared_faces p q lf lg f g Hp Hq Fp Fq S NO) as (n & E1 & E2 & _).
  assert (D1 : omegaDotN Rops om f p = Some (dotR om n)) by (unfold omegaDotN; now rewrite E1).
  assert (D2 : omegaDotN Rops om g q = Some (- dotR om n)).
  { unfold omegaDotN. rewrite E2. change (Some (vdot Rops om (oppR n)) = Some (- dotR om n)). f_equal. unfold vdot, dotR, oppR; cbn [t0 t1 t2 Rops aadd amul]; ring. }
  unfold isIncoming, isOutgoing. rewrite D1, D2. exists (dotR om n), (if Rgt_dec (dotR om n) 0 then true else false).
  split; [reflexivity|]. split; [reflexivity|]. intros Hd. cbn [agt Rops azero option_map obind].
  destruct (Rgt_dec (dotR om n) 0), (Rgt_dec (- dotR om n) 0); cbn [negb]; auto; exfalso; lra.
Qed.
Lemma grazing p q lf lg f g om d : vol6 p <> 0 -> vol6 q <> 0 -> face_of p lf f -> face_of q lg g -> same_tri f g ->
  (forall x, strictly_inside p x -> strictly_inside q x -> False) ->
  omegaDotN Rops om f p = Some d -> d = 0 -> isIncoming Rops om f p = Some true /\ isIncoming Rops om g q = Some true.
Proof.
  intros Hp Hq Fp Fq S NO E Z. destruct (flow p q lf lg f g om Hp Hq Fp Fq S NO) as (d' & _ & E1 & E2 & _).
  assert (d' = d) by congruence. subst d' d. unfold isIncoming, isOutgoing. rewrite E1, E2. cbn [option_map agt Rops azero obind].
  destruct (Rgt_dec 0 0), (Rgt_dec (-0) 0); cbn [negb]; auto; exfalso; lra.
Qed.
