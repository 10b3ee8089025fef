From Coq Require Import Reals Lra Permutation.
From Verif Require Import Prelude Bytes MeshModel MeshSpec RefineModel RefineSpec.

(** Closed form of refineTet for each of the three diagonals. *)
Section Tet.
  Context {T : Type} (mid : T -> T -> T) (ltb : T -> T -> bool) (dist : q3 T -> q3 T -> T) (dmax : T).
  Notation M := (midPt mid).
  Definition inner (k : nat) (t : q4 (q3 T)) : list (q3 T) :=
    match t with Q4 a b c d =>
    match k with
    | 0 => [M c d; M c d; M a b; M a b]
    | 1 => [M b d; M a c; M b d; M a c]
    | _ => [M b c; M a d; M a d; M b c]
    end end.
  Definition corners (t : q4 (q3 T)) : list (q4 (q3 T)) :=
    match t with Q4 a b c d =>
      [Q4 a (M a b) (M a c) (M a d); Q4 b (M a b) (M b c) (M b d);
       Q4 c (M a c) (M b c) (M c d); Q4 d (M a d) (M b d) (M c d)] end.
  Definition octa (k : nat) (t : q4 (q3 T)) : list (q4 (q3 T)) :=
    match t, inner k t with
    | Q4 a b c d, [i0; i1; i2; i3] =>
      [Q4 i0 (M a b) (M a c) (M a d); Q4 i1 (M a b) (M b c) (M b d);
       Q4 i2 (M a c) (M b c) (M c d); Q4 i3 (M a d) (M b d) (M c d)]
    | _, _ => []
    end.
  Definition pick (opp : list (q3 T * q3 T)) : nat :=
    match opp with
    | [(a, a'); (b, b'); (c, c')] =>
      let s0 := if ltb (dist a a') dmax then (0, dist a a') else (0, dmax) in
      let s1 := if ltb (dist b b') (snd s0) then (1, dist b b') else s0 in
      let s2 := if ltb (dist c c') (snd s1) then (2, dist c c') else s1 in fst s2
    | _ => 0
    end.
  Definition opps (t : q4 (q3 T)) := match t with Q4 a b c d =>
    [(M a b, M c d); (M a c, M b d); (M a d, M b c)] end.
  Lemma minIndex_pick a a' b b' c c' :
    minIndexOf ltb dist dmax [(a, a'); (b, b'); (c, c')] = Some (pick [(a, a'); (b, b'); (c, c')]).
  Proof.
    unfold minIndexOf, pick, minStep; cbn.
    destruct (ltb (dist a a') dmax); cbn;
    (match goal with |- context [ltb (dist b b') ?x] => destruct (ltb (dist b b') x) end; cbn;
     match goal with |- context [ltb (dist c c') ?x] => destruct (ltb (dist c c') x) end; reflexivity).
  Qed.
  Lemma pick_lt3 l : pick l < 3.
  Proof.
    unfold pick. destruct l as [|[? ?] [|[? ?] [|[? ?] [|]]]]; try lia.
    cbv zeta.
    repeat match goal with |- context [if ?x then _ else _] => destruct x end; cbn; lia.
  Qed.
  Lemma refineTet_eq t :
    refineTet mid ltb dist dmax t = Some (corners t ++ octa (pick (opps t)) t).
  Proof.
    destruct t as [a b c d]. unfold refineTet. cbn [midNodes mapM seq index1To2 obind q4nth q4l nth_error midNode index2To1 r0 r1 r2 r3].
    unfold midNodes; cbn [midNodes mapM seq index1To2 obind q4nth q4l nth_error midNode index2To1 r0 r1 r2 r3].
    unfold q4nth, midNode; cbn [midNodes mapM seq index1To2 obind q4nth q4l nth_error midNode index2To1 r0 r1 r2 r3].
    rewrite minIndex_pick. cbn [obind opps].
    pose proof (pick_lt3 [(M a b, M c d); (M a c, M b d); (M a d, M b c)]) as H.
    destruct (pick _) as [|[|[|n]]]; [reflexivity..|lia].
  Qed.
End Tet.

(** ** Geometry over the reals *)
Section Geo.
  Local Open Scope R_scope.
  Definition rmid (a b : R) : R := (1/2) * (a + b).
  Notation RT ltb dist dmax := (refineTet rmid ltb dist dmax).

  Lemma refine_volumes ltb dist dmax t ts u : RT ltb dist dmax t = Some ts -> In u ts ->
    Rabs (vol6 u) = Rabs (vol6 t) / 8.
  Proof.
    rewrite refineTet_eq. intros H%Some_inj Hu. subst ts.
    replace (Rabs (vol6 t) / 8) with (Rabs (vol6 t / 8)).
    2:{ unfold Rdiv. rewrite Rabs_mult. rewrite (Rabs_pos_eq (/8)); lra. }
    assert (D : vol6 u = vol6 t / 8 \/ vol6 u = - (vol6 t / 8)).
    { destruct t as [[x0 y0 z0] [x1 y1 z1] [x2 y2 z2] [x3 y3 z3]].
      pose proof (pick_lt3 rmid ltb dist dmax (opps rmid (Q4 (Q3 x0 y0 z0) (Q3 x1 y1 z1) (Q3 x2 y2 z2) (Q3 x3 y3 z3)))) as P.
      destruct (pick _ _ _ _) as [|[|[|n]]]; [..|lia];
      cbn [corners octa inner app In] in Hu;
      (repeat (destruct Hu as [Hu|Hu]; [subst u; cbn [vol6 midPt t0 t1 t2]; unfold rmid;
         first [left; field | right; field]|]); destruct Hu). }
    destruct D as [-> | ->]; auto. apply Rabs_Ropp.
  Qed.

  (** Rewriting a child's barycentric combination over the parent. *)
  Ltac kid_tac k := match k with (?a, ?b, ?c, ?d) => exists a, b, c, d end.

  Lemma bary_eq t a b c d x : x = bary t a b c d ->
    t0 x = a * t0 (r0 t) + b * t0 (r1 t) + c * t0 (r2 t) + d * t0 (r3 t) /\
    t1 x = a * t1 (r0 t) + b * t1 (r1 t) + c * t1 (r2 t) + d * t1 (r3 t) /\
    t2 x = a * t2 (r0 t) + b * t2 (r1 t) + c * t2 (r2 t) + d * t2 (r3 t).
  Proof. intros ->. cbn. auto. Qed.

  (** Parent barycentric coordinates of a child's vertices, in the order of refineTet. *)
  Definition lam : Type := (R * R * R * R)%type.
  Definition lcomb (a : R) (u : lam) (b : R) (v : lam) (c : R) (w : lam) (d : R) (z : lam) : lam :=
    match u, v, w, z with (u0,u1,u2,u3), (v0,v1,v2,v3), (w0,w1,w2,w3), (z0,z1,z2,z3) =>
      (a*u0+b*v0+c*w0+d*z0, a*u1+b*v1+c*w1+d*z1, a*u2+b*v2+c*w2+d*z2, a*u3+b*v3+c*w3+d*z3) end.
  Definition pt (t : q4 (q3 R)) (l : lam) : q3 R := match l with (a,b,c,d) => bary t a b c d end.
  Definition L0 : lam := (1,0,0,0). Definition L1 : lam := (0,1,0,0).
  Definition L2 : lam := (0,0,1,0). Definition L3 : lam := (0,0,0,1).
  Definition h : R := 1/2.
  Definition L01 : lam := (h,h,0,0). Definition L02 : lam := (h,0,h,0). Definition L03 : lam := (h,0,0,h).
  Definition L12 : lam := (0,h,h,0). Definition L13 : lam := (0,h,0,h). Definition L23 : lam := (0,0,h,h).
  Definition cornersL : list (lam*lam*lam*lam) :=
    [(L0,L01,L02,L03); (L1,L01,L12,L13); (L2,L02,L12,L23); (L3,L03,L13,L23)].
  Definition octaL (k : nat) : list (lam*lam*lam*lam) :=
    match k with
    | 0%nat => [(L23,L01,L02,L03); (L23,L01,L12,L13); (L01,L02,L12,L23); (L01,L03,L13,L23)]
    | 1%nat => [(L13,L01,L02,L03); (L02,L01,L12,L13); (L13,L02,L12,L23); (L02,L03,L13,L23)]
    | _ => [(L12,L01,L02,L03); (L03,L01,L12,L13); (L03,L02,L12,L23); (L12,L03,L13,L23)]
    end.
  Definition tetL (t : q4 (q3 R)) (q : lam*lam*lam*lam) : q4 (q3 R) :=
    match q with (a,b,c,d) => Q4 (pt t a) (pt t b) (pt t c) (pt t d) end.

  Lemma q3_eq {A} (x y : q3 A) : t0 x = t0 y -> t1 x = t1 y -> t2 x = t2 y -> x = y.
  Proof. destruct x, y; cbn; intros; subst; auto. Qed.
  Lemma q4_eq {A} (x y : q4 A) : r0 x = r0 y -> r1 x = r1 y -> r2 x = r2 y -> r3 x = r3 y -> x = y.
  Proof. destruct x, y; cbn; intros; subst; auto. Qed.

  Lemma refine_labels ltb dist dmax t : exists k, (k < 3)%nat /\
    RT ltb dist dmax t = Some (map (tetL t) (cornersL ++ octaL k)).
  Proof.
    rewrite refineTet_eq.
    exists (pick ltb dist dmax (opps rmid t)).
    pose proof (pick_lt3 rmid ltb dist dmax (opps rmid t)) as P. split; auto. f_equal.
    destruct t as [[x0 y0 z0] [x1 y1 z1] [x2 y2 z2] [x3 y3 z3]].
    destruct (pick _ _ _ _) as [|[|[|n]]]; [..|lia];
      cbn [corners octa inner app map cornersL octaL tetL];
      repeat (apply f_equal2; [apply q4_eq; apply q3_eq; cbn; unfold rmid, h; field|]); reflexivity.
  Qed.

  Lemma inside_child t q a b c d : bary (tetL t q) a b c d =
    pt t (match q with (u,v,w,z) => lcomb a u b v c w d z end).
  Proof.
    destruct q as [[[u v] w] z]. destruct u as [[[? ?] ?] ?], v as [[[? ?] ?] ?], w as [[[? ?] ?] ?], z as [[[? ?] ?] ?].
    destruct t as [[x0 y0 z0] [x1 y1 z1] [x2 y2 z2] [x3 y3 z3]].
    apply q3_eq; cbn; ring.
  Qed.

  Lemma find_kid t qs a b c d : (exists q k0 k1 k2 k3, In q qs /\
      (0 <= k0 /\ 0 <= k1 /\ 0 <= k2 /\ 0 <= k3 /\ k0 + k1 + k2 + k3 = 1) /\
      (a,b,c,d) = match q with (u,v,w,z) => lcomb k0 u k1 v k2 w k3 z end) ->
    exists u, In u (map (tetL t) qs) /\ inside u (bary t a b c d).
  Proof.
    intros (q & k0 & k1 & k2 & k3 & Hq & Hk & E). exists (tetL t q). split; [apply in_map; auto|].
    exists k0, k1, k2, k3. split; auto. rewrite inside_child. destruct q as [[[u v] w] z]. now rewrite <- E.
  Qed.

  Ltac kid q k0 k1 k2 k3 :=
    apply find_kid; exists q, k0, k1, k2, k3; split; [cbn; tauto|split; [repeat split; lra|]];
    unfold L0, L1, L2, L3, L01, L02, L03, L12, L13, L23, h; cbn;
    repeat apply f_equal2; try lra; repeat apply f_equal2; lra.

  Lemma refine_covers ltb dist dmax t ts x : RT ltb dist dmax t = Some ts ->
    inside t x -> exists u, In u ts /\ inside u x.
  Proof.
    intros E. destruct (refine_labels ltb dist dmax t) as (k & Hk & E'). rewrite E in E'.
    apply Some_inj in E'. subst ts. clear E.
    intros (a & b & c & d & (Ha & Hb & Hc & Hd & S) & ->).
    destruct (Rle_dec (1/2) a). { kid (L0,L01,L02,L03) (2*a-1) (2*b) (2*c) (2*d). }
    destruct (Rle_dec (1/2) b). { kid (L1,L01,L12,L13) (2*b-1) (2*a) (2*c) (2*d). }
    destruct (Rle_dec (1/2) c). { kid (L2,L02,L12,L23) (2*c-1) (2*a) (2*b) (2*d). }
    destruct (Rle_dec (1/2) d). { kid (L3,L03,L13,L23) (2*d-1) (2*a) (2*b) (2*c). }
    destruct k as [|[|[|k]]]; [| | |lia].
    - destruct (Rle_dec (1/2) (a+c)), (Rle_dec (1/2) (a+d)).
      + kid (L23,L01,L02,L03) (1-2*a) (2*b) (2*c+2*a-1) (2*d+2*a-1).
      + kid (L01,L02,L12,L23) (1-2*c) (2*a+2*c-1) (2*b+2*c-1) (2*d).
      + kid (L01,L03,L13,L23) (1-2*d) (2*a+2*d-1) (2*b+2*d-1) (2*c).
      + kid (L23,L01,L12,L13) (1-2*b) (2*a) (2*b+2*c-1) (2*b+2*d-1).
    - destruct (Rle_dec (1/2) (a+b)), (Rle_dec (1/2) (a+d)).
      + kid (L13,L01,L02,L03) (1-2*a) (2*a+2*b-1) (2*c) (2*d+2*a-1).
      + kid (L02,L01,L12,L13) (1-2*b) (2*a+2*b-1) (2*b+2*c-1) (2*d).
      + kid (L02,L03,L13,L23) (1-2*d) (2*a+2*d-1) (2*b) (2*c+2*d-1).
      + kid (L13,L02,L12,L23) (1-2*c) (2*a) (2*b+2*c-1) (2*d+2*c-1).
    - destruct (Rle_dec (1/2) (a+b)), (Rle_dec (1/2) (a+c)).
      + kid (L12,L01,L02,L03) (1-2*a) (2*a+2*b-1) (2*a+2*c-1) (2*d).
      + kid (L03,L01,L12,L13) (1-2*b) (2*a+2*b-1) (2*c) (2*b+2*d-1).
      + kid (L03,L02,L12,L23) (1-2*c) (2*a+2*c-1) (2*b) (2*d+2*c-1).
      + kid (L12,L03,L13,L23) (1-2*d) (2*a) (2*d+2*b-1) (2*c+2*d-1).
  Qed.

  Lemma refine_within ltb dist dmax t ts u x : RT ltb dist dmax t = Some ts -> In u ts ->
    inside u x -> inside t x.
  Proof.
    intros E. destruct (refine_labels ltb dist dmax t) as (k & Hk & E'). rewrite E in E'.
    apply Some_inj in E'. subst ts. clear E.
    rewrite in_map_iff. intros (q & <- & Hq) (a & b & c & d & (Ha & Hb & Hc & Hd & S) & ->).
    rewrite inside_child.
    destruct k as [|[|[|k]]]; [| | |lia]; cbn [cornersL octaL app In] in Hq;
    repeat (destruct Hq as [<-|Hq]; [
      unfold L0, L1, L2, L3, L01, L02, L03, L12, L13, L23, h; cbn [lcomb pt];
      do 4 eexists; split; [|reflexivity]; repeat split; lra|]); destruct Hq.
  Qed.

  (** Barycentric coordinates are unique in a non-degenerate tetrahedron. *)
  Lemma bary_unique t a b c d a' b' c' d' : vol6 t <> 0 -> a+b+c+d = 1 -> a'+b'+c'+d' = 1 ->
    bary t a b c d = bary t a' b' c' d' -> (a,b,c,d) = (a',b',c',d').
  Proof.
    intros V S S' E.
    destruct t as [[x0 y0 z0] [x1 y1 z1] [x2 y2 z2] [x3 y3 z3]].
    unfold bary in E; cbn in E. injection E as E0 E1 E2.
    set (p := b - b'). set (q := c - c'). set (r := d - d').
    assert (a = 1 - b - c - d) by lra. assert (a' = 1 - b' - c' - d') by lra. subst a a'. clear S S'.
    assert (X : p*(x1-x0) + q*(x2-x0) + r*(x3-x0) = 0) by (unfold p, q, r; lra).
    assert (Y : p*(y1-y0) + q*(y2-y0) + r*(y3-y0) = 0) by (unfold p, q, r; lra).
    assert (Z : p*(z1-z0) + q*(z2-z0) + r*(z3-z0) = 0) by (unfold p, q, r; lra).
    cbn in V.
    assert (P0 : p * vol6 (Q4 (Q3 x0 y0 z0) (Q3 x1 y1 z1) (Q3 x2 y2 z2) (Q3 x3 y3 z3)) = 0).
    { cbn. transitivity ((p*(x1-x0) + q*(x2-x0) + r*(x3-x0)) * ((y2-y0)*(z3-z0) - (y3-y0)*(z2-z0))
        - (p*(y1-y0) + q*(y2-y0) + r*(y3-y0)) * ((x2-x0)*(z3-z0) - (x3-x0)*(z2-z0))
        + (p*(z1-z0) + q*(z2-z0) + r*(z3-z0)) * ((x2-x0)*(y3-y0) - (x3-x0)*(y2-y0))). ring.
      rewrite X, Y, Z. ring. }
    assert (Q0 : q * vol6 (Q4 (Q3 x0 y0 z0) (Q3 x1 y1 z1) (Q3 x2 y2 z2) (Q3 x3 y3 z3)) = 0).
    { cbn. transitivity (- (p*(x1-x0) + q*(x2-x0) + r*(x3-x0)) * ((y1-y0)*(z3-z0) - (y3-y0)*(z1-z0))
        + (p*(y1-y0) + q*(y2-y0) + r*(y3-y0)) * ((x1-x0)*(z3-z0) - (x3-x0)*(z1-z0))
        - (p*(z1-z0) + q*(z2-z0) + r*(z3-z0)) * ((x1-x0)*(y3-y0) - (x3-x0)*(y1-y0))). ring.
      rewrite X, Y, Z. ring. }
    assert (R0 : r * vol6 (Q4 (Q3 x0 y0 z0) (Q3 x1 y1 z1) (Q3 x2 y2 z2) (Q3 x3 y3 z3)) = 0).
    { cbn. transitivity ((p*(x1-x0) + q*(x2-x0) + r*(x3-x0)) * ((y1-y0)*(z2-z0) - (y2-y0)*(z1-z0))
        - (p*(y1-y0) + q*(y2-y0) + r*(y3-y0)) * ((x1-x0)*(z2-z0) - (x2-x0)*(z1-z0))
        + (p*(z1-z0) + q*(z2-z0) + r*(z3-z0)) * ((x1-x0)*(y2-y0) - (x2-x0)*(y1-y0))). ring.
      rewrite X, Y, Z. ring. }
    assert (p = 0 /\ q = 0 /\ r = 0) as (Pz & Qz & Rz).
    { repeat split;
      match goal with |- ?v = 0 => match goal with H : v * _ = 0 |- _ => apply Rmult_integral in H; destruct H as [H|H]; auto; cbn in H; contradiction end end. }
    unfold p, q, r in *. assert (b = b') by lra. assert (c = c') by lra. assert (d = d') by lra.
    congruence.
  Qed.

  (** Children do not overlap. *)
  Lemma refine_disjoint ltb dist dmax t ts i j u v x : vol6 t <> 0 -> RT ltb dist dmax t = Some ts ->
    nth_error ts i = Some u -> nth_error ts j = Some v ->
    strictly_inside u x -> strictly_inside v x -> i = j.
  Proof.
    intros V E. destruct (refine_labels ltb dist dmax t) as (k & Hk & E'). rewrite E in E'.
    apply Some_inj in E'. subst ts. clear E.
    intros Hi Hj (a & b & c & d & (Ha & Hb & Hc & Hd & S) & Ex) (a' & b' & c' & d' & (Ha' & Hb' & Hc' & Hd' & S') & Ex').
    destruct k as [|[|[|k]]]; [| | |lia];
    (destruct i as [|[|[|[|[|[|[|[|i]]]]]]]]; [..|destruct i; discriminate]);
    (destruct j as [|[|[|[|[|[|[|[|j]]]]]]]]; [..|destruct j; discriminate]);
    try reflexivity; exfalso;
    cbn [cornersL octaL app map nth_error] in Hi, Hj; apply Some_inj in Hi, Hj; subst u v;
    rewrite inside_child in Ex, Ex'; rewrite Ex in Ex'; clear Ex;
    unfold L0, L1, L2, L3, L01, L02, L03, L12, L13, L23, h in Ex'; cbn [lcomb pt] in Ex';
    apply bary_unique in Ex'; auto; try lra; injection Ex' as X0 X1 X2 X3; lra.
  Qed.
End Geo.

(** ** Faces of the children *)
Lemma same_tri_map {A B} (f : A -> B) a b : same_tri a b ->
  same_tri (Q3 (f (t0 a)) (f (t1 a)) (f (t2 a))) (Q3 (f (t0 b)) (f (t1 b)) (f (t2 b))).
Proof. unfold same_tri; cbn. intros H. apply (Permutation_map f) in H. exact H. Qed.
Definition q3map {A B} (f : A -> B) (a : q3 A) : q3 B := Q3 (f (t0 a)) (f (t1 a)) (f (t2 a)).
Definition q4map {A B} (f : A -> B) (a : q4 A) : q4 B := Q4 (f (r0 a)) (f (r1 a)) (f (r2 a)) (f (r3 a)).
Lemma same_tris_map {A B} (f : A -> B) l m : same_tris l m -> same_tris (map (q3map f) l) (map (q3map f) m).
Proof.
  intros (l' & P & F). exists (map (q3map f) l'). split; [now apply Permutation_map|].
  clear P. induction F; cbn; constructor; auto. now apply same_tri_map.
Qed.
Lemma tet_faces_map {A B} (f : A -> B) t : tet_faces (q4map f t) = map (q3map f) (tet_faces t).
Proof. reflexivity. Qed.

Definition tri_perms (a : q3 nat) : list (list nat) :=
  match a with Q3 x y z => [[x;y;z];[x;z;y];[y;x;z];[y;z;x];[z;x;y];[z;y;x]] end.
Definition tri_eqb (a b : q3 nat) : bool :=
  existsb (fun l => if list_eq_dec Nat.eq_dec l (q3l b) then true else false) (tri_perms a).
Lemma tri_eqb_ok a b : tri_eqb a b = true -> same_tri a b.
Proof.
  unfold tri_eqb. rewrite existsb_exists. intros (l & Hl & E).
  destruct (list_eq_dec _ _ _) as [->|]; [|discriminate]. unfold same_tri.
  destruct a as [x y z]; cbn in *.
  destruct Hl as [<-|[<-|[<-|[<-|[<-|[<-|[]]]]]]].
  - reflexivity.
  - apply perm_skip, perm_swap.
  - apply perm_swap.
  - eapply perm_trans; [apply perm_swap|]. apply perm_skip, perm_swap.
  - eapply perm_trans; [apply perm_skip, perm_swap|]. apply perm_swap.
  - eapply perm_trans; [apply perm_swap|]. eapply perm_trans; [apply perm_skip, perm_swap|]. apply perm_swap.
Qed.
Fixpoint take_tri (a : q3 nat) (l : list (q3 nat)) : option (q3 nat * list (q3 nat)) :=
  match l with
  | [] => None
  | b :: r => if tri_eqb b a then Some (b, r) else
      match take_tri a r with Some (c, r') => Some (c, b :: r') | None => None end
  end.
Fixpoint check_tris (l m : list (q3 nat)) : bool :=
  match m with
  | [] => match l with [] => true | _ => false end
  | a :: r => match take_tri a l with Some (_, l') => check_tris l' r | None => false end
  end.
Lemma take_tri_ok a l b r : take_tri a l = Some (b, r) -> Permutation l (b :: r) /\ same_tri b a.
Proof.
  revert r; induction l as [|x l IH]; cbn; intros r H; [discriminate|].
  destruct (tri_eqb x a) eqn:E.
  - inversion H; subst. split; auto. now apply tri_eqb_ok.
  - destruct (take_tri a l) as [[c r']|]; [|discriminate]. inversion H; subst.
    destruct (IH r' eq_refl). split; auto. eapply perm_trans; [apply perm_skip; eassumption|]. apply perm_swap.
Qed.
Lemma check_tris_ok m : forall l, check_tris l m = true -> same_tris l m.
Proof.
  induction m as [|a r IH]; cbn; intros l H.
  - destruct l; [|discriminate]. exists []. split; constructor.
  - destruct (take_tri a l) as [[b l']|] eqn:E; [|discriminate].
    apply take_tri_ok in E. destruct E as [P S]. apply IH in H. destruct H as (l'' & P' & F).
    exists (b :: l''). split; [|now constructor].
    eapply perm_trans; [exact P|]. now apply perm_skip.
Qed.

(** Labels: 0..3 the corners, 4..9 the midpoints of edges 01 02 03 12 13 23. *)
Definition hl (i j : nat) : nat :=
  match i, j with 0, 1 => 4 | 0, 2 => 5 | 0, 3 => 6 | 1, 2 => 7 | 1, 3 => 8 | 2, 3 => 9 | _, _ => 10 end.
Definition cornersN : list (q4 nat) := [Q4 0 4 5 6; Q4 1 4 7 8; Q4 2 5 7 9; Q4 3 6 8 9].
Definition octaN (k : nat) : list (q4 nat) :=
  match k with
  | 0 => [Q4 9 4 5 6; Q4 9 4 7 8; Q4 4 5 7 9; Q4 4 6 8 9]
  | 1 => [Q4 8 4 5 6; Q4 5 4 7 8; Q4 8 5 7 9; Q4 5 6 8 9]
  | _ => [Q4 7 4 5 6; Q4 6 4 7 8; Q4 6 5 7 9; Q4 7 6 8 9]
  end.
Definition innerN (k : nat) : list (q3 nat) :=
  [Q3 4 5 6; Q3 4 7 8; Q3 5 7 9; Q3 6 8 9] ++
  match k with
  | 0 => [Q3 4 9 5; Q3 4 9 6; Q3 4 9 7; Q3 4 9 8]
  | 1 => [Q3 5 8 4; Q3 5 8 6; Q3 5 8 7; Q3 5 8 9]
  | _ => [Q3 6 7 4; Q3 6 7 5; Q3 6 7 8; Q3 6 7 9]
  end.
Lemma conform_labels k : k < 3 ->
  same_tris (flat_map tet_faces (cornersN ++ octaN k))
            (flat_map (quarter_tri hl) (tet_faces (Q4 0 1 2 3)) ++ innerN k ++ innerN k).
Proof. intros H. apply check_tris_ok. destruct k as [|[|[|k]]]; [reflexivity..|lia]. Qed.

Section Conform.
  Context {T : Type} (mid : T -> T -> T) (ltb : T -> T -> bool) (dist : q3 T -> q3 T -> T) (dmax : T).
  Notation M := (midPt mid).
  Definition lab (t : q4 (q3 T)) (n : nat) : q3 T :=
    match t with Q4 a b c d =>
      nth n [a; b; c; d; M a b; M a c; M a d; M b c; M b d; M c d] a end.
  Lemma refine_lab t : exists k, k < 3 /\
    refineTet mid ltb dist dmax t = Some (map (q4map (lab t)) (cornersN ++ octaN k)).
  Proof.
    rewrite refineTet_eq. exists (pick ltb dist dmax (opps mid t)).
    split; [apply (pick_lt3 mid)|].
    pose proof (pick_lt3 mid ltb dist dmax (opps mid t)) as P. f_equal.
    destruct t as [a b c d]. destruct (pick _ _ _ _) as [|[|[|n]]]; [reflexivity..|lia].
  Qed.
  Lemma flat_faces_map {B} (f : B -> q3 T) l :
    flat_map tet_faces (map (q4map f) l) = map (q3map f) (flat_map tet_faces l).
  Proof. induction l; cbn; auto. now rewrite IHl. Qed.

  Lemma refine_conforms t ts : refineTet mid ltb dist dmax t = Some ts ->
    exists interior, same_tris (flat_map tet_faces ts)
      (flat_map (quarter_tri M) (tet_faces t) ++ interior ++ interior).
  Proof.
    intros E. destruct (refine_lab t) as (k & Hk & E'). rewrite E in E'. apply Some_inj in E'. subst ts.
    exists (map (q3map (lab t)) (innerN k)).
    pose proof (same_tris_map (lab t) _ _ (conform_labels k Hk)) as C.
    rewrite flat_faces_map. rewrite !map_app in C. destruct t as [a b c d]. exact C.
  Qed.

  Lemma quarter_sym : (forall a b, mid a b = mid b a) -> forall f g, same_tri f g ->
    same_tris (quarter_tri M f) (quarter_tri M g).
  Proof. clear ltb dist dmax.
    intros C [p q r] [p' q' r'] H. change (Permutation [p;q;r] [p';q';r']) in H.
    assert (CM : forall a b, M a b = M b a).
    { intros [a0 a1 a2] [b0 b1 b2]. unfold midPt; cbn. now rewrite (C a0), (C a1), (C a2). }
    (* a permutation of three elements is one of six *)
    assert (S : (p',q',r') = (p,q,r) \/ (p',q',r') = (p,r,q) \/ (p',q',r') = (q,p,r) \/
                (p',q',r') = (q,r,p) \/ (p',q',r') = (r,p,q) \/ (p',q',r') = (r,q,p)).
    { clear C CM.
      assert (I : In p' [p;q;r]) by (eapply Permutation_in; [symmetry; exact H|cbn; auto]).
      destruct I as [<-|[<-|[<-|[]]]].
      - apply Permutation_cons_inv in H. apply Permutation_length_2 in H. destruct H as [[-> ->]|[-> ->]]; auto.
      - assert (H' : Permutation [q;p;r] [q;q';r']) by (eapply perm_trans; [apply perm_swap|exact H]).
        apply Permutation_cons_inv in H'. apply Permutation_length_2 in H'. destruct H' as [[-> ->]|[-> ->]]; tauto.
      - assert (H' : Permutation [r;p;q] [r;q';r']).
        { eapply perm_trans; [|exact H]. eapply perm_trans; [apply perm_swap|]. apply perm_skip, perm_swap. }
        apply Permutation_cons_inv in H'. apply Permutation_length_2 in H'. destruct H' as [[-> ->]|[-> ->]]; tauto. }
    clear H.
    set (f := fun n => nth n [p; q; r; M p q; M p r; M q r] p).
    assert (K : forall l m, check_tris l m = true -> same_tris (map (q3map f) l) (map (q3map f) m))
      by (intros; apply same_tris_map, check_tris_ok; auto).
    pose (ori := [Q3 0 3 4; Q3 1 3 5; Q3 2 4 5; Q3 3 4 5]).
    destruct S as [S|[S|[S|[S|[S|S]]]]]; injection S as -> -> ->; unfold quarter_tri.
    - exact (K ori [Q3 0 3 4; Q3 1 3 5; Q3 2 4 5; Q3 3 4 5] eq_refl).
    - rewrite (CM r q). exact (K ori [Q3 0 4 3; Q3 2 4 5; Q3 1 3 5; Q3 4 3 5] eq_refl).
    - rewrite (CM q p). exact (K ori [Q3 1 3 5; Q3 0 3 4; Q3 2 5 4; Q3 3 5 4] eq_refl).
    - rewrite (CM q p), (CM r p). exact (K ori [Q3 1 5 3; Q3 2 5 4; Q3 0 3 4; Q3 5 3 4] eq_refl).
    - rewrite (CM r p), (CM r q). exact (K ori [Q3 2 4 5; Q3 0 4 3; Q3 1 5 3; Q3 4 5 3] eq_refl).
    - rewrite (CM r q), (CM r p), (CM q p). exact (K ori [Q3 2 5 4; Q3 1 5 3; Q3 0 4 3; Q3 5 4 3] eq_refl).
  Qed.
End Conform.

(** The shortest diagonal is used. *)
Definition rltb (a b : R) : bool := if Rlt_dec a b then true else false.
Definition rdist (p q : q3 R) : R := sqrt (dist2 p q).
Lemma refine_shortest dmax t ts : (forall p q, In (p, q) (opps rmid t) -> rdist p q < dmax)%R ->
  refineTet rmid rltb rdist dmax t = Some ts ->
  exists p q, In (p, q) (opps rmid t) /\
    (forall p' q', In (p', q') (opps rmid t) -> rdist p q <= rdist p' q')%R /\
    (forall i u, nth_error ts i = Some u -> 4 <= i -> In p (q4l u) /\ In q (q4l u)).
Proof.
  intros Hd E. rewrite refineTet_eq in E. apply Some_inj in E. subst ts.
  destruct t as [a b c d]. cbn [opps In] in *.
  set (m01 := midPt rmid a b) in *. set (m02 := midPt rmid a c) in *. set (m03 := midPt rmid a d) in *.
  set (m12 := midPt rmid b c) in *. set (m13 := midPt rmid b d) in *. set (m23 := midPt rmid c d) in *.
  pose proof (Hd m01 m23 (or_introl eq_refl)) as H0.
  pose proof (Hd m02 m13 (or_intror (or_introl eq_refl))) as H1.
  pose proof (Hd m03 m12 (or_intror (or_intror (or_introl eq_refl)))) as H2.
  unfold pick, rltb. destruct (Rlt_dec (rdist m01 m23) dmax); [|lra]. cbn [snd fst].
  assert (I : forall A B n u x y z w, nth_error (corners rmid (Q4 a b c d) ++ [x;y;z;w]) n = Some u -> 4 <= n ->
     (forall v, In v [x;y;z;w] -> In A (q4l v) /\ In B (q4l v)) -> In A (q4l u) /\ In B (q4l u)).
  { intros A B n u x y z w Hn L Hv. apply Hv. rewrite nth_error_app2 in Hn by (cbn; lia).
    now apply nth_error_In in Hn. }
  destruct (Rlt_dec (rdist m02 m13) (rdist m01 m23)); cbn [snd fst];
  match goal with |- context [Rlt_dec (rdist m03 m12) ?x] => destruct (Rlt_dec (rdist m03 m12) x) end; cbn [snd fst].
  all: match goal with |- context [octa rmid ?k _] => 
    match k with 0 => exists m01, m23 | 1 => exists m02, m13 | 2 => exists m03, m12 end end.
  all: split; [tauto|split].
  all: try (intros p' q' [X|[X|[X|[]]]]; injection X as <- <-; lra).
  all: intros i u Hi L; eapply I; [exact Hi|exact L|];
    intros v [<-|[<-|[<-|[<-|[]]]]]; cbn; unfold m01, m02, m03, m12, m13, m23; tauto.
Qed.
