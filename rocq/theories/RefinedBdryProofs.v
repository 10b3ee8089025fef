(** The boundary of a refined mesh is the refined boundary. *)
From Coq Require Import Reals Lra Permutation.
From Verif Require Import Prelude Bytes MeshModel MeshSpec CreateSpec MeshCheck RefineModel RefineSpec RefineProofs RefineMeshProofs TychoSpec GeometryModel GeometrySpec GeometryProofs ViewSpec ViewProofs ViewGeoProofs RefinedSpec RefinedProofs RefinedMeshProofs.

(** ** Faces of the eight children *)
Notation rhalf := (midPt rmid).
Lemma kids_conform k t : (k < 3)%nat -> vol6 t <> 0%R -> exists I, same_tris (flat_map tet_faces (kids k t)) (flat_map (quarter_tri rhalf) (tet_faces t) ++ I ++ I).
Proof. intros Hk V. destruct (any_pick k t Hk V) as (ltb & dist & dmax & E). exact (refine_conforms rmid ltb dist dmax t _ E). Qed.
Lemma tris_in_r {A} (l m : list (q3 A)) y : same_tris l m -> In y m -> exists x, In x l /\ same_tri x y.
Proof. intros (l' & P & F) H. destruct (In_nth_error _ _ H) as (i & Hi). destruct (f2_right _ _ _ _ _ F Hi) as (x & Hx & S). exists x. split; auto. eapply Permutation_in; [symmetry; exact P|]. eapply nth_error_In; eauto. Qed.
Lemma tris_in_l {A} (l m : list (q3 A)) x : same_tris l m -> In x l -> exists y, In y m /\ same_tri x y.
Proof. intros (l' & P & F) H. apply (Permutation_in _ P) in H. destruct (In_nth_error _ _ H) as (i & Hi). destruct (f2_left _ _ _ _ _ F Hi) as (y & Hy & S). exists y. split; auto. eapply nth_error_In; eauto. Qed.
Lemma tris_twice {A} (l q I : list (q3 A)) y : same_tris l (q ++ I ++ I) -> In y I -> exists i j x x', i <> j /\ nth_error l i = Some x /\ nth_error l j = Some x' /\ same_tri x y /\ same_tri x' y.
Proof.
  intros (l' & P & F) H. destruct (In_nth_error _ _ H) as (n & Hn). assert (L : n < length I) by (apply nth_error_Some; congruence).
  assert (H1 : nth_error (q ++ I ++ I) (length q + n) = Some y) by (rewrite nth_error_app2 by lia; replace (length q + n - length q) with n by lia; now rewrite nth_error_app1).
  assert (H2 : nth_error (q ++ I ++ I) (length q + (length I + n)) = Some y) by (rewrite nth_error_app2 by lia; replace (length q + (length I + n) - length q) with (length I + n) by lia; rewrite nth_error_app2 by lia; now replace (length I + n - length I) with n by lia).
  destruct (f2_right _ _ _ _ _ F H1) as (x & Hx & S). destruct (f2_right _ _ _ _ _ F H2) as (x' & Hx' & S'). apply Permutation_nth_error in P. destruct P as (_ & f & inj & E). rewrite E in Hx, Hx'.
  exists (f (length q + n)), (f (length q + (length I + n))), x, x'. split; [|auto]. intros Z. apply inj in Z. lia.
Qed.
Lemma flat_faces_nth (l : list (q4 (q3 R))) i x : nth_error (flat_map tet_faces l) i = Some x -> exists u, nth_error l (i / 4) = Some u /\ nth_error (tet_faces u) (i mod 4) = Some x.
Proof.
  intros H. rewrite flat_map_concat_map in H. assert (L4 : forall x : list (q3 (q3 R)), In x (map tet_faces l) -> length x = 4) by (intros y Hy; apply in_map_iff in Hy; destruct Hy as (u & <- & _); reflexivity).
  assert (L : i < length (concat (map tet_faces l))) by (apply nth_error_Some; congruence). rewrite (concat_length_fixed 4) in L by exact L4. rewrite map_length in L.
  assert (DM : i = (i / 4) * 4 + i mod 4) by (rewrite Nat.mul_comm; apply Nat.div_mod; lia). assert (MB : i mod 4 < 4) by (apply Nat.mod_upper_bound; lia).
  assert (DL : i / 4 < length l) by (apply Nat.div_lt_upper_bound; lia). destruct (nth_error l (i / 4)) as [u|] eqn:U; [|apply nth_error_None in U; lia]. exists u. split; auto.
  rewrite DM, (nth_error_concat_fixed 4 _ (i / 4) (i mod 4) (tet_faces u) L4) in H; [exact H| |exact MB]. rewrite nth_error_map, U. reflexivity.
Qed.
Lemma flat_faces_in (l : list (q4 (q3 R))) x : In x (flat_map tet_faces l) -> exists i u j, nth_error l i = Some u /\ nth_error (tet_faces u) j = Some x.
Proof. intros H. apply in_flat_map in H. destruct H as (u & Hu & Hx). destruct (In_nth_error _ _ Hu) as (i & Hi). destruct (In_nth_error _ _ Hx) as (j & Hj). eauto. Qed.
Lemma face_miss {A} (u : q4 A) i j f v : nth_error (tet_faces u) j = Some f -> nth_error (q4l u) i = Some v -> i <> j -> In v (q3l f).
Proof.
  intros Hj Hi NE. destruct u as [a b c d]. destruct i as [|[|[|[|i]]]]; [| | | |destruct i; discriminate]; (destruct j as [|[|[|[|j]]]]; [| | | |destruct j; discriminate]); try congruence;
    cbn in Hi, Hj; apply Some_inj in Hi, Hj; subst; cbn; auto.
Qed.
Lemma face_only {A} (u : q4 A) j f v : nth_error (tet_faces u) j = Some f -> In v (q3l f) -> exists i, i <> j /\ nth_error (q4l u) i = Some v.
Proof.
  intros Hj I. destruct u as [a b c d]. destruct j as [|[|[|[|j]]]]; [| | | |destruct j; discriminate]; cbn in Hj; apply Some_inj in Hj; subst f; cbn in I; destruct I as [<-|[<-|[<-|[]]]];
    solve [exists 0; split; [lia|reflexivity]|exists 1; split; [lia|reflexivity]|exists 2; split; [lia|reflexivity]|exists 3; split; [lia|reflexivity]].
Qed.
Lemma real_faces_distinct (u : q4 (q3 R)) i j f g : vol6 u <> 0%R -> nth_error (tet_faces u) i = Some f -> nth_error (tet_faces u) j = Some g -> same_tri f g -> i = j.
Proof.
  intros V Hi Hj S. destruct (Nat.eq_dec i j) as [|NE]; auto. exfalso. assert (L : i < 4) by (change 4 with (length (tet_faces u)); apply nth_error_Some; congruence).
  destruct (nth_error (q4l u) i) as [v|] eqn:Ei; [|apply nth_error_None in Ei; cbn in Ei; lia]. pose proof (face_miss u i j g v Hj Ei NE) as Iv. apply (Permutation_in _ (Permutation_sym S)) in Iv.
  destruct (face_only u i f v Hi Iv) as (i' & NE' & Ei'). apply NE'. eapply vol_distinct; eauto.
Qed.
(** A face of a child is a quarter of a face, or a face of another child. *)
Lemma kid_face k t i u j f : (k < 3)%nat -> vol6 t <> 0%R -> nth_error (kids k t) i = Some u -> nth_error (tet_faces u) j = Some f ->
  (exists lf G T, nth_error (tet_faces t) lf = Some G /\ In T (quarter_tri rhalf G) /\ same_tri f T) \/
  (exists i' u' j' f', i' <> i /\ nth_error (kids k t) i' = Some u' /\ nth_error (tet_faces u') j' = Some f' /\ same_tri f f').
Proof.
  intros Hk V Hu Hf. destruct (kids_conform k t Hk V) as (I & C). assert (Hin : In f (flat_map tet_faces (kids k t))) by (apply in_flat_map; exists u; split; eapply nth_error_In; eauto).
  destruct (tris_in_l _ _ _ C Hin) as (y & Hy & S). apply in_app_or in Hy. destruct Hy as [Hy|Hy].
  - left. apply in_flat_map in Hy. destruct Hy as (G & HG & HT). destruct (In_nth_error _ _ HG) as (lf & Hlf). exists lf, G, y. auto.
  - right. assert (Iy : In y I) by (apply in_app_or in Hy; tauto). destruct (tris_twice _ _ _ y C Iy) as (a & b & x & x' & NE & Ha & Hb & Sa & Sb).
    destruct (flat_faces_nth _ _ _ Ha) as (ua & Ua & Fa). destruct (flat_faces_nth _ _ _ Hb) as (ub & Ub & Fb).
    assert (Vk : forall n w, nth_error (kids k t) n = Some w -> vol6 w <> 0%R).
    { intros n w Hw Z. pose proof (kids_volume k t w Hk V (nth_error_In _ _ Hw)) as E. rewrite Z, Rabs_R0 in E. apply Rabs_pos_lt in V. lra. }
    destruct (Nat.eq_dec (a / 4) i) as [Ea|Na].
    + destruct (Nat.eq_dec (b / 4) i) as [Eb|Nb].
      * exfalso. rewrite Ea in Ua. rewrite Eb in Ub. rewrite Ua in Ub. apply Some_inj in Ub. subst ub. pose proof (real_faces_distinct ua _ _ _ _ (Vk _ _ Ua) Fa Fb (perm_trans Sa (Permutation_sym Sb))) as M.
        pose proof (Nat.div_mod a 4 ltac:(lia)). pose proof (Nat.div_mod b 4 ltac:(lia)). lia.
      * exists (b / 4), ub, (b mod 4), x'. split; auto. split; auto. split; auto. exact (perm_trans S (Permutation_sym Sb)).
    + exists (a / 4), ua, (a mod 4), x. split; auto. split; auto. split; auto. exact (perm_trans S (Permutation_sym Sa)).
Qed.
Lemma quarter_kid k t lf G T : (k < 3)%nat -> vol6 t <> 0%R -> nth_error (tet_faces t) lf = Some G -> In T (quarter_tri rhalf G) -> exists u j f, In u (kids k t) /\ nth_error (tet_faces u) j = Some f /\ same_tri f T.
Proof.
  intros Hk V HG HT. destruct (kids_conform k t Hk V) as (I & C). destruct (tris_in_r _ _ T C) as (x & Hx & S).
  - apply in_or_app. left. apply in_flat_map. exists G. split; auto. eapply nth_error_In; eauto.
  - destruct (flat_faces_in _ _ Hx) as (i & u & j & Hu & Hj). exists u, j, x. split; [eapply nth_error_In; eauto|]. auto.
Qed.
Lemma quarter_swap G G' T : same_tri G G' -> In T (quarter_tri rhalf G) -> exists T', In T' (quarter_tri rhalf G') /\ same_tri T T'.
Proof. intros S HT. assert (C : forall a b, rmid a b = rmid b a) by (intros; unfold rmid; ring). exact (tris_in_l _ _ T (quarter_sym rmid C G G' S) HT). Qed.

(** ** Faces in a valid mesh *)
Lemma face_at sm g sc lf : serial_mesh_ok sm -> tets_ok sm -> SM_cell sm g = Some sc -> lf < 4 -> exists f sf, s_opposite sm g lf f sf.
Proof.
  intros OK TT H L.
  assert (K : exists lfs, Forall2 (fun f x => exists sf, s_opposite sm g x f sf) (q4l (sc_faces sc)) lfs).
  { assert (Z : forall l, incl l (q4l (sc_faces sc)) -> exists lfs, Forall2 (fun f x => exists sf, s_opposite sm g x f sf) l lfs); [|apply Z, incl_refl].
    induction l as [|f l IH]; intros I; [exists []; constructor|]. destruct IH as (r & Hr); [intros x Hx; apply I; now right|]. destruct (smo_cf sm OK g sc f H (I f ltac:(now left))) as (sf & Hf & _).
    destruct (cell_face sm OK TT g sc f sf H (I f ltac:(now left)) Hf) as (x & O). exists (x :: r). constructor; eauto. }
  destruct K as (lfs & F). assert (Len : length lfs = 4) by (rewrite <- (f2_len _ _ _ F); reflexivity).
  assert (NDx : NoDup lfs).
  { apply NoDup_nth_error. intros i j Hi E. destruct (nth_error lfs i) as [x|] eqn:Ei; [|apply nth_error_Some in Hi; congruence]. symmetry in E. destruct (f2_right _ _ _ _ _ F Ei) as (f & Hf & sf & O). destruct (f2_right _ _ _ _ _ F E) as (f' & Hf' & sf' & O').
    pose proof O as (c1 & A1 & _ & B1 & _ & S1). pose proof O' as (c2 & A2 & _ & B2 & _ & S2). assert (c1 = sc) by congruence. assert (c2 = sc) by congruence. subst c1 c2.
    apply (to_distinct sm TT g sc i j f f' sf sf' H Hf Hf' B1 B2). destruct (smo_cf sm OK g sc f H (nth_error_In _ _ Hf)) as (s1 & E1 & _ & N1). destruct (smo_cf sm OK g sc f' H (nth_error_In _ _ Hf')) as (s2 & E2 & _ & N2).
    assert (s1 = sf) by congruence. assert (s2 = sf') by congruence. subst s1 s2. intros n. split; intros Hn.
    - destruct (In_nth_error _ _ (N1 n Hn)) as (v & Hv). apply (S2 v n Hv). now apply (S1 v n Hv).
    - destruct (In_nth_error _ _ (N2 n Hn)) as (v & Hv). apply (S1 v n Hv). now apply (S2 v n Hv). }
  assert (Inc : incl lfs (seq 0 4)).
  { intros x Hx. destruct (In_nth_error _ _ Hx) as (i & Hi). destruct (f2_right _ _ _ _ _ F Hi) as (f & _ & sf & (c & _ & _ & _ & Lx & _)). apply in_seq. lia. }
  assert (Rev : incl (seq 0 4) lfs) by (apply NoDup_length_incl; auto; rewrite seq_length; lia).
  destruct (In_nth_error lfs lf) as (i & Hi); [apply Rev, in_seq; lia|]. destruct (f2_right _ _ _ _ _ F Hi) as (f & _ & sf & O). eauto.
Qed.
Lemma cell_valid sm g sc : serial_mesh_ok sm -> SM_cell sm g = Some sc -> g <> INVALID.
Proof.
  intros OK H. assert (L : N.to_nat g < length (sm_cells sm)) by (apply nth_error_Some; unfold SM_cell in H; congruence). pose proof (smo_cells _ OK) as Z. unfold lenN in Z. clear OK H. generalize dependent INVALID. intros. lia.
Qed.
Lemma boundary_cell sm dec F : serial_mesh_ok sm -> tets_ok sm -> boundary sm dec F -> exists f sf g lf, s_opposite sm g lf f sf /\ s_across sf g = INVALID /\ s_face sm dec f F.
Proof.
  intros OK TT (f & sf & Hf & I & SF). destruct (to_face sm TT f sf Hf) as (_ & NE). assert (K : exists g, In g (q2l (sf_cells sf)) /\ g <> INVALID).
  { destruct (sf_cells sf) as [a b]. cbn in NE, I. destruct (N.eq_dec a INVALID) as [->|Na]; [exists b|exists a]; cbn; auto. }
  destruct K as (g & Ig & Ng). destruct (smo_fc sm OK f sf g Hf Ig Ng) as (sc & Hc & Ic). destruct (cell_face sm OK TT g sc f sf Hc Ic Hf) as (lf & O). exists f, sf, g, lf. split; auto. split; auto.
  destruct (opp_cells sm OK TT g lf f sf O) as (_ & [E|E]); rewrite E in I; cbn in I; destruct I as [I|[I|[]]]; congruence.
Qed.
Lemma across_bdry sm g lf f sf : serial_mesh_ok sm -> tets_ok sm -> s_opposite sm g lf f sf -> s_across sf g = INVALID -> In INVALID (q2l (sf_cells sf)).
Proof. intros OK TT O E. destruct (opp_cells sm OK TT g lf f sf O) as (_ & [K|K]); rewrite K, E; cbn; auto. Qed.

(** ** Boundary faces *)
Lemma height_inside t lf G v x : face_of t lf G -> corner t lf = Some v -> inside t x -> exists d, (0 <= d)%R /\ height G x = (d * height G v)%R.
Proof.
  intros (t' & Ht & S) Cv (a & b & c & d & P & ->). destruct (cross_perm t' G S) as (s & _ & _ & Hh). rewrite !Hh.
  destruct t as [[x0 y0 z0] [x1 y1 z1] [x2 y2 z2] [x3 y3 z3]]. unfold corner in Cv.
  assert (D : d = (1 - a - b - c)%R) by lra.
  destruct lf as [|[|[|[|lf]]]]; [| | | |destruct lf; discriminate]; cbn in Ht, Cv; apply Some_inj in Ht, Cv; subst t' v; [exists a|exists b|exists c|exists d]; (split; [lra|]); subst d;
    unfold height, faceCross, crossR, getCrossProduct, dotR, subR, bary; cbn [t0 t1 t2 r0 r1 r2 r3 Rops asub amul]; ring.
Qed.
Lemma height_quarter G T : In T (quarter_tri rhalf G) -> exists s, forall x, height T x = (s * height G x)%R.
Proof.
  destruct G as [[x0 y0 z0] [x1 y1 z1] [x2 y2 z2]]. cbn [quarter_tri In]. intros [<-|[<-|[<-|[<-|[]]]]];
    [exists (1/4)%R|exists (-1/4)%R|exists (1/4)%R|exists (-1/4)%R]; intros [x y z];
    unfold height, faceCross, crossR, getCrossProduct, dotR, subR, midPt, rmid; cbn [t0 t1 t2 Rops asub amul]; field.
Qed.
Definition centre (T : q3 (q3 R)) : q3 R := Q3 ((t0 (t0 T) + t0 (t1 T) + t0 (t2 T)) / 3)%R ((t1 (t0 T) + t1 (t1 T) + t1 (t2 T)) / 3)%R ((t2 (t0 T) + t2 (t1 T) + t2 (t2 T)) / 3)%R.
Lemma centre_perm T T' : same_tri T T' -> centre T = centre T'.
Proof.
  destruct T as [[x0 y0 z0] [x1 y1 z1] [x2 y2 z2]], T' as [a b c]. unfold same_tri, q3l. cbn [t0 t1 t2]. intros K. apply perm3 in K.
  destruct K as [K|[K|[K|[K|[K|K]]]]]; injection K as -> -> ->; unfold centre; cbn [t0 t1 t2]; f_equal; lra.
Qed.
Lemma centre_quarter G T : In T (quarter_tri rhalf G) -> in_triangle G (centre T).
Proof.
  destruct G as [[x0 y0 z0] [x1 y1 z1] [x2 y2 z2]]. cbn [quarter_tri In]. intros [<-|[<-|[<-|[<-|[]]]]];
    [exists (2/3)%R, (1/6)%R, (1/6)%R|exists (1/6)%R, (2/3)%R, (1/6)%R|exists (1/6)%R, (1/6)%R, (2/3)%R|exists (1/3)%R, (1/3)%R, (1/3)%R]; (split; [lra|]);
    unfold centre, midPt, rmid; cbn [t0 t1 t2]; f_equal; field.
Qed.
Lemma centre_inside p j T : face_of p j T -> inside p (centre T).
Proof.
  intros (t & Ht & S). rewrite <- (centre_perm _ _ S). destruct p as [[x0 y0 z0] [x1 y1 z1] [x2 y2 z2] [x3 y3 z3]]. unfold tet_faces in Ht. cbn [r0 r1 r2 r3] in Ht.
  destruct j as [|[|[|[|j]]]]; [| | | |destruct j; discriminate]; cbn [nth_error] in Ht; apply Some_inj in Ht; subst t;
    [exists 0%R, (1/3)%R, (1/3)%R, (1/3)%R|exists (1/3)%R, 0%R, (1/3)%R, (1/3)%R|exists (1/3)%R, (1/3)%R, 0%R, (1/3)%R|exists (1/3)%R, (1/3)%R, (1/3)%R, 0%R]; (split; [lra|]);
    unfold centre, bary; cbn [t0 t1 t2 r0 r1 r2 r3]; f_equal; field.
Qed.
Lemma corner_inside p j v : corner p j = Some v -> inside p v.
Proof.
  intros C. destruct p as [[x0 y0 z0] [x1 y1 z1] [x2 y2 z2] [x3 y3 z3]]. unfold corner in C.
  destruct j as [|[|[|[|j]]]]; [| | | |destruct j; discriminate]; cbn in C; apply Some_inj in C; subst v; [exists 1%R, 0%R, 0%R, 0%R|exists 0%R, 1%R, 0%R, 0%R|exists 0%R, 0%R, 1%R, 0%R|exists 0%R, 0%R, 0%R, 1%R]; (split; [lra|]);
    unfold bary; cbn [t0 t1 t2 r0 r1 r2 r3]; f_equal; ring.
Qed.

Lemma face_bdry sm f sf g : serial_mesh_ok sm -> tets_ok sm -> SM_face sm f = Some sf -> In INVALID (q2l (sf_cells sf)) -> In g (q2l (sf_cells sf)) -> g <> INVALID -> exists lf, s_opposite sm g lf f sf /\ s_across sf g = INVALID.
Proof.
  intros OK TT Hf I Ig Ng. destruct (smo_fc sm OK f sf g Hf Ig Ng) as (sc & Hc & Ic). destruct (cell_face sm OK TT g sc f sf Hc Ic Hf) as (lf & O). exists lf. split; auto.
  destruct (opp_cells sm OK TT g lf f sf O) as (_ & [E|E]); rewrite E in I; cbn in I; destruct I as [I|[I|[]]]; congruence.
Qed.
Lemma tri_perm F F' x : same_tri F F' -> in_triangle F x -> in_triangle F' x.
Proof.
  destruct F as [A B C], F' as [A' B' C']. unfold same_tri, q3l. cbn [t0 t1 t2]. intros K (a & b & c & P & ->). apply perm3 in K.
  destruct K as [K|[K|[K|[K|[K|K]]]]]; injection K as -> -> ->; [exists a, b, c|exists a, c, b|exists b, a, c|exists b, c, a|exists c, a, b|exists c, b, a]; (split; [lra|]); cbn [t0 t1 t2]; f_equal; ring.
Qed.
Lemma otri_perm F F' x : same_tri F F' -> on_triangle F x -> on_triangle F' x.
Proof.
  destruct F as [A B C], F' as [A' B' C']. unfold same_tri, q3l. cbn [t0 t1 t2]. intros K (a & b & c & P & ->). apply perm3 in K.
  destruct K as [K|[K|[K|[K|[K|K]]]]]; injection K as -> -> ->; [exists a, b, c|exists a, c, b|exists b, a, c|exists b, c, a|exists c, a, b|exists c, b, a]; (split; [lra|]); cbn [t0 t1 t2]; f_equal; ring.
Qed.
Lemma tri_quarter G T x : In T (quarter_tri rhalf G) -> in_triangle T x -> in_triangle G x.
Proof.
  destruct G as [[x0 y0 z0] [x1 y1 z1] [x2 y2 z2]]. cbn [quarter_tri In]. intros [<-|[<-|[<-|[<-|[]]]]] (a & b & c & P & ->);
    [exists (a + b / 2 + c / 2)%R, (b / 2)%R, (c / 2)%R|exists (b / 2)%R, (a + b / 2 + c / 2)%R, (c / 2)%R|exists (b / 2)%R, (c / 2)%R, (a + b / 2 + c / 2)%R|exists (a / 2 + b / 2)%R, (a / 2 + c / 2)%R, (b / 2 + c / 2)%R]; (split; [lra|]);
    unfold midPt, rmid; cbn [t0 t1 t2]; f_equal; field.
Qed.
Lemma otri_quarter G x : on_triangle G x <-> exists T, In T (quarter_tri rhalf G) /\ on_triangle T x.
Proof.
  destruct G as [[x0 y0 z0] [x1 y1 z1] [x2 y2 z2]]. cbn [quarter_tri]. split.
  - intros (a & b & c & P & ->). destruct (Rle_dec (1/2) a); [|destruct (Rle_dec (1/2) b); [|destruct (Rle_dec (1/2) c)]]; eexists.
    + split; [left; reflexivity|]. exists (2 * a - 1)%R, (2 * b)%R, (2 * c)%R. split; [lra|]. unfold midPt, rmid. cbn [t0 t1 t2]. assert (c = 1 - a - b)%R as -> by lra. f_equal; field.
    + split; [right; left; reflexivity|]. exists (2 * b - 1)%R, (2 * a)%R, (2 * c)%R. split; [lra|]. unfold midPt, rmid. cbn [t0 t1 t2]. assert (c = 1 - a - b)%R as -> by lra. f_equal; field.
    + split; [right; right; left; reflexivity|]. exists (2 * c - 1)%R, (2 * a)%R, (2 * b)%R. split; [lra|]. unfold midPt, rmid. cbn [t0 t1 t2]. assert (c = 1 - a - b)%R as -> by lra. f_equal; field.
    + split; [right; right; right; left; reflexivity|]. exists (1 - 2 * c)%R, (1 - 2 * b)%R, (1 - 2 * a)%R. split; [lra|]. unfold midPt, rmid. cbn [t0 t1 t2]. assert (c = 1 - a - b)%R as -> by lra. f_equal; field.
  - intros (T & [<-|[<-|[<-|[<-|[]]]]] & (a & b & c & P & ->));
    [exists (a + b / 2 + c / 2)%R, (b / 2)%R, (c / 2)%R|exists (b / 2)%R, (a + b / 2 + c / 2)%R, (c / 2)%R|exists (b / 2)%R, (c / 2)%R, (a + b / 2 + c / 2)%R|exists (a / 2 + b / 2)%R, (a / 2 + c / 2)%R, (b / 2 + c / 2)%R]; (split; [lra|]);
    unfold midPt, rmid; cbn [t0 t1 t2]; f_equal; field.
Qed.
Lemma surface_same sm rm dec : (forall F, boundary rm dec F -> exists G T, boundary sm dec G /\ In T (quarter_tri rhalf G) /\ same_tri F T) ->
  (forall G T, boundary sm dec G -> In T (quarter_tri rhalf G) -> exists F, boundary rm dec F /\ same_tri F T) -> forall x, on_surface rm dec x <-> on_surface sm dec x.
Proof.
  intros BO BN x. split.
  - intros (F & B & I). destruct (BO F B) as (G & T & BG & HT & S). exists G. split; auto. apply otri_quarter. exists T. split; auto. eapply otri_perm; eauto.
  - intros (G & B & I). apply otri_quarter in I. destruct I as (T & HT & I). destruct (BN G T B HT) as (F & BF & S). exists F. split; auto. eapply otri_perm; [apply Permutation_sym; exact S|exact I].
Qed.
Lemma height_bary f q a b c d : (a + b + c + d = 1)%R -> height f (bary q a b c d) = (a * height f (r0 q) + b * height f (r1 q) + c * height f (r2 q) + d * height f (r3 q))%R.
Proof.
  intros S. assert (d = 1 - a - b - c)%R as -> by lra. destruct f as [[ax ay az] [bx by_ bz] [cx cy cz]], q as [[x0 y0 z0] [x1 y1 z1] [x2 y2 z2] [x3 y3 z3]].
  unfold height, faceCross, crossR, getCrossProduct, dotR, subR, bary. cbn [t0 t1 t2 r0 r1 r2 r3 Rops asub amul]. ring.
Qed.
(** A tetrahedron which touches a face of another off its edges, from the same side, overlaps it. *)
Lemma touch_overlap p q lf f v x : vol6 p <> 0%R -> vol6 q <> 0%R -> face_of p lf f -> corner p lf = Some v -> in_triangle f x -> inside q x ->
  (forall y, inside q y -> exists d, (0 <= d)%R /\ height f y = (d * height f v)%R) -> exists y, strictly_inside p y /\ strictly_inside q y.
Proof.
  intros Vp Vq Fp Cv Ix Iq SS. pose proof (face_height p lf f v Fp Cv Vp) as H.
  destruct (SS (r0 q) (corner_inside q 0 _ eq_refl)) as (d0 & D0 & H0). destruct (SS (r1 q) (corner_inside q 1 _ eq_refl)) as (d1 & D1 & H1). destruct (SS (r2 q) (corner_inside q 2 _ eq_refl)) as (d2 & D2 & H2). destruct (SS (r3 q) (corner_inside q 3 _ eq_refl)) as (d3 & D3 & H3). clear SS.
  set (z := bary q (1/4) (1/4) (1/4) (1/4)).
  assert (HZ : height f z = ((d0 + d1 + d2 + d3) / 4 * height f v)%R) by (unfold z; rewrite height_bary by lra; rewrite H0, H1, H2, H3; field).
  assert (DP : (0 < d0 + d1 + d2 + d3)%R).
  { destruct (Rle_lt_or_eq_dec 0 (d0 + d1 + d2 + d3) ltac:(lra)) as [G|E]; auto. exfalso. assert (d0 = 0)%R by lra. assert (d1 = 0)%R by lra. assert (d2 = 0)%R by lra. assert (d3 = 0)%R by lra. subst d0 d1 d2 d3. rewrite Rmult_0_l in *.
    assert (Z : faceCross f = zeroR).
    { apply (lin3 (subR (r1 q) (r0 q)) (subR (r2 q) (r0 q)) (subR (r3 q) (r0 q))).
      - replace (dotR (faceCross f) (subR (r1 q) (r0 q))) with (height f (r1 q) - height f (r0 q))%R; [lra|]. unfold height, dotR, subR. cbn [t0 t1 t2]. ring.
      - replace (dotR (faceCross f) (subR (r2 q) (r0 q))) with (height f (r2 q) - height f (r0 q))%R; [lra|]. unfold height, dotR, subR. cbn [t0 t1 t2]. ring.
      - replace (dotR (faceCross f) (subR (r3 q) (r0 q))) with (height f (r3 q) - height f (r0 q))%R; [lra|]. unfold height, dotR, subR. cbn [t0 t1 t2]. ring.
      - intros E'. apply Vq. rewrite <- E'. destruct q as [[x0 y0 z0] [x1 y1 z1] [x2 y2 z2] [x3 y3 z3]]. unfold crossR, getCrossProduct, dotR, subR. cbn [t0 t1 t2 r0 r1 r2 r3 Rops asub amul vol6]. ring. }
    apply H. unfold height. rewrite Z. unfold dotR, zeroR. cbn [t0 t1 t2]. ring. }
  assert (Hv : vol6 (Q4 (t0 f) (t1 f) (t2 f) v) <> 0%R) by (rewrite <- height_vol; exact H).
  destruct (bary_exists (t0 f) (t1 f) (t2 f) v z Hv) as (al & be & ga & Ez & Es). rewrite <- !height_vol, HZ in Ez, Es.
  replace ((d0 + d1 + d2 + d3) / 4 * height f v / height f v)%R with ((d0 + d1 + d2 + d3) / 4)%R in Ez, Es by (field; exact H). set (de := ((d0 + d1 + d2 + d3) / 4)%R) in *. assert (DE : (0 < de)%R) by (unfold de; lra). clearbody de.
  destruct Ix as (a & b & c & P & Ex). destruct Iq as (a' & b' & c' & d' & P' & Ex').
  set (m := Rmin a (Rmin b c)). assert (M : (0 < m /\ m <= a /\ m <= b /\ m <= c)%R).
  { unfold m. pose proof (Rmin_l a (Rmin b c)). pose proof (Rmin_r a (Rmin b c)). pose proof (Rmin_l b c). pose proof (Rmin_r b c). split; [|lra]. apply Rmin_pos; [lra|]. apply Rmin_pos; lra. }
  clearbody m. set (W := (2 * (m + Rabs al + Rabs be + Rabs ga + 1))%R). pose proof (Rabs_pos al). pose proof (Rabs_pos be). pose proof (Rabs_pos ga).
  assert (WP : (0 < W)%R) by (unfold W; lra). set (e := (m / W)%R). assert (EW : (e * W = m)%R) by (unfold e; field; lra). assert (E0 : (0 < e)%R) by (unfold e; apply Rdiv_lt_0_compat; lra). clearbody e.
  assert (E1 : (e < 1)%R) by (apply (Rmult_lt_reg_r W); [exact WP|]; rewrite EW; unfold W; lra).
  assert (POS : forall s t, (m <= s)%R -> (Rabs t <= Rabs al + Rabs be + Rabs ga)%R -> (0 < (1 - e) * s + e * t)%R).
  { intros s t Hs Ht. assert (- Rabs t <= t)%R by (unfold Rabs; destruct (Rcase_abs t); lra).
    assert (A1 : ((1 - e) * m <= (1 - e) * s)%R) by (apply Rmult_le_compat_l; lra). assert (A2 : (e * - (Rabs al + Rabs be + Rabs ga) <= e * t)%R) by (apply Rmult_le_compat_l; lra).
    assert (A3 : (e * (m + Rabs al + Rabs be + Rabs ga + 1) = m / 2)%R) by (rewrite <- EW at 2; unfold W; field). lra. }
  exists (Q3 ((1 - e) * t0 x + e * t0 z) ((1 - e) * t1 x + e * t1 z) ((1 - e) * t2 x + e * t2 z))%R. split.
  - eapply (inside_of_face p lf f v); eauto. exists ((1 - e) * a + e * al)%R, ((1 - e) * b + e * be)%R, ((1 - e) * c + e * ga)%R, (e * de)%R. split.
    + split; [apply POS; lra|]. split; [apply POS; lra|]. split; [apply POS; lra|]. split; [now apply Rmult_lt_0_compat|].
      replace ((1 - e) * a + e * al + ((1 - e) * b + e * be) + ((1 - e) * c + e * ga) + e * de)%R with ((1 - e) * (a + b + c) + e * (al + be + ga + de))%R by ring. rewrite Es. replace (a + b + c)%R with 1%R by lra. ring.
    + rewrite Ez, Ex. unfold bary. cbn [t0 t1 t2 r0 r1 r2 r3]. f_equal; ring.
  - exists ((1 - e) * a' + e / 4)%R, ((1 - e) * b' + e / 4)%R, ((1 - e) * c' + e / 4)%R, ((1 - e) * d' + e / 4)%R. split.
    + assert (Q : forall s, (0 <= s)%R -> (0 < (1 - e) * s + e / 4)%R) by (intros s Hs; pose proof (Rmult_le_pos (1 - e) s ltac:(lra) Hs); lra). split; [apply Q; lra|]. split; [apply Q; lra|]. split; [apply Q; lra|]. split; [apply Q; lra|].
      replace ((1 - e) * a' + e / 4 + ((1 - e) * b' + e / 4) + ((1 - e) * c' + e / 4) + ((1 - e) * d' + e / 4))%R with ((1 - e) * (a' + b' + c' + d') + e)%R by field. replace (a' + b' + c' + d')%R with 1%R by lra. ring.
    + rewrite Ex'. unfold z, bary. cbn [t0 t1 t2 r0 r1 r2 r3]. f_equal; field.
Qed.

Section Boundary.
  Context (sm : smesh) (dec : N -> R) (mid : N -> N -> N) (ltb : N -> N -> bool) (dist : q3 N -> q3 N -> N) (dmax : N).
  Context (OK : serial_mesh_ok sm) (TT : tets_ok sm) (SOL : solid sm dec) (EM : exact_midpoints sm dec mid).
  Context (Ks : list (list (N * q4 (q3 N)))) (EK : mapM (childrenOf mid ltb dist dmax sm) (sm_cells sm) = Some Ks).
  Context (lt gt : N -> N -> bool) (SEP : separates sm dec mid lt gt).
  Context (rm : smesh) (RM : refined_mesh (nodeLess lt gt) (concat Ks) rm) (FROM : forall i sn, nth_error (sm_nodes rm) i = Some sn -> isPoint Ks (sn_coords sn)).
  Context (OKr : serial_mesh_ok rm) (TTr : tets_ok rm).
  Let RS := refined_solid sm dec mid ltb dist dmax OK SOL EM Ks EK lt gt SEP rm RM FROM.
  Let RC := rcell sm dec mid ltb dist dmax OK EM Ks EK lt gt SEP rm RM FROM.
  Let CA := child_at sm dec mid ltb dist dmax OK EM Ks EK.
  Lemma rpoint_inj n n' x : s_point rm dec n = Some x -> s_point rm dec n' = Some x -> n = n'.
  Proof.
    unfold s_point, SM_node. intros A B. destruct (nth_error (sm_nodes rm) (N.to_nat n)) as [a|] eqn:Ea; [|discriminate]. destruct (nth_error (sm_nodes rm) (N.to_nat n')) as [b|] eqn:Eb; [|discriminate].
    cbn in A, B. assert (E : decP dec (sn_coords a) = decP dec (sn_coords b)) by (unfold decP; congruence).
    apply (nodeLess_eq dec lt gt (isPoint Ks) (sep_points sm dec mid ltb dist dmax OK EM Ks EK lt gt SEP)) in E; [|eapply FROM; eauto..].
    pose proof (rf_distinct_nodes _ _ _ RM _ _ _ _ Ea Eb E). lia.
  Qed.
  Lemma rface_set f f' sf sf' F F' : SM_face rm f = Some sf -> SM_face rm f' = Some sf' -> s_face rm dec f F -> s_face rm dec f' F' -> same_tri F F' -> f = f'.
  Proof.
    intros A A' (s & B & E) (s' & B' & E') S. assert (s = sf) by congruence. assert (s' = sf') by congruence. subst s s'.
    assert (K : forall a b X Y, map (s_point rm dec) (q3l a) = map Some (q3l X) -> map (s_point rm dec) (q3l b) = map Some (q3l Y) -> same_tri X Y -> forall n, In n (q3l a) -> In n (q3l b)).
    { intros a b X Y Ea Eb P n Hn. apply (in_map (s_point rm dec)) in Hn. rewrite Ea in Hn. apply in_map_iff in Hn. destruct Hn as (x & Ex & Hx). apply (Permutation_in _ P) in Hx. apply (in_map Some) in Hx. rewrite <- Eb in Hx.
      apply in_map_iff in Hx. destruct Hx as (m & Em & Hm). assert (n = m) by (eapply rpoint_inj; [symmetry; exact Ex|exact Em]). now subst m. }
    assert (Q : N.to_nat f = N.to_nat f'); [|lia]. apply (rf_distinct_faces _ _ _ RM _ _ _ _ A A'). intros n. split; [exact (K _ _ _ _ E E' S n)|exact (K _ _ _ _ E' E (Permutation_sym S) n)].
  Qed.
  (** Two cells with a common triangle are neighbours. *)
  Lemma rmeet c h p p' j j' F f sf : c <> h -> s_opposite rm c j f sf -> s_cell rm dec c p -> s_cell rm dec h p' -> face_of p j F -> face_of p' j' F -> s_across sf c = h.
  Proof.
    intros NE O Cp Ch Fp Fh. assert (L : j' < 4) by (destruct Fh as (t & Ht & _); change 4 with (length (tet_faces p')); apply nth_error_Some; congruence). pose proof Ch as (sch & Hh & _).
    destruct (face_at rm h sch j' OKr TTr Hh L) as (f' & sf' & O'). destruct (s_face_ex rm dec OKr _ _ _ _ O) as (X & SX). destruct (s_face_ex rm dec OKr _ _ _ _ O') as (X' & SX').
    pose proof (s_face_of rm dec OKr TTr _ _ _ _ _ _ O Cp SX) as (t & Ht & S). pose proof (s_face_of rm dec OKr TTr _ _ _ _ _ _ O' Ch SX') as (t' & Ht' & S'). destruct Fp as (u & Hu & Su). destruct Fh as (u' & Hu' & Su').
    rewrite Ht in Hu. apply Some_inj in Hu. subst u. rewrite Ht' in Hu'. apply Some_inj in Hu'. subst u'.
    assert (f = f').
    { pose proof O as (? & _ & _ & A & _). pose proof O' as (? & _ & _ & A' & _). eapply rface_set; [exact A|exact A'|exact SX|exact SX'|]. eapply perm_trans; [apply Permutation_sym; exact S|]. eapply perm_trans; [exact Su|]. eapply perm_trans; [apply Permutation_sym; exact Su'|exact S']. }
    subst f'. destruct (opp_two rm OKr TTr _ _ _ _ _ _ _ O O' (not_eq_sym NE)) as (_ & E). exact E.
  Qed.
  (** Cells of [rm] as children. *)
  Lemma kid_of c p : s_cell rm dec c p -> exists k t, (k < 3)%nat /\ s_cell sm dec (c / 8) t /\ nth_error (kids k t) (N.to_nat c mod 8) = Some p /\
    forall i u, nth_error (kids k t) i = Some u -> exists h, (h / 8 = c / 8)%N /\ (N.to_nat h mod 8 = i)%nat /\ s_cell rm dec h u.
  Proof.
    intros H. apply RC in H. destruct H as (mt & Hm & ->). destruct (CA _ mt Hm) as (sc & t & k & Hc & T & _ & Hk & S & KK & Hn & _). exists k, (decT dec t). split; auto.
    replace (c / 8)%N with (N.of_nat (N.to_nat c / 8)) by (rewrite <- (N2Nat.id (c / 8)%N), N2Nat.inj_div; reflexivity). split; auto. split; auto. intros i u Hu.
    assert (Li : i < 8) by (rewrite <- (kids_length k (decT dec t)); apply nth_error_Some; congruence).
    destruct (nth_error Ks (N.to_nat c / 8)) as [l|] eqn:L; [|apply nth_error_None in L; rewrite (mapM_length _ _ _ EK) in L; apply nth_error_None in L; congruence].
    rewrite <- (KK l _ eq_refl eq_refl), nth_error_map in Hu. destruct (nth_error l i) as [mu|] eqn:Hl; [|discriminate]. cbn in Hu. apply Some_inj in Hu.
    exists (N.of_nat (N.to_nat c / 8 * 8 + i)). split; [|split].
    - change 8%N with (N.of_nat 8). rewrite <- Nat2N.inj_div. f_equal. rewrite Nat.div_add_l by lia. rewrite (Nat.div_small i 8 Li). lia.
    - rewrite Nat2N.id, Nat.add_comm, Nat.mod_add by lia. now apply Nat.mod_small.
    - apply RC. exists mu. split; auto. rewrite Nat2N.id, (nth_error_concat_fixed 8 Ks _ i l (Ks_length sm dec mid ltb dist dmax OK EM Ks EK) L Li). exact Hl.
  Qed.
  Lemma kid_ex g t : s_cell sm dec g t -> exists k, (k < 3)%nat /\ forall u, In u (kids k t) -> exists h, (h / 8 = g)%N /\ s_cell rm dec h u.
  Proof.
    intros H. pose proof H as (sc & Hc & _). destruct (coarse_tet sm dec OK (N.to_nat g) sc Hc) as (t' & T & _ & _).
    assert (t = decT dec t') as -> by (eapply s_cell_coarse; [exact OK|exact Hc|exact T|rewrite N2Nat.id; exact H]).
    destruct (child_of sm dec mid ltb dist dmax OK EM Ks EK (N.to_nat g) sc t' Hc T) as (k & Hk & CH). exists k. split; auto. intros u Hu. destruct (CH u Hu) as (h & mt & D & Hm & <-).
    exists (N.of_nat h). split; [rewrite <- (N2Nat.id g), <- D, Nat2N.inj_div; reflexivity|]. apply RC. exists mt. now rewrite Nat2N.id.
  Qed.
  Lemma bdry_parent F f sf c j : s_opposite rm c j f sf -> s_across sf c = INVALID -> s_face rm dec f F ->
    exists lf f1 sf1 G T, s_opposite sm (c / 8) lf f1 sf1 /\ s_across sf1 (c / 8) = INVALID /\ s_face sm dec f1 G /\ In T (quarter_tri rhalf G) /\ same_tri F T.
  Proof.
    intros O AC SF. pose proof O as (sc & Hc & _). destruct (s_cell_ex rm dec OKr c sc Hc) as (p & Cp).
    pose proof (s_face_of rm dec OKr TTr _ _ _ _ _ _ O Cp SF) as FP. pose proof FP as (f0 & Hf0 & S0). destruct (kid_of c p Cp) as (k & t & Hk & Ct & Hn & SIB). pose proof (sol_volume _ _ SOL _ _ Ct) as V.
    assert (NB : forall h u j', h <> c -> s_cell rm dec h u -> face_of u j' F -> False).
    { intros h u j' NE Ch FU. pose proof (rmeet c h p u j j' F f sf (not_eq_sym NE) O Cp Ch FP FU) as E. rewrite AC in E. destruct Ch as (x & Hx & _). exact (cell_valid rm h x OKr Hx (eq_sym E)). }
    destruct (kid_face k t _ p j f0 Hk V Hn Hf0) as [(lf & G & T & HG & HT & ST)|(i' & u' & j' & f' & NE & Hu' & Hf' & S')].
    - pose proof Ct as (scc & Hcc & _). assert (L : lf < 4) by (change 4 with (length (tet_faces t)); apply nth_error_Some; congruence). destruct (face_at sm _ scc lf OK TT Hcc L) as (f1 & sf1 & O1). destruct (s_face_ex sm dec OK _ _ _ _ O1) as (G1 & SG).
      pose proof (s_face_of sm dec OK TT _ _ _ _ _ _ O1 Ct SG) as (G0 & HG0 & SG0). rewrite HG in HG0. apply Some_inj in HG0. subst G0. destruct (quarter_swap G G1 T SG0 HT) as (T1 & HT1 & ST1).
      assert (FT : same_tri F T1) by (eapply perm_trans; [apply Permutation_sym; exact S0|]; eapply perm_trans; [exact ST|exact ST1]).
      destruct (N.eq_dec (s_across sf1 (c / 8)) INVALID) as [E|NI].
      + exists lf, f1, sf1, G1, T1. auto.
      + exfalso. destruct (opp_back sm OK TT _ _ _ _ O1 NI) as (lf' & O2 & _). destruct (opp_cells sm OK TT _ _ _ _ O1) as (NE & _). set (g' := s_across sf1 (c / 8)) in *. pose proof O2 as (s2 & Hs2 & _). destruct (s_cell_ex sm dec OK g' s2 Hs2) as (t2 & Ct2).
        pose proof (s_face_of sm dec OK TT _ _ _ _ _ _ O2 Ct2 SG) as (G2 & HG2 & SG2). destruct (quarter_swap G1 G2 T1 (Permutation_sym SG2) HT1) as (T2 & HT2 & ST2).
        destruct (kid_ex g' t2 Ct2) as (k2 & Hk2 & CH). destruct (quarter_kid k2 t2 lf' G2 T2 Hk2 (sol_volume _ _ SOL _ _ Ct2) HG2 HT2) as (u & ju & fu & Hu & Hfu & Su). destruct (CH u Hu) as (h & Dh & Ch).
        apply (NB h u ju); [intros ->; congruence|exact Ch|]. exists fu. split; auto. eapply perm_trans; [exact Su|]. eapply perm_trans; [apply Permutation_sym; exact ST2|apply Permutation_sym; exact FT].
    - exfalso. destruct (SIB i' u' Hu') as (h & _ & Mh & Ch). apply (NB h u' j'); [intros ->; congruence|exact Ch|]. exists f'. split; auto. eapply perm_trans; [apply Permutation_sym; exact S'|exact S0].
  Qed.
  Lemma bdry_old F : boundary rm dec F -> exists G T, boundary sm dec G /\ In T (quarter_tri rhalf G) /\ same_tri F T.
  Proof.
    intros B. destruct (boundary_cell rm dec F OKr TTr B) as (f & sf & c & j & O & AC & SF). destruct (bdry_parent F f sf c j O AC SF) as (lf & f1 & sf1 & G & T & O1 & E & SG & HT & ST).
    exists G, T. split; [|auto]. exists f1, sf1. pose proof O1 as (? & _ & _ & A1 & _). split; auto. split; [exact (across_bdry _ _ _ _ _ OK TT O1 E)|exact SG].
  Qed.
  Lemma refined_f2f : face_to_face sm dec -> face_to_face rm dec.
  Proof.
    intros FF f sf F g h p x Hf HI SF Ig NI NE Cp Ix Ip. destruct (face_bdry rm f sf g OKr TTr Hf HI Ig NI) as (j & O & AC). destruct (bdry_parent F f sf g j O AC SF) as (lf & f1 & sf1 & G & T & O1 & E & SG & HT & ST).
    pose proof O as (sc & Hc & _). destruct (s_cell_ex rm dec OKr g sc Hc) as (u & Cu). pose proof (s_face_of rm dec OKr TTr _ _ _ _ _ _ O Cu SF) as FU.
    destruct (kid_of g u Cu) as (k & t & Hk & Ct & Hn & _). destruct (kid_of h p Cp) as (k2 & t2 & Hk2 & Ct2 & Hn2 & _).
    assert (IN : forall x, inside u x -> inside t x) by (intros y Hy; apply (kids_cover k _ y Hk (sol_volume _ _ SOL _ _ Ct)); exists u; split; auto; eapply nth_error_In; eauto).
    assert (IN2 : forall x, inside p x -> inside t2 x) by (intros y Hy; apply (kids_cover k2 _ y Hk2 (sol_volume _ _ SOL _ _ Ct2)); exists p; split; auto; eapply nth_error_In; eauto).
    pose proof (tri_perm _ _ _ ST Ix) as IT. pose proof (tri_quarter G T x HT IT) as IG. pose proof O1 as (sc1 & Hc1 & _ & Hf1 & _).
    destruct (N.eq_dec (h / 8) (g / 8)) as [Eg|Ng].
    - rewrite Eg in Ct2. assert (t2 = t) as -> by (destruct Ct as (xx & X & E1), Ct2 as (yy & Y & E2); rewrite X in Y; apply Some_inj in Y; subst yy; rewrite E1 in E2; destruct t, t2; cbn in E2; congruence).
      pose proof (s_face_of sm dec OK TT _ _ _ _ _ _ O1 Ct SG) as FG. destruct (face_corner _ _ _ FU) as (v & Cv). destruct (face_corner _ _ _ FG) as (w & Cw).
      pose proof (sol_volume _ _ RS _ _ Cu) as Vu. pose proof (face_height u j F v FU Cv Vu) as HV.
      destruct (cross_perm T F (Permutation_sym ST)) as (s & _ & _ & Hs). destruct (height_quarter G T HT) as (s1 & Q1).
      destruct (height_inside t lf G w v FG Cw (IN v (corner_inside _ _ _ Cv))) as (d1 & D1 & E1).
      destruct (touch_overlap u p j F v x Vu (sol_volume _ _ RS _ _ Cp) FU Cv Ix Ip) as (y & Y1 & Y2).
      + intros y Hy. destruct (height_inside t lf G w y FG Cw (IN2 y Hy)) as (d2 & D2 & E2). rewrite Hs, Q1, E1 in HV.
        assert (N1 : d1 <> 0%R) by (intros ->; apply HV; ring). exists (d2 / d1)%R. split; [|rewrite !Hs, !Q1, E1, E2; field; exact N1].
        apply Rmult_le_pos; [exact D2|]. apply Rlt_le, Rinv_0_lt_compat. lra.
      + exact (sol_apart _ _ RS _ _ _ _ y (not_eq_sym NE) Cu Cp Y1 Y2).
    - apply (FF f1 sf1 G (g / 8)%N (h / 8)%N t2 x Hf1); auto.
      + exact (across_bdry _ _ _ _ _ OK TT O1 E).
      + destruct (opp_cells sm OK TT _ _ _ _ O1) as (_ & [K|K]); rewrite K; cbn; auto.
      + exact (cell_valid sm _ sc1 OK Hc1).
  Qed.
  Lemma bdry_new G T : face_to_face sm dec -> boundary sm dec G -> In T (quarter_tri rhalf G) -> exists F, boundary rm dec F /\ same_tri F T.
  Proof.
    intros FF B HT. pose proof (boundary_cell sm dec G OK TT B) as (f1 & sf1 & g & lf & O1 & AC & SG). pose proof O1 as (sc & Hc & _ & Hf1 & _). destruct (s_cell_ex sm dec OK g sc Hc) as (t & Ct).
    pose proof (s_face_of sm dec OK TT _ _ _ _ _ _ O1 Ct SG) as FG. pose proof FG as (G0 & HG0 & S0). destruct (quarter_swap G G0 T (Permutation_sym S0) HT) as (T0 & HT0 & ST0).
    destruct (kid_ex g t Ct) as (k & Hk & CH). destruct (quarter_kid k t lf G0 T0 Hk (sol_volume _ _ SOL _ _ Ct) HG0 HT0) as (u & j & fu & Hu & Hfu & Su). destruct (CH u Hu) as (h & Dh & Ch).
    pose proof Ch as (sch & Hch & _). assert (L : j < 4) by (change 4 with (length (tet_faces u)); apply nth_error_Some; congruence). destruct (face_at rm h sch j OKr TTr Hch L) as (f & sf & O). destruct (s_face_ex rm dec OKr _ _ _ _ O) as (F & SF).
    pose proof (s_face_of rm dec OKr TTr _ _ _ _ _ _ O Ch SF) as FU. pose proof FU as (fu' & Hfu' & SU). rewrite Hfu in Hfu'. apply Some_inj in Hfu'. subst fu'.
    assert (FT : same_tri F T) by (eapply perm_trans; [apply Permutation_sym; exact SU|]; eapply perm_trans; [exact Su|apply Permutation_sym; exact ST0]).
    exists F. split; [|exact FT]. exists f, sf. pose proof O as (so & _ & _ & A & _). split; auto. split; [|exact SF].
    destruct (N.eq_dec (s_across sf h) INVALID) as [E|NI]; [exact (across_bdry _ _ _ _ _ OKr TTr O E)|]. exfalso.
    destruct (opp_back rm OKr TTr _ _ _ _ O NI) as (j2 & O2 & _). destruct (opp_cells rm OKr TTr _ _ _ _ O) as (NE & _). set (h2 := s_across sf h) in *. pose proof O2 as (s2 & Hs2 & _). destruct (s_cell_ex rm dec OKr h2 s2 Hs2) as (p2 & Cp2).
    pose proof (s_face_of rm dec OKr TTr _ _ _ _ _ _ O2 Cp2 SF) as F2.
    destruct (kid_of h2 p2 Cp2) as (k2 & t2 & Hk2 & Ct2 & Hn2 & _).
    assert (IN2 : forall x, inside p2 x -> inside t2 x) by (intros y Hy; apply (kids_cover k2 _ y Hk2 (sol_volume _ _ SOL _ _ Ct2)); exists p2; split; auto; eapply nth_error_In; eauto).
    destruct (N.eq_dec (h2 / 8) g) as [Eg|Ng].
    - rewrite Eg in Ct2. assert (t2 = t) as -> by (destruct Ct as (xx & X & E1), Ct2 as (yy & Y & E2); rewrite X in Y; apply Some_inj in Y; subst yy; rewrite E1 in E2; destruct t, t2; cbn in E2; congruence).
      destruct (face_corner _ _ _ FU) as (v & Cv). destruct (face_corner _ _ _ F2) as (v2 & Cv2). destruct (face_corner _ _ _ FG) as (w & Cw).
      pose proof (no_overlap_sides _ _ _ _ _ _ _ (sol_volume _ _ RS _ _ Ch) (sol_volume _ _ RS _ _ Cp2) FU F2 Cv Cv2 (fun x => sol_apart _ _ RS _ _ _ _ x (not_eq_sym NE) Ch Cp2)) as LT.
      assert (IV : inside t v) by (apply (kids_cover k _ v Hk (sol_volume _ _ SOL _ _ Ct)); exists u; split; auto; eapply corner_inside; eauto).
      pose proof (IN2 v2 (corner_inside _ _ _ Cv2)) as IV2. destruct (height_inside t lf G w v FG Cw IV) as (d1 & D1 & E1). destruct (height_inside t lf G w v2 FG Cw IV2) as (d2 & D2 & E2).
      destruct (cross_perm T F (Permutation_sym FT)) as (s & _ & _ & Hs). destruct (height_quarter G T HT) as (s1 & Q1).
      rewrite !Hs, !Q1, E1, E2 in LT. set (H := height G w) in *. clearbody H.
      replace (s * (s1 * (d1 * H)) * (s * (s1 * (d2 * H))))%R with ((s * s1 * H) * (s * s1 * H) * (d1 * d2))%R in LT by ring. pose proof (Rmult_le_pos _ _ D1 D2). pose proof (Rle_0_sqr (s * s1 * H)) as SQ. unfold Rsqr in SQ. pose proof (Rmult_le_pos _ _ SQ H0). lra.
    - apply (FF f1 sf1 G g (h2 / 8)%N t2 (centre T) Hf1); auto.
      + exact (across_bdry _ _ _ _ _ OK TT O1 AC).
      + destruct (opp_cells sm OK TT _ _ _ _ O1) as (_ & [K|K]); rewrite K; cbn; auto.
      + exact (cell_valid sm g sc OK Hc).
      + now apply centre_quarter.
      + apply IN2. rewrite <- (centre_perm _ _ FT). eapply centre_inside; eauto.
  Qed.
End Boundary.

(** ** All together *)
Section All.
  Context (mid : N -> N -> N) (ltb : N -> N -> bool) (dist : q3 N -> q3 N -> N) (dmax dmin : N) (ltMinus gtPlus : N -> N -> N -> bool) (sub : N -> N -> N) (name0 : list N) (version0 : N).
  Context (sm : smesh) (dec : N -> R) (d : N) (OK : serial_mesh_ok sm) (SOL : solid sm dec) (EM : exact_midpoints sm dec mid) (Ed : graphDiameter ltb dmax dmin sub sm = Some d)
    (SEP : separates sm dec mid (ltMinus d) (gtPlus d)) (L1 : (1000 <= lenN (sm_cells sm))%N) (L2 : (32 * lenN (sm_cells sm) < 2 ^ 31)%N).
  Lemma refine_all : exists rm, refineMesh mid ltb dist dmax dmin ltMinus gtPlus sub name0 version0 sm = Some rm /\ lenN (sm_cells rm) = (8 * lenN (sm_cells sm))%N /\ serial_mesh_ok rm /\ tets_ok rm /\ solid rm dec /\
    (forall g p, s_cell rm dec g p -> exists q, s_cell sm dec (g / 8) q /\ (forall x, inside p x -> inside q x) /\ Rabs (vol6 p) = (Rabs (vol6 q) / 8)%R) /\
    (forall g sc, SM_cell rm g = Some sc -> exists sc', SM_cell sm (g / 8) = Some sc' /\ sc_mat sc = sc_mat sc') /\
    (forall g q x, s_cell sm dec g q -> inside q x -> exists h p, (h / 8)%N = g /\ s_cell rm dec h p /\ inside p x) /\
    (tets_ok sm -> forall F, boundary rm dec F -> exists G T, boundary sm dec G /\ In T (quarter_tri rhalf G) /\ same_tri F T) /\
    (tets_ok sm -> face_to_face sm dec -> forall G T, boundary sm dec G -> In T (quarter_tri rhalf G) -> exists F, boundary rm dec F /\ same_tri F T) /\
    (forall n sn k, SM_node rm n = Some sn -> In k [t0; t1; t2] -> refined_coord sm mid k (k (sn_coords sn))) /\
    (tets_ok sm -> face_to_face sm dec -> face_to_face rm dec).
  Proof.
    destruct (children_some sm dec mid ltb dist dmax OK) as (Ks & EK). pose proof (sep_points sm dec mid ltb dist dmax OK EM Ks EK _ _ SEP) as SP.
    assert (L3 : (32 * lenN (sm_cells sm) < INVALID)%N) by (eapply N.lt_trans; [exact L2|vm_compute; reflexivity]).
    destruct (refine_full mid ltb dist dmax dmin ltMinus gtPlus sub name0 version0 sm d Ks Ed L1 L3 EK) as (rm & E & RM & LN & LF & LK & FROM).
    - exact (nodeLess_weak dec _ _ (isPoint Ks) SP).
    - intros mt i j p q Hm Hi Hj. exact (child_distinct sm dec mid ltb dist dmax OK SOL EM Ks EK _ _ SEP mt i j p q Hm Hi Hj).
    - exists rm. split; auto.
      pose proof (refined_ok sm dec mid ltb dist dmax OK SOL EM Ks EK _ _ SEP rm RM FROM LK LN LF L2) as O. pose proof (refined_tets sm dec mid ltb dist dmax OK SOL EM Ks EK _ _ SEP rm RM FROM LK LN LF L2) as T.
      split; [unfold lenN; rewrite <- (f2_len _ _ _ (rf_cells _ _ _ RM)), LK; lia|]. split; auto. split; auto. split; [exact (refined_solid sm dec mid ltb dist dmax OK SOL EM Ks EK _ _ SEP rm RM FROM)|].
      split; [intros g p H; exact (refined_cell sm dec mid ltb dist dmax OK SOL EM Ks EK _ _ SEP rm RM FROM g p H)|]. split; [intros g sc H; exact (refined_mat sm dec mid ltb dist dmax OK EM Ks EK _ _ rm RM g sc H)|]. split; [intros g q x Hq Hx; exact (refined_fill sm dec mid ltb dist dmax OK SOL EM Ks EK _ _ SEP rm RM FROM g q x Hq Hx)|].
      split; [intros TT F; exact (bdry_old sm dec mid ltb dist dmax OK TT SOL EM Ks EK _ _ SEP rm RM FROM O T F)|].
      split; [intros TT FF G X; exact (bdry_new sm dec mid ltb dist dmax OK TT SOL EM Ks EK _ _ SEP rm RM FROM O T G X FF)|].
      split; [intros n sn k Hn Hk; exact (point_coord sm dec mid ltb dist dmax OK EM Ks EK (sn_coords sn) k (FROM _ _ Hn) Hk)|].
      intros TT FF. exact (refined_f2f sm dec mid ltb dist dmax OK TT SOL EM Ks EK _ _ SEP rm RM FROM O T FF).
  Qed.
End All.
