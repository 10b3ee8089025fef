From Coq Require Import Reals Lra Permutation.
From Verif Require Import Prelude Bytes MeshModel MeshSpec RefineModel RefineSpec RefineProofs.
Local Open Scope N_scope.

Lemma q3_inj {A} (a b : q3 A) : t0 a = t0 b -> t1 a = t1 b -> t2 a = t2 b -> a = b.
Proof. destruct a, b; cbn; intros; subst; auto. Qed.

(** ** Face keys *)
Lemma face_equiv a b : equivBy faceLess a b = true <-> orderFaceNodes a = orderFaceNodes b.
Proof.
  unfold equivBy, faceLess.
  set (u := orderFaceNodes a). set (v := orderFaceNodes b). clearbody u v. split.
  - intros H.
    repeat match type of H with context [?x <? ?y] => destruct (N.ltb_spec x y) end; cbn in H; try discriminate.
    apply q3_inj; lia.
  - intros ->. now rewrite !N.ltb_irrefl.
Qed.
Lemma order_sorted a : NoDup (q3l a) ->
  let o := orderFaceNodes a in t0 o < t1 o /\ t1 o < t2 o /\ same_set a o.
Proof.
  destruct a as [x y z]. intros H. cbv zeta.
  assert (x <> y /\ x <> z /\ y <> z).
  { inversion_clear H as [|? ? H1 H2]. inversion_clear H2 as [|? ? H3 H4]. cbn in *. repeat split; intros ->; tauto. }
  clear H. unfold same_set.
  assert (C : (x < y /\ y < z) \/ (x < z /\ z < y) \/ (y < x /\ x < z) \/ (y < z /\ z < x) \/ (z < x /\ x < y) \/ (z < y /\ y < x)) by lia.
  assert (G : forall lo md hi, lo < md -> md < hi ->
     N.min x (N.min y z) = lo -> N.max x (N.max y z) = hi ->
     ((x = lo /\ y = md /\ z = hi) \/ (x = lo /\ z = md /\ y = hi) \/ (y = lo /\ x = md /\ z = hi) \/
      (y = lo /\ z = md /\ x = hi) \/ (z = lo /\ x = md /\ y = hi) \/ (z = lo /\ y = md /\ x = hi)) ->
     orderFaceNodes (Q3 x y z) = Q3 lo md hi).
  { intros lo md hi L1 L2 E1 E2 D. unfold orderFaceNodes; cbn [t0 t1 t2]. rewrite E1, E2. clear E1 E2.
    destruct (N.eqb_spec x lo), (N.eqb_spec x hi), (N.eqb_spec y lo), (N.eqb_spec y hi); cbn; f_equal; lia. }
  change (orderFaceNodes (Q3 x y z)) with (orderFaceNodes (Q3 x y z)).
  destruct C as [C|[C|[C|[C|[C|C]]]]];
  [rewrite (G x y z) by lia|rewrite (G x z y) by lia|rewrite (G y x z) by lia|rewrite (G y z x) by lia
  |rewrite (G z x y) by lia|rewrite (G z y x) by lia];
  (split; [cbn; lia|split; [cbn; lia|intros m; cbn; tauto]]).
Qed.
Lemma key_same_set a b : NoDup (q3l a) -> NoDup (q3l b) -> (orderFaceNodes a = orderFaceNodes b <-> same_set a b).
Proof.
  intros Ha Hb. pose proof (order_sorted a Ha) as A. pose proof (order_sorted b Hb) as B. cbv zeta in *.
  destruct A as (A1 & A2 & A3), B as (B1 & B2 & B3).
  set (u := orderFaceNodes a) in *. set (v := orderFaceNodes b) in *. clearbody u v. split.
  - intros ->. intros n. rewrite (A3 n), (B3 n). reflexivity.
  - intros S.
    assert (E : forall n, In n (q3l u) <-> In n (q3l v)) by (intros n; rewrite <- (A3 n), <- (B3 n); apply S).
    destruct u as [u0 u1 u2], v as [v0 v1 v2]. cbn in *.
    pose proof (proj1 (E u0)). pose proof (proj1 (E u1)). pose proof (proj1 (E u2)).
    pose proof (proj2 (E v0)). pose proof (proj2 (E v1)). pose proof (proj2 (E v2)).
    apply q3_inj; cbn; lia.
Qed.
Lemma same_setb_ok a b : same_setb a b = true <-> same_set a b.
Proof.
  unfold same_setb, same_set. rewrite andb_true_iff, !forallb_forall. split.
  - intros [H K] n. split; intros I; [apply H in I|apply K in I]; apply existsb_exists in I;
    destruct I as (m & I & E%N.eqb_eq); subst; auto.
  - intros H. split; intros x I; apply existsb_exists; exists x; rewrite N.eqb_refl; split; auto; apply H; auto.
Qed.
Lemma equiv_sym {K} (less : K -> K -> bool) a b : equivBy less a b = equivBy less b a.
Proof. unfold equivBy. apply andb_comm. Qed.
Lemma equiv_inc {K} (less : K -> K -> bool) a b : equivBy less a b = true <-> incomparable less a b.
Proof. unfold equivBy, incomparable. rewrite andb_true_iff, !negb_true_iff. tauto. Qed.

(** ** The node table *)
Definition nodes_ok (less : q3 N -> q3 N -> bool) (st : rstate) : Prop :=
  (forall e, In e (rs_nmap st) -> nth_error (rs_nodes st) (N.to_nat (snd e)) = Some (mkSnode (fst e))) /\
  (forall i sn, nth_error (rs_nodes st) i = Some sn -> In (sn_coords sn, N.of_nat i) (rs_nmap st)) /\
  (forall i j a b, nth_error (rs_nodes st) i = Some a -> nth_error (rs_nodes st) j = Some b ->
     incomparable less (sn_coords a) (sn_coords b) -> i = j).

Definition node_at (less : q3 N -> q3 N -> bool) (st : rstate) (p : q3 N) (n : N) : Prop :=
  exists sn, nth_error (rs_nodes st) (N.to_nat n) = Some sn /\ incomparable less p (sn_coords sn).

(** Everything but the nodes unchanged and nodes only appended. *)
Definition node_ext (st st' : rstate) : Prop :=
  rs_cells st' = rs_cells st /\ rs_faces st' = rs_faces st /\ rs_fmap st' = rs_fmap st /\
  exists l, rs_nodes st' = rs_nodes st ++ l.

Lemma node_at_ext less st st' p n : (exists l, rs_nodes st' = rs_nodes st ++ l) -> node_at less st p n -> node_at less st' p n.
Proof.
  intros (l & E) (sn & H & I). exists sn. split; auto. rewrite E. rewrite nth_error_app1; auto.
  apply nth_error_Some. congruence.
Qed.

Lemma mapFind_spec {K} (less : K -> K -> bool) m k : 
  (mapFind less m k = INVALID /\ find (fun e => equivBy less k (fst e)) m = None) \/
  (exists e, In e m /\ equivBy less k (fst e) = true /\ mapFind less m k = snd e).
Proof.
  unfold mapFind. destruct (find _ m) as [e|] eqn:E.
  - right. apply find_some in E. destruct E. exists e. auto.
  - left. auto.
Qed.

Lemma addNode_ok less st p st' n : (len (rs_nodes st) < INVALID) -> nodes_ok less st -> incomparable less p p ->
  addNode less st p = (st', n) ->
  nodes_ok less st' /\ node_ext st st' /\ node_at less st' p n /\ (length (rs_nodes st') <= S (length (rs_nodes st)))%nat.
Proof.
  intros L (I1 & I2 & I3) Hpp E. unfold addNode in E.
  destruct (mapFind_spec less (rs_nmap st) p) as [[E0 F]|(e & He & Ee & E0)].
  - rewrite E0, N.eqb_refl in E. inversion E; subst st' n; clear E.
    assert (NF : forall i sn, nth_error (rs_nodes st) i = Some sn -> ~ incomparable less p (sn_coords sn)).
    { intros i sn H C. apply I2 in H. apply (find_none _ _ F) in H. cbn in H.
      apply equiv_inc in C. congruence. }
    split; [|split; [|split]].
    + split; [|split]; cbn.
      * intros e [<-|He]; cbn.
        -- unfold len. rewrite Nat2N.id, nth_error_app2, Nat.sub_diag by lia. reflexivity.
        -- rewrite nth_error_app1; auto. apply nth_error_Some. rewrite I1 by auto. discriminate.
      * intros i sn H. destruct (lt_dec i (length (rs_nodes st))) as [Li|Li].
        -- rewrite nth_error_app1 in H by auto. right; auto.
        -- rewrite nth_error_app2 in H by lia. destruct (i - length (rs_nodes st))%nat eqn:Ei; cbn in H.
           ++ inversion H; subst. left. cbn. f_equal. unfold len. f_equal. lia.
           ++ destruct n; discriminate.
      * intros i j a b Hi Hj C.
        destruct (lt_dec i (length (rs_nodes st))) as [Li|Li], (lt_dec j (length (rs_nodes st))) as [Lj|Lj].
        -- rewrite nth_error_app1 in Hi, Hj by auto. eauto.
        -- rewrite nth_error_app1 in Hi by auto. rewrite nth_error_app2 in Hj by lia.
           destruct (j - length (rs_nodes st))%nat as [|[|]]; cbn in Hj; try discriminate.
           inversion Hj; subst b. exfalso. apply (NF i a Hi). cbn in C. destruct C; split; auto.
        -- rewrite nth_error_app1 in Hj by auto. rewrite nth_error_app2 in Hi by lia.
           destruct (i - length (rs_nodes st))%nat as [|[|]]; cbn in Hi; try discriminate.
           inversion Hi; subst a. exfalso. apply (NF j b Hj). cbn in C. exact C.
        -- rewrite nth_error_app2 in Hi, Hj by lia.
           destruct (i - length (rs_nodes st))%nat as [|[|]] eqn:?; cbn in Hi; try discriminate.
           destruct (j - length (rs_nodes st))%nat as [|[|]] eqn:?; cbn in Hj; try discriminate. lia.
    + repeat split; auto. exists [mkSnode p]. reflexivity.
    + exists (mkSnode p). cbn. unfold len. rewrite Nat2N.id, nth_error_app2, Nat.sub_diag by lia. auto.
    + cbn. rewrite app_length. cbn. lia.
  - rewrite E0 in E. pose proof (I1 e He) as Hn.
    destruct (N.eqb_spec (snd e) INVALID) as [C|C].
    { exfalso. assert (N.to_nat (snd e) < length (rs_nodes st))%nat by (apply nth_error_Some; congruence).
      unfold len in L. lia. }
    inversion E; subst st' n; clear E. split; [repeat split; auto; apply I3|]. split.
    { repeat split; auto. exists []. now rewrite app_nil_r. }
    split; [|lia]. exists (mkSnode (fst e)). split; auto. now apply equiv_inc.
Qed.

(** ** The face table.  [H] lists the (cell, triangle, face) incidences processed so far. *)
Definition key := orderFaceNodes.
Definition hfilter (tri : q3 N) (H : list (N * q3 N * N)) : list N :=
  map (fun h => fst (fst h)) (filter (fun h => equivBy faceLess tri (snd (fst h))) H).
Definition faces_ok (st : rstate) (H : list (N * q3 N * N)) : Prop :=
  (forall e, In e (rs_fmap st) -> exists sf, nth_error (rs_faces st) (N.to_nat (snd e)) = Some sf /\ sf_nodes sf = fst e) /\
  (forall i sf, nth_error (rs_faces st) i = Some sf -> In (sf_nodes sf, N.of_nat i) (rs_fmap st)) /\
  (forall i j a b, nth_error (rs_faces st) i = Some a -> nth_error (rs_faces st) j = Some b ->
     key (sf_nodes a) = key (sf_nodes b) -> i = j) /\
  (forall h, In h H -> exists sf, nth_error (rs_faces st) (N.to_nat (snd h)) = Some sf /\ key (sf_nodes sf) = key (snd (fst h))) /\
  (forall i sf, nth_error (rs_faces st) i = Some sf ->
     exists c0 rest, hfilter (sf_nodes sf) H = c0 :: rest /\ sf_cells sf = Q2 c0 (last rest INVALID)) /\
  (forall i sf, nth_error (rs_faces st) i = Some sf -> exists h, In h H /\ snd (fst h) = sf_nodes sf).

Lemma equiv_key a b : equivBy faceLess a b = true <-> key a = key b.
Proof. apply face_equiv. Qed.
Lemma hfilter_app tri H h : hfilter tri (H ++ [h]) =
  hfilter tri H ++ (if equivBy faceLess tri (snd (fst h)) then [fst (fst h)] else []).
Proof.
  unfold hfilter. rewrite filter_app, map_app. cbn. now destruct (equivBy _ _ _).
Qed.
Lemma hfilter_key a b H : key a = key b -> hfilter a H = hfilter b H.
Proof.
  intros E. unfold hfilter. f_equal. apply filter_ext. intros h.
  apply eq_true_iff_eq. rewrite !equiv_key, E. reflexivity.
Qed.
Lemma nth_error_set {A} (l : list A) i x j : (i < length l)%nat ->
  nth_error (firstn i l ++ x :: skipn (S i) l) j = if Nat.eqb j i then Some x else nth_error l j.
Proof.
  intros Hi. destruct (Nat.eqb_spec j i) as [->|Hn].
  - rewrite nth_error_app2; rewrite firstn_length_le by lia; [|lia]. now rewrite Nat.sub_diag.
  - destruct (lt_dec j i).
    + rewrite nth_error_app1 by (rewrite firstn_length_le; lia). now apply nth_error_firstn_lt.
    + rewrite nth_error_app2; rewrite firstn_length_le by lia; [|lia].
      destruct (j - i)%nat eqn:E; [lia|]. cbn [nth_error]. rewrite nth_error_skipn_add. f_equal. lia.
Qed.

Definition face_ext (st st' : rstate) : Prop :=
  rs_cells st' = rs_cells st /\ rs_nodes st' = rs_nodes st /\ rs_nmap st' = rs_nmap st /\
  (length (rs_faces st') <= S (length (rs_faces st)))%nat /\ (length (rs_faces st) <= length (rs_faces st'))%nat.

Lemma addFace_ok ns st H lface : (len (rs_faces st) < INVALID) -> faces_ok st H ->
  exists st' f, addFace ns st lface = Some (st', f) /\
    faces_ok st' (H ++ [(len (rs_cells st), faceNodesOf ns lface, f)]) /\ face_ext st st'.
Proof.
  intros L (I1 & I2 & I3 & I4 & I5 & I6). unfold addFace.
  set (fn := faceNodesOf ns lface). set (c := len (rs_cells st)).
  destruct (mapFind_spec faceLess (rs_fmap st) fn) as [[E0 F]|(e & He & Ee & E0)].
  - rewrite E0, N.eqb_refl. eexists _, _. split; [reflexivity|].
    assert (NF : forall i sf, nth_error (rs_faces st) i = Some sf -> key (sf_nodes sf) <> key fn).
    { intros i sf Hi C. apply I2 in Hi. apply (find_none _ _ F) in Hi. cbn in Hi.
      symmetry in C. apply equiv_key in C. congruence. }
    assert (NH : forall h, In h H -> key (snd (fst h)) <> key fn).
    { intros h Hh C. destruct (I4 h Hh) as (sf & Hs & K). apply (NF _ _ Hs). congruence. }
    assert (Hnil : hfilter fn H = []).
    { unfold hfilter. destruct (filter _ H) as [|h r] eqn:Ef; auto. exfalso.
      assert (Hin : In h (filter (fun h => equivBy faceLess fn (snd (fst h))) H)) by (rewrite Ef; now left).
      apply filter_In in Hin. destruct Hin as [Hin Hk]. apply equiv_key in Hk. apply (NH h Hin). auto. }
    split; [|unfold face_ext; cbn; rewrite app_length; cbn; repeat split; auto; lia].
    set (nf := mkSface (Q2 c INVALID) fn).
    assert (NTH : forall i sf, nth_error (rs_faces st ++ [nf]) i = Some sf ->
      nth_error (rs_faces st) i = Some sf \/ (i = length (rs_faces st) /\ sf = nf)).
    { intros i sf Hi. destruct (lt_dec i (length (rs_faces st))).
      - left. now rewrite nth_error_app1 in Hi by auto.
      - right. rewrite nth_error_app2 in Hi by lia.
        destruct (i - length (rs_faces st))%nat as [|[|]] eqn:Ei; cbn in Hi; try discriminate.
        inversion Hi. split; auto; lia. }
    assert (OLD : forall i sf, nth_error (rs_faces st) i = Some sf -> nth_error (rs_faces st ++ [nf]) i = Some sf).
    { intros i sf Hi. rewrite nth_error_app1; auto. apply nth_error_Some. congruence. }
    assert (NEW : nth_error (rs_faces st ++ [nf]) (N.to_nat (len (rs_faces st))) = Some nf).
    { unfold len. rewrite Nat2N.id, nth_error_app2, Nat.sub_diag by lia. reflexivity. }
    unfold faces_ok. cbn [rs_fmap rs_faces]. split; [|split; [|split; [|split; [|split]]]].
    + intros e [<-|He]; cbn [fst snd]. { exists nf. split; auto. }
      destruct (I1 e He) as (sf & Hs & Hn). exists sf. auto.
    + intros i sf Hi. destruct (NTH i sf Hi) as [Hi'|[-> ->]]; [right; auto|left; reflexivity].
    + intros i j a b Hi Hj K. destruct (NTH _ _ Hi) as [Hi'|[-> ->]], (NTH _ _ Hj) as [Hj'|[-> ->]]; eauto.
      * exfalso. now apply (NF _ _ Hi').
      * exfalso. apply (NF _ _ Hj'). symmetry; exact K.
    + intros h Hh. apply in_app_or in Hh. destruct Hh as [Hh|[<-|[]]]; cbn [fst snd].
      * destruct (I4 h Hh) as (sf & Hs & K). exists sf; auto.
      * exists nf. auto.
    + intros i sf Hi. rewrite hfilter_app. cbn [fst snd]. destruct (NTH _ _ Hi) as [Hi'|[-> ->]].
      * destruct (I5 i sf Hi') as (c0 & rest & E1 & E2). exists c0, rest. split; auto. rewrite E1.
        destruct (equivBy faceLess (sf_nodes sf) fn) eqn:Eq; [|now rewrite app_nil_r].
        apply equiv_key in Eq. exfalso. now apply (NF _ _ Hi').
      * cbn [sf_nodes nf]. replace (equivBy faceLess fn fn) with true by (symmetry; now apply equiv_key).
        rewrite Hnil. exists c, []. auto.
    + intros i sf Hi. destruct (NTH _ _ Hi) as [Hi'|[-> ->]].
      * destruct (I6 i sf Hi') as (h & Hh & Eh). exists h. split; auto. apply in_or_app; auto.
      * exists (c, fn, len (rs_faces st)). split; [apply in_or_app; right; now left|reflexivity].
  - rewrite E0. destruct (I1 e He) as (sf & Hs & Hn).
    assert (Lf : (N.to_nat (snd e) < length (rs_faces st))%nat) by (apply nth_error_Some; congruence).
    destruct (N.eqb_spec (snd e) INVALID) as [C|C]. { exfalso. unfold len in L. lia. }
    unfold nthN. replace (snd e <? N.of_nat (length (rs_faces st))) with true by (symmetry; apply N.ltb_lt; lia).
    rewrite Hs. cbn [obind]. eexists _, _. split; [reflexivity|].
    set (nf := mkSface (Q2 (MeshModel.p0 (sf_cells sf)) c) (sf_nodes sf)).
    set (i0 := N.to_nat (snd e)) in *.
    set (fs' := firstn i0 (rs_faces st) ++ nf :: skipn (S i0) (rs_faces st)).
    assert (LEN : length fs' = length (rs_faces st)).
    { unfold fs'. rewrite app_length; cbn [length]. rewrite firstn_length_le, skipn_length by lia. lia. }
    assert (NTH : forall i x, nth_error fs' i = Some x ->
       (i = i0 /\ x = nf) \/ (i <> i0 /\ nth_error (rs_faces st) i = Some x)).
    { intros i x Hi. unfold fs' in Hi. rewrite nth_error_set in Hi by auto.
      destruct (Nat.eqb_spec i i0); [left; split; congruence|right; auto]. }
    assert (BACK : forall i x, nth_error (rs_faces st) i = Some x -> exists y, nth_error fs' i = Some y /\ sf_nodes y = sf_nodes x).
    { intros i x Hi. unfold fs'. rewrite nth_error_set by auto. destruct (Nat.eqb_spec i i0) as [->|]; eauto.
      exists nf. split; auto. cbn. congruence. }
    assert (FWD : forall i x, nth_error fs' i = Some x -> exists y, nth_error (rs_faces st) i = Some y /\ sf_nodes x = sf_nodes y).
    { intros i x Hi. destruct (NTH i x Hi) as [[-> ->]|[_ Hi']]; eauto. }
    assert (KF : key (sf_nodes sf) = key fn) by (apply equiv_key in Ee; congruence).
    split; [|unfold face_ext; cbn [rs_cells rs_nodes rs_nmap rs_faces]; fold fs'; rewrite LEN; repeat split; auto].
    unfold faces_ok. cbn [rs_fmap rs_faces]. fold fs'. split; [|split; [|split; [|split; [|split]]]].
    + intros e' He'. destruct (I1 e' He') as (x & Hx & En). destruct (BACK _ _ Hx) as (y & Hy & Ey).
      exists y. split; congruence.
    + intros i x Hi. destruct (FWD i x Hi) as (y & Hy & ->). auto.
    + intros i j a b Hi Hj K. destruct (FWD _ _ Hi) as (a' & Ha & E1), (FWD _ _ Hj) as (b' & Hb & E2).
      rewrite E1, E2 in K. eauto.
    + intros h Hh. apply in_app_or in Hh. destruct Hh as [Hh|[<-|[]]]; cbn [fst snd].
      * destruct (I4 h Hh) as (x & Hx & K). destruct (BACK _ _ Hx) as (y & Hy & Ey). exists y. split; congruence.
      * destruct (BACK _ _ Hs) as (y & Hy & Ey). exists y. split; [exact Hy|now rewrite Ey].
    + intros i x Hi. rewrite hfilter_app. cbn [fst snd]. destruct (NTH _ _ Hi) as [[-> ->]|[Hne Hi']].
      * cbn [sf_nodes nf]. replace (equivBy faceLess (sf_nodes sf) fn) with true by (symmetry; now apply equiv_key).
        destruct (I5 _ _ Hs) as (c0 & rest & E1 & E2). exists c0, (rest ++ [c]). rewrite E1. split; auto.
        cbn [sf_cells nf]. rewrite E2. cbn. now rewrite last_last.
      * destruct (I5 i x Hi') as (c0 & rest & E1 & E2). exists c0, rest. split; auto. rewrite E1.
        destruct (equivBy faceLess (sf_nodes x) fn) eqn:Eq; [|now rewrite app_nil_r].
        apply equiv_key in Eq. exfalso. apply Hne. apply (I3 _ _ _ _ Hi' Hs). congruence.
    + intros i x Hi. destruct (FWD _ _ Hi) as (y & Hy & Ey).
      destruct (I6 _ _ Hy) as (h & Hh & Eh). exists h. split; [apply in_or_app; auto|congruence].
Qed.

(** ** Whole tetrahedra *)
Definition cellH (i : N) (sc : scell) : list (N * q3 N * N) :=
  map (fun p => (i, fst p, snd p)) (combine (tet_faces (sc_nodes sc)) (q4l (sc_faces sc))).
Definition allH (cells : list scell) : list (N * q3 N * N) :=
  flat_map (fun ic => cellH (N.of_nat (fst ic)) (snd ic)) (combine (seq 0 (length cells)) cells).

Definition cell_ok less (st : rstate) (mt : N * q4 (q3 N)) (sc : scell) : Prop :=
  sc_mat sc = fst mt /\ Forall2 (fun n p => node_at less st p n) (q4l (sc_nodes sc)) (q4l (snd mt)).

Record inv less (K : list (N * q4 (q3 N))) (st : rstate) : Prop := {
  iv_nodes : nodes_ok less st;
  iv_faces : faces_ok st (allH (rs_cells st));
  iv_cells : Forall2 (cell_ok less st) K (rs_cells st);
  iv_nb : (length (rs_nodes st) <= 4 * length K)%nat;
  iv_fb : (length (rs_faces st) <= 4 * length K)%nat }.

Lemma combine_app_same {A B} (l1 l2 : list A) (m1 m2 : list B) : length l1 = length m1 ->
  combine (l1 ++ l2) (m1 ++ m2) = combine l1 m1 ++ combine l2 m2.
Proof. revert m1; induction l1; intros [|b m1] H; try discriminate; auto. cbn. f_equal. apply IHl1. cbn in H; lia. Qed.

Lemma allH_app cells sc : allH (cells ++ [sc]) = allH cells ++ cellH (len cells) sc.
Proof.
  unfold allH. rewrite app_length; cbn [length]. rewrite Nat.add_1_r, seq_S, combine_app_same by (now rewrite seq_length).
  rewrite flat_map_app. reflexivity.
Qed.

Lemma addTet_ok less K st mat t : inv less K st -> (N.of_nat (4 * length K + 4) < INVALID) ->
  (forall p, In p (q4l t) -> incomparable less p p) ->
  exists st', addTet less mat st t = Some st' /\ inv less (K ++ [(mat, t)]) st'.
Proof.
  intros [V1 V2 V3 V4 V5] L Hp. unfold addTet.
  destruct t as [q0 q1 q2 q3]. cbn [r0 r1 r2 r3].
  destruct (addNode less st q0) as [s1 n0] eqn:E1.
  destruct (addNode less s1 q1) as [s2 n1] eqn:E2.
  destruct (addNode less s2 q2) as [s3 n2] eqn:E3.
  destruct (addNode less s3 q3) as [s4 n3] eqn:E4.
  destruct (addNode_ok less st q0 s1 n0 ltac:(unfold len; lia) V1 ltac:(apply Hp; cbn; auto) E1) as (A1 & (B1 & C1 & D1 & X1) & N1 & L1).
  destruct (addNode_ok less s1 q1 s2 n1 ltac:(unfold len; lia) A1 ltac:(apply Hp; cbn; auto) E2) as (A2 & (B2 & C2 & D2 & X2) & N2 & L2).
  destruct (addNode_ok less s2 q2 s3 n2 ltac:(unfold len; lia) A2 ltac:(apply Hp; cbn; auto) E3) as (A3 & (B3 & C3 & D3 & X3) & N3 & L3).
  destruct (addNode_ok less s3 q3 s4 n3 ltac:(unfold len; lia) A3 ltac:(apply Hp; cbn; auto) E4) as (A4 & (B4 & C4 & D4 & X4) & N4 & L4).
  assert (F4 : faces_ok s4 (allH (rs_cells s4))).
  { rewrite B4, B3, B2, B1. unfold faces_ok in *. rewrite C4, C3, C2, C1, D4, D3, D2, D1. exact V2. }
  assert (Lf : rs_faces s4 = rs_faces st) by congruence.
  assert (Lc : rs_cells s4 = rs_cells st) by congruence.
  set (ns := Q4 n0 n1 n2 n3).
  destruct (addFace_ok ns s4 _ 0%nat ltac:(unfold len; rewrite Lf; lia) F4) as (s5 & f0 & E5 & F5 & (G5 & H5 & J5 & K5 & M5)).
  rewrite E5. cbn [obind].
  destruct (addFace_ok ns s5 _ 1%nat ltac:(unfold len; rewrite Lf in *; lia) F5) as (s6 & f1 & E6 & F6 & (G6 & H6 & J6 & K6 & M6)).
  rewrite E6. cbn [obind].
  destruct (addFace_ok ns s6 _ 2%nat ltac:(unfold len; rewrite Lf in *; lia) F6) as (s7 & f2 & E7 & F7 & (G7 & H7 & J7 & K7 & M7)).
  rewrite E7. cbn [obind].
  destruct (addFace_ok ns s7 _ 3%nat ltac:(unfold len; rewrite Lf in *; lia) F7) as (s8 & f3 & E8 & F8 & (G8 & H8 & J8 & K8 & M8)).
  rewrite E8. cbn [obind]. eexists. split; [reflexivity|].
  assert (Nn : rs_nodes s8 = rs_nodes s4) by congruence.
  assert (Mm : rs_nmap s8 = rs_nmap s4) by congruence.
  assert (Cc : rs_cells s8 = rs_cells st) by congruence.
  assert (EXT : exists l, rs_nodes s8 = rs_nodes st ++ l).
  { destruct X1 as [l1 X1], X2 as [l2 X2], X3 as [l3 X3], X4 as [l4 X4].
    exists (l1 ++ l2 ++ l3 ++ l4). rewrite Nn, X4, X3, X2, X1. now rewrite <- !app_assoc. }
  constructor; cbn [rs_cells rs_faces rs_nodes rs_nmap rs_fmap].
  - unfold nodes_ok in *. cbn [rs_nodes rs_nmap]. rewrite Nn, Mm. exact A4.
  - rewrite allH_app. unfold faces_ok in *. cbn [rs_faces rs_fmap].
    replace (allH (rs_cells s8) ++ cellH (len (rs_cells s8)) (mkScell (Q4 f0 f1 f2 f3) ns mat))
      with ((((allH (rs_cells s4) ++ [(len (rs_cells s4), faceNodesOf ns 0, f0)]) ++
        [(len (rs_cells s5), faceNodesOf ns 1, f1)]) ++ [(len (rs_cells s6), faceNodesOf ns 2, f2)]) ++
        [(len (rs_cells s7), faceNodesOf ns 3, f3)]); [exact F8|].
    rewrite G8, G7, G6, G5. rewrite <- !app_assoc. reflexivity.
  - rewrite Cc. apply Forall2_app.
    + eapply Forall2_impl; [|exact V3]. intros mt sc [Hm Hf]. split; auto.
      eapply Forall2_impl; [|exact Hf]. intros n p Hnp. cbv beta in Hnp |- *.
      eapply node_at_ext; [|exact Hnp]. exact EXT.
    + constructor; [|constructor]. split; [reflexivity|]. cbn.
      assert (Y4 : forall p n, node_at less s4 p n ->
        node_at less (mkRstate (rs_cells st ++ [mkScell (Q4 f0 f1 f2 f3) ns mat]) (rs_faces s8) (rs_nodes s8) (rs_nmap s8) (rs_fmap s8)) p n).
      { intros p n. apply node_at_ext. exists []. cbn. now rewrite Nn, app_nil_r. }
      assert (Y3 : forall p n, node_at less s3 p n -> node_at less s4 p n) by (intros; eapply node_at_ext; eauto).
      assert (Y2 : forall p n, node_at less s2 p n -> node_at less s3 p n) by (intros; eapply node_at_ext; eauto).
      assert (Y1 : forall p n, node_at less s1 p n -> node_at less s2 p n) by (intros; eapply node_at_ext; eauto).
      repeat constructor; rewrite ?Cc; auto.
  - rewrite Nn, app_length; cbn. lia.
  - rewrite app_length; cbn. rewrite Lf in *. lia.
Qed.

Section Main.
  Context (mid : N -> N -> N) (ltb : N -> N -> bool) (dist : q3 N -> q3 N -> N) (dmax dmin : N)
          (ltMinus gtPlus : N -> N -> N -> bool) (sub : N -> N -> N) (name0 : bytes) (version0 : N).

  (** The refined tetrahedra of one coarse cell and of the mesh, with their materials. *)
  Definition childrenOf (sm : smesh) (c : scell) : option (list (N * q4 (q3 N))) :=
    let* t := coarseTet sm c in
    let* ts := refineTet mid ltb dist dmax t in
    Some (map (fun u => (sc_mat c, u)) ts).

  Lemma addTets_ok less mat ts : forall K st, inv less K st ->
    (N.of_nat (4 * (length K + length ts)) < INVALID) ->
    (forall t p, In t ts -> In p (q4l t) -> incomparable less p p) ->
    exists st', fold_left (fun st t => let* st := st in addTet less mat st t) ts (Some st) = Some st' /\
      inv less (K ++ map (fun u => (mat, u)) ts) st'.
  Proof.
    induction ts as [|t ts IH]; intros K st V L Hp; cbn [fold_left map].
    - exists st. rewrite app_nil_r. auto.
    - cbn [obind]. cbn [length] in L.
      destruct (addTet_ok less K st mat t V ltac:(lia) (fun p H => Hp t p (or_introl eq_refl) H)) as (st1 & E & V1).
      rewrite E. destruct (IH (K ++ [(mat, t)]) st1 V1) as (st2 & E2 & V2).
      + rewrite app_length; cbn. lia.
      + intros; eapply Hp; eauto. now right.
      + exists st2. split; auto. now rewrite <- app_assoc in V2.
  Qed.

  Lemma refine_fold less sm (ok : bool) cells Ks : ok = true -> mapM (childrenOf sm) cells = Some Ks ->
    (forall mt p, In mt (concat Ks) -> In p (q4l (snd mt)) -> incomparable less p p) ->
    forall K st, inv less K st -> (N.of_nat (4 * (length K + length (concat Ks))) < INVALID) ->
    exists st', fold_left (fun st c => let* st := st in
        if negb ok then None else addCoarse mid ltb dist dmax less sm st c) cells (Some st) = Some st' /\
      inv less (K ++ concat Ks) st'.
  Proof.
    intros ->. revert Ks. induction cells as [|c cells IH]; intros Ks E Hp K st V L.
    - apply Some_inj in E. subst Ks. exists st. cbn. rewrite app_nil_r. auto.
    - cbn in E. destruct (childrenOf sm c) as [k|] eqn:Ek; [|discriminate].
      destruct (mapM (childrenOf sm) cells) as [Ks'|]; [|discriminate]. apply Some_inj in E. subst Ks.
      unfold childrenOf in Ek. destruct (coarseTet sm c) as [t|] eqn:Et; [|discriminate]. cbn [obind] in Ek.
      destruct (refineTet mid ltb dist dmax t) as [ts|] eqn:Er; [|discriminate]. cbn [obind] in Ek.
      apply Some_inj in Ek. subst k. cbn [concat] in *. rewrite app_length, map_length in L.
      destruct (addTets_ok less (sc_mat c) ts K st V) as (st1 & E1 & V1); [lia| |].
      { intros u p Hu Hpp. apply (Hp (sc_mat c, u)); auto. apply in_or_app. left. apply in_map_iff; eauto. }
      cbn [fold_left obind negb]. unfold addCoarse at 2. rewrite Et. cbn [obind]. rewrite Er. cbn [obind]. rewrite E1.
      destruct (IH Ks' eq_refl) with (K := K ++ map (fun u => (sc_mat c, u)) ts) (st := st1) as (st2 & E2 & V2); auto.
      { intros; eapply Hp; eauto. apply in_or_app; auto. }
      { rewrite app_length, map_length. lia. }
      exists st2. split; auto. now rewrite <- app_assoc in V2.
  Qed.

  Lemma inv_init less : inv less [] rinit.
  Proof.
    constructor; cbn; auto; try (repeat split; intros; cbn in *; try easy; try (destruct i; discriminate)).
  Qed.

  Lemma nodup4 less (P : q3 N -> Prop) st ns t : strict_weak less P ->
    (forall p, In p (q4l t) -> P p) -> nodes_ok less st -> (forall i sn, nth_error (rs_nodes st) i = Some sn -> P (sn_coords sn)) ->
    (forall i j p q, nth_error (q4l t) i = Some p -> nth_error (q4l t) j = Some q -> incomparable less p q -> i = j) ->
    Forall2 (fun n p => node_at less st p n) (q4l ns) (q4l t) -> NoDup (q4l ns).
  Proof.
    intros (SW1 & SW2 & SW3) HP NO HN ND F. apply NoDup_nth_error. intros i j Hi E.
    assert (X : forall k n, nth_error (q4l ns) k = Some n -> exists p, nth_error (q4l t) k = Some p /\ node_at less st p n).
    { clear -F. induction F; intros k n Hk; [destruct k; discriminate|]. destruct k; cbn in *.
      - inversion Hk; subst. eauto. - eauto. }
    destruct (nth_error (q4l ns) i) as [n|] eqn:En; [|apply nth_error_None in En; lia].
    symmetry in E. destruct (X _ _ En) as (p & Hp & (sn & Hsn & C1)). destruct (X _ _ E) as (q & Hq & (sn' & Hsn' & C2)).
    rewrite Hsn in Hsn'. apply Some_inj in Hsn'. subst sn'.
    apply (ND i j p q Hp Hq). destruct C1, C2.
    apply (SW3 p (sn_coords sn) q); auto; [apply HP; eapply nth_error_In; exact Hp|eapply HN; exact Hsn|apply HP; eapply nth_error_In; exact Hq].
  Qed.

  (** Every node stored is one of the points fed in. *)
  Definition nodes_from (P : q3 N -> Prop) (st : rstate) := forall i sn, nth_error (rs_nodes st) i = Some sn -> P (sn_coords sn).
  Lemma addNode_from less (P : q3 N -> Prop) st p st' n : P p -> nodes_from P st -> addNode less st p = (st', n) -> nodes_from P st'.
  Proof.
    intros Hp Hf E. unfold addNode in E. destruct (_ =? INVALID); inversion E; subst; auto.
    intros i sn H. cbn in H. destruct (lt_dec i (length (rs_nodes st))).
    - rewrite nth_error_app1 in H by auto. eauto.
    - rewrite nth_error_app2 in H by lia. destruct (i - length (rs_nodes st))%nat as [|[|]]; cbn in H; try discriminate.
      inversion H. auto.
  Qed.
  Lemma addFace_nodes ns st l st' f : addFace ns st l = Some (st', f) -> rs_nodes st' = rs_nodes st.
  Proof.
    unfold addFace. destruct (_ =? INVALID); intros H.
    - apply Some_inj, pair_equal_spec in H. destruct H as [<- _]. reflexivity.
    - destruct (nthN _ _); [|discriminate]. cbn [obind] in H. apply Some_inj, pair_equal_spec in H. destruct H as [<- _]. reflexivity.
  Qed.
  Lemma addTet_from less (P : q3 N -> Prop) mat st t st' : (forall p, In p (q4l t) -> P p) -> nodes_from P st ->
    addTet less mat st t = Some st' -> nodes_from P st'.
  Proof.
    intros HP Hf E. unfold addTet in E. destruct t as [a b c d]; cbn [r0 r1 r2 r3] in E.
    destruct (addNode less st a) as [s1 n0] eqn:E1. apply addNode_from with (P := P) in E1; [|apply HP; cbn; auto|auto].
    destruct (addNode less s1 b) as [s2 n1] eqn:E2. apply addNode_from with (P := P) in E2; [|apply HP; cbn; auto|auto].
    destruct (addNode less s2 c) as [s3 n2] eqn:E3. apply addNode_from with (P := P) in E3; [|apply HP; cbn; auto|auto].
    destruct (addNode less s3 d) as [s4 n3] eqn:E4. apply addNode_from with (P := P) in E4; [|apply HP; cbn; auto|auto].
    destruct (addFace _ s4 0) as [[s5 f0]|] eqn:E5; [|discriminate]. cbn [obind] in E. apply addFace_nodes in E5.
    destruct (addFace _ s5 1) as [[s6 f1]|] eqn:E6; [|discriminate]. cbn [obind] in E. apply addFace_nodes in E6.
    destruct (addFace _ s6 2) as [[s7 f2]|] eqn:E7; [|discriminate]. cbn [obind] in E. apply addFace_nodes in E7.
    destruct (addFace _ s7 3) as [[s8 f3]|] eqn:E8; [|discriminate]. cbn [obind] in E. apply addFace_nodes in E8.
    apply Some_inj in E. subst st'. unfold nodes_from. cbn. rewrite E8, E7, E6, E5. exact E4.
  Qed.
  Lemma fold_none {A B} (f : A -> B -> option A) l : fold_left (fun st t => let* st := st in f st t) l None = None.
  Proof. induction l; auto. Qed.
  Lemma fold_from less (P : q3 N -> Prop) mat ts : forall st st', (forall t p, In t ts -> In p (q4l t) -> P p) -> nodes_from P st ->
    fold_left (fun st t => let* st := st in addTet less mat st t) ts (Some st) = Some st' -> nodes_from P st'.
  Proof.
    induction ts as [|t ts IH]; cbn [fold_left obind]; intros st st' HP Hf E.
    - apply Some_inj in E. now subst.
    - destruct (addTet less mat st t) as [s1|] eqn:E1; [|rewrite fold_none in E; discriminate].
      eapply IH; [| |exact E]. + intros; eapply HP; eauto; now right.
      + eapply addTet_from; [|exact Hf|exact E1]. intros; eapply HP; eauto; now left.
  Qed.
  Lemma refine_fold_from less sm (P : q3 N -> Prop) cells Ks : mapM (childrenOf sm) cells = Some Ks ->
    (forall mt p, In mt (concat Ks) -> In p (q4l (snd mt)) -> P p) ->
    forall st st', nodes_from P st ->
    fold_left (fun st c => let* st := st in
        if negb true then None else addCoarse mid ltb dist dmax less sm st c) cells (Some st) = Some st' ->
    nodes_from P st'.
  Proof.
    revert Ks. induction cells as [|c cells IH]; intros Ks E HP st st' Hf F.
    - cbn in F. apply Some_inj in F. now subst.
    - cbn in E. destruct (childrenOf sm c) as [k|] eqn:Ek; [|discriminate].
      destruct (mapM (childrenOf sm) cells) as [Ks'|]; [|discriminate]. apply Some_inj in E. subst Ks.
      unfold childrenOf in Ek. cbn [fold_left obind negb] in F. unfold addCoarse at 2 in F.
      destruct (coarseTet sm c) as [t|] eqn:Et; [|discriminate]. cbn [obind] in Ek, F.
      destruct (refineTet mid ltb dist dmax t) as [ts|] eqn:Er; [|discriminate]. cbn [obind] in Ek, F.
      apply Some_inj in Ek. subst k. cbn [concat] in *.
      destruct (fold_left (fun (st0 : option rstate) t0 => let* st1 := st0 in addTet less (sc_mat c) st1 t0) ts (Some st)) as [s1|] eqn:E1.
      + eapply IH; [reflexivity| | |exact F]. * intros; eapply HP; eauto. apply in_or_app; auto.
        * eapply fold_from; [|exact Hf|exact E1]. intros u p Hu Hp. apply (HP (sc_mat c, u)); auto.
          apply in_or_app. left. apply in_map_iff; eauto.
      + change (fold_left (fun (st : option rstate) c => let* st0 := st in addCoarse mid ltb dist dmax less sm st0 c) cells None = Some st') in F.
        rewrite fold_none in F. discriminate.
  Qed.

  Lemma incidences_H cells : map fst (allH cells) = incidences cells.
  Proof.
    unfold allH, incidences. rewrite flat_map_concat_map, concat_map, map_map, <- flat_map_concat_map.
    apply flat_map_ext. intros [i sc]. cbn [fst snd]. unfold cellH. rewrite map_map. cbn [fst].
    destruct sc as [[? ? ? ?] [? ? ? ?] ?]. reflexivity.
  Qed.
  Lemma in_allH cells c sc j tri f : nth_error cells c = Some sc ->
    nth_error (tet_faces (sc_nodes sc)) j = Some tri -> nth_error (q4l (sc_faces sc)) j = Some f ->
    In (N.of_nat c, tri, f) (allH cells).
  Proof.
    intros Hc Ht Hf. unfold allH. apply in_flat_map. exists (c, sc). split.
    - apply (nth_error_In _ c). clear -Hc.
      enough (G : forall s, nth_error (combine (seq s (length cells)) cells) c = Some ((s + c)%nat, sc)) by (apply (G 0%nat)).
      revert c Hc. induction cells; intros c Hc s; [destruct c; discriminate|]. destruct c; cbn in *.
      + inversion Hc. now rewrite Nat.add_0_r. + rewrite IHcells by auto. f_equal. f_equal. lia.
    - cbn [fst snd]. unfold cellH. apply in_map_iff. exists (tri, f). split; auto.
      destruct sc as [[? ? ? ?] [? ? ? ?] ?]. cbn in *.
      destruct j as [|[|[|[|j]]]]; cbn in *; try (destruct j; discriminate); inversion Ht; inversion Hf; subst; auto.
  Qed.
  Lemma in_incidences cells i : In i (incidences cells) -> exists sc, In sc cells /\ In (snd i) (tet_faces (sc_nodes sc)).
  Proof.
    unfold incidences. rewrite in_flat_map. intros ([k sc] & H & Hi). cbn [fst snd] in Hi.
    apply in_map_iff in Hi. destruct Hi as (f & <- & Hf). exists sc. split; auto. now apply in_combine_r in H.
  Qed.
  Lemma face_nodup (ns : q4 N) f : NoDup (q4l ns) -> In f (tet_faces ns) -> NoDup (q3l f).
  Proof.
    destruct ns as [a b c d]. cbn. intros H Hf.
    inversion_clear H as [|? ? H1 H']. inversion_clear H' as [|? ? H2 H'']. inversion_clear H'' as [|? ? H3 H4].
    cbn in *. repeat (destruct Hf as [<-|Hf]); try destruct Hf; cbn; repeat constructor; cbn; intuition congruence.
  Qed.

  Lemma refine_full sm d Ks : graphDiameter ltb dmax dmin sub sm = Some d ->
    1000 <= lenN (sm_cells sm) -> 32 * lenN (sm_cells sm) < INVALID ->
    mapM (childrenOf sm) (sm_cells sm) = Some Ks ->
    strict_weak (nodeLess (ltMinus d) (gtPlus d)) (fun p => exists mt, In mt (concat Ks) /\ In p (q4l (snd mt))) ->
    (forall mt i j p q, In mt (concat Ks) -> nth_error (q4l (snd mt)) i = Some p -> nth_error (q4l (snd mt)) j = Some q ->
       incomparable (nodeLess (ltMinus d) (gtPlus d)) p q -> i = j) ->
    exists rm, refineMesh mid ltb dist dmax dmin ltMinus gtPlus sub name0 version0 sm = Some rm /\
      refined_mesh (nodeLess (ltMinus d) (gtPlus d)) (concat Ks) rm /\
      (length (sm_nodes rm) <= 4 * length (concat Ks))%nat /\ (length (sm_faces rm) <= 4 * length (concat Ks))%nat /\ length (concat Ks) = (8 * length (sm_cells sm))%nat /\
      (forall i sn, nth_error (sm_nodes rm) i = Some sn -> exists mt, In mt (concat Ks) /\ In (sn_coords sn) (q4l (snd mt))).
  Proof.
    intros Ed L1 L2 EK SW ND. unfold refineMesh. rewrite Ed. cbn [obind].
    set (less := nodeLess (ltMinus d) (gtPlus d)) in *.
    set (P := fun p => exists mt, In mt (concat Ks) /\ In p (q4l (snd mt))) in *.
    assert (LK : length (concat Ks) = (8 * length (sm_cells sm))%nat).
    { rewrite (concat_length_fixed 8).
      - apply mapM_length in EK. lia.
      - intros x Hx. apply In_nth_error in Hx. destruct Hx as [i Hi].
        destruct (mapM_nth _ _ _ _ _ EK Hi) as (c & _ & Ec). unfold childrenOf in Ec.
        destruct (coarseTet sm c) as [t|]; [|discriminate]. cbn [obind] in Ec.
        rewrite refineTet_eq in Ec. cbn [obind] in Ec. apply Some_inj in Ec. subst x. rewrite map_length.
        destruct t as [[] [] [] []]. destruct (pick _ _ _ _) as [|[|]]; reflexivity. }
    assert (Hpp : forall mt p, In mt (concat Ks) -> In p (q4l (snd mt)) -> incomparable less p p).
    { intros mt p Hm Hp. destruct SW as (S1 & _). split; apply S1; exists mt; auto. }
    replace (len (sm_cells sm) / 1000 =? 0) with (negb true).
    2:{ symmetry. apply N.eqb_neq. unfold lenN in L1. fold (len (sm_cells sm)) in L1.
        pose proof (N.div_le_mono 1000 (len (sm_cells sm)) 1000 ltac:(discriminate) L1) as D.
        change (1000/1000) with 1 in D. lia. }
    unfold lenN in L2.
    destruct (refine_fold less sm true (sm_cells sm) Ks eq_refl EK Hpp [] rinit (inv_init less)) as (st & Es & V).
    { cbn [length]. rewrite Nat.add_0_l, LK. lia. }
    rewrite Es. cbn [obind]. eexists. split; [reflexivity|]. cbn [app] in V.
    destruct V as [V1 V2 V3 V4 V5].
    assert (FR : nodes_from P st).
    { apply (refine_fold_from less sm P (sm_cells sm) Ks EK) with (st := rinit); [intros mt p Hm Hp; exists mt; auto| |exact Es].
      intros [|i] sn H; discriminate H. }
    assert (NDc : forall sc, In sc (rs_cells st) -> NoDup (q4l (sc_nodes sc))).
    { intros sc Hsc. apply In_nth_error in Hsc. destruct Hsc as [i Hi].
      assert (X : exists mt, In mt (concat Ks) /\ cell_ok less st mt sc).
      { clear -V3 Hi. revert i Hi. induction V3; intros i Hi; [destruct i; discriminate|]. destruct i; cbn in Hi.
        - inversion Hi; subst. exists x. split; [now left|auto].
        - destruct (IHV3 _ Hi) as (mt & ? & ?). exists mt. split; [now right|auto]. }
      destruct X as (mt & Hm & Hc1 & Hc2).
      eapply (nodup4 less P st); eauto. intros p Hp. exists mt; auto. }
    destruct V2 as (F1 & F2 & F3 & F4 & F5 & F6).
    assert (TRI : forall i, In i (incidences (rs_cells st)) -> NoDup (q3l (snd i))).
    { intros i Hi. apply in_incidences in Hi. destruct Hi as (sc & Hs & Hf). eapply face_nodup; eauto. }
    assert (NDF : forall i sf, nth_error (rs_faces st) i = Some sf -> NoDup (q3l (sf_nodes sf))).
    { intros i sf Hi. destruct (F6 _ _ Hi) as (h & Hh & <-). apply (in_map fst) in Hh. rewrite incidences_H in Hh. now apply TRI in Hh. }
    split; [|split; [exact V4|split; [exact V5|split; [exact LK|exact FR]]]].
    constructor; cbn [sm_numCells sm_numFaces sm_numNodes sm_cells sm_faces sm_nodes].
    - repeat split; reflexivity.
    - exact V3.
    - apply V1.
    - intros c sc j f tri Hc Hf Ht. pose proof (in_allH _ _ _ _ _ _ Hc Ht Hf) as Hin.
      destruct (F4 _ Hin) as (sf & Hs & K). cbn [fst snd] in *. exists sf. split; auto.
      apply key_same_set; eauto. apply (in_map fst) in Hin. rewrite incidences_H in Hin. now apply TRI in Hin.
    - intros i j a b Hi Hj S. apply (F3 _ _ _ _ Hi Hj). apply key_same_set; eauto.
    - intros f sf Hf. destruct (F5 _ _ Hf) as (c0 & rest & E1 & E2). exists c0, rest. split; auto.
      rewrite <- E1. unfold owners, hfilter. rewrite <- incidences_H.
      assert (TRI' : forall h, In h (allH (rs_cells st)) -> NoDup (q3l (snd (fst h)))).
      { intros h Hh. apply (in_map fst) in Hh. rewrite incidences_H in Hh. now apply TRI in Hh. }
      pose proof (NDF _ _ Hf) as Nsf. clear -TRI' Nsf. induction (allH (rs_cells st)) as [|h l IH]; auto. cbn [map filter].
      assert (Eb : same_setb (sf_nodes sf) (snd (fst h)) = equivBy faceLess (sf_nodes sf) (snd (fst h))).
      { apply eq_true_iff_eq. rewrite same_setb_ok, face_equiv. symmetry. apply key_same_set; auto. apply TRI'. now left. }
      rewrite Eb. destruct (equivBy _ _ _); cbn [map]; rewrite IH; auto; intros; apply TRI'; now right.
  Qed.
  Lemma refine_main sm d Ks : graphDiameter ltb dmax dmin sub sm = Some d ->
    1000 <= lenN (sm_cells sm) -> 32 * lenN (sm_cells sm) < INVALID ->
    mapM (childrenOf sm) (sm_cells sm) = Some Ks ->
    strict_weak (nodeLess (ltMinus d) (gtPlus d)) (fun p => exists mt, In mt (concat Ks) /\ In p (q4l (snd mt))) ->
    (forall mt i j p q, In mt (concat Ks) -> nth_error (q4l (snd mt)) i = Some p -> nth_error (q4l (snd mt)) j = Some q ->
       incomparable (nodeLess (ltMinus d) (gtPlus d)) p q -> i = j) ->
    exists rm, refineMesh mid ltb dist dmax dmin ltMinus gtPlus sub name0 version0 sm = Some rm /\
      refined_mesh (nodeLess (ltMinus d) (gtPlus d)) (concat Ks) rm.
  Proof. intros H1 H2 H3 H4 H5 H6. destruct (refine_full sm d Ks H1 H2 H3 H4 H5 H6) as (rm & E & M & _). eauto. Qed.
End Main.

(** ** Composition with partitioning *)
From Verif Require Import CreateSpec.

Lemma mapi_In cells c sc tri : nth_error cells c = Some sc -> In tri (tet_faces (sc_nodes sc)) ->
  In (N.of_nat c, tri) (incidences cells).
Proof.
  intros Hc Ht. apply In_nth_error in Ht. destruct Ht as [j Hj].
  assert (Lj : (j < 4)%nat) by (change 4%nat with (length (tet_faces (sc_nodes sc))); apply nth_error_Some; congruence).
  destruct (nth_error (q4l (sc_faces sc)) j) as [f|] eqn:Ef.
  - pose proof (in_allH _ _ _ _ _ _ Hc Hj Ef) as H. apply (in_map fst) in H. now rewrite incidences_H in H.
  - apply nth_error_None in Ef. cbn in Ef. lia.
Qed.
Lemma incidences_nth cells i : In i (incidences cells) ->
  exists sc, nth_error cells (N.to_nat (fst i)) = Some sc /\ In (snd i) (tet_faces (sc_nodes sc)).
Proof.
  unfold incidences. rewrite in_flat_map. intros ([k sc] & H & Hi). cbn [fst snd] in Hi.
  apply in_map_iff in Hi. destruct Hi as (f & <- & Hf). exists sc. cbn. rewrite Nat2N.id. split; auto.
  apply In_nth_error in H. destruct H as [n Hn].
  assert (G : forall s (l : list scell), nth_error (combine (seq s (length l)) l) n = Some (k, sc) -> k = (s + n)%nat /\ nth_error l n = Some sc).
  { clear. revert k. induction n; intros k s l H; destruct l; cbn in *; try discriminate.
    - inversion H. split; auto; lia.
    - apply IHn in H. destruct H. split; auto; lia. }
  apply G in Hn. destruct Hn as [-> Hn]. exact Hn.
Qed.

Lemma refined_serial_ok less ts rm : refined_mesh less ts rm ->
  lenN (sm_cells rm) < 2^31 -> lenN (sm_faces rm) < 2^31 -> lenN (sm_nodes rm) < 2^31 ->
  (forall tri, (length (owners (sm_cells rm) tri) <= 2)%nat) ->
  Forall (fun mt => fst mt < two64) ts ->
  Forall (fun sn => Forall u64 (snode_fmt sn)) (sm_nodes rm) ->
  serial_mesh_ok rm.
Proof.
  intros [Rc Rcells Rdn Rfn Rdf Rfc] L1 L2 L3 OW HM HN.
  assert (CN : forall c sc n, nth_error (sm_cells rm) c = Some sc -> In n (q4l (sc_nodes sc)) ->
            exists sn, nth_error (sm_nodes rm) (N.to_nat n) = Some sn).
  { intros c sc n Hc Hn. clear -Rcells Hc Hn. revert c Hc. induction Rcells; intros c Hc; [destruct c; discriminate|].
    destruct c; cbn in Hc; [|eauto]. inversion Hc; subst. destruct H as [_ F].
    clear -F Hn. induction F; [destruct Hn|]. destruct Hn as [<-|Hn]; auto. destruct H as (sn & ? & _); eauto. }
  assert (CM : forall c sc, nth_error (sm_cells rm) c = Some sc -> sc_mat sc < two64).
  { intros c sc Hc. clear -Rcells Hc HM. revert c Hc. induction Rcells; intros c Hc; [destruct c; discriminate|].
    inversion_clear HM. destruct c; cbn in Hc; [|eauto]. inversion Hc; subst. destruct H as [-> _]. auto. }
  assert (CFn : forall c sc f, nth_error (sm_cells rm) c = Some sc -> In f (q4l (sc_faces sc)) ->
     exists sf tri, nth_error (sm_faces rm) (N.to_nat f) = Some sf /\ In tri (tet_faces (sc_nodes sc)) /\ same_set (sf_nodes sf) tri).
  { intros c sc f Hc Hf. apply In_nth_error in Hf. destruct Hf as [j Hj].
    destruct (nth_error (tet_faces (sc_nodes sc)) j) as [tri|] eqn:Et.
    - destruct (Rfn _ _ _ _ _ Hc Hj Et) as (sf & Hs & S). exists sf, tri. repeat split; try apply S; auto. eapply nth_error_In; eauto.
    - apply nth_error_None in Et. cbn in Et.
      assert (j < 4)%nat by (change 4%nat with (length (q4l (sc_faces sc))); apply nth_error_Some; congruence). lia. }
  assert (TN : forall (ns : q4 N) tri n, In tri (tet_faces ns) -> In n (q3l tri) -> In n (q4l ns)).
  { intros [a b c d] tri n Ht Hn. cbn in *. repeat (destruct Ht as [<-|Ht]; [cbn in Hn; tauto|]). destruct Ht. }
  assert (OWN : forall f sf c, nth_error (sm_faces rm) f = Some sf -> In c (q2l (sf_cells sf)) -> c <> INVALID ->
     In c (owners (sm_cells rm) (sf_nodes sf))).
  { intros f sf c Hf Hc HI. destruct (Rfc _ _ Hf) as (c0 & rest & E1 & E2). rewrite E1. rewrite E2 in Hc.
    destruct Hc as [<-|[Hc|[]]]; [now left|]. right. cbn in Hc. destruct rest as [|x r]; [cbn in Hc; congruence|].
    rewrite <- Hc. destruct (@exists_last _ (x :: r)) as (l' & z & ->); [discriminate|].
    rewrite last_last. apply in_or_app. right. now left. }
  assert (OWc : forall tri c, In c (owners (sm_cells rm) tri) -> exists sc tri', nth_error (sm_cells rm) (N.to_nat c) = Some sc /\
     In tri' (tet_faces (sc_nodes sc)) /\ same_set tri tri').
  { intros tri c H. unfold owners in H. apply in_map_iff in H. destruct H as (i & <- & Hi).
    apply filter_In in Hi. destruct Hi as [Hi S]. apply same_setb_ok in S.
    destruct (incidences_nth _ _ Hi) as (sc & Hs & Ht). exists sc, (snd i). auto. }
  assert (OWN2 : forall c sc tri tri', nth_error (sm_cells rm) c = Some sc -> In tri' (tet_faces (sc_nodes sc)) -> same_set tri tri' ->
     In (N.of_nat c) (owners (sm_cells rm) tri)).
  { intros c sc tri tri' Hc Ht S. unfold owners. apply in_map_iff. exists (N.of_nat c, tri'). split; auto.
    apply filter_In. split; [eapply mapi_In; eauto|]. now apply same_setb_ok. }
  assert (U1 : forall l, In l (sm_faces rm) -> Forall u64 (sface_fmt l)).
  { intros sf Hs. apply In_nth_error in Hs. destruct Hs as [f Hf].
    destruct (Rfc _ _ Hf) as (c0 & rest & E1 & E2).
    assert (Hin : In c0 (owners (sm_cells rm) (sf_nodes sf))) by (rewrite E1; now left).
    destruct (OWc _ _ Hin) as (sc & tri' & Hsc & Ht & S).
    assert (Hcell : forall c, In c (q2l (sf_cells sf)) -> u64 c).
    { intros c Hc. destruct (N.eq_dec c INVALID) as [->|Hne]; [vm_compute; reflexivity|].
      pose proof (OWN _ _ _ Hf Hc Hne) as Ho. destruct (OWc _ _ Ho) as (sc' & _ & Hsc' & _).
      assert (N.to_nat c < length (sm_cells rm))%nat by (apply nth_error_Some; congruence). unfold lenN in L1. unfold u64.
      change (2^31) with 2147483648 in *. lia. }
    assert (Hnode : forall n, In n (q3l (sf_nodes sf)) -> u64 n).
    { intros n Hn. apply S in Hn. apply (TN _ _ _ Ht) in Hn. destruct (CN _ _ _ Hsc Hn) as (sn & Hsn).
      assert (N.to_nat n < length (sm_nodes rm))%nat by (apply nth_error_Some; congruence). unfold lenN in L3. unfold u64.
      change (2^31) with 2147483648 in *. lia. }
    destruct sf as [[a b] [x y z]]. cbn in *. repeat (apply Forall_cons; [auto|]). constructor. }
  assert (U2 : forall l, In l (sm_cells rm) -> Forall u64 (scell_fmt l)).
  { intros sc Hs. apply In_nth_error in Hs. destruct Hs as [c Hc].
    assert (Hnode : forall n, In n (q4l (sc_nodes sc)) -> u64 n).
    { intros n Hn. destruct (CN _ _ _ Hc Hn) as (sn & Hsn).
      assert (N.to_nat n < length (sm_nodes rm))%nat by (apply nth_error_Some; congruence). unfold lenN in L3. unfold u64.
      change (2^31) with 2147483648 in *. lia. }
    assert (Hface : forall n, In n (q4l (sc_faces sc)) -> u64 n).
    { intros n Hn. destruct (CFn _ _ _ Hc Hn) as (sn & _ & Hsn & _).
      assert (N.to_nat n < length (sm_faces rm))%nat by (apply nth_error_Some; congruence). unfold lenN in L2. unfold u64.
      change (2^31) with 2147483648 in *. lia. }
    pose proof (CM _ _ Hc) as Hm.
    destruct sc as [[a b x y] [a' b' x' y'] m]. cbn [q4l r0 r1 r2 r3 sc_faces sc_nodes sc_mat In scell_fmt] in *. repeat (apply Forall_cons; [solve [auto 9|exact Hm]|]). constructor. }
  change (2^31) with 2147483648 in *.
  constructor.
  - unfold serial_wf. destruct Rc as (-> & -> & ->). do 3 (split; [reflexivity|]). do 3 (split; [unfold u64; lia|]).
    split; [|split]; auto; apply Forall_forall; auto.
  - unfold INVALID. lia.
  - exact L2.
  - exact L3.
  - intros c sc f Hc Hf. destruct (CFn _ _ _ Hc Hf) as (sf & tri & Hs & Ht & S). exists sf. split; [exact Hs|]. split.
    + pose proof (OWN2 _ _ _ _ Hc Ht S) as Ho. rewrite N2Nat.id in Ho.
      destruct (Rfc _ _ Hs) as (c0 & rest & E1 & E2). rewrite E2. specialize (OW (sf_nodes sf)). rewrite E1 in *.
      destruct rest as [|x [|y r]]; cbn in OW; [| |lia]; cbn in *; tauto.
    + intros n Hn. apply (TN _ _ _ Ht), S, Hn.
  - intros f sf c Hf Hc HI. pose proof (OWN _ _ _ Hf Hc HI) as Ho. destruct (OWc _ _ Ho) as (sc & tri' & Hsc & Ht & S).
    exists sc. split; [exact Hsc|]. apply In_nth_error in Ht. destruct Ht as [j Hj].
    destruct (nth_error (q4l (sc_faces sc)) j) as [f'|] eqn:Ef.
    + destruct (Rfn _ _ _ _ _ Hsc Ef Hj) as (sf' & Hs' & S').
      assert (N.to_nat f = N.to_nat f') by (eapply Rdf; [exact Hf|exact Hs'|]; intros n; rewrite (S n), (S' n); reflexivity).
      assert (f = f') by lia. subst f'. eapply nth_error_In; eauto.
    + apply nth_error_None in Ef. cbn in Ef.
      assert (j < 4)%nat by (change 4%nat with (length (tet_faces (sc_nodes sc))); apply nth_error_Some; congruence). lia.
  - intros c sc n Hc Hn. destruct (CN _ _ _ Hc Hn) as (sn & H). exists sn. exact H.
Qed.

(** ** The tolerance order *)
Section Tol.
  Local Open Scope R_scope.
  Definition ltTol (tol a b : R) : bool := if Rlt_dec a (b - tol) then true else false.
  Definition gtTol (tol a b : R) : bool := if Rlt_dec (b + tol) a then true else false.
  Lemma tol_order_separated tol (P : q3 R -> Prop) : 0 <= tol ->
    (forall p q k, P p -> P q -> In k [t0; t1; t2] -> k p = k q \/ tol < Rabs (k p - k q)) ->
    strict_weak (nodeLess (ltTol tol) (gtTol tol)) P /\
    forall p q, P p -> P q -> (incomparable (nodeLess (ltTol tol) (gtTol tol)) p q <-> p = q).
  Proof.
    intros Ht Hs.
    assert (S0 : forall p q, P p -> P q -> t0 p = t0 q \/ tol < Rabs (t0 p - t0 q)) by (intros; apply Hs; cbn; auto).
    assert (S1 : forall p q, P p -> P q -> t1 p = t1 q \/ tol < Rabs (t1 p - t1 q)) by (intros; apply Hs; cbn; auto).
    assert (S2 : forall p q, P p -> P q -> t2 p = t2 q \/ tol < Rabs (t2 p - t2 q)) by (intros; apply Hs; cbn; auto).
    assert (D : forall x y, x = y \/ tol < Rabs (x - y) -> ltTol tol x y = (if Rlt_dec x y then true else false) /\
       gtTol tol x y = (if Rlt_dec y x then true else false)).
    { intros x y H. unfold ltTol, gtTol.
      destruct (Rlt_dec x (y - tol)), (Rlt_dec x y), (Rlt_dec (y + tol) x), (Rlt_dec y x); split; auto; exfalso;
      destruct H as [->|H]; try Lra.lra; unfold Rabs in H; destruct (Rcase_abs (x - y)); Lra.lra. }
    set (LX := fun p q : q3 R => t0 p < t0 q \/ (t0 p = t0 q /\ (t1 p < t1 q \/ (t1 p = t1 q /\ t2 p < t2 q)))).
    assert (E : forall p q, P p -> P q -> (nodeLess (ltTol tol) (gtTol tol) p q = true <-> LX p q)).
    { intros p q Hp Hq. unfold nodeLess, LX.
      destruct (D _ _ (S0 p q Hp Hq)) as [-> ->], (D _ _ (S1 p q Hp Hq)) as [-> ->], (D _ _ (S2 p q Hp Hq)) as [-> ->].
      destruct (Rlt_dec (t0 p) (t0 q)), (Rlt_dec (t0 q) (t0 p)), (Rlt_dec (t1 p) (t1 q)), (Rlt_dec (t1 q) (t1 p)),
        (Rlt_dec (t2 p) (t2 q)), (Rlt_dec (t2 q) (t2 p)); split; intros X; try reflexivity; try discriminate; try Lra.lra;
        exfalso; Lra.lra. }
    assert (NE : forall p q, P p -> P q -> (nodeLess (ltTol tol) (gtTol tol) p q = false <-> ~ LX p q)).
    { intros p q Hp Hq. rewrite <- (E p q Hp Hq). destruct (nodeLess _ _ p q); split; congruence. }
    assert (TOT : forall p q, ~ LX p q -> ~ LX q p -> p = q).
    { intros p q A B. unfold LX in *. apply q3_inj; destruct (Rtotal_order (t0 p) (t0 q)) as [?|[?|?]]; try tauto;
      destruct (Rtotal_order (t1 p) (t1 q)) as [?|[?|?]]; try tauto;
      destruct (Rtotal_order (t2 p) (t2 q)) as [?|[?|?]]; try tauto; exfalso;
      try (apply B; Lra.lra); try (apply A; Lra.lra); Lra.lra. }
    split; [split; [|split]|].
    - intros a Ha. apply NE; auto. unfold LX. Lra.lra.
    - intros a b c Ha Hb Hc H1 H2. apply E in H1, H2; auto. apply E; auto. unfold LX in *. Lra.lra.
    - intros a b c Ha Hb Hc H1 H2 H3 H4. apply NE in H1, H2, H3, H4; auto.
      assert (a = b) by (apply TOT; auto). assert (b = c) by (apply TOT; auto). subst.
      split; apply NE; auto.
    - intros p q Hp Hq. split.
      + intros [A B]. apply NE in A, B; auto.
      + intros ->. split; apply NE; auto; unfold LX; Lra.lra.
  Qed.
  Lemma tol_order_fails tol : 0 < tol -> ~ strict_weak (nodeLess (ltTol tol) (gtTol tol)) (fun _ => True).
  Proof.
    intros Ht (_ & _ & S).
    destruct (S (Q3 0 0 0) (Q3 tol 0 0) (Q3 (2 * tol) 0 0)) as [A B]; auto.
    all: unfold nodeLess, ltTol, gtTol in *; cbn in *;
      repeat match goal with |- context [Rlt_dec ?x ?y] => destruct (Rlt_dec x y); try Lra.lra
             | H : context [Rlt_dec ?x ?y] |- _ => destruct (Rlt_dec x y); try Lra.lra end; try discriminate; auto.
  Qed.
End Tol.
