(** The refined mesh of a valid mesh of tetrahedra is one. *)
From Coq Require Import Reals Lra Permutation.
From Verif Require Import Prelude Bytes MeshModel MeshSpec CreateSpec MeshCheck RefineModel RefineSpec RefineProofs RefineMeshProofs TychoSpec GeometrySpec GeometryProofs ViewSpec RefinedSpec RefinedProofs.

(** ** Children of all cells *)
Section Children.
  Context (sm : smesh) (dec : N -> R) (mid : N -> N -> N) (ltb : N -> N -> bool) (dist : q3 N -> q3 N -> N) (dmax : N).
  Context (OK : serial_mesh_ok sm) (SOL : solid sm dec) (EM : exact_midpoints sm dec mid).
  Definition corner_of (sc : scell) (p : q3 N) : Prop := exists n sn, In n (q4l (sc_nodes sc)) /\ SM_node sm n = Some sn /\ p = sn_coords sn.
  Lemma coarse_tet i sc : nth_error (sm_cells sm) i = Some sc -> exists t, coarseTet sm sc = Some t /\ s_cell sm dec (N.of_nat i) (decT dec t) /\ forall p, In p (q4l t) -> corner_of sc p.
  Proof.
    intros H. assert (H' : SM_cell sm (N.of_nat i) = Some sc) by (unfold SM_cell; now rewrite Nat2N.id).
    assert (K : forall n, In n (q4l (sc_nodes sc)) -> exists sn, SM_node sm n = Some sn /\ coarseNode sm n = Some (sn_coords sn)).
    { intros n Hn. destruct (smo_cn _ OK _ _ _ H' Hn) as (sn & E). exists sn. split; auto. unfold coarseNode. unfold SM_node in E. rewrite (nthN_some _ _ _ E). reflexivity. }
    unfold s_cell. unfold coarseTet. unfold corner_of. destruct (sc_nodes sc) as [n0 n1 n2 n3] eqn:EN. cbn [q4l In] in K.
    destruct (K n0 ltac:(auto)) as (s0 & A0 & B0). destruct (K n1 ltac:(auto)) as (s1 & A1 & B1). destruct (K n2 ltac:(auto)) as (s2 & A2 & B2). destruct (K n3 ltac:(auto)) as (s3 & A3 & B3).
    cbn [r0 r1 r2 r3]. rewrite B0, B1, B2, B3. cbn [obind]. eexists. split; [reflexivity|]. split.
    - exists sc. split; auto. rewrite EN. cbn [map q4l decT r0 r1 r2 r3]. unfold s_point. rewrite A0, A1, A2, A3. reflexivity.
    - cbn [q4l In]. intros p [<-|[<-|[<-|[<-|[]]]]]; eauto 10.
  Qed.
  Lemma s_cell_coarse i sc t p : nth_error (sm_cells sm) i = Some sc -> coarseTet sm sc = Some t -> s_cell sm dec (N.of_nat i) p -> p = decT dec t.
  Proof.
    intros H T S. destruct (coarse_tet i sc H) as (t' & T' & S' & _). rewrite T in T'. apply Some_inj in T'. subst t'.
    destruct S as (c & C & E). destruct S' as (c' & C' & E'). rewrite C in C'. apply Some_inj in C'. subst c'. rewrite E in E'. destruct p as [a b c1 d]. cbn in E'. injection E'. intros; subst. reflexivity.
  Qed.
  Lemma diameter_some dmin sub : exists d, graphDiameter ltb dmax dmin sub sm = Some d.
  Proof.
    unfold graphDiameter, extremes. set (f := fun _ _ => _).
    assert (K : forall l a, (forall sc, In sc l -> In sc (sm_cells sm)) -> exists b, fold_left f l (Some a) = Some b).
    { induction l as [|sc l IH]; intros a I; [cbn; eauto|]. cbn [fold_left]. destruct (In_nth_error _ _ (I sc ltac:(now left))) as (i & Hi). destruct (coarse_tet i sc Hi) as (t & T & _).
      unfold f at 2. cbn [obind]. rewrite T. cbn [obind]. apply IH. intros x Hx. apply I. now right. }
    destruct (K (sm_cells sm) (Q3 dmax dmax dmax, Q3 dmin dmin dmin) ltac:(auto)) as ((mn & mx) & ->). cbn [obind]. eauto.
  Qed.
  Lemma children_some : exists Ks, mapM (childrenOf mid ltb dist dmax sm) (sm_cells sm) = Some Ks.
  Proof.
    assert (K : forall l, (forall sc, In sc l -> In sc (sm_cells sm)) -> exists Ks, mapM (childrenOf mid ltb dist dmax sm) l = Some Ks).
    { induction l as [|sc l IH]; intros I; [cbn; eauto|]. cbn [mapM]. destruct (In_nth_error _ _ (I sc ltac:(now left))) as (i & Hi). destruct (coarse_tet i sc Hi) as (t & T & _).
      unfold childrenOf at 1. rewrite T. cbn [obind]. rewrite refineTet_eq. cbn [obind]. destruct IH as (Ks & ->); [intros x Hx; apply I; now right|]. eauto. }
    apply K. auto.
  Qed.
  Context (Ks : list (list (N * q4 (q3 N)))) (EK : mapM (childrenOf mid ltb dist dmax sm) (sm_cells sm) = Some Ks).
  Lemma cell_coords sc p k : corner_of sc p -> cell_coord sm k sc (k p).
  Proof. intros (n & sn & A & B & ->). exists n, sn. auto. Qed.
  Lemma mid_exact sc p q : In sc (sm_cells sm) -> corner_of sc p -> corner_of sc q -> decP dec (midPt mid p q) = midPt rmid (decP dec p) (decP dec q).
  Proof.
    intros I A B. unfold decP, midPt, rmid. cbn [t0 t1 t2].
    rewrite (em_mid _ _ _ EM t0 sc (t0 p) (t0 q) ltac:(cbn; auto) I (cell_coords _ _ t0 A) (cell_coords _ _ t0 B)), (em_mid _ _ _ EM t1 sc (t1 p) (t1 q) ltac:(cbn; auto) I (cell_coords _ _ t1 A) (cell_coords _ _ t1 B)),
      (em_mid _ _ _ EM t2 sc (t2 p) (t2 q) ltac:(cbn; auto) I (cell_coords _ _ t2 A) (cell_coords _ _ t2 B)). apply q3_eq; cbn; lra.
  Qed.
  Lemma lab_corner t n p : lab mid t n = p -> In p (q4l t) \/ exists a b, In a (q4l t) /\ In b (q4l t) /\ p = midPt mid a b.
  Proof.
    intros <-. destruct t as [a b c d]. unfold lab. cbn [q4l In]. do 4 (destruct n as [|n]; [cbn; tauto|]).
    do 6 (destruct n as [|n]; [right; cbn [nth]; eexists _, _; (split; [|split; [|reflexivity]]); tauto|]). left. destruct n; cbn; tauto.
  Qed.
  Lemma children_of sc K : childrenOf mid ltb dist dmax sm sc = Some K -> In sc (sm_cells sm) -> exists t k, coarseTet sm sc = Some t /\ (k < 3)%nat /\ (forall p, In p (q4l t) -> corner_of sc p) /\
    (forall mt, In mt K -> fst mt = sc_mat sc) /\ map (fun mt => decT dec (snd mt)) K = kids k (decT dec t) /\
    (forall mt p, In mt K -> In p (q4l (snd mt)) -> corner_of sc p \/ exists a b, corner_of sc a /\ corner_of sc b /\ p = midPt mid a b).
  Proof.
    intros E I. destruct (In_nth_error _ _ I) as (i & Hi). destruct (coarse_tet i sc Hi) as (t & T & _ & CO). unfold childrenOf in E. rewrite T in E. cbn [obind] in E.
    destruct (refineTet mid ltb dist dmax t) as [ts|] eqn:ET; [|discriminate]. cbn [obind] in E. apply Some_inj in E. subst K.
    destruct (dec_children dec mid ltb dist dmax t ts) as (k & Hk & EQ); [|exact ET|].
    { intros p q Hp Hq. apply (mid_exact sc); auto. }
    exists t, k. split; auto. split; auto. split; auto. split; [|split].
    - intros mt Hm. apply in_map_iff in Hm. destruct Hm as (u & <- & _). reflexivity.
    - rewrite map_map. exact EQ.
    - intros mt p Hm Hp. apply in_map_iff in Hm. destruct Hm as (u & <- & Hu). cbn [snd] in Hp. destruct (refine_lab mid ltb dist dmax t) as (k' & _ & E'). rewrite ET in E'. apply Some_inj in E'. subst ts.
      apply in_map_iff in Hu. destruct Hu as (q & <- & _). destruct q as [q0 q1 q2 q3]. unfold q4map in Hp. cbn [q4l r0 r1 r2 r3 In] in Hp.
      assert (Z : exists n, lab mid t n = p) by (destruct Hp as [Z|[Z|[Z|[Z|[]]]]]; eauto). destruct Z as (n & Z). destruct (lab_corner t n p Z) as [A|(a & b & A & B & ->)]; [left; auto|right; exists a, b; auto].
  Qed.
  Lemma Ks_length x : In x Ks -> length x = 8.
  Proof.
    intros Hx. destruct (In_nth_error _ _ Hx) as (i & Hi). destruct (mapM_nth _ _ _ _ _ EK Hi) as (sc & Hc & E). destruct (children_of sc x E (nth_error_In _ _ Hc)) as (t & k & _ & _ & _ & _ & M & _).
    apply (f_equal (@length _)) in M. rewrite map_length, kids_length in M. exact M.
  Qed.
  (** Child number [g] is child [g mod 8] of cell [g / 8]. *)
  Lemma child_at g mt : nth_error (concat Ks) g = Some mt -> exists sc t k, nth_error (sm_cells sm) (g / 8) = Some sc /\ coarseTet sm sc = Some t /\ fst mt = sc_mat sc /\ (k < 3)%nat /\
    s_cell sm dec (N.of_nat (g / 8)) (decT dec t) /\ (forall l v, nth_error Ks (g / 8) = Some l -> map (fun mt => decT dec (snd mt)) l = v -> v = kids k (decT dec t)) /\ nth_error (kids k (decT dec t)) (g mod 8) = Some (decT dec (snd mt)) /\
    (forall p, In p (q4l (snd mt)) -> corner_of sc p \/ exists a b, corner_of sc a /\ corner_of sc b /\ p = midPt mid a b).
  Proof.
    intros H. assert (L : g < length (concat Ks)) by (apply nth_error_Some; congruence). rewrite (concat_length_fixed 8) in L by exact Ks_length.
    assert (DM : g = (g / 8) * 8 + g mod 8) by (rewrite Nat.mul_comm; apply Nat.div_mod; lia). assert (MB : g mod 8 < 8) by (apply Nat.mod_upper_bound; lia).
    assert (DL : g / 8 < length Ks) by (apply Nat.div_lt_upper_bound; lia). destruct (nth_error Ks (g / 8)) as [K|] eqn:HK; [|apply nth_error_None in HK; lia].
    rewrite DM, (nth_error_concat_fixed 8 Ks (g / 8) (g mod 8) K Ks_length HK MB) in H.
    destruct (mapM_nth _ _ _ _ _ EK HK) as (sc & Hc & E). destruct (children_of sc K E (nth_error_In _ _ Hc)) as (t & k & T & Hk & CO & MA & M & PT).
    exists sc, t, k. split; auto. split; auto. split; [apply MA; eapply nth_error_In; eauto|]. split; auto. split; [|split; [|split]].
    - destruct (coarse_tet _ sc Hc) as (t' & T' & S & _). rewrite T in T'. apply Some_inj in T'. now subst t'.
    - intros l v Hl <-. apply Some_inj in Hl. subst l. exact M.
    - rewrite <- M, nth_error_map, H. reflexivity.
    - intros p Hp. eapply PT; [eapply nth_error_In; exact H|exact Hp].
  Qed.
  Lemma child_of i sc t : nth_error (sm_cells sm) i = Some sc -> coarseTet sm sc = Some t -> exists k, (k < 3)%nat /\ forall u, In u (kids k (decT dec t)) -> exists g mt, g / 8 = i /\ nth_error (concat Ks) g = Some mt /\ decT dec (snd mt) = u.
  Proof.
    intros Hc T. assert (L : i < length Ks) by (rewrite (mapM_length _ _ _ EK); apply nth_error_Some; congruence). destruct (nth_error Ks i) as [K|] eqn:HK; [|apply nth_error_None in HK; lia].
    destruct (mapM_nth _ _ _ _ _ EK HK) as (sc' & Hc' & E). rewrite Hc in Hc'. apply Some_inj in Hc'. subst sc'. destruct (children_of sc K E (nth_error_In _ _ Hc)) as (t' & k & T' & Hk & CO & MA & M & PT).
    rewrite T in T'. apply Some_inj in T'. subst t'. exists k. split; auto. intros u Hu. rewrite <- M in Hu. apply in_map_iff in Hu. destruct Hu as (mt & <- & Hm). destruct (In_nth_error _ _ Hm) as (j & Hj).
    assert (J : j < 8) by (rewrite <- (Ks_length K (nth_error_In _ _ HK)); apply nth_error_Some; congruence).
    exists (i * 8 + j), mt. split; [rewrite Nat.div_add_l by lia; rewrite (Nat.div_small j 8 J); lia|]. split; auto. rewrite (nth_error_concat_fixed 8 Ks i j K Ks_length HK J). exact Hj.
  Qed.
End Children.

(** ** Owners of a triangle *)
Lemma faces_distinct (ns : q4 N) i j f f' : NoDup (q4l ns) -> nth_error (tet_faces ns) i = Some f -> nth_error (tet_faces ns) j = Some f' -> same_set f f' -> i = j.
Proof.
  intros ND Hi Hj S. destruct (Nat.eq_dec i j) as [|NE]; auto. exfalso. destruct ns as [a b c d].
  assert (D : a <> b /\ a <> c /\ a <> d /\ b <> c /\ b <> d /\ c <> d).
  { cbn in ND. inversion_clear ND as [|? ? A N1]. inversion_clear N1 as [|? ? B N2]. inversion_clear N2 as [|? ? C _]. cbn in A, B, C. intuition congruence. }
  destruct D as (D1 & D2 & D3 & D4 & D5 & D6). unfold same_set in S. pose proof (S a) as Sa. pose proof (S b) as Sb. pose proof (S c) as Sc. pose proof (S d) as Sd. clear S ND.
  destruct i as [|[|[|[|i]]]]; [| | | |destruct i; discriminate]; (destruct j as [|[|[|[|j]]]]; [| | | |destruct j; discriminate]); try congruence;
    cbn in Hi, Hj; apply Some_inj in Hi, Hj; subst f f'; cbn in Sa, Sb, Sc, Sd;
    first [destruct (proj1 Sa ltac:(auto)) as [X|[X|[X|[]]]]; congruence|destruct (proj1 Sb ltac:(auto)) as [X|[X|[X|[]]]]; congruence|destruct (proj1 Sc ltac:(auto)) as [X|[X|[X|[]]]]; congruence|destruct (proj1 Sd ltac:(auto)) as [X|[X|[X|[]]]]; congruence].
Qed.
Lemma same_set_trans a b c : same_set a b -> same_set b c -> same_set a c.
Proof. intros H K n. rewrite (H n). apply K. Qed.
Lemma same_set_sym a b : same_set a b -> same_set b a.
Proof. intros H n. symmetry. apply H. Qed.
Definition ownersFrom (s : nat) (cells : list scell) (tri : q3 N) : list N :=
  map fst (filter (fun i => same_setb tri (snd i)) (flat_map (fun ic => map (fun f => (N.of_nat (fst ic), f)) (tet_faces (sc_nodes (snd ic)))) (combine (seq s (length cells)) cells))).
Lemma filter_one {A} (p : A -> bool) l : (forall i j a b, nth_error l i = Some a -> nth_error l j = Some b -> p a = true -> p b = true -> i = j) -> filter p l = [] \/ exists a, filter p l = [a].
Proof.
  induction l as [|x l IH]; intros H; [now left|]. cbn. destruct (p x) eqn:E.
  - right. exists x. destruct (filter p l) as [|y r] eqn:F; auto. exfalso. assert (I : In y (filter p l)) by (rewrite F; now left). apply filter_In in I. destruct I as (I & Py). destruct (In_nth_error _ _ I) as (j & Hj).
    discriminate (H 0 (S j) x y eq_refl Hj E Py).
  - apply IH. intros i j a b Hi Hj Pa Pb. specialize (H (S i) (S j) a b Hi Hj Pa Pb). lia.
Qed.
Lemma ownersFrom_nodup tri cells : (forall sc, In sc cells -> NoDup (q4l (sc_nodes sc))) -> forall s, NoDup (ownersFrom s cells tri) /\ forall c, In c (ownersFrom s cells tri) -> (N.of_nat s <= c)%N.
Proof.
  induction cells as [|sc cells IH]; intros ND s; [split; [constructor|intros c []]|]. unfold ownersFrom. cbn [length seq combine flat_map fst snd]. rewrite filter_app, map_app. fold (ownersFrom (S s) cells tri).
  destruct (IH (fun x Hx => ND x (or_intror Hx)) (S s)) as (N1 & B1).
  destruct (filter_one (fun i : N * q3 N => same_setb tri (snd i)) (map (fun f => (N.of_nat s, f)) (tet_faces (sc_nodes sc)))) as [E|((c & f) & E)].
  { intros i j a b Hi Hj Pa Pb. rewrite nth_error_map in Hi, Hj. destruct (nth_error (tet_faces (sc_nodes sc)) i) as [fi|] eqn:Fi; [|discriminate]. destruct (nth_error (tet_faces (sc_nodes sc)) j) as [fj|] eqn:Fj; [|discriminate].
    apply Some_inj in Hi, Hj. subst a b. apply same_setb_ok in Pa, Pb. cbn [snd] in Pa, Pb. eapply faces_distinct; [apply ND; now left|exact Fi|exact Fj|]. eapply same_set_trans; [apply same_set_sym; exact Pa|exact Pb]. }
  - rewrite E. cbn [map app]. split; auto. intros c Hc. specialize (B1 c Hc). lia.
  - rewrite E. cbn [map app fst]. assert (c = N.of_nat s) as ->.
    { assert (I : In (c, f) (filter (fun i : N * q3 N => same_setb tri (snd i)) (map (fun f => (N.of_nat s, f)) (tet_faces (sc_nodes sc))))) by (rewrite E; now left). apply filter_In in I. destruct I as (I & _). apply in_map_iff in I. destruct I as (? & X & _). now injection X. }
    split; [constructor; auto; intros I; specialize (B1 _ I); lia|]. intros c [<-|Hc]; [lia|]. specialize (B1 c Hc). lia.
Qed.
Lemma owners_nodup tri cells : (forall sc, In sc cells -> NoDup (q4l (sc_nodes sc))) -> NoDup (owners cells tri).
Proof. intros ND. exact (proj1 (ownersFrom_nodup tri cells ND 0)). Qed.
Lemma owner_in cells tri c : In c (owners cells tri) -> exists sc j f, nth_error cells (N.to_nat c) = Some sc /\ nth_error (tet_faces (sc_nodes sc)) j = Some f /\ same_set tri f.
Proof.
  intros H. unfold owners in H. apply in_map_iff in H. destruct H as (i & <- & H). apply filter_In in H. destruct H as (I & S). apply same_setb_ok in S.
  destruct (incidences_nth _ _ I) as (sc & A & B). destruct (In_nth_error _ _ B) as (j & Hj). exists sc, j, (snd i). auto.
Qed.

(** ** The refined mesh *)
Lemma f2_left {A B} (R : A -> B -> Prop) l m i a : Forall2 R l m -> nth_error l i = Some a -> exists b, nth_error m i = Some b /\ R a b.
Proof. intros F. revert i. induction F; intros [|i] H'; try discriminate; cbn in *; [apply Some_inj in H'; subst; eauto|]. auto. Qed.
Lemma f2_right {A B} (R : A -> B -> Prop) l m i b : Forall2 R l m -> nth_error m i = Some b -> exists a, nth_error l i = Some a /\ R a b.
Proof. intros F. revert i. induction F; intros [|i] H'; try discriminate; cbn in *; [apply Some_inj in H'; subst; eauto|]. auto. Qed.
Lemma f2_len {A B} (R : A -> B -> Prop) l m : Forall2 R l m -> length l = length m.
Proof. induction 1; cbn; auto. Qed.
Lemma vol_distinct (t : q4 (q3 R)) i j p : vol6 t <> 0%R -> nth_error (q4l t) i = Some p -> nth_error (q4l t) j = Some p -> i = j.
Proof.
  intros V Hi Hj. destruct (Nat.eq_dec i j) as [|NE]; auto. exfalso. apply V. destruct t as [a b c d].
  destruct i as [|[|[|[|i]]]]; [| | | |destruct i; discriminate]; (destruct j as [|[|[|[|j]]]]; [| | | |destruct j; discriminate]); try congruence;
    cbn in Hi, Hj; apply Some_inj in Hi, Hj; subst; repeat match goal with x : q3 R |- _ => destruct x end; cbn; ring.
Qed.
Section Refined.
  Context (sm : smesh) (dec : N -> R) (mid : N -> N -> N) (ltb : N -> N -> bool) (dist : q3 N -> q3 N -> N) (dmax : N).
  Context (OK : serial_mesh_ok sm) (SOL : solid sm dec) (EM : exact_midpoints sm dec mid).
  Context (Ks : list (list (N * q4 (q3 N)))) (EK : mapM (childrenOf mid ltb dist dmax sm) (sm_cells sm) = Some Ks).
  Context (lt gt : N -> N -> bool) (SEP : separates sm dec mid lt gt).
  Definition isPoint (p : q3 N) : Prop := exists mt, In mt (concat Ks) /\ In p (q4l (snd mt)).
  Lemma point_coord p k : isPoint p -> In k [t0; t1; t2] -> refined_coord sm mid k (k p).
  Proof.
    intros (mt & Hm & Hp) Hk. destruct (In_nth_error _ _ Hm) as (g & Hg). destruct (child_at sm dec mid ltb dist dmax OK EM Ks EK g mt Hg) as (sc & t & k' & Hc & _ & _ & _ & _ & _ & _ & PT).
    exists sc. split; [eapply nth_error_In; exact Hc|]. destruct (PT p Hp) as [C|(a & b & A & B & ->)]; [left; now apply cell_coords|]. right. exists (k a), (k b). split; [now apply cell_coords|]. split; [now apply cell_coords|].
    destruct Hk as [<-|[<-|[<-|[]]]]; reflexivity.
  Qed.
  Lemma sep_points p q k : isPoint p -> isPoint q -> In k [t0; t1; t2] -> (lt (k p) (k q) = true <-> (dec (k p) < dec (k q))%R) /\ (gt (k p) (k q) = true <-> (dec (k p) > dec (k q))%R).
  Proof. intros A B K. exact (SEP k (k p) (k q) K (point_coord p k A K) (point_coord q k B K)). Qed.
  Lemma child_volume mt : In mt (concat Ks) -> exists g, nth_error (concat Ks) g = Some mt /\ exists p, s_cell sm dec (N.of_nat (g / 8)) p /\ Rabs (vol6 (decT dec (snd mt))) = (Rabs (vol6 p) / 8)%R /\ vol6 (decT dec (snd mt)) <> 0%R.
  Proof.
    intros Hm. destruct (In_nth_error _ _ Hm) as (g & Hg). exists g. split; auto. destruct (child_at sm dec mid ltb dist dmax OK EM Ks EK g mt Hg) as (sc & t & k & _ & _ & _ & Hk & S & _ & Hn & _).
    exists (decT dec t). split; auto. pose proof (sol_volume _ _ SOL _ _ S) as V. pose proof (kids_volume k _ _ Hk V (nth_error_In _ _ Hn)) as E. split; auto. intros Z. rewrite Z, Rabs_R0 in E. apply Rabs_pos_lt in V. lra.
  Qed.
  Lemma child_distinct mt i j p q : In mt (concat Ks) -> nth_error (q4l (snd mt)) i = Some p -> nth_error (q4l (snd mt)) j = Some q -> incomparable (nodeLess lt gt) p q -> i = j.
  Proof.
    intros Hm Hi Hj E. apply (nodeLess_eq dec lt gt isPoint sep_points) in E; [|exists mt; split; auto; eapply nth_error_In; eauto..].
    destruct (child_volume mt Hm) as (_ & _ & _ & _ & _ & V). apply (vol_distinct (decT dec (snd mt)) i j (decP dec p) V).
    - change (q4l (decT dec (snd mt))) with (map (decP dec) (q4l (snd mt))). rewrite nth_error_map, Hi. reflexivity.
    - change (q4l (decT dec (snd mt))) with (map (decP dec) (q4l (snd mt))). rewrite nth_error_map, Hj, E. reflexivity.
  Qed.
  Context (rm : smesh) (RM : refined_mesh (nodeLess lt gt) (concat Ks) rm) (FROM : forall i sn, nth_error (sm_nodes rm) i = Some sn -> isPoint (sn_coords sn)).
  Lemma rcell_point mt sc : Forall2 (fun n p => exists sn, nth_error (sm_nodes rm) (N.to_nat n) = Some sn /\ incomparable (nodeLess lt gt) p (sn_coords sn)) (q4l (sc_nodes sc)) (q4l (snd mt)) -> In mt (concat Ks) ->
    map (s_point rm dec) (q4l (sc_nodes sc)) = map Some (q4l (decT dec (snd mt))).
  Proof.
    intros F Hm. change (q4l (decT dec (snd mt))) with (map (decP dec) (q4l (snd mt))). assert (PT : forall p, In p (q4l (snd mt)) -> isPoint p) by (intros p Hp; exists mt; auto).
    induction F as [|n p l l' (sn & Hn & E) F IH]; auto. cbn [map]. rewrite IH by (intros x Hx; apply PT; now right). f_equal. unfold s_point, SM_node. rewrite Hn. cbn [option_map]. f_equal.
    symmetry. apply (nodeLess_eq dec lt gt isPoint sep_points p (sn_coords sn)); auto; [apply PT; now left|eapply FROM; eauto].
  Qed.
  Lemma rcell g p : s_cell rm dec g p <-> exists mt, nth_error (concat Ks) (N.to_nat g) = Some mt /\ p = decT dec (snd mt).
  Proof.
    split.
    - intros (sc & H & E). destruct (f2_right _ _ _ _ _ (rf_cells _ _ _ RM) H) as (mt & Hm & _ & F). exists mt. split; auto. rewrite (rcell_point mt sc F (nth_error_In _ _ Hm)) in E.
      destruct p as [a b c d]. cbn in E. injection E as <- <- <- <-. reflexivity.
    - intros (mt & Hm & ->). destruct (f2_left _ _ _ _ _ (rf_cells _ _ _ RM) Hm) as (sc & H & _ & F). exists sc. split; auto. exact (rcell_point mt sc F (nth_error_In _ _ Hm)).
  Qed.
  Lemma refined_solid : solid rm dec.
  Proof.
    constructor.
    - intros g p H. apply rcell in H. destruct H as (mt & Hm & ->). now destruct (child_volume mt (nth_error_In _ _ Hm)) as (_ & _ & _ & _ & _ & V).
    - intros g h p q x NE Hp Hq Ip Iq. apply rcell in Hp, Hq. destruct Hp as (mt & Hm & ->). destruct Hq as (mt' & Hm' & ->).
      destruct (child_at sm dec mid ltb dist dmax OK EM Ks EK _ mt Hm) as (sc & t & k & Hc & T & _ & Hk & S & KK & Hn & _). destruct (child_at sm dec mid ltb dist dmax OK EM Ks EK _ mt' Hm') as (sc' & t' & k' & Hc' & T' & _ & Hk' & S' & KK' & Hn' & _).
      destruct (Nat.eq_dec (N.to_nat g / 8) (N.to_nat h / 8)) as [E|NE8].
      + rewrite <- E in *. rewrite Hc in Hc'. apply Some_inj in Hc'. subst sc'. rewrite T in T'. apply Some_inj in T'. subst t'.
        assert (L : exists l, nth_error Ks (N.to_nat g / 8) = Some l).
        { destruct (nth_error Ks (N.to_nat g / 8)) eqn:Z; eauto. apply nth_error_None in Z. rewrite (mapM_length _ _ _ EK) in Z. apply nth_error_None in Z. congruence. }
        destruct L as (l & L). pose proof (KK l _ L eq_refl) as K1. rewrite (KK' l _ L eq_refl) in K1. rewrite K1 in Hn'.
        pose proof (kids_apart k _ _ _ _ _ x Hk (sol_volume _ _ SOL _ _ S) Hn Hn' Ip Iq) as M. apply NE.
        pose proof (Nat.div_mod (N.to_nat g) 8 ltac:(lia)). pose proof (Nat.div_mod (N.to_nat h) 8 ltac:(lia)). lia.
      + apply (sol_apart _ _ SOL (N.of_nat (N.to_nat g / 8)) (N.of_nat (N.to_nat h / 8)) _ _ x ltac:(lia) S S').
        * eapply kids_strict; [eapply nth_error_In; exact Hn|exact Ip].
        * eapply kids_strict; [eapply nth_error_In; exact Hn'|exact Iq].
  Qed.
End Refined.

(** ** At most two cells at a face *)
Section Solid.
  Context (sm : smesh) (dec : N -> R) (CN : forall c sc n, SM_cell sm c = Some sc -> In n (q4l (sc_nodes sc)) -> exists sn, SM_node sm n = Some sn) (SOL : solid sm dec).
  Definition ptOf (n : N) : q3 R := match s_point sm dec n with Some p => p | None => Q3 0%R 0%R 0%R end.
  Lemma s_cell_of c sc : SM_cell sm c = Some sc -> s_cell sm dec c (q4map ptOf (sc_nodes sc)).
  Proof.
    intros H. exists sc. split; auto. assert (K : forall n, In n (q4l (sc_nodes sc)) -> s_point sm dec n = Some (ptOf n)).
    { intros n Hn. unfold ptOf, s_point. destruct (CN c sc n H Hn) as (sn & ->). reflexivity. }
    destruct (sc_nodes sc) as [a b e d]. cbn [q4map q4l map r0 r1 r2 r3 In] in *. rewrite !K by tauto. reflexivity.
  Qed.
  Lemma tet_faces_q4map {A B} (f : A -> B) t : tet_faces (q4map f t) = map (q3map f) (tet_faces t).
  Proof. destruct t. reflexivity. Qed.
  Lemma solid_nodup c sc : SM_cell sm c = Some sc -> NoDup (q4l (sc_nodes sc)).
  Proof.
    intros H. pose proof (sol_volume _ _ SOL _ _ (s_cell_of c sc H)) as V. apply NoDup_nth_error. intros i j Hi E. destruct (nth_error (q4l (sc_nodes sc)) i) as [n|] eqn:Ei; [|apply nth_error_Some in Hi; congruence].
    apply (vol_distinct _ i j (ptOf n) V); change (q4l (q4map ptOf (sc_nodes sc))) with (map ptOf (q4l (sc_nodes sc))); rewrite nth_error_map; [rewrite Ei|rewrite <- E]; reflexivity.
  Qed.
  Lemma face_nodup {A} (t : q4 A) j f : NoDup (q4l t) -> nth_error (tet_faces t) j = Some f -> NoDup (q3l f).
  Proof.
    intros ND H. destruct t as [a b c d]. unfold tet_faces in H. cbn [r0 r1 r2 r3 q4l] in *. inversion_clear ND as [|? ? A1 N1]. inversion_clear N1 as [|? ? A2 N2]. inversion_clear N2 as [|? ? A3 _]. cbn in A1, A2, A3.
    destruct j as [|[|[|[|j]]]]; cbn [nth_error] in H; [| | | |destruct j; discriminate]; apply Some_inj in H; subst f; cbn [q3l t0 t1 t2]; (constructor; [|constructor; [|constructor; [intros []|constructor]]]); cbn; intuition congruence.
  Qed.
  Lemma same_set_perm f g : NoDup (q3l f) -> NoDup (q3l g) -> same_set f g -> Permutation (q3l f) (q3l g).
  Proof. intros A B S. apply NoDup_Permutation; auto. Qed.
  Lemma solid_owners tri : length (owners (sm_cells sm) tri) <= 2.
  Proof.
    assert (ND : forall sc, In sc (sm_cells sm) -> NoDup (q4l (sc_nodes sc))).
    { intros sc I. destruct (In_nth_error _ _ I) as (i & Hi). apply (solid_nodup (N.of_nat i)). unfold SM_cell. now rewrite Nat2N.id. }
    pose proof (owners_nodup tri (sm_cells sm) ND) as NO. pose proof (owner_in (sm_cells sm) tri) as OI. destruct (owners (sm_cells sm) tri) as [|a [|b [|c r]]]; cbn [length]; try lia. exfalso.
    destruct (OI a ltac:(cbn; auto)) as (sa & ja & fa & Ca & Fa & Sa). destruct (OI b ltac:(cbn; auto)) as (sb & jb & fb & Cb & Fb & Sb). destruct (OI c ltac:(cbn; auto)) as (sc & jc & fc & Cc & Fc & Sc). clear OI.
    assert (D : a <> b /\ a <> c /\ b <> c) by (inversion_clear NO as [|? ? N1 N2]; inversion_clear N2 as [|? ? N3 _]; cbn in N1, N3; intuition congruence). destruct D as (D1 & D2 & D3). clear NO.
    set (F := q3map ptOf fa).
    assert (K : forall x sx jx fx, nth_error (sm_cells sm) (N.to_nat x) = Some sx -> nth_error (tet_faces (sc_nodes sx)) jx = Some fx -> same_set tri fx -> face_of (q4map ptOf (sc_nodes sx)) jx F).
    { intros x sx jx fx Cx Fx Sx. exists (q3map ptOf fx). split; [rewrite tet_faces_q4map, nth_error_map, Fx; reflexivity|]. unfold same_tri, F. change (Permutation (map ptOf (q3l fx)) (map ptOf (q3l fa))). apply Permutation_map, same_set_perm.
      - eapply face_nodup; [apply (solid_nodup x sx Cx)|exact Fx].
      - eapply face_nodup; [apply (solid_nodup a sa Ca)|exact Fa].
      - eapply same_set_trans; [apply same_set_sym; exact Sx|exact Sa]. }
    pose proof (K a sa ja fa Ca Fa Sa) as Ka. pose proof (K b sb jb fb Cb Fb Sb) as Kb. pose proof (K c sc jc fc Cc Fc Sc) as Kc. clear K.
    pose proof (s_cell_of a sa Ca) as Pa. pose proof (s_cell_of b sb Cb) as Pb. pose proof (s_cell_of c sc Cc) as Pc.
    set (pa := q4map ptOf (sc_nodes sa)) in *. set (pb := q4map ptOf (sc_nodes sb)) in *. set (pc := q4map ptOf (sc_nodes sc)) in *.
    destruct (face_corner _ _ _ Ka) as (va & Va). destruct (face_corner _ _ _ Kb) as (vb & Vb). destruct (face_corner _ _ _ Kc) as (vc & Vc).
    pose proof (no_overlap_sides _ _ _ _ _ _ _ (sol_volume _ _ SOL _ _ Pa) (sol_volume _ _ SOL _ _ Pb) Ka Kb Va Vb (fun x => sol_apart _ _ SOL _ _ _ _ x D1 Pa Pb)) as H1.
    pose proof (no_overlap_sides _ _ _ _ _ _ _ (sol_volume _ _ SOL _ _ Pa) (sol_volume _ _ SOL _ _ Pc) Ka Kc Va Vc (fun x => sol_apart _ _ SOL _ _ _ _ x D2 Pa Pc)) as H2.
    pose proof (no_overlap_sides _ _ _ _ _ _ _ (sol_volume _ _ SOL _ _ Pb) (sol_volume _ _ SOL _ _ Pc) Kb Kc Vb Vc (fun x => sol_apart _ _ SOL _ _ _ _ x D3 Pb Pc)) as H3.
    set (x := height F va) in *. set (y := height F vb) in *. set (z := height F vc) in *. clearbody x y z. clear -H1 H2 H3.
    assert (A : (0 < (x * y) * (x * z))%R) by nra. assert (B : (x * y * (x * z) = x * x * (y * z))%R) by ring. assert (0 <= x * x)%R by nra. nra.
  Qed.
End Solid.

(** ** Validity *)
Section Valid.
  Context (sm : smesh) (dec : N -> R) (mid : N -> N -> N) (ltb : N -> N -> bool) (dist : q3 N -> q3 N -> N) (dmax : N).
  Context (OK : serial_mesh_ok sm) (SOL : solid sm dec) (EM : exact_midpoints sm dec mid).
  Context (Ks : list (list (N * q4 (q3 N)))) (EK : mapM (childrenOf mid ltb dist dmax sm) (sm_cells sm) = Some Ks).
  Context (lt gt : N -> N -> bool) (SEP : separates sm dec mid lt gt).
  Context (rm : smesh) (RM : refined_mesh (nodeLess lt gt) (concat Ks) rm) (FROM : forall i sn, nth_error (sm_nodes rm) i = Some sn -> isPoint Ks (sn_coords sn)).
  Context (LK : length (concat Ks) = 8 * length (sm_cells sm)) (LN : length (sm_nodes rm) <= 4 * length (concat Ks)) (LF : length (sm_faces rm) <= 4 * length (concat Ks)) (SMALL : (32 * lenN (sm_cells sm) < 2 ^ 31)%N).
  Lemma refined_cn c sc n : SM_cell rm c = Some sc -> In n (q4l (sc_nodes sc)) -> exists sn, SM_node rm n = Some sn.
  Proof.
    intros H Hn. destruct (f2_right _ _ _ _ _ (rf_cells _ _ _ RM) H) as (mt & _ & _ & F). destruct (In_nth_error _ _ Hn) as (i & Hi). destruct (f2_left _ _ _ _ _ F Hi) as (p & _ & sn & Hs & _). eauto.
  Qed.
  Let RS := refined_solid sm dec mid ltb dist dmax OK SOL EM Ks EK lt gt SEP rm RM FROM.
  Lemma coarse_u64 sc : In sc (sm_cells sm) -> (sc_mat sc < two64)%N /\ forall p k, corner_of sm sc p -> In k [t0; t1; t2] -> (k p < two64)%N.
  Proof.
    intros I. destruct (smo_wf _ OK) as (_ & _ & _ & _ & _ & _ & A & _ & B). rewrite Forall_forall in A, B. split.
    - specialize (A sc I). rewrite Forall_forall in A. destruct sc as [[? ? ? ?] [? ? ? ?] m]. apply A. cbn. auto 12.
    - intros p k (n & sn & _ & E & ->) Hk. specialize (B sn (nth_error_In _ _ E)). rewrite Forall_forall in B. apply B. destruct sn as [[x y z]]. destruct Hk as [<-|[<-|[<-|[]]]]; cbn; auto.
  Qed.
  Lemma refined_ok : serial_mesh_ok rm.
  Proof.
    assert (LC : length (sm_cells rm) = length (concat Ks)) by (symmetry; exact (f2_len _ _ _ (rf_cells _ _ _ RM))). unfold lenN in SMALL. change (2 ^ 31)%N with 2147483648%N in *.
    apply (refined_serial_ok _ _ _ RM); unfold lenN; change (2 ^ 31)%N with 2147483648%N; try lia.
    - apply (solid_owners rm dec refined_cn RS).
    - apply Forall_forall. intros mt Hm. destruct (In_nth_error _ _ Hm) as (g & Hg). destruct (child_at sm dec mid ltb dist dmax OK EM Ks EK g mt Hg) as (sc & t & k & Hc & _ & -> & _).
      exact (proj1 (coarse_u64 sc (nth_error_In _ _ Hc))).
    - apply Forall_forall. intros sn I. destruct (In_nth_error _ _ I) as (i & Hi). destruct (FROM i sn Hi) as (mt & Hm & Hp). destruct (In_nth_error _ _ Hm) as (g & Hg).
      destruct (child_at sm dec mid ltb dist dmax OK EM Ks EK g mt Hg) as (sc & t & k & Hc & _ & _ & _ & _ & _ & _ & PT). destruct (coarse_u64 sc (nth_error_In _ _ Hc)) as (_ & B).
      assert (K : forall k, In k [t0; t1; t2] -> u64 (k (sn_coords sn))).
      { intros k' Hk'. destruct (PT _ Hp) as [C|(a & b & _ & _ & E)]; [exact (B _ _ C Hk')|]. rewrite E. destruct Hk' as [<-|[<-|[<-|[]]]]; apply (em_bits _ _ _ EM). }
      pose proof (K t0 ltac:(cbn; auto)). pose proof (K t1 ltac:(cbn; auto)). pose proof (K t2 ltac:(cbn; auto)). destruct sn as [[x y z]]. cbn in *. repeat (apply Forall_cons; [assumption|]). constructor.
  Qed.
  Lemma refined_tets : tets_ok rm.
  Proof.
    pose proof (solid_nodup rm dec refined_cn RS) as ND.
    assert (NDI : forall sc, In sc (sm_cells rm) -> NoDup (q4l (sc_nodes sc))) by (intros sc I; destruct (In_nth_error _ _ I) as (i & Hi); apply (ND (N.of_nat i)); unfold SM_cell; now rewrite Nat2N.id).
    constructor; auto.
    - intros f sf Hf. destruct (rf_face_cells _ _ _ RM _ _ Hf) as (c0 & rest & E1 & E2). pose proof (owners_nodup (sf_nodes sf) (sm_cells rm) NDI) as NO. pose proof (solid_owners rm dec refined_cn RS (sf_nodes sf)) as L2.
      pose proof (owner_in (sm_cells rm) (sf_nodes sf)) as OI. rewrite E1 in *. split.
      + destruct (OI c0 ltac:(now left)) as (sc & j & g & C & G & S). pose proof (face_nodup _ _ _ (ND c0 sc C) G) as N3.
        assert (P : Permutation (q3l g) (q3l (sf_nodes sf))); [|now apply (Permutation_NoDup P)]. apply NoDup_Permutation_bis; [exact N3|destruct g, (sf_nodes sf); cbn; lia|]. intros n Hn. now apply S.
      + rewrite E2. cbn [MeshModel.p0 MeshModel.p1]. destruct rest as [|c1 [|c2 r]]; cbn [length last] in *; [| |lia].
        * destruct (OI c0 ltac:(now left)) as (sc & _ & _ & C & _). intros ->. assert (L : N.to_nat INVALID < length (sm_cells rm)) by (apply nth_error_Some; congruence).
          pose proof (smo_cells _ refined_ok) as Z. unfold lenN in Z. lia.
        * inversion_clear NO as [|? ? N1 _]. cbn in N1. intuition congruence.
    - intros c sc i j f g sf sg C Hi Hj Hf Hg S.
      assert (Q : forall i f, nth_error (q4l (sc_faces sc)) i = Some f -> exists tri, nth_error (tet_faces (sc_nodes sc)) i = Some tri).
      { intros i' f' H. destruct (nth_error (tet_faces (sc_nodes sc)) i') as [tri|] eqn:E; eauto. apply nth_error_None in E. assert (i' < length (q4l (sc_faces sc))) by (apply nth_error_Some; congruence). destruct (sc_faces sc), (sc_nodes sc). cbn in *. lia. }
      destruct (Q i f Hi) as (ti & Ti). destruct (Q j g Hj) as (tj & Tj).
      destruct (rf_face_nodes _ _ _ RM _ _ _ _ _ C Hi Ti) as (sf' & Hf' & Sf). destruct (rf_face_nodes _ _ _ RM _ _ _ _ _ C Hj Tj) as (sg' & Hg' & Sg).
      unfold SM_face in Hf, Hg. rewrite Hf in Hf'. rewrite Hg in Hg'. apply Some_inj in Hf', Hg'. subst sf' sg'. eapply faces_distinct; [exact (ND c sc C)|exact Ti|exact Tj|].
      eapply same_set_trans; [apply same_set_sym; exact Sf|]. eapply same_set_trans; [exact S|exact Sg].
  Qed.
  (** The eight cells numbered [8 g] to [8 g + 7] fill cell [g]. *)
  Lemma refined_cell g p : s_cell rm dec g p -> exists q, s_cell sm dec (g / 8) q /\ (forall x, inside p x -> inside q x) /\ Rabs (vol6 p) = (Rabs (vol6 q) / 8)%R.
  Proof.
    intros H. apply (rcell sm dec mid ltb dist dmax OK EM Ks EK lt gt SEP rm RM FROM) in H. destruct H as (mt & Hm & ->). destruct (child_at sm dec mid ltb dist dmax OK EM Ks EK _ mt Hm) as (sc & t & k & Hc & T & _ & Hk & S & KK & Hn & _).
    exists (decT dec t). replace (g / 8)%N with (N.of_nat (N.to_nat g / 8)) by (rewrite <- (N2Nat.id (g / 8)%N), N2Nat.inj_div; reflexivity). split; auto. pose proof (sol_volume _ _ SOL _ _ S) as V. split.
    - intros x Hx. apply (kids_cover k _ x Hk V). exists (decT dec (snd mt)). split; auto. eapply nth_error_In; eauto.
    - eapply kids_volume; eauto. eapply nth_error_In; eauto.
  Qed.
  Lemma refined_mat g sc : SM_cell rm g = Some sc -> exists sc', SM_cell sm (g / 8) = Some sc' /\ sc_mat sc = sc_mat sc'.
  Proof.
    intros H. destruct (f2_right _ _ _ _ _ (rf_cells _ _ _ RM) H) as (mt & Hm & E & _). destruct (child_at sm dec mid ltb dist dmax OK EM Ks EK _ mt Hm) as (sc' & t & k & Hc & T & EM' & _). exists sc'. split; [|congruence].
    unfold SM_cell. now rewrite N2Nat.inj_div.
  Qed.
  Lemma refined_fill g q x : s_cell sm dec g q -> inside q x -> exists h p, (h / 8)%N = g /\ s_cell rm dec h p /\ inside p x.
  Proof.
    intros H Hx. pose proof H as (sc & Hc & _). destruct (coarse_tet sm dec OK (N.to_nat g) sc Hc) as (t & T & _ & _).
    assert (q = decT dec t) as -> by (eapply s_cell_coarse; [exact OK|exact Hc|exact T|rewrite N2Nat.id; exact H]).
    destruct (child_of sm dec mid ltb dist dmax OK EM Ks EK (N.to_nat g) sc t Hc T) as (k & Hk & CH). apply (kids_cover k _ x Hk (sol_volume _ _ SOL _ _ H)) in Hx. destruct Hx as (u & Hu & Ix).
    destruct (CH u Hu) as (h & mt & D & Hm & <-). exists (N.of_nat h), (decT dec (snd mt)). split; [rewrite <- (N2Nat.id g), <- D, Nat2N.inj_div; reflexivity|]. split; auto.
    apply (rcell sm dec mid ltb dist dmax OK EM Ks EK lt gt SEP rm RM FROM). exists mt. now rewrite Nat2N.id.
  Qed.
End Valid.
