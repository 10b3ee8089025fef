(** Proofs for the MOAB utilities. *)
From Coq Require Import Reals Permutation Sorted Lra.
From Verif Require Import Prelude Bytes PsiFileModel MeshModel MeshSpec CreateModel CreateSpec CreateProofs TychoModel TychoSpec GeometryModel RefineSpec ViewSpec MoabModel MoabSpec.
Local Open Scope N_scope.

(** ---- ranges ---- *)
Lemma toRange_set l : is_set (toRange l) (fun x => In x l).
Proof.
  unfold toRange. eapply is_set_ext; [|apply (fold_insert_set (fun x => x) l [] (fun _ => False)); split; [constructor|cbn; tauto]].
  intros x. cbn beta. rewrite map_id. tauto.
Qed.
Lemma toRange_in l x : In x (toRange l) <-> In x l.
Proof. apply (proj2 (toRange_set l)). Qed.
Lemma toRange_perm l : NoDup l -> Permutation (toRange l) l.
Proof.
  intros H. apply NoDup_Permutation; auto; [apply sorted_nodup; apply toRange_set|]. apply toRange_in.
Qed.
Lemma sorted_pos s : StronglySorted N.lt s -> forall i h, nth_error s i = Some h -> length (filter (fun x => x <? h) s) = i.
Proof.
  induction 1 as [|a s H IH F]; intros i h E; [destruct i; discriminate|]. rewrite Forall_forall in F. destruct i; cbn in E; cbn [filter].
  - apply Some_inj in E. subst a. rewrite N.ltb_irrefl. assert (G : filter (fun x => x <? h) s = []); [|now rewrite G].
    clear - F. induction s as [|b s IH]; auto. cbn [filter]. assert (h < b) by (apply F; now left). destruct (N.ltb_spec b h); [lia|]. apply IH. intros; apply F; now right.
  - assert (a < h) by (apply F; eapply nth_error_In; eauto). destruct (N.ltb_spec a h); [|lia]. cbn [length]. f_equal. now apply IH.
Qed.
Lemma filter_perm {A} (p : A -> bool) l m : Permutation l m -> length (filter p l) = length (filter p m).
Proof.
  induction 1; cbn; auto; [destruct (p x); cbn; auto|destruct (p x), (p y); cbn; auto|congruence].
Qed.
Lemma filter_map_len {A B} (f : A -> B) p l : length (filter p (map f l)) = length (filter (fun x => p (f x)) l).
Proof. induction l; cbn; auto. destruct (p (f a)); cbn; auto. Qed.
Section Rank.
  Context {A : Type} (l : list (N * A)) (ND : NoDup (map fst l)).
  Lemma range_rank i h : nth_error (toRange (map fst l)) i = Some h -> rank l h = N.of_nat i.
  Proof.
    intros E. unfold rank. f_equal. rewrite <- (sorted_pos _ (proj1 (toRange_set (map fst l))) _ _ E).
    rewrite (filter_perm _ _ _ (toRange_perm _ ND)). now rewrite filter_map_len.
  Qed.
  Lemma rank_range h : In h (map fst l) -> nth_error (toRange (map fst l)) (N.to_nat (rank l h)) = Some h.
  Proof.
    intros H. apply toRange_in in H. apply In_nth_error in H. destruct H as (i & E). rewrite (range_rank _ _ E). now rewrite Nat2N.id.
  Qed.
  Lemma range_len : length (toRange (map fst l)) = length l.
  Proof. rewrite (Permutation_length (toRange_perm _ ND)). apply map_length. Qed.
  Lemma rank_lt h : In h (map fst l) -> rank l h < lenN l.
  Proof.
    intros H. pose proof (rank_range h H) as E. assert (N.to_nat (rank l h) < length l)%nat; [|unfold lenN; lia].
    rewrite <- range_len. apply nth_error_Some. congruence.
  Qed.
  Lemma rank_inj h h' : In h (map fst l) -> In h' (map fst l) -> rank l h = rank l h' -> h = h'.
  Proof. intros H H' E. apply rank_range in H. apply rank_range in H'. rewrite E in H. congruence. Qed.
  Lemma posMap_rank h : In h (map fst l) -> findN h (posMap (toRange (map fst l))) = Some (rank l h).
  Proof.
    intros H. destruct (findN_gp_gen h (toRange (map fst l)) 0) as (i & E1 & E2); [now apply toRange_in|].
    unfold posMap. rewrite E1. f_equal. cbn. symmetry. now apply range_rank.
  Qed.
  Lemma lookup_in h a : In (h, a) l -> lookup h l = Some a.
  Proof.
    revert ND. induction l as [|(k, b) r IH]; intros ND0 H; [destruct H|]. cbn [lookup]. cbn [map fst] in ND0. apply NoDup_cons_iff in ND0. destruct ND0 as (N1 & N2).
    destruct H as [H|H]; [injection H; intros; subst; now rewrite N.eqb_refl|]. destruct (N.eqb_spec h k) as [->|]; [|auto].
    exfalso. apply N1. now apply (in_map fst) in H.
  Qed.
End Rank.
Lemma lookup_some {A} h (l : list (N * A)) a : lookup h l = Some a -> In (h, a) l.
Proof.
  induction l as [|(k, b) r IH]; cbn; [discriminate|]. destruct (N.eqb_spec h k) as [->|]; intros H; [apply Some_inj in H; subst; now left|right; auto].
Qed.

(** ---- sides ---- *)
Lemma hasAll_spec l m : hasAll l m = true <-> forall x, In x l -> In x m.
Proof.
  unfold hasAll. rewrite forallb_forall. split; intros H x Hx; specialize (H x Hx).
  - apply existsb_exists in H. destruct H as (y & Hy & E). apply N.eqb_eq in E. now subst.
  - apply existsb_exists. exists x. now rewrite N.eqb_refl.
Qed.
Lemma findTri_some s tris h : findTri s tris = Some h -> exists s', In (h, s') tris /\ same_set s s'.
Proof.
  unfold findTri. destruct (find _ tris) as [(k, s')|] eqn:E; [|discriminate]. intros H. apply Some_inj in H. cbn in H. subst k.
  apply find_some in E. destruct E as (E & F). apply andb_true_iff in F. cbn [snd] in F. rewrite !hasAll_spec in F. exists s'. split; auto.
  intros n. split; apply F.
Qed.
Lemma findTri_none s tris : findTri s tris = None -> forall h s', In (h, s') tris -> ~ same_set s s'.
Proof.
  unfold findTri. destruct (find _ tris) as [e|] eqn:E; [discriminate|]. intros _ h s' H G. pose proof (find_none _ _ E _ H) as X. cbn [snd] in X.
  apply andb_false_iff in X. destruct X as [X|X]; rewrite (proj2 (hasAll_spec _ _)) in X; try discriminate; intros x Hx; now apply G.
Qed.
Lemma same_set_refl s : same_set s s. Proof. intros n; tauto. Qed.
Lemma same_set_sym s s' : same_set s s' -> same_set s' s. Proof. intros H n; symmetry; apply H. Qed.
Lemma same_set_trans s s' s'' : same_set s s' -> same_set s' s'' -> same_set s s''.
Proof. intros H G n; rewrite (H n); apply G. Qed.
Lemma perm_same_set s s' : Permutation (q3l s) (q3l s') -> same_set s s'.
Proof. intros H n. split; apply Permutation_in; auto. now symmetry. Qed.
Lemma same_set_perm s s' : NoDup (q3l s) -> NoDup (q3l s') -> same_set s s' -> Permutation (q3l s) (q3l s').
Proof. intros. apply NoDup_Permutation; auto. Qed.
Lemma side_face t s : In s (sides t) -> exists s', In s' (tet_faces t) /\ Permutation (q3l s) (q3l s').
Proof.
  destruct t as [a b c d]. unfold sides, tet_faces; cbn [r0 r1 r2 r3 In]. intros [<-|[<-|[<-|[<-|[]]]]]; cbn [q3l t0 t1 t2].
  - exists (Q3 a b d). split; [tauto|apply Permutation_refl].
  - exists (Q3 b c d). split; [tauto|apply Permutation_refl].
  - exists (Q3 a c d). split; [tauto|]. cbn. apply perm_skip. apply perm_swap.
  - exists (Q3 a b c). split; [tauto|]. cbn. apply perm_skip. apply perm_swap.
Qed.
Lemma face_side t s : In s (tet_faces t) -> exists s', In s' (sides t) /\ Permutation (q3l s) (q3l s').
Proof.
  destruct t as [a b c d]. unfold sides, tet_faces; cbn [r0 r1 r2 r3 In]. intros [<-|[<-|[<-|[<-|[]]]]].
  - exists (Q3 b c d). split; [tauto|apply Permutation_refl].
  - exists (Q3 a d c). split; [tauto|]. cbn. apply perm_skip. apply perm_swap.
  - exists (Q3 a b d). split; [tauto|apply Permutation_refl].
  - exists (Q3 a c b). split; [tauto|]. cbn. apply perm_skip. apply perm_swap.
Qed.
Lemma side_tet t s : In s (sides t) -> tet_has t s.
Proof.
  destruct t as [a b c d]. unfold sides, tet_has; cbn [r0 r1 r2 r3 In q4l]. intros [<-|[<-|[<-|[<-|[]]]]] v; cbn [In q3l t0 t1 t2]; tauto.
Qed.
Lemma nodup4 (t : q4 N) : NoDup (q4l t) -> r0 t <> r1 t /\ r0 t <> r2 t /\ r0 t <> r3 t /\ r1 t <> r2 t /\ r1 t <> r3 t /\ r2 t <> r3 t.
Proof.
  destruct t as [a b c d]; unfold q4l; cbn [r0 r1 r2 r3]. intros H. rewrite !NoDup_cons_iff in H. cbn [In] in H.
  destruct H as (H1 & H2 & H3 & _). repeat split; intros E; subst; tauto.
Qed.
Lemma nodup3 (s : q3 N) : NoDup (q3l s) <-> t0 s <> t1 s /\ t0 s <> t2 s /\ t1 s <> t2 s.
Proof.
  destruct s as [a b c]; unfold q3l; cbn [t0 t1 t2]. rewrite !NoDup_cons_iff. cbn [In]. split.
  - intros (H1 & H2 & _). repeat split; intros E; subst; tauto.
  - intros (H1 & H2 & H3). repeat split; try tauto; try constructor; intros [X|X]; try tauto; try destruct X; subst; try tauto; congruence.
Qed.
Lemma side_nodup t s : NoDup (q4l t) -> In s (sides t) -> NoDup (q3l s).
Proof.
  intros H. apply nodup4 in H. destruct t as [a b c d]. cbn [r0 r1 r2 r3] in H. unfold sides; cbn [r0 r1 r2 r3 In].
  intros [<-|[<-|[<-|[<-|[]]]]]; apply nodup3; cbn [t0 t1 t2]; repeat split; try tauto; intros E; symmetry in E; tauto.
Qed.
Lemma tet_side t s : NoDup (q3l s) -> tet_has t s -> exists s', In s' (sides t) /\ same_set s s'.
Proof.
  intros H G. apply nodup3 in H. destruct s as [x y z]. cbn [t0 t1 t2] in H. destruct H as (H1 & H2 & H3).
  assert (Gx := G x ltac:(now left)). assert (Gy := G y ltac:(right; now left)). assert (Gz := G z ltac:(do 2 right; now left)). clear G.
  destruct t as [a b c d]. cbn [q4l r0 r1 r2 r3 In] in *.
  destruct Gx as [<-|[<-|[<-|[<-|[]]]]], Gy as [<-|[<-|[<-|[<-|[]]]]], Gz as [<-|[<-|[<-|[<-|[]]]]]; try congruence;
  match goal with |- exists s', In s' (sides (Q4 ?a ?b ?c ?d)) /\ same_set ?s s' =>
    first [ (exists (Q3 a b d); split; [cbn; tauto|intros n; cbn [q3l t0 t1 t2 In]; tauto])
          | (exists (Q3 b c d); split; [cbn; tauto|intros n; cbn [q3l t0 t1 t2 In]; tauto])
          | (exists (Q3 a d c); split; [cbn; tauto|intros n; cbn [q3l t0 t1 t2 In]; tauto])
          | (exists (Q3 a c b); split; [cbn; tauto|intros n; cbn [q3l t0 t1 t2 In]; tauto]) ] end.
Qed.
Lemma sides_distinct t i j s s' : NoDup (q4l t) -> nth_error (sides t) i = Some s -> nth_error (sides t) j = Some s' -> same_set s s' -> i = j.
Proof.
  intros H. apply nodup4 in H. destruct t as [a b c d]. cbn [r0 r1 r2 r3] in H. unfold sides; cbn [r0 r1 r2 r3].
  intros Hi Hj E. destruct H as (H1 & H2 & H3 & H4 & H5 & H6).
  destruct i as [|[|[|[|i]]]], j as [|[|[|[|j]]]]; cbn [nth_error] in Hi, Hj; auto; try (destruct i; discriminate); try (destruct j; discriminate);
  apply Some_inj in Hi; apply Some_inj in Hj; subst s s'; exfalso;
  first [ assert (X := proj1 (E a) ltac:(cbn [In q3l t0 t1 t2]; tauto)) | assert (X := proj1 (E b) ltac:(cbn [In q3l t0 t1 t2]; tauto)) ];
  cbn [In q3l t0 t1 t2] in X;
  first [ destruct X as [X|[X|[X|[]]]]; congruence
        | clear X; assert (X := proj1 (E b) ltac:(cbn [In q3l t0 t1 t2]; tauto)); cbn [In q3l t0 t1 t2] in X; destruct X as [X|[X|[X|[]]]]; congruence
        | clear X; assert (X := proj1 (E c) ltac:(cbn [In q3l t0 t1 t2]; tauto)); cbn [In q3l t0 t1 t2] in X; destruct X as [X|[X|[X|[]]]]; congruence
        | clear X; assert (X := proj1 (E d) ltac:(cbn [In q3l t0 t1 t2]; tauto)); cbn [In q3l t0 t1 t2] in X; destruct X as [X|[X|[X|[]]]]; congruence ].
Qed.

(** ---- creating the faces ---- *)
Definition has (db : mdb) (s : q3 N) : Prop := exists h s', In (h, s') (mb_tri db) /\ same_set s s'.
Record closed (db : mdb) : Prop := {
  cl_vert : NoDup (map fst (mb_vert db));
  cl_trih : NoDup (map fst (mb_tri db));
  cl_teth : NoDup (map fst (mb_tet db));
  cl_coords : forall h p x, In (h, p) (mb_vert db) -> In x (q3l p) -> u64 x;
  cl_tet : forall h t, In (h, t) (mb_tet db) -> NoDup (q4l t) /\ forall v, In v (q4l t) -> exists p, In (v, p) (mb_vert db);
  cl_tri : forall h s, In (h, s) (mb_tri db) -> NoDup (q3l s) /\ exists h' t, In (h', t) (mb_tet db) /\ tet_has t s;
  cl_once : forall h s h' s', In (h, s) (mb_tri db) -> In (h', s') (mb_tri db) -> same_set s s' -> h = h';
  cl_two : forall s h1 t1 h2 t2 h3 t3, NoDup (q3l s) ->
             In (h1, t1) (mb_tet db) -> In (h2, t2) (mb_tet db) -> In (h3, t3) (mb_tet db) ->
             tet_has t1 s -> tet_has t2 s -> tet_has t3 s -> h1 = h2 \/ h1 = h3 \/ h2 = h3;
  cl_full : forall h t s, In (h, t) (mb_tet db) -> In s (sides t) -> has db s;
  cl_small : lenN (mb_tet db) < 2^31 /\ lenN (mb_tri db) < 2^31 /\ lenN (mb_vert db) < 2^31 }.

Lemma nodup_snoc {A} (l : list A) x : NoDup l -> ~ In x l -> NoDup (l ++ [x]).
Proof. intros H G. apply (Permutation_NoDup (Permutation_cons_append l x)). now constructor. Qed.

Section Create.
  Context (alloc : list N -> N) (AL : forall l, ~ In (alloc l) l).
  Context (V : list (N * q3 N)) (T : list (N * q4 N)) (TET : forall h t, In (h, t) T -> NoDup (q4l t)).
  Definition inv (db : mdb) : Prop := mb_vert db = V /\ mb_tet db = T /\ NoDup (map fst (mb_tri db)) /\
    (forall h s, In (h, s) (mb_tri db) -> NoDup (q3l s) /\ exists h' t, In (h', t) T /\ tet_has t s) /\
    (forall h s h' s', In (h, s) (mb_tri db) -> In (h', s') (mb_tri db) -> same_set s s' -> h = h').

  Lemma adjSide_inv db fs s h t : inv db -> In (h, t) T -> In s (sides t) -> let r := fst (adjSide alloc (db, fs) s) in
    inv r /\ has r s /\ incl (mb_tri db) (mb_tri r) /\ (length (mb_tri r) <= S (length (mb_tri db)))%nat.
  Proof.
    intros (I1 & I2 & I3 & I4 & I5) Ht Hs. unfold adjSide. destruct (findTri s (mb_tri db)) as [k|] eqn:E; cbn [fst].
    - split; [repeat split; auto; apply (I4 h0 s0 H)|]. apply findTri_some in E. destruct E as (s' & E & F).
      split; [exists k, s'; auto|]. split; [apply incl_refl|lia].
    - pose proof (findTri_none _ _ E) as NO. set (k := alloc (map fst (mb_tri db))). cbn [mb_tri mb_vert mb_tet].
      split; [|split; [exists k, s; split; [apply in_or_app; right; now left|apply same_set_refl]|split; [intros x Hx; apply in_or_app; now left|rewrite app_length; cbn; lia]]].
      split; [exact I1|]. split; [exact I2|]. split; [|split].
      + cbn [mb_tri]. rewrite map_app. apply nodup_snoc; auto. apply AL.
      + intros h' s' H. apply in_app_or in H. destruct H as [H|[H|[]]]; [eauto|]. injection H; intros; subst h' s'.
        split; [eapply side_nodup; eauto|]. exists h, t. split; auto. now apply side_tet.
      + intros a sa b sb Ha Hb EQ. apply in_app_or in Ha. apply in_app_or in Hb. destruct Ha as [Ha|[Ha|[]]], Hb as [Hb|[Hb|[]]].
        * eapply I5; eauto.
        * injection Hb; intros; subst b sb. exfalso. apply (NO _ _ Ha). now apply same_set_sym.
        * injection Ha; intros; subst a sa. exfalso. apply (NO _ _ Hb). exact EQ.
        * congruence.
  Qed.
  Lemma has_incl db db' s : incl (mb_tri db) (mb_tri db') -> has db s -> has db' s.
  Proof. intros H (h & s' & G & E). exists h, s'. auto. Qed.
  Lemma adjSides_inv l h t : In (h, t) T -> (forall s, In s l -> In s (sides t)) -> forall db fs, inv db -> let r := fst (fold_left (adjSide alloc) l (db, fs)) in
    inv r /\ (forall s, In s l -> has r s) /\ incl (mb_tri db) (mb_tri r) /\ (length (mb_tri r) <= length l + length (mb_tri db))%nat.
  Proof.
    intros Ht. induction l as [|s l IH]; intros Hl db fs I; cbn [fold_left].
    - cbn [fst]. split; [exact I|]. split; [intros s []|]. split; [apply incl_refl|cbn; lia].
    - destruct (adjSide_inv db fs s h t I Ht (Hl s (or_introl eq_refl))) as (J1 & J2 & J3 & J4).
      destruct (adjSide alloc (db, fs) s) as (db1, fs1). cbn [fst] in *.
      destruct (IH (fun s H => Hl s (or_intror H)) db1 fs1 J1) as (K1 & K2 & K3 & K4).
      split; [exact K1|]. split; [|split; [eapply incl_tran; eauto|cbn [length]; lia]].
      intros x [<-|Hx]; [eapply has_incl; eauto|auto].
  Qed.
  Lemma createFaces l : (forall h, In h l -> In h (map fst T)) -> NoDup (map fst T) -> forall db, inv db -> exists db',
    foldM (fun db h => option_map fst (adjFaces alloc db h)) l db = Some db' /\ inv db' /\
    (forall h t s, In h l -> In (h, t) T -> In s (sides t) -> has db' s) /\ incl (mb_tri db) (mb_tri db') /\
    (length (mb_tri db') <= 4 * length l + length (mb_tri db))%nat.
  Proof.
    intros Hl ND. induction l as [|h l IH]; intros db I; cbn [foldM].
    - exists db. split; auto. split; [exact I|]. split; [intros h t s []|]. split; [apply incl_refl|cbn; lia].
    - assert (Hh := Hl h (or_introl eq_refl)). apply in_map_iff in Hh. destruct Hh as ((h', t) & E & Ht). cbn in E. subst h'.
      assert (L : lookup h (mb_tet db) = Some t). { destruct I as (_ & I2 & _). rewrite I2. now apply lookup_in. }
      unfold adjFaces at 1. rewrite L. cbn [obind option_map].
      destruct (adjSides_inv (sides t) h t Ht (fun s H => H) db [] I) as (J1 & J2 & J3 & J4).
      destruct (IH (fun x H => Hl x (or_intror H)) _ J1) as (db' & K1 & K2 & K3 & K4 & K5).
      exists db'. split; [exact K1|]. split; [exact K2|]. split; [|split; [eapply incl_tran; eauto|change (length (sides t)) with 4%nat in J4; cbn [length]; lia]].
      intros x tx s [<-|Hx] Hx' Hs; [|eauto].
      assert (tx = t) by (apply Some_inj; rewrite <- (lookup_in T ND _ _ Hx'), <- (lookup_in T ND _ _ Ht); reflexivity). subst tx.
      eapply has_incl; [exact K4|]. auto.
  Qed.
End Create.

Lemma create_closed alloc db : (forall l, ~ In (alloc l) l) -> moab_ok db -> exists db',
  moabCreateAllFaces alloc db = Some db' /\ closed db' /\ mb_vert db' = mb_vert db /\ mb_tet db' = mb_tet db /\ incl (mb_tri db) (mb_tri db').
Proof.
  intros AL OK. destruct OK as [O1 O2 O3 O4 O5 O6 O7 O8 (O9 & O10)].
  destruct (createFaces alloc AL (mb_vert db) (mb_tet db) (fun h t H => proj1 (O5 h t H)) (toRange (map fst (mb_tet db)))
    (fun h H => proj1 (toRange_in _ _) H) O3 db) as (db' & E & (I1 & I2 & I3 & I4 & I5) & F & IN & LEN).
  { split; [reflexivity|]. split; [reflexivity|]. split; [exact O2|]. split; auto. }
  exists db'. split; [exact E|]. split; [|auto]. rewrite (range_len _ O3) in LEN. constructor; rewrite ?I1, ?I2; auto.
  - intros h t s Ht Hs. apply (F h t s); auto. apply toRange_in. now apply (in_map fst) in Ht.
  - change (2^31) with 2147483648 in *. unfold lenN in *. repeat split; lia.
Qed.

(** ---- the serial mesh of a database with all faces ---- *)
Lemma toQ4_ok {A} (l : list A) : length l = 4%nat -> exists q, toQ4 l = Some q /\ q4l q = l.
Proof. destruct l as [|a [|b [|c [|d [|]]]]]; try discriminate. intros _. eexists. split; reflexivity. Qed.
Lemma toQ3_ok {A} (l : list A) : length l = 3%nat -> exists q, toQ3 l = Some q /\ q3l q = l.
Proof. destruct l as [|a [|b [|c [|]]]]; try discriminate. intros _. eexists. split; reflexivity. Qed.
Lemma mapM_f2 {A B} (f : A -> option B) (R : A -> B -> Prop) l : (forall a, In a l -> exists b, f a = Some b /\ R a b) ->
  exists r, mapM f l = Some r /\ Forall2 R l r.
Proof.
  induction l as [|a l IH]; intros H; cbn [mapM]; [exists []; auto|].
  destruct (H a (or_introl eq_refl)) as (b & -> & Rb). destruct IH as (r & -> & Rr); [intros; apply H; now right|]. exists (b :: r). auto.
Qed.
Lemma in_fst {A} (l : list (N * A)) h : In h (map fst l) <-> exists a, In (h, a) l.
Proof.
  rewrite in_map_iff. split; [intros ((k, a) & E & H); cbn in E; subst; eauto|intros (a & H); exists (h, a); auto].
Qed.

Lemma f2r {A B} (R : A -> B -> Prop) l m i b : Forall2 R l m -> nth_error m i = Some b -> exists a, nth_error l i = Some a /\ R a b.
Proof. intros H. revert i. induction H; intros i G; destruct i; cbn in *; try discriminate; [apply Some_inj in G; subst; eauto|eauto]. Qed.
Lemma f2l {A B} (R : A -> B -> Prop) l m i a : Forall2 R l m -> nth_error l i = Some a -> exists b, nth_error m i = Some b /\ R a b.
Proof. intros H. revert i. induction H; intros i G; destruct i; cbn in *; try discriminate; [apply Some_inj in G; subst; eauto|eauto]. Qed.
Lemma f2len {A B} (R : A -> B -> Prop) l m : Forall2 R l m -> length l = length m.
Proof. induction 1; cbn; auto. Qed.
Section Closed.
  Context (alloc : list N -> N) {T : Type} (A : arith T) (bits : N -> T) (db : mdb) (C : closed db) (nested : bool).
  Notation rv := (rank (mb_vert db)).
  Notation rt := (rank (mb_tri db)).
  Notation rc := (rank (mb_tet db)).
  Definition tri_of (s : q3 N) (k : N) : Prop := exists s', In (k, s') (mb_tri db) /\ same_set s s'.

  Lemma tri_of_inj s s' k : tri_of s k -> tri_of s' k -> same_set s s'.
  Proof.
    intros (x & Hx & Ex) (y & Hy & Ey). pose proof (lookup_in _ (cl_trih db C) _ _ Hx) as L. rewrite (lookup_in _ (cl_trih db C) _ _ Hy) in L.
    apply Some_inj in L. subst y. eapply same_set_trans; [exact Ex|now apply same_set_sym].
  Qed.
  Lemma tri_of_fun s s' k k' : tri_of s k -> tri_of s' k' -> same_set s s' -> k = k'.
  Proof.
    intros (x & Hx & Ex) (y & Hy & Ey) E. apply (cl_once db C _ _ _ _ Hx Hy).
    eapply same_set_trans; [apply same_set_sym; exact Ex|]. eapply same_set_trans; eauto.
  Qed.
  Lemma adjSides_closed l : (forall s, In s l -> has db s) -> forall fs P, is_set fs P -> exists fs' hs,
    fold_left (adjSide alloc) l (db, fs) = (db, fs') /\ Forall2 tri_of l hs /\ is_set fs' (fun x => P x \/ In x hs).
  Proof.
    induction l as [|s l IH]; intros Hl fs P SF; cbn [fold_left].
    - exists fs, []. split; auto. split; auto. eapply is_set_ext; [|exact SF]. intros x. cbn. tauto.
    - unfold adjSide at 2. destruct (Hl s (or_introl eq_refl)) as (k & s' & Hk & E).
      destruct (findTri s (mb_tri db)) as [k'|] eqn:F; [|exfalso; eapply findTri_none; eauto].
      apply findTri_some in F. destruct F as (s'' & Hk' & E').
      destruct (IH (fun s H => Hl s (or_intror H)) (insertN k' fs) _ (insertN_set k' fs P SF)) as (fs' & hs & G1 & G2 & G3).
      exists fs', (k' :: hs). split; [exact G1|]. split; [constructor; auto; exists s''; auto|].
      eapply is_set_ext; [|exact G3]. intros x. cbn [In]. split; [intros [[->|H]|H]|intros [H|[<-|H]]]; tauto.
  Qed.
  Lemma adjFaces_closed h t : In (h, t) (mb_tet db) -> exists fs hs,
    adjFaces alloc db h = Some (db, fs) /\ Forall2 tri_of (sides t) hs /\ NoDup hs /\ Permutation fs hs.
  Proof.
    intros Ht. unfold adjFaces. rewrite (lookup_in _ (cl_teth db C) _ _ Ht). cbn [obind].
    destruct (adjSides_closed (sides t) (fun s Hs => cl_full db C h t s Ht Hs) [] (fun _ => False)) as (fs & hs & E & F & S).
    { split; [constructor|cbn; tauto]. }
    exists fs, hs. rewrite E. split; auto. split; auto.
    assert (ND : NoDup hs).
    { apply NoDup_nth_error. intros i j Hi Eij. destruct (nth_error hs i) as [k|] eqn:Ei; [|apply nth_error_None in Ei; lia].
      symmetry in Eij. 
      destruct (f2r _ _ _ _ _ F Ei) as (s & S1 & S2). destruct (f2r _ _ _ _ _ F Eij) as (s' & S1' & S2').
      eapply sides_distinct; [apply (cl_tet db C _ _ Ht)| | |]; eauto. eapply tri_of_inj; eauto. }
    split; auto. apply NoDup_Permutation; auto; [apply sorted_nodup; apply S|]. intros x. rewrite (proj2 S x). tauto.
  Qed.

  Definition cell_rel (h : N) (sc : scell) : Prop := exists t hs pts, In (h, t) (mb_tet db) /\ Forall2 tri_of (sides t) hs /\ NoDup hs /\
    Permutation (q4l (sc_faces sc)) (map rt hs) /\ Permutation (q4l (sc_nodes sc)) (map rv (q4l t)) /\
    Forall2 (fun v p => In (v, p) (mb_vert db)) (toRange (q4l t)) pts /\ sc_mat sc = materialIndex A bits nested pts.
  Definition face_rel (h : N) (sf : sface) : Prop := exists s, In (h, s) (mb_tri db) /\ Permutation (q3l (sf_nodes sf)) (map rv (q3l s)) /\
    ((exists a, adjCells db s = [a] /\ sf_cells sf = Q2 (rc a) INVALID) \/ (exists a b, adjCells db s = [a; b] /\ sf_cells sf = Q2 (rc a) (rc b))).
  Definition node_rel (h : N) (sn : snode) : Prop := In (h, sn_coords sn) (mb_vert db).

  Lemma vert_in t h v : In (h, t) (mb_tet db) -> In v (q4l t) -> In v (map fst (mb_vert db)).
  Proof. intros Ht Hv. apply in_fst. apply (proj2 (cl_tet db C _ _ Ht) v Hv). Qed.
  Lemma nodeMap_range l : (forall v, In v l -> In v (map fst (mb_vert db))) ->
    mapM (fun h => findN h (posMap (toRange (map fst (mb_vert db))))) (toRange l) = Some (map rv (toRange l)).
  Proof. intros H. apply mapM_some. intros v Hv. apply posMap_rank; [apply C|]. apply H. now apply toRange_in. Qed.

  Lemma cellData_ok h cells : In h (map fst (mb_tet db)) -> exists sc,
    cellData alloc A bits nested (posMap (toRange (map fst (mb_tri db)))) (posMap (toRange (map fst (mb_vert db)))) (db, cells) h = Some (db, cells ++ [sc]) /\ cell_rel h sc.
  Proof.
    intros Hh. apply in_fst in Hh. destruct Hh as (t & Ht). destruct (adjFaces_closed h t Ht) as (fs & hs & E & F & ND & PM).
    unfold cellData. rewrite E. cbn [obind].
    assert (M : mapM (fun h => findN h (posMap (toRange (map fst (mb_tri db))))) fs = Some (map rt fs)).
    { apply mapM_some. intros k Hk. apply posMap_rank; [apply C|]. apply (Permutation_in _ PM) in Hk. clear - F Hk.
      induction F as [|s k' l hs (s' & Hs & _) F IH]; [destruct Hk|]. destruct Hk as [<-|Hk]; [apply in_fst; eauto|auto]. }
    rewrite M. cbn [obind]. assert (L4 : length (map rt fs) = 4%nat).
    { rewrite map_length, (Permutation_length PM). clear - F. change 4%nat with (length (sides t)). symmetry. induction F; cbn; auto. }
    destruct (toQ4_ok _ L4) as (q & Q1 & Q2). rewrite Q1. cbn [obind]. rewrite (lookup_in _ (cl_teth db C) _ _ Ht). cbn [obind].
    rewrite (nodeMap_range (q4l t) (fun v => vert_in t h v Ht)). cbn [obind].
    assert (PN := toRange_perm (q4l t) (proj1 (cl_tet db C _ _ Ht))).
    assert (L4' : length (map rv (toRange (q4l t))) = 4%nat) by (rewrite map_length, (Permutation_length PN); reflexivity).
    destruct (toQ4_ok _ L4') as (q' & Q1' & Q2'). rewrite Q1'. cbn [obind].
    destruct (mapM_f2 (fun h => lookup h (mb_vert db)) (fun v p => In (v, p) (mb_vert db)) (toRange (q4l t))) as (pts & P1 & P2).
    { intros v Hv. apply (proj1 (toRange_in _ _)) in Hv. apply (vert_in t h v Ht) in Hv. apply in_fst in Hv. destruct Hv as (p & Hp). exists p. split; auto. apply lookup_in; [apply C|auto]. }
    rewrite P1. cbn [obind]. eexists. split; [reflexivity|]. exists t, hs, pts. cbn [sc_faces sc_nodes sc_mat]. rewrite Q2, Q2'.
    repeat split; auto; now apply Permutation_map.
  Qed.
  Lemma cells_ok l : (forall h, In h l -> In h (map fst (mb_tet db))) -> forall acc, exists cells,
    foldM (cellData alloc A bits nested (posMap (toRange (map fst (mb_tri db)))) (posMap (toRange (map fst (mb_vert db))))) l (db, acc) = Some (db, acc ++ cells) /\ Forall2 cell_rel l cells.
  Proof.
    induction l as [|h l IH]; intros Hl acc; cbn [foldM]; [exists []; rewrite app_nil_r; auto|].
    destruct (cellData_ok h acc (Hl h (or_introl eq_refl))) as (sc & E & R). rewrite E.
    destruct (IH (fun x H => Hl x (or_intror H)) (acc ++ [sc])) as (cells & E' & R'). exists (sc :: cells). cbn [obind]. rewrite <- app_assoc in E'. split; [exact E'|now constructor].
  Qed.

  Lemma adjCells_in s a : In a (adjCells db s) <-> exists t, In (a, t) (mb_tet db) /\ tet_has t s.
  Proof.
    unfold adjCells. rewrite toRange_in, in_map_iff. split.
    - intros ((k, t) & E & H). cbn in E. subst k. apply filter_In in H. destruct H as (H & G). cbn [snd] in G. rewrite hasAll_spec in G. eauto.
    - intros (t & H & G). exists (a, t). split; auto. apply filter_In. split; auto. cbn [snd]. now apply hasAll_spec.
  Qed.
  Lemma faceData_ok h : In h (map fst (mb_tri db)) -> exists sf,
    faceData db (posMap (toRange (map fst (mb_tet db)))) (posMap (toRange (map fst (mb_vert db)))) h = Some sf /\ face_rel h sf.
  Proof.
    intros Hh. apply in_fst in Hh. destruct Hh as (s & Hs). unfold faceData. rewrite (lookup_in _ (cl_trih db C) _ _ Hs). cbn [obind].
    assert (M : mapM (fun h => findN h (posMap (toRange (map fst (mb_tet db))))) (adjCells db s) = Some (map rc (adjCells db s))).
    { apply mapM_some. intros k Hk. apply posMap_rank; [apply C|]. apply adjCells_in in Hk. destruct Hk as (t & Hk & _). apply in_fst. eauto. }
    rewrite M. cbn [obind]. destruct (cl_tri db C _ _ Hs) as (NDs & h1 & t1 & Ht1 & Hs1).
    assert (H1 : In h1 (adjCells db s)) by (apply adjCells_in; eauto).
    assert (NDc : NoDup (adjCells db s)) by (apply sorted_nodup; apply toRange_set).
    assert (PN := toRange_perm (q3l s) NDs).
    rewrite nodeMap_range. 2:{ intros v Hv. eapply vert_in; [exact Ht1|]. now apply Hs1. }
    assert (L3 : length (map rv (toRange (q3l s))) = 3%nat) by (rewrite map_length, (Permutation_length PN); reflexivity).
    destruct (toQ3_ok _ L3) as (q' & Q1' & Q2').
    assert (AC : (exists a, adjCells db s = [a]) \/ (exists a b, adjCells db s = [a; b])).
    { destruct (adjCells db s) as [|a [|b [|c r]]] eqn:EA; [destruct H1|eauto|eauto|exfalso].
      assert (G : forall x, In x (a :: b :: c :: r) -> exists t, In (x, t) (mb_tet db) /\ tet_has t s) by (intros x Hx; apply adjCells_in; now rewrite EA).
      destruct (G a) as (ta & Ga & Ga'); [cbn; tauto|]. destruct (G b) as (tb & Gb & Gb'); [cbn; tauto|]. destruct (G c) as (tc & Gc & Gc'); [cbn; tauto|].
      rewrite !NoDup_cons_iff in NDc. cbn [In] in NDc.
      destruct (cl_two db C s _ _ _ _ _ _ NDs Ga Gb Gc Ga' Gb' Gc') as [X|[X|X]]; subst; tauto. }
    destruct AC as [(a & EA)|(a & b & EA)]; rewrite EA; cbn [map obind]; rewrite Q1'; cbn [obind]; eexists; (split; [reflexivity|]); exists s; cbn [sf_nodes sf_cells]; rewrite Q2';
      (split; [exact Hs|]); (split; [now apply Permutation_map|]); [left; eauto|right; eauto].
  Qed.
  Lemma create_ok name0 version0 : exists sm, createSerialMesh alloc A bits name0 version0 db nested = Some sm /\
    sm_numCells sm = lenN (mb_tet db) /\ sm_numFaces sm = lenN (mb_tri db) /\ sm_numNodes sm = lenN (mb_vert db) /\
    Forall2 cell_rel (toRange (map fst (mb_tet db))) (sm_cells sm) /\
    Forall2 face_rel (toRange (map fst (mb_tri db))) (sm_faces sm) /\ Forall2 node_rel (toRange (map fst (mb_vert db))) (sm_nodes sm).
  Proof.
    unfold createSerialMesh. destruct (cells_ok (toRange (map fst (mb_tet db))) (fun h H => proj1 (toRange_in _ _) H) []) as (cells & E1 & R1).
    rewrite E1. cbn [obind app].
    destruct (mapM_f2 (faceData db (posMap (toRange (map fst (mb_tet db)))) (posMap (toRange (map fst (mb_vert db))))) face_rel (toRange (map fst (mb_tri db)))) as (faces & E2 & R2).
    { intros h Hh. apply faceData_ok. now apply toRange_in. }
    rewrite E2. cbn [obind].
    destruct (mapM_f2 (fun h => option_map mkSnode (lookup h (mb_vert db))) node_rel (toRange (map fst (mb_vert db)))) as (nodes & E3 & R3).
    { intros h Hh. apply (proj1 (toRange_in _ _)) in Hh. apply in_fst in Hh. destruct Hh as (p & Hp). exists (mkSnode p).
      rewrite (lookup_in _ (cl_vert db C) _ _ Hp). split; auto. }
    rewrite E3. cbn [obind]. eexists. split; [reflexivity|]. cbn [sm_numCells sm_numFaces sm_numNodes sm_cells sm_faces sm_nodes].
    rewrite !range_len by apply C. unfold lenN. auto 10.
  Qed.
End Closed.

Lemma nodup_map_in {A B} (f : A -> B) l : NoDup l -> (forall x y, In x l -> In y l -> f x = f y -> x = y) -> NoDup (map f l).
Proof.
  induction 1 as [|a l H1 H2 IH]; intros I; cbn [map]; constructor.
  - rewrite in_map_iff. intros (y & E & Hy). assert (y = a) by (apply I; [now right|now left|auto]). now subst.
  - apply IH. intros x y Hx Hy. apply I; now right.
Qed.
Lemma nth_rank_of i : N.of_nat (N.to_nat i) = i. Proof. apply N2Nat.id. Qed.

Lemma small_valid x : x < 2^31 -> x <> INVALID /\ u64 x.
Proof. change (2^31) with 2147483648. unfold INVALID, u64. lia. Qed.
Section Result.
  Context {T : Type} (A : arith T) (bits : N -> T) (db : mdb) (C : closed db) (nested : bool) (sm : smesh).
  Context (NC : sm_numCells sm = lenN (mb_tet db)) (NF : sm_numFaces sm = lenN (mb_tri db)) (NN : sm_numNodes sm = lenN (mb_vert db)).
  Context (RC : Forall2 (cell_rel A bits db nested) (toRange (map fst (mb_tet db))) (sm_cells sm)).
  Context (RF : Forall2 (face_rel db) (toRange (map fst (mb_tri db))) (sm_faces sm)).
  Context (RN : Forall2 (node_rel db) (toRange (map fst (mb_vert db))) (sm_nodes sm)).
  Notation rv := (rank (mb_vert db)).
  Notation rt := (rank (mb_tri db)).
  Notation rc := (rank (mb_tet db)).

  Lemma tet_unique h t t' : In (h, t) (mb_tet db) -> In (h, t') (mb_tet db) -> t = t'.
  Proof. intros H G. apply (lookup_in _ (cl_teth db C)) in H. apply (lookup_in _ (cl_teth db C)) in G. congruence. Qed.
  Lemma tri_unique h t t' : In (h, t) (mb_tri db) -> In (h, t') (mb_tri db) -> t = t'.
  Proof. intros H G. apply (lookup_in _ (cl_trih db C)) in H. apply (lookup_in _ (cl_trih db C)) in G. congruence. Qed.
  Lemma cell_at h t : In (h, t) (mb_tet db) -> exists sc, SM_cell sm (rc h) = Some sc /\ cell_rel A bits db nested h sc.
  Proof.
    intros H. apply (f2l _ _ _ _ _ RC). apply rank_range; [apply C|]. apply in_fst. eauto.
  Qed.
  Lemma cell_from c sc : SM_cell sm c = Some sc -> exists h, c = rc h /\ cell_rel A bits db nested h sc.
  Proof.
    intros H. destruct (f2r _ _ _ _ _ RC H) as (h & E & R). exists h. split; auto. rewrite (range_rank _ (cl_teth db C) _ _ E). symmetry. apply N2Nat.id.
  Qed.
  Lemma face_at h s : In (h, s) (mb_tri db) -> exists sf, SM_face sm (rt h) = Some sf /\ face_rel db h sf.
  Proof. intros H. apply (f2l _ _ _ _ _ RF). apply rank_range; [apply C|]. apply in_fst. eauto. Qed.
  Lemma face_from f sf : SM_face sm f = Some sf -> exists h, f = rt h /\ face_rel db h sf.
  Proof.
    intros H. destruct (f2r _ _ _ _ _ RF H) as (h & E & R). exists h. split; auto. rewrite (range_rank _ (cl_trih db C) _ _ E). symmetry. apply N2Nat.id.
  Qed.
  Lemma node_at h p : In (h, p) (mb_vert db) -> SM_node sm (rv h) = Some (mkSnode p).
  Proof.
    intros H. destruct (f2l _ _ _ (N.to_nat (rv h)) h RN) as (sn & E & R); [apply rank_range; [apply C|apply in_fst; eauto]|].
    unfold SM_node. rewrite E. f_equal. unfold node_rel in R. apply (lookup_in _ (cl_vert db C)) in R. apply (lookup_in _ (cl_vert db C)) in H.
    destruct sn as [c]. cbn in R. congruence.
  Qed.
  Lemma vert_small v p : In (v, p) (mb_vert db) -> rv v < 2^31.
  Proof. intros H. eapply N.lt_trans; [apply rank_lt; [apply C|apply in_fst; eauto]|apply C]. Qed.
  Lemma tet_small h t : In (h, t) (mb_tet db) -> rc h < 2^31.
  Proof. intros H. eapply N.lt_trans; [apply rank_lt; [apply C|apply in_fst; eauto]|apply C]. Qed.
  Lemma tri_small h t : In (h, t) (mb_tri db) -> rt h < 2^31.
  Proof. intros H. eapply N.lt_trans; [apply rank_lt; [apply C|apply in_fst; eauto]|apply C]. Qed.

  (** what the sides of a cell and the cells of a face are *)
  Lemma cell_face h t sc f : In (h, t) (mb_tet db) -> cell_rel A bits db nested h sc -> In f (q4l (sc_faces sc)) <->
    exists s k, In s (sides t) /\ f = rt k /\ tri_of db s k.
  Proof.
    intros Ht (t' & hs & pts & Ht' & F & ND & PF & _). pose proof (tet_unique _ _ _ Ht Ht'). subst t'. split.
    - intros H. apply (Permutation_in _ PF) in H. apply in_map_iff in H. destruct H as (k & E & Hk). apply In_nth_error in Hk. destruct Hk as (i & Hk).
      destruct (f2r _ _ _ _ _ F Hk) as (s & Hs & G). exists s, k. split; [eapply nth_error_In; eauto|auto].
    - intros (s & k & Hs & -> & G). apply In_nth_error in Hs. destruct Hs as (i & Hs). destruct (f2l _ _ _ _ _ F Hs) as (k' & Hk' & G').
      apply (Permutation_in _ (Permutation_sym PF)). apply in_map. rewrite (tri_of_fun db C _ _ _ _ G G' (same_set_refl s)). eapply nth_error_In; eauto.
  Qed.
  Lemma face_cell k s sf c : In (k, s) (mb_tri db) -> face_rel db k sf -> c <> INVALID -> In c (q2l (sf_cells sf)) <-> exists h t, In (h, t) (mb_tet db) /\ tet_has t s /\ c = rc h.
  Proof.
    intros Hs (s' & Hs' & _ & D) NI. pose proof (tri_unique _ _ _ Hs Hs'). subst s'.
    assert (IFF : In c (q2l (sf_cells sf)) <-> exists a, In a (adjCells db s) /\ c = rc a).
    { destruct D as [(a & EA & ->)|(a & b & EA & ->)]; rewrite EA; cbn [q2l In MeshModel.p0 MeshModel.p1]; split.
      - intros [<-|[X|[]]]; [exists a; auto|congruence].
      - intros (x & [<-|[]] & ->); auto.
      - intros [<-|[<-|[]]]; [exists a|exists b]; cbn; auto.
      - intros (x & [<-|[<-|[]]] & ->); auto. }
    rewrite IFF. split; [intros (a & Ha & ->); apply adjCells_in in Ha; destruct Ha as (t & Ha & G); eauto|intros (h & t & Ht & G & ->); exists h; split; auto; apply adjCells_in; eauto].
  Qed.
  Lemma face_first k sf : face_rel db k sf -> MeshModel.p0 (sf_cells sf) <> INVALID.
  Proof.
    intros (s & _ & _ & D). assert (G : forall a, In a (adjCells db s) -> rc a <> INVALID).
    { intros a Ha. apply adjCells_in in Ha. destruct Ha as (t & Ht & _). apply small_valid. eapply tet_small; eauto. }
    destruct D as [(a & EA & ->)|(a & b & EA & ->)]; rewrite EA in G; cbn; apply G; now left.
  Qed.
  Lemma vert_of h s v : In (h, s) (mb_tri db) -> In v (q3l s) -> exists p, In (v, p) (mb_vert db).
  Proof.
    intros Hs Hv. destruct (cl_tri db C _ _ Hs) as (_ & h' & t & Ht & G). destruct (cl_tet db C _ _ Ht) as (_ & K). apply K. now apply G.
  Qed.
  Lemma rv_inj v w p q : In (v, p) (mb_vert db) -> In (w, q) (mb_vert db) -> rv v = rv w -> v = w.
  Proof. intros H G. apply rank_inj; [apply C|apply in_fst; eauto|apply in_fst; eauto]. Qed.
  Lemma faces_once f sf g sg : SM_face sm f = Some sf -> SM_face sm g = Some sg -> same_set (sf_nodes sf) (sf_nodes sg) -> f = g.
  Proof.
    intros Hf Hg E. destruct (face_from _ _ Hf) as (k & -> & s & Hs & P & _). destruct (face_from _ _ Hg) as (k' & -> & s' & Hs' & P' & _).
    f_equal. apply (cl_once db C _ _ _ _ Hs Hs').
    assert (X : forall k s k' s' sf sg, In (k, s) (mb_tri db) -> In (k', s') (mb_tri db) -> Permutation (q3l (sf_nodes sf)) (map rv (q3l s)) ->
      Permutation (q3l (sf_nodes sg)) (map rv (q3l s')) -> same_set (sf_nodes sf) (sf_nodes sg) -> forall v, In v (q3l s) -> In v (q3l s')).
    { clear - C. intros k s k' s' sf sg Hs Hs' P P' E v Hv. assert (H : In (rv v) (q3l (sf_nodes sf))) by (apply (Permutation_in _ (Permutation_sym P)); now apply in_map).
      apply E in H. apply (Permutation_in _ P') in H. apply in_map_iff in H. destruct H as (w & Ew & Hw).
      destruct (vert_of _ _ _ Hs Hv) as (p & Hp). destruct (vert_of _ _ _ Hs' Hw) as (q & Hq). pose proof (rv_inj _ _ _ _ Hq Hp Ew). now subst. }
    intros v. split; eapply X; eauto. now apply same_set_sym.
  Qed.

  Lemma result_wf : serial_wf sm.
  Proof.
    pose proof (cl_small db C) as (S1 & S2 & S3). pose proof (f2len _ _ _ RC) as L1. pose proof (f2len _ _ _ RF) as L2. pose proof (f2len _ _ _ RN) as L3.
    rewrite (range_len _ (cl_teth db C)) in L1. rewrite (range_len _ (cl_trih db C)) in L2. rewrite (range_len _ (cl_vert db C)) in L3.
    assert (E1 : lenN (sm_cells sm) = lenN (mb_tet db)) by (unfold lenN; now rewrite L1).
    assert (E2 : lenN (sm_faces sm) = lenN (mb_tri db)) by (unfold lenN; now rewrite L2).
    assert (E3 : lenN (sm_nodes sm) = lenN (mb_vert db)) by (unfold lenN; now rewrite L3).
    change (2^31) with 2147483648 in *. unfold serial_wf. rewrite E1, E2, E3.
    do 3 (split; [assumption|]). do 3 (split; [unfold u64; lia|]). split; [|split].
    - apply Forall_forall. intros sc Hsc. apply In_nth_error in Hsc. destruct Hsc as (i & Hi).
      destruct (f2r _ _ _ _ _ RC Hi) as (h & _ & t & hs & pts & Ht & F & ND & PF & PN & _ & M).
      assert (GF : forall f, In f (q4l (sc_faces sc)) -> u64 f).
      { intros f Hf. apply (Permutation_in _ PF) in Hf. apply in_map_iff in Hf. destruct Hf as (k & <- & Hk). apply In_nth_error in Hk. destruct Hk as (j & Hk).
        destruct (f2r _ _ _ _ _ F Hk) as (s & _ & s' & Hs' & _). apply small_valid. eapply tri_small; eauto. }
      assert (GN : forall f, In f (q4l (sc_nodes sc)) -> u64 f).
      { intros f Hf. apply (Permutation_in _ PN) in Hf. apply in_map_iff in Hf. destruct Hf as (k & <- & Hk). destruct (cl_tet db C _ _ Ht) as (_ & K). destruct (K _ Hk) as (p & Hp).
        apply small_valid. eapply vert_small; eauto. }
      assert (GM : u64 (sc_mat sc)) by (rewrite M; unfold materialIndex, u64; destruct (_ && _); lia).
      destruct sc as [[f0 f1 f2 f3] [n0 n1 n2 n3] m]. cbn [scell_fmt]. cbn [sc_faces sc_nodes sc_mat q4l r0 r1 r2 r3 In] in GF, GN, GM.
      repeat (constructor; auto 8).
    - apply Forall_forall. intros sf Hsf. apply In_nth_error in Hsf. destruct Hsf as (i & Hi).
      destruct (f2r _ _ _ _ _ RF Hi) as (h & _ & FR). pose proof FR as FR0. destruct FR as (s & Hs & P & D).
      assert (GN : forall f, In f (q3l (sf_nodes sf)) -> u64 f).
      { intros f Hf. apply (Permutation_in _ P) in Hf. apply in_map_iff in Hf. destruct Hf as (k & <- & Hk). destruct (vert_of _ _ _ Hs Hk) as (p & Hp). apply small_valid. eapply vert_small; eauto. }
      assert (GC : forall c, In c (q2l (sf_cells sf)) -> u64 c).
      { intros c Hc. destruct (N.eq_dec c INVALID) as [->|NI]; [unfold u64, INVALID; lia|]. apply (face_cell _ _ _ _ Hs FR0 NI) in Hc. destruct Hc as (a & t & Ht & _ & ->). apply small_valid. eapply tet_small; eauto. }
      clear - GN GC. destruct sf as [[c0 c1] [n0 n1 n2]]. cbn [sface_fmt]. cbn [sf_cells sf_nodes q2l q3l MeshModel.p0 MeshModel.p1 t0 t1 t2 In] in GC, GN. repeat (constructor; auto 8).
    - apply Forall_forall. intros sn Hsn. apply In_nth_error in Hsn. destruct Hsn as (i & Hi). destruct (f2r _ _ _ _ _ RN Hi) as (h & _ & R). unfold node_rel in R.
      assert (G : forall x, In x (q3l (sn_coords sn)) -> u64 x) by (intros x Hx; eapply (cl_coords db C); eauto). clear - G.
      destruct sn as [[x y z]]. cbn [snode_fmt]. cbn [sn_coords q3l t0 t1 t2 In] in G. repeat (constructor; auto 8).
  Qed.
  Lemma result_ok : serial_mesh_ok sm.
  Proof.
    pose proof (cl_small db C) as (S1 & S2 & S3). pose proof result_wf as W. pose proof W as (W1 & W2 & W3 & _). rewrite NC in W1. rewrite NF in W2. rewrite NN in W3.
    constructor; auto; try (rewrite <- ?W1, <- ?W2, <- ?W3; auto).
    - change (2^31) with 2147483648 in *. unfold INVALID. lia.
    - intros c sc f Hc Hf. destruct (cell_from _ _ Hc) as (h & -> & CR). pose proof CR as (t & hs & pts & Ht & F & ND & PF & PN & _).
      apply (cell_face _ _ _ _ Ht CR) in Hf. destruct Hf as (s & k & Hs & -> & s' & Hs' & E). destruct (face_at _ _ Hs') as (sf & Hsf & FR). exists sf. split; auto.
      assert (TH : tet_has t s') by (intros v Hv; apply (side_tet _ _ Hs); now apply E). split.
      + apply (face_cell _ _ _ _ Hs' FR); [apply small_valid; eapply tet_small; eauto|]. eauto.
      + destruct FR as (s'' & Hs'' & P & _). pose proof (tri_unique _ _ _ Hs' Hs''). subst s''. intros n Hn. apply (Permutation_in _ P) in Hn. apply in_map_iff in Hn. destruct Hn as (v & <- & Hv).
        apply (Permutation_in _ (Permutation_sym PN)). apply in_map. now apply TH.
    - intros f sf c Hf Hc NI. destruct (face_from _ _ Hf) as (k & -> & FR). pose proof FR as (s & Hs & P & _). apply (face_cell _ _ _ _ Hs FR NI) in Hc. destruct Hc as (h & t & Ht & TH & ->).
      destruct (cell_at _ _ Ht) as (sc & Hsc & CR). exists sc. split; auto. apply (cell_face _ _ _ _ Ht CR).
      destruct (tet_side t s (proj1 (cl_tri db C _ _ Hs)) TH) as (s1 & Hs1 & E1). exists s1, k. split; auto. split; auto. exists s. split; auto. now apply same_set_sym.
    - intros c sc n Hc Hn. destruct (cell_from _ _ Hc) as (h & -> & t & hs & pts & Ht & F & ND & PF & PN & _).
      apply (Permutation_in _ PN) in Hn. apply in_map_iff in Hn. destruct Hn as (v & <- & Hv). destruct (cl_tet db C _ _ Ht) as (_ & K). destruct (K _ Hv) as (p & Hp). rewrite (node_at _ _ Hp). eauto.
  Qed.
  Lemma result_tets : tets_ok sm.
  Proof.
    constructor.
    - intros c sc Hc. destruct (cell_from _ _ Hc) as (h & -> & t & hs & pts & Ht & F & ND & PF & PN & _). destruct (cl_tet db C _ _ Ht) as (K0 & K).
      apply (Permutation_NoDup (Permutation_sym PN)). apply nodup_map_in; auto. intros x y Hx Hy. destruct (K _ Hx) as (p & Hp). destruct (K _ Hy) as (q & Hq). eapply rv_inj; eauto.
    - intros f sf Hf. destruct (face_from _ _ Hf) as (k & -> & FR). pose proof FR as (s & Hs & P & D). split.
      + apply (Permutation_NoDup (Permutation_sym P)). apply nodup_map_in; [apply (cl_tri db C _ _ Hs)|]. intros x y Hx Hy. destruct (vert_of _ _ _ Hs Hx) as (p & Hp). destruct (vert_of _ _ _ Hs Hy) as (q & Hq). eapply rv_inj; eauto.
      + pose proof (face_first _ _ FR) as FF. destruct D as [(a & EA & E)|(a & b & EA & E)]; rewrite E in FF |- *; cbn [MeshModel.p0 MeshModel.p1] in FF |- *; [exact FF|].
        intros X. assert (NDc : NoDup (adjCells db s)) by (apply sorted_nodup; apply toRange_set).
        assert (G : forall x, In x (adjCells db s) -> In x (map fst (mb_tet db))) by (intros x Hx; apply adjCells_in in Hx; destruct Hx as (t & Hx & _); apply in_fst; eauto).
        rewrite EA in G, NDc. apply rank_inj in X; [|apply C|apply G; cbn; auto|apply G; cbn; auto]. subst b. rewrite !NoDup_cons_iff in NDc. cbn in NDc. tauto.
    - intros c sc i j f g sf sg Hc Hi Hj Hf Hg E. assert (f = g) by (eapply faces_once; eauto). subst g.
      destruct (cell_from _ _ Hc) as (h & -> & t & hs & pts & Ht & F & ND & PF & PN & _).
      assert (N4 : NoDup (q4l (sc_faces sc))).
      { apply (Permutation_NoDup (Permutation_sym PF)). apply nodup_map_in; auto. intros x y Hx Hy.
        apply rank_inj; [apply C| |]; apply in_fst; [rename Hx into HH|rename Hy into HH]; apply In_nth_error in HH; destruct HH as (n & HH);
        destruct (f2r _ _ _ _ _ F HH) as (s & _ & s' & Hs' & _); eauto. }
      rewrite NoDup_nth_error in N4. apply N4; [apply nth_error_Some; congruence|congruence].
  Qed.
  Lemma result_imported : imported db sm.
  Proof.
    pose proof result_wf as (W1 & W2 & W3 & _). constructor.
    - rewrite <- W1, <- W3. auto.
    - intros h p Hp. now apply node_at.
    - intros h t Ht. destruct (cell_at _ _ Ht) as (sc & Hsc & CR). exists sc. split; auto. pose proof CR as (t' & hs & pts & Ht' & F & ND & PF & PN & _).
      pose proof (tet_unique _ _ _ Ht Ht'). subst t'. split; auto. intros s Hs. destruct (face_side _ _ Hs) as (s1 & Hs1 & P1).
      destruct (cl_full db C _ _ _ Ht Hs1) as (k & s2 & Hs2 & E2). destruct (face_at _ _ Hs2) as (sf & Hsf & FR). exists (rt k), sf. split; [apply (cell_face _ _ _ _ Ht CR); exists s1, k; split; auto; split; auto; exists s2; auto|].
      split; auto. destruct FR as (s3 & Hs3 & P3 & _). pose proof (tri_unique _ _ _ Hs2 Hs3). subst s3. rewrite P3. apply Permutation_map. symmetry. rewrite P1.
      apply same_set_perm; auto; [eapply side_nodup; eauto; apply (cl_tet db C _ _ Ht)|apply (cl_tri db C _ _ Hs2)].
    - intros f sf Hf. destruct (face_from _ _ Hf) as (k & -> & FR). pose proof FR as (s & Hs & P & D). destruct (cl_tri db C _ _ Hs) as (NDs & h & t & Ht & TH).
      destruct (tet_side t s NDs TH) as (s1 & Hs1 & E1). destruct (side_face _ _ Hs1) as (s2 & Hs2 & P2). exists h, t, s2. split; auto. split; auto.
      assert (PS : Permutation (q3l s) (q3l s2)). { rewrite <- P2. apply same_set_perm; auto. eapply side_nodup; eauto. apply (cl_tet db C _ _ Ht). }
      split; [rewrite P; now apply Permutation_map|]. split; [eapply face_first; eauto|]. intros c NI. rewrite (face_cell _ _ _ _ Hs FR NI).
      split; intros (h' & t' & Ht' & TH' & ->); exists h', t'; split; auto; split; auto; intros v Hv; apply TH'; [exact (Permutation_in _ (Permutation_sym PS) Hv)|exact (Permutation_in _ PS Hv)].
    - apply faces_once.
  Qed.
End Result.
