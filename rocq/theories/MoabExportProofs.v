(** Proofs for the MOAB utilities: export. *)
From Coq Require Import String Permutation DecimalN DecimalFacts.
From Verif Require Import Prelude Bytes PsiFileModel DeckModel MeshModel MeshSpec MeshProofs CreateModel CreateSpec CreateProofs TychoModel TychoSpec MoabModel MoabSpec MoabProofs.
Local Open Scope N_scope.

Lemma key_inj {A} (l : list (N * A)) k a b : NoDup (map fst l) -> In (k, a) l -> In (k, b) l -> a = b.
Proof. intros ND Ha Hb. apply (lookup_in l ND) in Ha, Hb. congruence. Qed.

Lemma f2_length {A B} (R : A -> B -> Prop) l m : Forall2 R l m -> length l = length m.
Proof. induction 1; cbn; congruence. Qed.
Lemma f2_nth {A B} (R : A -> B -> Prop) l m : Forall2 R l m -> forall i a b, nth_error l i = Some a -> nth_error m i = Some b -> R a b.
Proof. induction 1 as [|x y l m H F IH]; intros [|i] a b Ha Hb; cbn in Ha, Hb; try discriminate; [congruence|eauto]. Qed.

Section Export.
  Context (alloc : list N -> N) (AL : forall l, ~ In (alloc l) l).
  Definition tight (db : mdb) : Prop := handles_ok db /\ mb_tri db = [] /\
    (forall h t, In (h, t) (mb_tet db) -> NoDup (q4l t) /\ forall v, In v (q4l t) -> In v (map fst (mb_vert db))) /\
    (forall h t h' t' v, In (h, t) (mb_tet db) -> In (h', t') (mb_tet db) -> In v (q4l t) -> In v (q4l t') -> h = h') /\
    length (mb_vert db) = (4 * length (mb_tet db))%nat /\
    (forall v, In v (map fst (mb_vert db)) -> exists h t, In (h, t) (mb_tet db) /\ In v (q4l t)).
  Definition extends (db db' : mdb) : Prop := incl (mb_vert db) (mb_vert db') /\ incl (mb_tet db) (mb_tet db').

  Lemma verts_ok ps : forall vs hs0, NoDup (map fst vs) -> exists hs,
    fold_left (createVertex alloc) ps (vs, hs0) = (vs ++ combine hs ps, hs0 ++ hs) /\ length hs = length ps /\ NoDup (map fst vs ++ hs).
  Proof.
    induction ps as [|p ps IH]; intros vs hs0 ND; cbn [fold_left].
    - exists []. cbn. rewrite !app_nil_r. auto.
    - unfold createVertex at 2. set (h := alloc (map fst vs)).
      assert (N1 : NoDup (map fst (vs ++ [(h, p)]))) by (rewrite map_app; apply nodup_snoc; auto; apply AL).
      destruct (IH (vs ++ [(h, p)]) (hs0 ++ [h]) N1) as (hs & E & L & N2). exists (h :: hs). split; [rewrite E, <- !app_assoc; reflexivity|]. split; [cbn; lia|].
      rewrite map_app, <- app_assoc in N2. exact N2.
  Qed.
  Lemma nodup_app_inv {A} (l m : list A) : NoDup (l ++ m) -> NoDup l /\ NoDup m /\ forall x, In x l -> ~ In x m.
  Proof.
    induction l as [|a l IH]; cbn; intros H; [split; [constructor|]; auto|]. apply NoDup_cons_iff in H. destruct H as (H1 & H2). destruct (IH H2) as (I1 & I2 & I3).
    rewrite in_app_iff in H1. split; [constructor; tauto|]. split; auto. intros x [<-|Hx]; [tauto|auto].
  Qed.
  Lemma map_fst_combine {A B} (l : list A) (m : list B) : length l = length m -> map fst (combine l m) = l.
  Proof. revert m. induction l as [|a l IH]; intros [|b m]; cbn; intros H; try discriminate; auto. f_equal. apply IH. lia. Qed.
  Lemma combine_f2 {A B} (l : list A) (m : list B) : length l = length m -> Forall2 (fun a b => In (a, b) (combine l m)) l m.
  Proof.
    revert m. induction l as [|a l IH]; intros [|b m]; cbn; intros H; try discriminate; constructor; [now left|].
    specialize (IH m ltac:(lia)). revert IH. generalize (combine l m) at 1 2. intros c IH. induction IH; constructor; auto.
  Qed.
  Lemma f2_impl {A B} (P Q : A -> B -> Prop) l m : (forall a b, P a b -> Q a b) -> Forall2 P l m -> Forall2 Q l m.
  Proof. intros H F. induction F; constructor; auto. Qed.
  Lemma corners_incl db db' t P : incl (mb_vert db) (mb_vert db') -> m_corners db t P -> m_corners db' t P.
  Proof. intros I. apply f2_impl. intros a b. apply I. Qed.

  Lemma createTet_ok db hs0 P : tight db -> exists db' h t, createTet alloc (db, hs0) P = Some (db', hs0 ++ [h]) /\ tight db' /\ extends db db' /\
    mb_tet db' = mb_tet db ++ [(h, t)] /\ m_corners db' t P.
  Proof.
    intros ((V1 & V2 & V3) & TR & TT & DJ & LN & VU). unfold createTet. destruct (verts_ok (q4l P) (mb_vert db) [] V1) as (hs & E & L & ND). rewrite E. cbn [app].
    destruct (toQ4_ok hs L) as (t & E4 & Q4'). rewrite E4. cbn [obind]. set (h := alloc (map fst (mb_tet db))). destruct (nodup_app_inv _ _ ND) as (_ & N2 & N3).
    eexists _, h, t. split; [reflexivity|]. cbn [mb_vert mb_tri mb_tet]. split; [|split; [|split; [reflexivity|]]].
    - split; [|split; [exact TR|split; [|split; [|split]]]].
      + split; [|split]; cbn [mb_vert mb_tri mb_tet]; auto.
        * rewrite map_app, map_fst_combine by exact L. exact ND.
        * rewrite map_app. apply nodup_snoc; auto. apply AL.
      + cbn [mb_vert mb_tet]. rewrite map_app, map_fst_combine by exact L. intros k u Hu. apply in_app_or in Hu. destruct Hu as [Hu|[Hu|[]]].
        * destruct (TT _ _ Hu) as (T1 & T2). split; auto. intros v Hv. apply in_or_app. auto.
        * assert (u = t) by congruence. subst u. rewrite Q4'. split; auto. intros v Hv. apply in_or_app. auto.
      + cbn [mb_tet]. intros a ta b tb v Ha Hb Hva Hvb. apply in_app_or in Ha. apply in_app_or in Hb. destruct Ha as [Ha|[Ha|[]]], Hb as [Hb|[Hb|[]]].
        * eapply DJ; eauto.
        * exfalso. assert (tb = t) by congruence. subst tb. rewrite Q4' in Hvb. apply (N3 v); auto. destruct (TT _ _ Ha) as (_ & T2). auto.
        * exfalso. assert (ta = t) by congruence. subst ta. rewrite Q4' in Hva. apply (N3 v); auto. destruct (TT _ _ Hb) as (_ & T2). auto.
        * congruence.
      + cbn [mb_vert mb_tet]. rewrite !app_length, combine_length, L. cbn. lia.
      + cbn [mb_vert mb_tet]. rewrite map_app, map_fst_combine by exact L. intros v Hv. apply in_app_or in Hv. destruct Hv as [Hv|Hv].
        * destruct (VU v Hv) as (k & u & Hk & Hu). exists k, u. split; auto. apply in_or_app. auto.
        * exists h, t. rewrite Q4'. split; auto. apply in_or_app. right. now left.
    - split; cbn [mb_vert mb_tet]; intros x Hx; apply in_or_app; auto.
    - unfold m_corners. cbn [mb_vert]. rewrite Q4'. eapply f2_impl; [|apply combine_f2; exact L]. intros a b H. cbn. apply in_or_app. auto.
  Qed.
  Lemma extends_trans a b c : extends a b -> extends b c -> extends a c.
  Proof. intros (A1 & A2) (B1 & B2). split; eapply incl_tran; eauto. Qed.
  Definition is_tet (db : mdb) (P : q4 (q3 N)) (h : N) : Prop := exists t, In (h, t) (mb_tet db) /\ m_corners db t P.
  Lemma is_tet_ext db db' P h : extends db db' -> is_tet db P h -> is_tet db' P h.
  Proof. intros (E1 & E2) (t & Ht & M). exists t. split; auto. eapply corners_incl; eauto. Qed.
  (** A loop whose body creates one tetrahedron. *)
  Lemma loop_ok {X} (body : mdb * list N -> X -> option (mdb * list N)) (R : X -> q4 (q3 N) -> Prop) l :
    (forall x, In x l -> exists P, R x P /\ forall st, body st x = createTet alloc st P) ->
    forall db hs0, tight db -> exists db' hs, foldM body l (db, hs0) = Some (db', hs0 ++ hs) /\ tight db' /\ extends db db' /\
      map fst (mb_tet db') = map fst (mb_tet db) ++ hs /\ Forall2 (fun x h => exists P, R x P /\ is_tet db' P h) l hs.
  Proof.
    induction l as [|x l IH]; intros H db hs0 TI; cbn [foldM].
    - exists db, []. rewrite !app_nil_r. split; auto. split; auto. split; [split; apply incl_refl|auto].
    - destruct (H x (or_introl eq_refl)) as (P & RP & B). rewrite B. destruct (createTet_ok db hs0 P TI) as (db1 & h & t & E & TI1 & EX1 & TT1 & M1). rewrite E. cbn [obind].
      destruct (IH (fun y Hy => H y (or_intror Hy)) db1 (hs0 ++ [h]) TI1) as (db' & hs & E' & TI' & EX' & TT' & F').
      exists db', (h :: hs). split; [rewrite E', <- app_assoc; reflexivity|]. split; auto. split; [eapply extends_trans; eauto|].
      split; [rewrite TT', TT1, map_app, <- app_assoc; reflexivity|]. constructor; auto. exists P. split; auto. eapply is_tet_ext; [exact EX'|].
      exists t. split; auto. rewrite TT1. apply in_or_app. right. now left.
  Qed.
  Lemma tight_none : tight noMesh.
  Proof.
    split; [repeat split; constructor|]. split; auto. split; [intros h t []|]. split; [intros h t h' t' v []|]. split; [reflexivity|intros v []].
  Qed.
  Lemma f2_index {A} (Q : N -> A -> Prop) (R : A -> N -> Prop) (l : list A) hs :
    Forall2 (fun i h => exists a, nth_error l (N.to_nat i) = Some a /\ R a h) (map N.of_nat (seq 0 (length l))) hs -> Forall2 R l hs.
  Proof.
    assert (G : forall k l' hs, (forall i a, nth_error l' i = Some a -> nth_error l (k + i) = Some a) ->
      Forall2 (fun i h => exists a, nth_error l (N.to_nat i) = Some a /\ R a h) (map N.of_nat (seq k (length l'))) hs -> Forall2 R l' hs).
    { intros k l'. revert k. induction l' as [|a l' IH]; intros k hs' H F; cbn [length seq map] in F; inversion F as [|? h ? hs'' (a' & E & Ra) F']; subst; constructor.
      - rewrite Nat2N.id in E. pose proof (H 0%nat a eq_refl) as X. rewrite Nat.add_0_r in X. rewrite X in E. apply Some_inj in E. now subst.
      - apply (IH (S k)); auto. intros i b Hi. rewrite Nat.add_succ_comm. now apply H. }
    apply (G 0%nat). auto.
  Qed.

  Lemma serial_export sm : serial_mesh_ok sm -> exists db hs, serialToMoab alloc sm = Some (db, hs) /\ tight db /\ map fst (mb_tet db) = hs /\ exported (sm_corners sm) (sm_cells sm) db hs.
  Proof.
    intros OK. pose proof (smo_wf sm OK) as (W & _). unfold serialToMoab. rewrite W. unfold lenN. rewrite Nat2N.id.
    destruct (loop_ok (fun st cell => let* sc := nthN (sm_cells sm) cell in
      let* pts := mapM (fun n => option_map sn_coords (nthN (sm_nodes sm) n)) (q4l (sc_nodes sc)) in let* pts := toQ4 pts in createTet alloc st pts)
      (fun c P => exists sc, SM_cell sm c = Some sc /\ sm_corners sm sc P) (map N.of_nat (seq 0 (length (sm_cells sm))))) with (db := noMesh) (hs0 := @nil N) as (db & hs & E & TI & _ & TT & F).
    - intros c Hc. apply in_map_iff in Hc. destruct Hc as (i & <- & Hi). apply in_seq in Hi. destruct (nth_error (sm_cells sm) i) as [sc|] eqn:Ei; [|apply nth_error_None in Ei; lia].
      destruct (mapM_f2 (fun n => option_map sn_coords (nthN (sm_nodes sm) n)) (fun n p => SM_node sm n = Some (mkSnode p)) (q4l (sc_nodes sc))) as (pts & EP & FP).
      { intros n Hn. destruct (smo_cn sm OK (N.of_nat i) sc n) as (sn & Hsn); [unfold SM_cell; now rewrite Nat2N.id|exact Hn|]. exists (sn_coords sn). rewrite nthN_nth. unfold SM_node in *. rewrite Hsn. split; [reflexivity|]. now destruct sn. }
      destruct (toQ4_ok pts) as (P & E4 & Q4'); [apply mapM_length in EP; exact EP|].
      exists P. split; [exists sc; unfold SM_cell; rewrite Nat2N.id; split; auto; unfold sm_corners; rewrite Q4'; exact FP|].
      intros st. rewrite nthN_nth, Nat2N.id, Ei. cbn [obind]. rewrite EP. cbn [obind]. rewrite E4. reflexivity.
    - apply tight_none.
    - exists db, hs. split; [exact E|]. split; auto. split; [exact TT|]. apply (f2_index (fun _ _ => True)). eapply f2_impl; [|exact F].
      intros c h (P & (sc & Hsc & CP) & t & Ht & M). exists sc. split; auto. exists t, P. auto.
  Qed.

  Lemma partition_export pt db : tight db -> pt_numCells pt = lenN (pt_cells pt) ->
    (forall pc n, In pc (pt_cells pt) -> In n (q4l (pc_nodes pc)) -> exists pn, P_node pt n = Some pn) ->
    exists db' hs, partitionToMoab alloc pt db = Some (db', hs) /\ tight db' /\ extends db db' /\ map fst (mb_tet db') = map fst (mb_tet db) ++ hs /\
      exported (pt_corners pt) (pt_cells pt) db' hs.
  Proof.
    intros TI W NR. unfold partitionToMoab. rewrite W. unfold lenN. rewrite Nat2N.id.
    destruct (loop_ok (fun st cell => let* pc := nthN (pt_cells pt) cell in
      let* pts := mapM (fun n => option_map pn_coords (nthN (pt_nodes pt) n)) (q4l (pc_nodes pc)) in let* pts := toQ4 pts in createTet alloc st pts)
      (fun c P => exists pc, P_cell pt c = Some pc /\ pt_corners pt pc P) (map N.of_nat (seq 0 (length (pt_cells pt))))) with (db := db) (hs0 := @nil N) as (db' & hs & E & TI' & EX & TT & F).
    - intros c Hc. apply in_map_iff in Hc. destruct Hc as (i & <- & Hi). apply in_seq in Hi. destruct (nth_error (pt_cells pt) i) as [pc|] eqn:Ei; [|apply nth_error_None in Ei; lia].
      destruct (mapM_f2 (fun n => option_map pn_coords (nthN (pt_nodes pt) n)) (fun n p => option_map pn_coords (P_node pt n) = Some p) (q4l (pc_nodes pc))) as (pts & EP & FP).
      { intros n Hn. destruct (NR pc n) as (pn & Hpn); [eapply nth_error_In; eauto|exact Hn|]. exists (pn_coords pn). rewrite nthN_nth. unfold P_node in *. rewrite Hpn. split; reflexivity. }
      destruct (toQ4_ok pts) as (P & E4 & Q4'); [apply mapM_length in EP; exact EP|].
      exists P. split; [exists pc; unfold P_cell; rewrite Nat2N.id; split; auto; unfold pt_corners; rewrite Q4'; exact FP|].
      intros st. rewrite nthN_nth, Nat2N.id, Ei. cbn [obind]. rewrite EP. cbn [obind]. rewrite E4. reflexivity.
    - exact TI.
    - exists db', hs. split; [exact E|]. split; auto. split; [exact EX|]. split; [exact TT|]. apply (f2_index (fun _ _ => True)). eapply f2_impl; [|exact F].
      intros c h (P & (pc & Hpc & CP) & t & Ht & M). exists pc. split; auto. exists t, P. auto.
  Qed.
  Lemma exported_ext {C} (R : C -> q4 (q3 N) -> Prop) cells db db' hs : extends db db' -> exported R cells db hs -> exported R cells db' hs.
  Proof. intros (E1 & E2). apply f2_impl. intros c h (t & P & Ht & M & RC). exists t, P. split; auto. split; auto. eapply corners_incl; eauto. Qed.

  Lemma parts_export m prefix : (forall pt, In pt (pm_parts m) -> pt_numCells pt = lenN (pt_cells pt) /\
      forall pc n, In pc (pt_cells pt) -> In n (q4l (pc_nodes pc)) -> exists pn, P_node pt n = Some pn) ->
    forall l db files0, (forall k, In k l -> (N.to_nat k < length (pm_parts m))%nat) -> tight db ->
    exists db' files, foldM (fun st part =>
        let '(db, files) := (st : mdb * list (list N * list N)) in
        let* P := nthN (pm_parts m) part in
        let* r := partitionToMoab alloc P db in
        Some (fst r, files ++ [(partFile prefix part, snd r)])) l (db, files0) = Some (db', files0 ++ files) /\ tight db' /\ extends db db' /\
      map fst (mb_tet db') = map fst (mb_tet db) ++ concat (map snd files) /\
      Forall2 (fun k f => fst f = partFile prefix k /\ exists pt, PM_part m k = Some pt /\ exported (pt_corners pt) (pt_cells pt) db' (snd f)) l files.
  Proof.
    intros OK. induction l as [|k l IH]; intros db files0 KR TI; cbn [foldM].
    - exists db, []. cbn. rewrite !app_nil_r. split; auto. split; auto. split; [split; apply incl_refl|auto].
    - rewrite nthN_nth. destruct (nth_error (pm_parts m) (N.to_nat k)) as [pt|] eqn:E; [|apply nth_error_None in E; pose proof (KR k (or_introl eq_refl)); lia].
      destruct (OK pt (nth_error_In _ _ E)) as (O1 & O2). destruct (partition_export pt db TI O1 O2) as (db1 & hs & E1 & T1 & X1 & TT1 & F1).
      cbn [obind]. rewrite E1. cbn [obind fst snd].
      destruct (IH db1 (files0 ++ [(partFile prefix k, hs)]) (fun j Hj => KR j (or_intror Hj)) T1) as (db' & files & E' & T' & X' & TT' & F').
      exists db', ((partFile prefix k, hs) :: files). split; [rewrite E', <- app_assoc; reflexivity|]. split; auto. split; [eapply extends_trans; eauto|].
      split; [rewrite TT', TT1, <- app_assoc; reflexivity|]. constructor; auto. cbn [fst snd]. split; auto. exists pt. split; auto. eapply exported_ext; eauto.
  Qed.
  Lemma parallel_export m name prefix : parts_ok m -> getFilePrefix name = Some prefix ->
    exists db files, parallelToMoab alloc name m = Some (db, files, visitFile prefix (map fst files)) /\ tight db /\
      map fst (mb_tet db) = concat (map snd files) /\
      Forall2 (fun k f => fst f = partFile prefix k /\ exists pt, PM_part m k = Some pt /\ exported (pt_corners pt) (pt_cells pt) db (snd f))
        (map N.of_nat (seq 0 (length (pm_parts m)))) files.
  Proof.
    intros (W & OK) E. unfold parallelToMoab. rewrite E, W. cbn [obind]. unfold lenN. rewrite Nat2N.id.
    destruct (parts_export m prefix OK (map N.of_nat (seq 0 (length (pm_parts m)))) noMesh []) as (db & files & E' & T & _ & TT & F).
    - intros k Hk. apply in_map_iff in Hk. destruct Hk as (i & <- & Hi). apply in_seq in Hi. rewrite Nat2N.id. lia.
    - apply tight_none.
    - exists db, files. rewrite E'. split; [reflexivity|]. auto.
  Qed.
End Export.

(** ---- names ---- *)
Lemma stripSuffix_iff suffix name p : length suffix = 6%nat -> (stripSuffix suffix name = Some p <-> name = p ++ suffix).
Proof.
  intros L. unfold stripSuffix. destruct (Nat.ltb_spec (length name) 6).
  - split; [discriminate|]. intros ->. rewrite app_length in H. lia.
  - destruct (list_eq_dec N.eq_dec (skipn (length name - 6) name) suffix) as [E|E].
    + split; intros G.
      * apply Some_inj in G. subst p. rewrite <- E. now rewrite firstn_skipn.
      * subst name. rewrite app_length, L. replace (length p + 6 - 6)%nat with (length p) by lia. rewrite firstn_app, Nat.sub_diag, firstn_all. cbn. now rewrite app_nil_r.
    + split; [discriminate|]. intros ->. exfalso. apply E. rewrite app_length, L. replace (length p + 6 - 6)%nat with (length p) by lia.
      rewrite skipn_app, Nat.sub_diag, skipn_all. reflexivity.
Qed.
Definition dval (a : N) (d : list N) : N := fold_left (fun a c => 10 * a + (c - 48)) d a.
Lemma dval_acc d : forall p, dval (Npos p) (uintChars d) = Npos (Pos.of_uint_acc d p).
Proof.
  induction d as [|d IH|d IH|d IH|d IH|d IH|d IH|d IH|d IH|d IH|d IH]; intros p; cbn [uintChars Pos.of_uint_acc]; try reflexivity;
  (unfold dval in *; cbn [fold_left]; rewrite <- IH; f_equal; lia).
Qed.
Lemma dval_of d : dval 0 (uintChars d) = N.of_uint d.
Proof.
  unfold N.of_uint. induction d as [|d IH|d IH|d IH|d IH|d IH|d IH|d IH|d IH|d IH|d IH]; cbn [uintChars Pos.of_uint]; try reflexivity; auto; unfold dval; cbn [fold_left];
  (rewrite <- dval_acc; reflexivity).
Qed.
Lemma uint_digits d : Forall (fun c => 48 <= c <= 57) (uintChars d).
Proof. induction d; cbn [uintChars]; constructor; auto; lia. Qed.
Lemma toString_decimal n : is_decimal (toString n) n.
Proof.
  unfold toString. assert (EN : N.of_uint (N.to_uint n) = n) by apply DecimalN.Unsigned.of_to.
  assert (UN : Decimal.unorm (N.to_uint n) = N.to_uint n) by (rewrite <- DecimalN.Unsigned.to_of, EN; reflexivity).
  split; [|split; [|split]].
  - intros E. assert (Z : N.to_uint n = Decimal.Nil) by (destruct (N.to_uint n); cbn in E; try discriminate; reflexivity).
    rewrite Z in UN. discriminate.
  - apply uint_digits.
  - change (dval 0 (uintChars (N.to_uint n)) = n). now rewrite dval_of.
  - intros NZ H. destruct (N.to_uint n) as [|d|d|d|d|d|d|d|d|d|d] eqn:E; cbn [uintChars hd] in H; try discriminate.
    apply NZ. rewrite <- EN. rewrite <- UN. clear - UN.
    assert (G : forall d x, Decimal.unorm d <> Decimal.D0 x \/ (x = Decimal.Nil)).
    { intros d0. unfold Decimal.unorm. induction d0; intros x; cbn; try (left; discriminate); auto.
      destruct x; [right; reflexivity|left; discriminate..]. }
    destruct (G (Decimal.D0 d) d) as [G1|G1]; [congruence|]. subst d. reflexivity.
Qed.
Lemma decimal_inj d n m : is_decimal d n -> is_decimal d m -> n = m.
Proof. intros (_ & _ & E & _) (_ & _ & E' & _). congruence. Qed.
Lemma partFile_inj prefix a b : partFile prefix a = partFile prefix b -> a = b.
Proof.
  unfold partFile. intros H. apply app_inv_head in H. apply app_inv_head in H. apply app_inv_tail in H.
  apply (decimal_inj (toString a)); [apply toString_decimal|rewrite H; apply toString_decimal].
Qed.
Lemma last_app {A} (l m : list A) d : m <> [] -> last (l ++ m) d = last m d.
Proof. intros H. induction l as [|a l IH]; auto. cbn [app]. rewrite <- IH. destruct (l ++ m) eqn:E; auto. apply app_eq_nil in E. destruct E. now subst. Qed.
Lemma partFile_other prefix a p' : partFile prefix a <> p' ++ str ".pmesh".
Proof.
  unfold partFile. intros H. assert (L : last (prefix ++ str "-" ++ toString a ++ str "p.vtk") 0 = last (p' ++ str ".pmesh") 0) by now rewrite H.
  rewrite !last_app in L by (try discriminate; intros E; apply app_eq_nil in E; destruct E; discriminate). vm_compute in L. discriminate.
Qed.

(** ---- reading the exported mesh back ---- *)
Section Back.
  Context (sm : smesh) (OK : serial_mesh_ok sm) (db : mdb) (hs : list N).
  Context (TI : tight db) (TT : map fst (mb_tet db) = hs) (EX : exported (sm_corners sm) (sm_cells sm) db hs).
  Lemma f2_in_r {A B} (R : A -> B -> Prop) l m y : Forall2 R l m -> In y m -> exists x, In x l /\ R x y.
  Proof. intros F. induction F as [|a b l m H F IH]; [intros []|intros [E|E]]; subst; [exists a; cbn; auto|]. destruct (IH E) as (x & Hx & Hr). exists x. cbn. auto. Qed.
  Lemma f2_in_l {A B} (R : A -> B -> Prop) l m x : Forall2 R l m -> In x l -> exists y, In y m /\ R x y.
  Proof. intros F. induction F as [|a b l m H F IH]; [intros []|intros [E|E]]; subst; [exists b; cbn; auto|]. destruct (IH E) as (y & Hx & Hr). exists y. cbn. auto. Qed.
  Lemma back_count : lenN (mb_tet db) = lenN (sm_cells sm).
  Proof. unfold lenN. rewrite <- (map_length fst), TT. f_equal. symmetry. clear - EX. unfold exported in EX. induction EX; cbn; auto. Qed.
  Lemma back_ok : 4 * lenN (sm_cells sm) < 2^31 -> moab_ok db.
  Proof.
    intros SM. destruct TI as ((V1 & V2 & V3) & TR & TC & DJ & LN & VU). pose proof (smo_wf sm OK) as (_ & _ & _ & _ & _ & _ & _ & _ & WN).
    assert (C : lenN (mb_tet db) = lenN (sm_cells sm)) by apply back_count.
    constructor; auto.
    - intros v p x Hv Hx. destruct (VU v (in_map fst _ _ Hv)) as (h & t & Ht & Hvt).
      destruct (f2_in_r _ _ _ h EX) as (sc & _ & t' & P & Ht' & M & CP); [rewrite <- TT; exact (in_map fst _ _ Ht)|].
      pose proof (key_inj _ _ _ _ V3 Ht Ht') as <-. destruct (f2_in_l _ _ _ v M Hvt) as (p' & Hp' & Hv').
      pose proof (key_inj _ _ _ _ V1 Hv Hv') as <-. destruct (f2_in_r _ _ _ p CP Hp') as (n & _ & Hn).
      apply nth_error_In in Hn. rewrite Forall_forall in WN. specialize (WN _ Hn). rewrite Forall_forall in WN. apply WN. destruct p. exact Hx.
    - intros h t Ht. destruct (TC h t Ht) as (N1 & N2). split; auto. intros v Hv. specialize (N2 v Hv). apply in_map_iff in N2. destruct N2 as ((v' & p) & <- & Hp). now exists p.
    - rewrite TR. intros h s [].
    - rewrite TR. intros h s h' s' [].
    - intros s h1 t1 h2 t2 h3 t3 _ H1 H2 H3 S1 S2 _. left. apply (DJ h1 t1 h2 t2 (t0 s)); auto; [apply S1|apply S2]; cbn; auto.
    - unfold lenN in *. rewrite TR. change (length []) with 0%nat. split; lia.
  Qed.
  Lemma back_boundary rm f sf : imported db rm -> SM_face rm f = Some sf -> p0 (sf_cells sf) <> p1 (sf_cells sf) -> p1 (sf_cells sf) = INVALID.
  Proof.
    intros IM Hf NE. destruct TI as (_ & _ & _ & DJ & _). destruct (im_face _ _ IM f sf Hf) as (h & t & s & Ht & Hs & _ & NI & CC).
    destruct (N.eq_dec (p1 (sf_cells sf)) INVALID) as [E|E]; auto. exfalso. apply NE.
    destruct (proj1 (CC _ NI)) as (a & ta & Ha & Sa & ->); [cbn; auto|]. destruct (proj1 (CC _ E)) as (b & tb & Hb & Sb & ->); [cbn; auto|].
    f_equal. apply (DJ a ta b tb (t0 s)); auto; [apply Sa|apply Sb]; cbn; auto.
  Qed.
End Back.
