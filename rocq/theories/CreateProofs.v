(** Proofs for createFromSerialMesh. *)
From Coq Require Import Sorted Permutation.
From Verif Require Import Prelude Bytes PsiFileModel MeshModel MeshSpec MeshProofs CreateModel CreateSpec.
Local Open Scope N_scope.

Lemma nthN_nth {A} (l : list A) i : nthN l i = nth_error l (N.to_nat i).
Proof.
  unfold nthN. destruct (N.ltb_spec i (N.of_nat (length l))); auto.
  symmetry. apply nth_error_None. lia.
Qed.

(** ---- ordered sets ---- *)
Definition is_set (s : list N) (P : N -> Prop) : Prop := StronglySorted N.lt s /\ forall x, In x s <-> P x.

Lemma insertN_in x s y : In y (insertN x s) <-> y = x \/ In y s.
Proof.
  induction s as [|a s IH]; cbn [insertN]. { cbn. intuition. }
  destruct (N.ltb_spec x a); [cbn; intuition|].
  destruct (N.eqb_spec x a); [subst; cbn; intuition|]. cbn [In]. rewrite IH. intuition.
Qed.
Lemma insertN_sorted x s : StronglySorted N.lt s -> StronglySorted N.lt (insertN x s).
Proof.
  induction s as [|a s IH]; cbn [insertN]; intros H. { repeat constructor. }
  inversion H as [|? ? H1 H2]; subst.
  destruct (N.ltb_spec x a).
  - constructor; auto. constructor; auto. eapply Forall_impl; [|exact H2]. cbn; intros; lia.
  - destruct (N.eqb_spec x a); auto. constructor; auto.
    apply Forall_forall. intros y Hy. apply insertN_in in Hy as [->|Hy]; [lia|].
    rewrite Forall_forall in H2. auto.
Qed.
Lemma insertN_set x s P : is_set s P -> is_set (insertN x s) (fun y => y = x \/ P y).
Proof.
  intros (H1 & H2). split; [now apply insertN_sorted|]. intros y. rewrite insertN_in, H2. reflexivity.
Qed.
Lemma fold_insert_set (f : N -> N) l s P : is_set s P ->
  is_set (fold_left (fun s x => insertN (f x) s) l s) (fun y => P y \/ In y (map f l)).
Proof.
  revert s P; induction l as [|a l IH]; intros s P H; cbn [fold_left map].
  - destruct H as (H1 & H2). split; auto. intros x. rewrite H2. cbn. intuition.
  - destruct (IH _ _ (insertN_set (f a) s P H)) as (H1 & H2). split; auto.
    intros x. rewrite H2. cbn [In]. intuition.
Qed.
Lemma is_set_ext s P Q : (forall x, P x <-> Q x) -> is_set s P -> is_set s Q.
Proof. intros E (H1 & H2). split; auto. intros x. now rewrite H2. Qed.

Lemma sorted_nodup s : StronglySorted N.lt s -> NoDup s.
Proof.
  induction 1 as [|a s H1 IH H2]; constructor; auto.
  rewrite Forall_forall in H2. intros C. specialize (H2 a C). lia.
Qed.

(** ---- find ---- *)
Lemma findN_gp_gen x s k : In x s -> exists i, findN x (combine s (map N.of_nat (seq k (length s)))) = Some (N.of_nat (k + i)) /\
  nth_error s i = Some x.
Proof.
  revert k; induction s as [|a s IH]; intros k H; cbn; [destruct H|].
  destruct (N.eqb_spec x a) as [->|NE].
  - exists 0%nat. rewrite Nat.add_0_r. auto.
  - destruct H as [->|H]; [congruence|]. destruct (IH (S k) H) as (i & E1 & E2).
    exists (S i). rewrite E1. split; auto. f_equal. lia.
Qed.
Lemma findN_gp x s : In x s -> exists i, findN x (gpMap s) = Some i /\ nthN s i = Some x.
Proof.
  intros H. destruct (findN_gp_gen x s 0 H) as (i & E1 & E2). exists (N.of_nat i). unfold gpMap.
  rewrite E1, nthN_nth. now rewrite Nat2N.id.
Qed.
Lemma findN_gp_none_gen x s k : ~ In x s -> findN x (combine s (map N.of_nat (seq k (length s)))) = None.
Proof.
  revert k; induction s as [|a s IH]; intros k H; cbn; auto.
  destruct (N.eqb_spec x a) as [->|NE]; [exfalso; apply H; now left|]. apply IH. intros C; apply H; now right.
Qed.

Lemma viaInt_small x : x < 2^31 -> viaInt x = x.
Proof. intros H. change (2^31) with 2147483648 in H. unfold viaInt. rewrite to_i32_small by auto. now apply i32_to_u64_pos. Qed.

(** ---- updN ---- *)
Lemma updN_ok {A} (l : list A) i f a : nthN l i = Some a ->
  exists l', updN l i f = Some l' /\ length l' = length l /\
    forall j, nthN l' j = if j =? i then Some (f a) else nthN l j.
Proof.
  intros H. unfold updN. rewrite H. cbn [obind]. eexists. split; [reflexivity|].
  rewrite nthN_nth in H. assert (L : (N.to_nat i < length l)%nat) by (apply nth_error_Some; congruence).
  assert (F : length (firstn (N.to_nat i) l) = N.to_nat i) by (rewrite firstn_length; lia).
  split. { rewrite app_length, F. cbn [length]. rewrite skipn_length. lia. }
  intros j. rewrite !nthN_nth. destruct (N.eqb_spec j i) as [->|NE].
  - rewrite nth_error_app2 by lia. now rewrite F, Nat.sub_diag.
  - destruct (Nat.lt_ge_cases (N.to_nat j) (N.to_nat i)).
    + rewrite nth_error_app1 by lia. now rewrite nth_error_firstn_lt by lia.
    + rewrite nth_error_app2 by lia. rewrite F.
      replace (N.to_nat j - N.to_nat i)%nat with (S (N.to_nat j - S (N.to_nat i))) by lia. cbn [nth_error].
      rewrite nth_error_skipn_add. f_equal. lia.
Qed.

(** ---- the sets of each partition ---- *)
Section Create.
  Variables (sm : smesh) (pv : list N) (np : nat).
  Hypothesis OK : serial_mesh_ok sm.
  Hypothesis PV : partition_vector_ok sm pv np.

  Definition cell_in (l : list N) (p g : N) : Prop := In g l /\ owner pv g = Some p.
  Definition face_in (l : list N) (p f : N) : Prop :=
    exists c sc, In c l /\ owner pv c = Some p /\ SM_cell sm c = Some sc /\ In f (q4l (sc_faces sc)).
  Definition node_in (l : list N) (p n : N) : Prop :=
    exists c sc, In c l /\ owner pv c = Some p /\ SM_cell sm c = Some sc /\ In n (q4l (sc_nodes sc)).
  Definition sets_inv (l : list N) (sets : list psets) : Prop :=
    length sets = np /\ forall p s, nthN sets p = Some s ->
      is_set (ps_cells s) (cell_in l p) /\ is_set (ps_faces s) (face_in l p) /\ is_set (ps_nodes s) (node_in l p).

  Lemma SM_face_lt f sf : SM_face sm f = Some sf -> f < 2^31.
  Proof using OK.
    intros H. pose proof (smo_faces sm OK) as B. unfold SM_face in H.
    assert (N.to_nat f < length (sm_faces sm))%nat by (apply nth_error_Some; congruence). unfold lenN in B. lia.
  Qed.
  Lemma SM_node_lt n sn : SM_node sm n = Some sn -> n < 2^31.
  Proof using OK.
    intros H. pose proof (smo_nodes sm OK) as B. unfold SM_node in H.
    assert (N.to_nat n < length (sm_nodes sm))%nat by (apply nth_error_Some; congruence). unfold lenN in B. lia.
  Qed.
  Lemma map_viaInt_faces c sc : SM_cell sm c = Some sc -> map viaInt (q4l (sc_faces sc)) = q4l (sc_faces sc).
  Proof using OK.
    intros H. rewrite <- (map_id (q4l (sc_faces sc))) at 2. apply map_ext_in. intros f Hf.
    apply viaInt_small. destruct (smo_cf sm OK c sc f H Hf) as (sf & E & _). eapply SM_face_lt; eauto.
  Qed.
  Lemma map_viaInt_nodes c sc : SM_cell sm c = Some sc -> map viaInt (q4l (sc_nodes sc)) = q4l (sc_nodes sc).
  Proof using OK.
    intros H. rewrite <- (map_id (q4l (sc_nodes sc))) at 2. apply map_ext_in. intros f Hf.
    apply viaInt_small. destruct (smo_cn sm OK c sc f H Hf) as (sf & E). eapply SM_node_lt; eauto.
  Qed.

  Lemma addCell_inv c sc p q s l : SM_cell sm c = Some sc -> owner pv c = Some p ->
    is_set (ps_cells s) (cell_in l q) -> is_set (ps_faces s) (face_in l q) -> is_set (ps_nodes s) (node_in l q) ->
    let s' := if q =? p then addCell c sc s else s in
    is_set (ps_cells s') (cell_in (l ++ [c]) q) /\ is_set (ps_faces s') (face_in (l ++ [c]) q) /\
    is_set (ps_nodes s') (node_in (l ++ [c]) q).
  Proof using OK.
    intros Hc Hp S1 S2 S3. destruct (N.eqb_spec q p) as [->|NE]; cbn zeta.
    - unfold addCell; cbn [ps_cells ps_faces ps_nodes]. split; [|split].
      + eapply is_set_ext; [|exact (insertN_set c _ _ S1)]. intros x. unfold cell_in. cbn beta. rewrite in_app_iff. cbn [In].
        split; [intros [->|[? ?]]; auto|intros [[?|[<-|[]]] ?]; auto].
      + eapply is_set_ext; [|exact (fold_insert_set viaInt _ _ _ S2)]. intros x. cbn beta.
        rewrite (map_viaInt_faces c) by auto. unfold face_in. split.
        * intros [(c' & sc' & A & B)|A]; [exists c', sc'|exists c, sc]; rewrite in_app_iff; cbn [In]; tauto.
        * intros (c' & sc' & A & B & D & E). rewrite in_app_iff in A. cbn [In] in A.
          destruct A as [A|[<-|[]]]; [left; exists c', sc'; auto|right]. congruence.
      + eapply is_set_ext; [|exact (fold_insert_set viaInt _ _ _ S3)]. intros x. cbn beta.
        rewrite (map_viaInt_nodes c) by auto. unfold node_in. split.
        * intros [(c' & sc' & A & B)|A]; [exists c', sc'|exists c, sc]; rewrite in_app_iff; cbn [In]; tauto.
        * intros (c' & sc' & A & B & D & E). rewrite in_app_iff in A. cbn [In] in A.
          destruct A as [A|[<-|[]]]; [left; exists c', sc'; auto|right]. congruence.
    - split; [|split].
      + eapply is_set_ext; [|exact S1]. intros x. unfold cell_in. rewrite in_app_iff. cbn [In].
        split; [tauto|]. intros [[?|[<-|[]]] ?]; auto. congruence.
      + eapply is_set_ext; [|exact S2]. intros x. unfold face_in. split.
        * intros (c' & sc' & A & B). exists c', sc'. rewrite in_app_iff. tauto.
        * intros (c' & sc' & A & B). rewrite in_app_iff in A. cbn [In] in A. exists c', sc'.
          destruct A as [A|[<-|[]]]; auto. destruct B. congruence.
      + eapply is_set_ext; [|exact S3]. intros x. unfold node_in. split.
        * intros (c' & sc' & A & B). exists c', sc'. rewrite in_app_iff. tauto.
        * intros (c' & sc' & A & B). rewrite in_app_iff in A. cbn [In] in A. exists c', sc'.
          destruct A as [A|[<-|[]]]; auto. destruct B. congruence.
  Qed.

  Lemma owner_lt c p : owner pv c = Some p -> p < N.of_nat np.
  Proof using PV.
    intros H. destruct PV as (_ & F & _). rewrite Forall_forall in F. apply F. eapply nth_error_In; eauto.
  Qed.
  Lemma owner_some c sc : SM_cell sm c = Some sc -> exists p, owner pv c = Some p.
  Proof using PV.
    intros H. destruct PV as (L & _). unfold SM_cell in H. unfold owner.
    destruct (nth_error pv (N.to_nat c)) eqn:E; eauto. apply nth_error_None in E.
    assert (N.to_nat c < length (sm_cells sm))%nat by (apply nth_error_Some; congruence). lia.
  Qed.

  Lemma sortIntoSets_inv cells l acc : sets_inv l acc -> (forall c, In c cells -> exists sc, SM_cell sm c = Some sc) ->
    exists acc', sortIntoSets sm pv cells acc = Some acc' /\ sets_inv (l ++ cells) acc'.
  Proof using OK PV.
    revert l acc; induction cells as [|c cells IH]; intros l acc I H; cbn [sortIntoSets].
    - exists acc. rewrite app_nil_r. auto.
    - destruct (H c (or_introl eq_refl)) as (sc & Hc). destruct (owner_some c sc Hc) as (p & Hp).
      pose proof (owner_lt _ _ Hp) as Lp. unfold owner in Hp. rewrite <- nthN_nth in Hp. rewrite Hp. cbn [obind].
      unfold SM_cell in Hc. rewrite <- nthN_nth in Hc. rewrite Hc. cbn [obind].
      destruct I as (L & I). assert (HS : exists s, nthN acc p = Some s).
      { rewrite nthN_nth. destruct (nth_error acc (N.to_nat p)) eqn:E; eauto. apply nth_error_None in E. lia. }
      destruct HS as (s & Hs). destruct (updN_ok acc p (addCell c sc) s Hs) as (acc' & E1 & L1 & N1).
      rewrite E1. cbn [obind].
      destruct (IH (l ++ [c]) acc') as (acc2 & E2 & I2).
      + split; [congruence|]. intros q s' Hq. rewrite N1 in Hq.
        assert (HQ : exists s0, nthN acc q = Some s0 /\ s' = if q =? p then addCell c sc s0 else s0).
        { destruct (N.eqb_spec q p); [subst q; exists s; split; congruence|exists s'; auto]. }
        destruct HQ as (s0 & Hq0 & ->). destruct (I q s0 Hq0) as (S1 & S2 & S3).
        apply (addCell_inv c sc p q s0 l); auto; unfold SM_cell, owner; now rewrite <- nthN_nth.
      + intros c' Hc'. apply H. now right.
      + exists acc2. rewrite <- app_assoc in I2. auto.
  Qed.

  Definition allCells : list N := map N.of_nat (seq 0 (length (sm_cells sm))).
  Lemma in_allCells c : In c allCells <-> exists sc, SM_cell sm c = Some sc.
  Proof.
    unfold allCells, SM_cell. rewrite in_map_iff. split.
    - intros (i & <- & Hi). apply in_seq in Hi. rewrite Nat2N.id.
      destruct (nth_error (sm_cells sm) i) eqn:E; eauto. apply nth_error_None in E. lia.
    - intros (sc & H). exists (N.to_nat c). rewrite N2Nat.id. split; auto. apply in_seq.
      assert (N.to_nat c < length (sm_cells sm))%nat by (apply nth_error_Some; congruence). lia.
  Qed.
  Lemma sets_exist : exists sets, sortIntoSets sm pv allCells (repeat (mkPsets [] [] []) np) = Some sets /\
    sets_inv allCells sets.
  Proof using OK PV.
    apply (sortIntoSets_inv allCells []).
    - split; [now rewrite repeat_length|]. intros p s H. rewrite nthN_nth in H.
      apply nth_error_In, repeat_spec in H. subst s. cbn.
      assert (E : forall P : N -> Prop, (forall x, ~ P x) -> is_set [] P).
      { intros P HP. split; [constructor|]. intros x; cbn. specialize (HP x). tauto. }
      split; [apply E; intros x (A & _); destruct A|split; apply E; intros x (c & sc & A & _); destruct A].
    - intros c Hc. now apply in_allCells.
  Qed.

  (** ---- the partitions ---- *)
  Section Parts.
    Variable sets : list psets.
    Hypothesis SI : sets_inv allCells sets.

    Lemma set_of p : p < N.of_nat np -> exists s, nthN sets p = Some s.
    Proof using SI.
      intros H. destruct SI as (L & _). rewrite nthN_nth. destruct (nth_error sets (N.to_nat p)) eqn:E; eauto.
      apply nth_error_None in E. lia.
    Qed.

    Lemma createCell_ok p s g : nthN sets p = Some s -> In g (ps_cells s) ->
      exists sc f0 f1 f2 f3 n0 n1 n2 n3, SM_cell sm g = Some sc /\
        createCell sm s g = Some (mkPcell (Q4 f0 f1 f2 f3) (Q4 n0 n1 n2 n3) g (sc_mat sc)) /\
        map (nthN (ps_faces s)) [f0; f1; f2; f3] = map Some (q4l (sc_faces sc)) /\
        map (nthN (ps_nodes s)) [n0; n1; n2; n3] = map Some (q4l (sc_nodes sc)).
    Proof using SI.
      intros Hs Hg. destruct SI as (_ & I). destruct (I p s Hs) as ((_ & S1) & (_ & S2) & (_ & S3)).
      apply S1 in Hg as (Hg & Hp). apply in_allCells in Hg as (sc & Hc).
      assert (F : forall f, In f (q4l (sc_faces sc)) -> exists i, findN f (gpMap (ps_faces s)) = Some i /\ nthN (ps_faces s) i = Some f).
      { intros f Hf. apply findN_gp. apply S2. exists g, sc. repeat split; auto. apply in_allCells; eauto. }
      assert (G : forall f, In f (q4l (sc_nodes sc)) -> exists i, findN f (gpMap (ps_nodes s)) = Some i /\ nthN (ps_nodes s) i = Some f).
      { intros f Hf. apply findN_gp. apply S3. exists g, sc. repeat split; auto. apply in_allCells; eauto. }
      destruct (F (r0 (sc_faces sc))) as (f0 & A0 & B0); [cbn; auto|].
      destruct (F (r1 (sc_faces sc))) as (f1 & A1 & B1); [cbn; auto|].
      destruct (F (r2 (sc_faces sc))) as (f2 & A2 & B2); [cbn; auto|].
      destruct (F (r3 (sc_faces sc))) as (f3 & A3 & B3); [cbn; auto|].
      destruct (G (r0 (sc_nodes sc))) as (n0 & C0 & D0); [cbn; auto|].
      destruct (G (r1 (sc_nodes sc))) as (n1 & C1 & D1); [cbn; auto|].
      destruct (G (r2 (sc_nodes sc))) as (n2 & C2 & D2); [cbn; auto|].
      destruct (G (r3 (sc_nodes sc))) as (n3 & C3 & D3); [cbn; auto|].
      exists sc, f0, f1, f2, f3, n0, n1, n2, n3. split; [exact Hc|]. split.
      - unfold createCell. unfold SM_cell in Hc. rewrite <- nthN_nth in Hc. rewrite Hc. cbn [obind].
        rewrite A0, A1, A2, A3, C0, C1, C2, C3. reflexivity.
      - cbn [map q4l]. rewrite B0, B1, B2, B3, D0, D1, D2, D3. auto.
    Qed.

    (** One side of a face. *)
    Definition side_spec (g c q : N) : Prop :=
      (g = INVALID /\ c = INVALID /\ q = INVALID) \/
      (g <> INVALID /\ owner pv g = Some q /\ exists s, nthN sets q = Some s /\ nthN (ps_cells s) c = Some g).
    Definition side_bdry (p b g q : N) : N :=
      if g =? INVALID then MeshBoundary else if q =? p then b else PartitionBoundary.

    Lemma createFaceSide_ok p s b g : nthN sets p = Some s -> (g <> INVALID -> exists sc, SM_cell sm g = Some sc) ->
      exists c q, createFaceSide pv sets p s b g = Some (c, q, side_bdry p b g q) /\ side_spec g c q.
    Proof using SI PV.
      intros Hs Hg. unfold createFaceSide, side_spec, side_bdry.
      destruct (N.eqb_spec g INVALID) as [->|NE]. { exists INVALID, INVALID. auto. }
      destruct (Hg NE) as (sc & Hc). destruct (owner_some g sc Hc) as (q & Hq).
      pose proof (owner_lt _ _ Hq) as Lq. pose proof Hq as Hq'. unfold owner in Hq. rewrite <- nthN_nth in Hq. rewrite Hq. cbn [obind].
      assert (V : viaInt q = q). { apply viaInt_small. destruct PV as (_ & _ & B). lia. }
      assert (K : forall s', nthN sets q = Some s' -> exists c, findN g (gpMap (ps_cells s')) = Some c /\ nthN (ps_cells s') c = Some g).
      { intros s' Hs'. apply findN_gp. destruct SI as (_ & I). destruct (I q s' Hs') as ((_ & S1) & _). apply S1.
        split; auto. apply in_allCells; eauto. }
      destruct (N.eqb_spec q p) as [->|NP]; cbn [negb].
      - destruct (K s Hs) as (c & E1 & E2). rewrite E1. cbn [obind]. exists c, p. rewrite N.eqb_refl.
        split; [reflexivity|]. right. repeat split; auto. eauto.
      - rewrite V. destruct (set_of q Lq) as (s2 & Hs2). rewrite Hs2. cbn [obind].
        destruct (K s2 Hs2) as (c & E1 & E2). rewrite E1. cbn [obind]. exists c, q.
        destruct (N.eqb_spec q p); [congruence|]. split; [reflexivity|]. right. repeat split; auto. eauto.
    Qed.

    Lemma createFace_ok p s f : nthN sets p = Some s -> In f (ps_faces s) ->
      exists sf c0 c1 q0 q1 n0 n1 n2, SM_face sm f = Some sf /\
        createFace sm pv sets p s f = Some (mkPface (Q2 c0 c1) (Q3 n0 n1 n2) f (Q2 q0 q1)
          (side_bdry p (side_bdry p NotBoundary (p0 (sf_cells sf)) q0) (p1 (sf_cells sf)) q1)) /\
        side_spec (p0 (sf_cells sf)) c0 q0 /\ side_spec (p1 (sf_cells sf)) c1 q1 /\
        map (nthN (ps_nodes s)) [n0; n1; n2] = map Some (q3l (sf_nodes sf)).
    Proof using SI OK PV.
      intros Hs Hf. pose proof SI as (_ & I). destruct (I p s Hs) as (_ & (_ & S2) & (_ & S3)).
      apply S2 in Hf as (c & sc & Hc & Hp & Hsc & Hf).
      destruct (smo_cf sm OK c sc f Hsc Hf) as (sf & Hsf & Hin & Hn).
      assert (R : forall g, In g (q2l (sf_cells sf)) -> g <> INVALID -> exists sc, SM_cell sm g = Some sc).
      { intros g Hg NE. destruct (smo_fc sm OK f sf g Hsf Hg NE) as (sc' & ? & _). eauto. }
      destruct (createFaceSide_ok p s NotBoundary (p0 (sf_cells sf)) Hs) as (c0 & q0 & E0 & P0).
      { apply R. cbn; auto. }
      destruct (createFaceSide_ok p s (side_bdry p NotBoundary (p0 (sf_cells sf)) q0) (p1 (sf_cells sf)) Hs) as (c1 & q1 & E1 & P1).
      { apply R. cbn; auto. }
      assert (G : forall n, In n (q3l (sf_nodes sf)) -> exists i, findN n (gpMap (ps_nodes s)) = Some i /\ nthN (ps_nodes s) i = Some n).
      { intros n Hnn. apply findN_gp. apply S3. exists c, sc. repeat split; auto. }
      destruct (G (t0 (sf_nodes sf))) as (n0 & C0 & D0); [cbn; auto|].
      destruct (G (t1 (sf_nodes sf))) as (n1 & C1 & D1); [cbn; auto|].
      destruct (G (t2 (sf_nodes sf))) as (n2 & C2 & D2); [cbn; auto|].
      exists sf, c0, c1, q0, q1, n0, n1, n2. split; [exact Hsf|]. split.
      - unfold createFace. unfold SM_face in Hsf. rewrite <- nthN_nth in Hsf. rewrite Hsf. cbn [obind].
        rewrite E0. cbn [obind]. rewrite E1. cbn [obind]. rewrite C0, C1, C2. reflexivity.
      - split; auto. split; auto. cbn [map q3l]. rewrite D0, D1, D2. auto.
    Qed.

    Lemma createNode_ok p s n : nthN sets p = Some s -> In n (ps_nodes s) ->
      exists sn, SM_node sm n = Some sn /\ createNode sm n = Some (mkPnode (sn_coords sn) n).
    Proof using SI OK.
      intros Hs Hn. pose proof SI as (_ & I). destruct (I p s Hs) as (_ & _ & (_ & S3)).
      apply S3 in Hn as (c & sc & Hc & Hp & Hsc & Hn).
      destruct (smo_cn sm OK c sc n Hsc Hn) as (sn & E). exists sn. split; auto.
      unfold createNode. unfold SM_node in E. rewrite nthN_nth, E. reflexivity.
    Qed.

    (** What is proved about one partition [P] = partition [p]. *)
    Record part_ok (p : N) (P : partition) : Prop := {
      po_nc : pt_numCells P = lenN (pt_cells P);
      po_nf : pt_numFaces P = lenN (pt_faces P);
      po_nn : pt_numNodes P = lenN (pt_nodes P);
      po_cells : is_set (map pc_gid (pt_cells P)) (cell_in allCells p);
      po_faces : is_set (map pf_gid (pt_faces P)) (face_in allCells p);
      po_nodes : is_set (map pn_gid (pt_nodes P)) (node_in allCells p);
      po_cell : forall c, In c (pt_cells P) -> exists sc, SM_cell sm (pc_gid c) = Some sc /\
        pc_mat c = sc_mat sc /\
        map (faceGid P) (q4l (pc_faces c)) = map Some (q4l (sc_faces sc)) /\
        map (nodeGid P) (q4l (pc_nodes c)) = map Some (q4l (sc_nodes sc));
      po_face : forall f, In f (pt_faces P) -> exists sf, SM_face sm (pf_gid f) = Some sf /\
        side_spec (p0 (sf_cells sf)) (p0 (pf_cells f)) (p0 (pf_part f)) /\
        side_spec (p1 (sf_cells sf)) (p1 (pf_cells f)) (p1 (pf_part f)) /\
        pf_bdry f = side_bdry p (side_bdry p NotBoundary (p0 (sf_cells sf)) (p0 (pf_part f))) (p1 (sf_cells sf)) (p1 (pf_part f)) /\
        map (nodeGid P) (q3l (pf_nodes f)) = map Some (q3l (sf_nodes sf));
      po_node : forall n, In n (pt_nodes P) -> exists sn, SM_node sm (pn_gid n) = Some sn /\ pn_coords n = sn_coords sn
    }.

    Lemma mapM_total {A B} (f : A -> option B) l : (forall a, In a l -> exists b, f a = Some b) ->
      exists r, mapM f l = Some r.
    Proof.
      induction l as [|a l IH]; intros H; cbn; [eauto|].
      destruct (H a (or_introl eq_refl)) as (b & ->). destruct IH as (r & ->); [intros; apply H; now right|]. eauto.
    Qed.
    Lemma mapM_gids {A} (gid : A -> N) f l r : mapM f l = Some r ->
      (forall x a, In x l -> f x = Some a -> gid a = x) -> map gid r = l.
    Proof.
      revert r; induction l as [|x l IH]; cbn; intros r H K; [inversion H; auto|].
      destruct (f x) eqn:E; [|discriminate]. destruct (mapM f l) eqn:E2; [|discriminate].
      inversion H; subst. cbn. f_equal; auto.
    Qed.
    Lemma nth_gid {A} (gid : A -> N) r l i : map gid r = l -> option_map gid (nth_error r (N.to_nat i)) = nthN l i.
    Proof. intros <-. rewrite nthN_nth. now rewrite nth_error_map. Qed.

    Lemma createPartition_ok p : p < N.of_nat np ->
      exists P s, createPartition sm pv sets p = Some P /\ part_ok p P /\ nthN sets p = Some s /\
        map pc_gid (pt_cells P) = ps_cells s.
    Proof using SI OK PV.
      intros Hp. destruct (set_of p Hp) as (s & Hs). unfold createPartition. rewrite Hs. cbn [obind].
      destruct (mapM_total (createCell sm s) (ps_cells s)) as (cells & E1).
      { intros g Hg. destruct (createCell_ok p s g Hs Hg) as (sc & f0 & f1 & f2 & f3 & n0 & n1 & n2 & n3 & _ & E & _). eauto. }
      destruct (mapM_total (createFace sm pv sets p s) (ps_faces s)) as (faces & E2).
      { intros g Hg. destruct (createFace_ok p s g Hs Hg) as (sf & c0 & c1 & q0 & q1 & n0 & n1 & n2 & _ & E & _). eauto. }
      destruct (mapM_total (createNode sm) (ps_nodes s)) as (nodes & E3).
      { intros g Hg. destruct (createNode_ok p s g Hs Hg) as (sn & _ & E). eauto. }
      rewrite E1, E2, E3. cbn [obind]. eexists. exists s. split; [reflexivity|].
      assert (G1 : map pc_gid cells = ps_cells s).
      { eapply mapM_gids; [exact E1|]. intros x a Hx Ha.
        destruct (createCell_ok p s x Hs Hx) as (sc & f0 & f1 & f2 & f3 & n0 & n1 & n2 & n3 & _ & E & _).
        rewrite Ha in E. apply Some_inj in E. now rewrite E. }
      assert (G2 : map pf_gid faces = ps_faces s).
      { eapply mapM_gids; [exact E2|]. intros x a Hx Ha.
        destruct (createFace_ok p s x Hs Hx) as (sf & c0 & c1 & q0 & q1 & n0 & n1 & n2 & _ & E & _).
        rewrite Ha in E. apply Some_inj in E. now rewrite E. }
      assert (G3 : map pn_gid nodes = ps_nodes s).
      { eapply mapM_gids; [exact E3|]. intros x a Hx Ha.
        destruct (createNode_ok p s x Hs Hx) as (sn & _ & E).
        rewrite Ha in E. apply Some_inj in E. now rewrite E. }
      split; [|auto]. pose proof SI as (_ & I). destruct (I p s Hs) as (S1 & S2 & S3).
      assert (NF : forall P', pt_faces P' = faces -> forall i, faceGid P' i = nthN (ps_faces s) i).
      { intros P' HP i. unfold faceGid, P_face. rewrite HP. now apply nth_gid. }
      assert (NN : forall P', pt_nodes P' = nodes -> forall i, nodeGid P' i = nthN (ps_nodes s) i).
      { intros P' HP i. unfold nodeGid, P_node. rewrite HP. now apply nth_gid. }
      constructor; cbn [pt_numCells pt_numFaces pt_numNodes pt_cells pt_faces pt_nodes].
      - unfold lenN. now rewrite <- G1, map_length.
      - unfold lenN. now rewrite <- G2, map_length.
      - unfold lenN. now rewrite <- G3, map_length.
      - now rewrite G1.
      - now rewrite G2.
      - now rewrite G3.
      - intros c Hc. apply In_nth_error in Hc as (i & Hi). destruct (mapM_nth _ _ _ _ _ E1 Hi) as (g & Hg & Eg).
        apply nth_error_In in Hg.
        destruct (createCell_ok p s g Hs Hg) as (sc & f0 & f1 & f2 & f3 & n0 & n1 & n2 & n3 & Hsc & E & F & G).
        rewrite Eg in E. apply Some_inj in E. subst c. cbn [pc_gid pc_mat pc_faces pc_nodes]. exists sc.
        split; auto. split; auto. split.
        + rewrite <- F. apply map_ext. now apply NF.
        + rewrite <- G. apply map_ext. now apply NN.
      - intros f Hf. apply In_nth_error in Hf as (i & Hi). destruct (mapM_nth _ _ _ _ _ E2 Hi) as (g & Hg & Eg).
        apply nth_error_In in Hg.
        destruct (createFace_ok p s g Hs Hg) as (sf & c0 & c1 & q0 & q1 & n0 & n1 & n2 & Hsf & E & K0 & K1 & G).
        rewrite Eg in E. apply Some_inj in E. subst f. cbn [pf_gid pf_cells pf_part pf_nodes pf_bdry p0 p1]. exists sf.
        split; [exact Hsf|]. split; [exact K0|]. split; [exact K1|]. split; [reflexivity|].
        rewrite <- G. apply map_ext. now apply NN.
      - intros n Hn. apply In_nth_error in Hn as (i & Hi). destruct (mapM_nth _ _ _ _ _ E3 Hi) as (g & Hg & Eg).
        apply nth_error_In in Hg. destruct (createNode_ok p s g Hs Hg) as (sn & Hsn & E).
        rewrite Eg in E. apply Some_inj in E. subst n. exists sn. auto.
    Qed.
  End Parts.

  (** ---- the whole mesh ---- *)
  Theorem create_ok : exists m sets, createFromSerialMesh sm pv np = Some m /\ sets_inv allCells sets /\
    pm_numPartitions m = N.of_nat np /\ length (pm_parts m) = np /\
    pm_bytesOffset m = createOffsets (w64 (32 + (3 + N.of_nat np) * 8)) (pm_parts m) /\
    (forall p P, PM_part m p = Some P -> part_ok sets p P) /\
    (forall p s, nthN sets p = Some s -> exists P, PM_part m p = Some P /\ map pc_gid (pt_cells P) = ps_cells s).
  Proof using OK PV.
    destruct sets_exist as (sets & E & SI). unfold createFromSerialMesh.
    destruct (smo_wf sm OK) as (EC & _). destruct PV as (L & _).
    replace (N.of_nat (length pv)) with (sm_numCells sm) by (rewrite EC, L; reflexivity).
    rewrite N.eqb_refl. cbn [negb]. rewrite EC. unfold lenN at 1. rewrite Nat2N.id.
    fold allCells. rewrite E. cbn [obind].
    destruct (mapM_total (createPartition sm pv sets) (map N.of_nat (seq 0 np))) as (parts & EP).
    { intros p Hp. apply in_map_iff in Hp as (i & <- & Hi). apply in_seq in Hi.
      destruct (createPartition_ok sets SI (N.of_nat i)) as (P & s & E1 & _); [lia|]. eauto. }
    rewrite EP. cbn [obind]. eexists. exists sets. split; [reflexivity|].
    cbn [pm_numPartitions pm_parts pm_bytesOffset].
    assert (LP : length parts = np) by (apply mapM_length in EP; now rewrite map_length, seq_length in EP).
    assert (K : forall p P, nth_error parts (N.to_nat p) = Some P ->
      createPartition sm pv sets p = Some P /\ p < N.of_nat np).
    { intros p P HP. assert (N.to_nat p < length parts)%nat by (apply nth_error_Some; congruence).
      destruct (mapM_nth _ _ _ _ _ EP HP) as (q & Hq & Eq). rewrite nth_error_map, nth_error_seq0 in Hq by lia.
      cbn [option_map] in Hq. rewrite N2Nat.id in Hq. apply Some_inj in Hq. subst q. split; auto. lia. }
    repeat (split; [auto; fail|]). split.
    - intros p P HP. unfold PM_part in HP. cbn [pm_parts] in HP. destruct (K p P HP) as (E1 & Lp).
      destruct (createPartition_ok sets SI p Lp) as (P' & s & E2 & PO & _). congruence.
    - intros p s Hs. assert (Lp : p < N.of_nat np).
      { rewrite nthN_nth in Hs. destruct SI as (LS & _).
        assert (N.to_nat p < length sets)%nat by (apply nth_error_Some; congruence). lia. }
      destruct (nth_error parts (N.to_nat p)) as [P|] eqn:HP; [|apply nth_error_None in HP; lia].
      exists P. split; auto. destruct (K p P HP) as (E1 & _).
      destruct (createPartition_ok sets SI p Lp) as (P' & s' & E2 & PO & Hs' & G). congruence.
  Qed.
End Create.

Lemma NoDup_app_intro {A} (l1 l2 : list A) : NoDup l1 -> NoDup l2 -> (forall x, In x l1 -> ~ In x l2) -> NoDup (l1 ++ l2).
Proof.
  induction 1 as [|a l1 H1 H2 IH]; cbn; intros N2 H; auto. constructor.
  - rewrite in_app_iff. intros [C|C]; [auto|]. apply (H a); auto.
  - apply IH; auto.
Qed.

(** ---- consequences, in terms of the specification ---- *)
Lemma INVALID_val : INVALID = 18446744073709551615. Proof. reflexivity. Qed.

Section Consequences.
  Variables (sm : smesh) (pv : list N) (np : nat) (m : pmesh).
  Hypothesis OK : serial_mesh_ok sm.
  Hypothesis PV : partition_vector_ok sm pv np.
  Hypothesis CR : createFromSerialMesh sm pv np = Some m.

  Lemma created : exists sets, sets_inv sm pv np (allCells sm) sets /\
    pm_numPartitions m = N.of_nat np /\ length (pm_parts m) = np /\
    pm_bytesOffset m = createOffsets (w64 (32 + (3 + N.of_nat np) * 8)) (pm_parts m) /\
    (forall p P, PM_part m p = Some P -> part_ok sm pv sets p P) /\
    (forall p s, nthN sets p = Some s -> exists P, PM_part m p = Some P /\ map pc_gid (pt_cells P) = ps_cells s).
  Proof using OK PV CR.
    destruct (create_ok sm pv np OK PV) as (m' & sets & E & H). rewrite CR in E. apply Some_inj in E. subst m'. eauto.
  Qed.

  Lemma PM_part_lt p P : PM_part m p = Some P -> p < N.of_nat np.
  Proof using OK PV CR.
    intros H. destruct created as (sets & _ & _ & L & _). unfold PM_part in H.
    assert (N.to_nat p < length (pm_parts m))%nat by (apply nth_error_Some; congruence). lia.
  Qed.
  Lemma PM_part_ex p : p < N.of_nat np -> exists P, PM_part m p = Some P.
  Proof using OK PV CR.
    intros H. destruct created as (sets & _ & _ & L & _). unfold PM_part.
    destruct (nth_error (pm_parts m) (N.to_nat p)) eqn:E; eauto. apply nth_error_None in E. lia.
  Qed.

  Lemma SM_cell_not_invalid c sc : SM_cell sm c = Some sc -> c <> INVALID.
  Proof using OK.
    intros H E. pose proof (smo_cells sm OK) as B. unfold SM_cell in H. rewrite <- E in B. clear E.
    assert (N.to_nat c < length (sm_cells sm))%nat by (apply nth_error_Some; congruence). unfold lenN in B. lia.
  Qed.

  Lemma side_spec_ok sets g c q : (forall p s, nthN sets p = Some s -> exists P, PM_part m p = Some P /\ map pc_gid (pt_cells P) = ps_cells s) ->
    side_spec pv sets g c q -> side_ok m pv g c q.
  Proof.
    intros H [A|(A & B & s & C & D)]; [left; auto|right]. split; auto. split; auto.
    destruct (H q s C) as (P & E & F). exists P. split; auto. unfold cellGid, P_cell.
    rewrite nthN_nth, <- F, nth_error_map in D. exact D.
  Qed.

  Lemma cells_of p P : PM_part m p = Some P -> StronglySorted N.lt (cellGids P) /\
    forall g, In g (cellGids P) <-> (exists sc, SM_cell sm g = Some sc) /\ owner pv g = Some p.
  Proof using OK PV CR.
    intros H. destruct created as (sets & SI & _ & _ & _ & K & _). destruct (po_cells _ _ _ _ _ (K p P H)) as (S1 & S2).
    split; auto. intros g. unfold cellGids. rewrite S2. unfold cell_in. now rewrite in_allCells.
  Qed.

  Lemma all_cells_once : Permutation (flat_map cellGids (pm_parts m)) (allCells sm).
  Proof using OK PV CR.
    assert (NDall : NoDup (allCells sm)).
    { unfold allCells. apply FinFun.Injective_map_NoDup; [|apply seq_NoDup]. intros x y E. lia. }
    apply NoDup_Permutation; auto.
    - assert (K : forall k ps, (forall i P, nth_error ps i = Some P -> PM_part m (N.of_nat (k + i)) = Some P) ->
        NoDup (flat_map cellGids ps)).
      { intros k ps; revert k; induction ps as [|P ps IH]; intros k H; cbn [flat_map]; [constructor|].
        pose proof (H 0%nat P eq_refl) as H0. destruct (cells_of _ _ H0) as (S1 & S2).
        apply NoDup_app_intro; [now apply sorted_nodup|apply (IH (S k))|].
        - intros i P' Hi. replace (S k + i)%nat with (k + S i)%nat by lia. now apply H.
        - intros g Hg C. apply in_flat_map in C as (P' & HP' & C). apply In_nth_error in HP' as (i & Hi).
          pose proof (H (S i) P' Hi) as H1. destruct (cells_of _ _ H1) as (_ & S3).
          apply S2 in Hg as (_ & Hg). apply S3 in C as (_ & C). rewrite Hg in C. apply Some_inj in C. lia. }
      apply (K 0%nat). intros i P Hi. unfold PM_part. now rewrite Nat2N.id.
    - intros g. rewrite in_flat_map, in_allCells. split.
      + intros (P & HP & Hg). apply In_nth_error in HP as (i & Hi).
        destruct (cells_of (N.of_nat i) P) as (_ & S2); [unfold PM_part; now rewrite Nat2N.id|]. now apply S2 in Hg as (Hg & _).
      + intros (sc & Hsc). destruct (owner_some sm pv np PV g sc Hsc) as (p & Hp).
        destruct (PM_part_ex p (owner_lt sm pv np PV g p Hp)) as (P & HP). exists P.
        split; [eapply nth_error_In; exact HP|]. apply (proj2 (cells_of p P HP)). split; eauto.
  Qed.

  Lemma node_coords_ok sets p P n g : part_ok sm pv sets p P -> nodeGid P n = Some g ->
    exists pn sn, P_node P n = Some pn /\ SM_node sm g = Some sn /\ pn_gid pn = g /\ pn_coords pn = sn_coords sn.
  Proof.
    intros K H. unfold nodeGid in H. destruct (P_node P n) as [pn|] eqn:E; [|discriminate]. cbn in H.
    apply Some_inj in H. destruct (po_node _ _ _ _ _ K pn) as (sn & E1 & E2); [eapply nth_error_In; exact E|].
    exists pn, sn. rewrite H in E1. auto.
  Qed.

  (** Faces: where they appear. *)
  Lemma faces_of p P f sf : PM_part m p = Some P -> SM_face sm f = Some sf ->
    NoDup (faceGids P) /\
    (In f (faceGids P) <-> exists c, In c (q2l (sf_cells sf)) /\ c <> INVALID /\ owner pv c = Some p).
  Proof using OK PV CR.
    intros H Hf. destruct created as (sets & SI & _ & _ & _ & K & _). destruct (po_faces _ _ _ _ _ (K p P H)) as (S1 & S2).
    split; [now apply sorted_nodup|]. unfold faceGids. rewrite S2. unfold face_in. split.
    - intros (c & sc & Hc & Hp & Hsc & Hin). destruct (smo_cf sm OK c sc f Hsc Hin) as (sf' & E & Hin' & _).
      rewrite Hf in E. apply Some_inj in E. subst sf'. exists c. repeat split; auto. eapply SM_cell_not_invalid; eauto.
    - intros (c & Hin & NI & Hp). destruct (smo_fc sm OK f sf c Hf Hin NI) as (sc & Hsc & Hin2).
      exists c, sc. repeat split; auto. apply in_allCells. eauto.
  Qed.

  Lemma face_rec p P F : PM_part m p = Some P -> In F (pt_faces P) ->
    exists sf, SM_face sm (pf_gid F) = Some sf /\
      side_ok m pv (p0 (sf_cells sf)) (p0 (pf_cells F)) (p0 (pf_part F)) /\
      side_ok m pv (p1 (sf_cells sf)) (p1 (pf_cells F)) (p1 (pf_part F)) /\
      pf_bdry F = side_bdry p (side_bdry p NotBoundary (p0 (sf_cells sf)) (p0 (pf_part F))) (p1 (sf_cells sf)) (p1 (pf_part F)) /\
      map (nodeGid P) (q3l (pf_nodes F)) = map Some (q3l (sf_nodes sf)) /\
      exists c, In c (q2l (sf_cells sf)) /\ c <> INVALID /\ owner pv c = Some p.
  Proof using OK PV CR.
    intros H HF. destruct created as (sets & SI & _ & _ & _ & K & KP).
    destruct (po_face _ _ _ _ _ (K p P H) F HF) as (sf & E & S0 & S1 & B & G).
    exists sf. split; auto. split; [eapply side_spec_ok; eauto|]. split; [eapply side_spec_ok; eauto|].
    split; auto. split; auto.
    apply (faces_of p P (pf_gid F) sf H E). now apply in_map.
  Qed.

  (** ---- byte offsets ---- *)
  Lemma partition_fmt_length P : length (partition_fmt P) =
    (3 + 10 * length (pt_cells P) + 9 * length (pt_faces P) + 4 * length (pt_nodes P))%nat.
  Proof.
    unfold partition_fmt. rewrite !app_length.
    rewrite (table_len 10 pcell_fmt pcell_len), (table_len 9 pface_fmt pface_len), (table_len 4 pnode_fmt pnode_len). cbn [length]. lia.
  Qed.
  Lemma createOffsets_length off ps : length (createOffsets off ps) = S (length ps).
  Proof. revert off; induction ps; intros; cbn; auto. Qed.
  Lemma createOffsets_nth ps : forall off i, (i <= length ps)%nat ->
    (forall P, In P ps -> pt_numCells P = lenN (pt_cells P) /\ pt_numFaces P = lenN (pt_faces P) /\ pt_numNodes P = lenN (pt_nodes P)) ->
    off + 8 * N.of_nat (length (flat_map partition_fmt ps)) < 9223372036854775808 ->
    nth_error (createOffsets off ps) i = Some (off + 8 * N.of_nat (length (flat_map partition_fmt (firstn i ps)))).
  Proof.
    induction ps as [|P ps IH]; intros off i Hi HN HB.
    - cbn [length] in Hi. replace i with 0%nat by lia. cbn. f_equal. lia.
    - destruct i as [|i]; cbn [createOffsets nth_error firstn flat_map]. { cbn. f_equal. lia. }
      cbn [flat_map] in HB. rewrite app_length in HB.
      destruct (HN P (or_introl eq_refl)) as (E1 & E2 & E3).
      assert (SZ : sizeOfPartition P = 8 * N.of_nat (length (partition_fmt P))).
      { unfold sizeOfPartition. rewrite E1, E2, E3, partition_fmt_length in *. unfold lenN. rewrite w64_small by (unfold two64; lia). lia. }
      rewrite SZ. rewrite w64_small by (unfold two64; lia).
      rewrite IH; [|cbn [length] in Hi; lia|intros; apply HN; now right|lia].
      rewrite app_length. f_equal. lia.
  Qed.

  Lemma created_parallel_ok : lenN (parallel_file (pm_bytesOffset m) (pm_parts m)) < 2^63 ->
    parallel_wf m /\ offsets_ok m /\ forall p P, PM_part m p = Some P -> boundary_types_ok P.
  Proof using OK PV CR.
    intros B. change (2^63) with 9223372036854775808 in B.
    destruct created as (sets & SI & NPm & L & OFF & K & KP).
    unfold lenN in B. rewrite parallel_file_length in B. rewrite OFF, createOffsets_length in B.
    assert (KN : forall P, In P (pm_parts m) -> exists p, PM_part m p = Some P).
    { intros P HP. apply In_nth_error in HP as (i & Hi). exists (N.of_nat i). unfold PM_part. now rewrite Nat2N.id. }
    assert (HN : forall P, In P (pm_parts m) -> pt_numCells P = lenN (pt_cells P) /\ pt_numFaces P = lenN (pt_faces P) /\ pt_numNodes P = lenN (pt_nodes P)).
    { intros P HP. destruct (KN P HP) as (p & Hp). destruct (K p P Hp); auto. }
    assert (HO : forall i, (i <= length (pm_parts m))%nat -> nth_error (pm_bytesOffset m) i =
      Some (32 + (3 + N.of_nat np) * 8 + 8 * N.of_nat (length (flat_map partition_fmt (firstn i (pm_parts m)))))).
    { intros i Hi. rewrite OFF. rewrite w64_small by (unfold two64; lia). apply createOffsets_nth; auto. lia. }
    assert (HP : forall P, In P (pm_parts m) -> (length (partition_fmt P) <= length (flat_map partition_fmt (pm_parts m)))%nat).
    { intros P HP. apply in_split in HP as (l1 & l2 & ->). rewrite flat_map_app, app_length. cbn [flat_map]. rewrite app_length. lia. }
    split; [|split].
    - split; [now rewrite NPm; unfold lenN; rewrite L|]. split.
      { unfold lenN. rewrite OFF, createOffsets_length. lia. }
      split. { unfold u64, lenN. lia. }
      split.
      { apply Forall_forall. intros x Hx. apply In_nth_error in Hx as (i & Hi).
        assert (Li : (i < length (pm_bytesOffset m))%nat) by (apply nth_error_Some; congruence).
        rewrite OFF, createOffsets_length in Li. rewrite HO in Hi by lia. apply Some_inj in Hi. subst x. unfold u64.
        assert (length (flat_map partition_fmt (firstn i (pm_parts m))) <= length (flat_map partition_fmt (pm_parts m)))%nat.
        { rewrite <- (firstn_skipn i (pm_parts m)) at 2. rewrite flat_map_app, app_length. lia. }
        lia. }
      apply Forall_forall. intros P HPin. pose proof (HP P HPin) as LF. rewrite partition_fmt_length in LF.
      destruct (HN P HPin) as (E1 & E2 & E3). destruct (KN P HPin) as (p & Hp). pose proof (K p P Hp) as PO.
      pose proof (smo_wf sm OK) as (_ & _ & _ & U1 & U2 & U3 & U4 & U5 & U6).
      assert (NG : forall l l', map (nodeGid P) l = map Some l' -> Forall u64 l).
      { intros l l' E. apply Forall_forall. intros x Hx. assert (In (nodeGid P x) (map (nodeGid P) l)) by (now apply in_map).
        rewrite E in H. apply in_map_iff in H as (y & Hy & _). unfold nodeGid, P_node in Hy.
        destruct (nth_error (pt_nodes P) (N.to_nat x)) eqn:EX; [|discriminate].
        assert (N.to_nat x < length (pt_nodes P))%nat by (apply nth_error_Some; congruence). unfold u64. lia. }
      assert (FG : forall l l', map (faceGid P) l = map Some l' -> Forall u64 l).
      { intros l l' E. apply Forall_forall. intros x Hx. assert (In (faceGid P x) (map (faceGid P) l)) by (now apply in_map).
        rewrite E in H. apply in_map_iff in H as (y & Hy & _). unfold faceGid, P_face in Hy.
        destruct (nth_error (pt_faces P) (N.to_nat x)) eqn:EX; [|discriminate].
        assert (N.to_nat x < length (pt_faces P))%nat by (apply nth_error_Some; congruence). unfold u64. lia. }
      assert (SO : forall g c q, side_ok m pv g c q -> u64 c /\ u64 q).
      { intros g c q [(_ & -> & ->)|(_ & O & Q & HQ & Hc)]; [split; reflexivity|].
        pose proof (PM_part_lt q Q HQ) as Lq. pose proof (HP Q (nth_error_In _ _ HQ)) as LQ. rewrite partition_fmt_length in LQ.
        unfold cellGid, P_cell in Hc. destruct (nth_error (pt_cells Q) (N.to_nat c)) eqn:EC; [|discriminate].
        assert (N.to_nat c < length (pt_cells Q))%nat by (apply nth_error_Some; congruence). unfold u64. lia. }
      unfold partition_wf, u64 in *. unfold lenN. repeat (split; [first [exact E1|exact E2|exact E3|lia]|]).
      split; [|split].
      + apply Forall_forall. intros c Hc. destruct (po_cell _ _ _ _ _ PO c Hc) as (sc & A1 & A2 & A3 & A4).
        apply NG in A4. apply FG in A3. rewrite <- pcellWords_fmt. unfold pcellWords.
        rewrite Forall_forall in U4. pose proof (U4 sc (nth_error_In _ _ A1)) as U. rewrite <- scellWords_fmt in U. unfold scellWords in U.
        rewrite !Forall_app in U. rewrite !Forall_app. split; [exact A3|]. split; [exact A4|]. rewrite A2.
        destruct U as (_ & _ & U). constructor; [|exact U].
        unfold SM_cell in A1. assert (N.to_nat (pc_gid c) < length (sm_cells sm))%nat by (apply nth_error_Some; congruence).
        pose proof (smo_cells sm OK) as B9. unfold lenN in B9. rewrite INVALID_val in B9. lia.
      + apply Forall_forall. intros f Hf. destruct (face_rec p P f Hp Hf) as (sf & A1 & A2 & A3 & A4 & A5 & _).
        apply NG in A5. apply SO in A2 as (A2 & A2'). apply SO in A3 as (A3 & A3'). rewrite <- pfaceWords_fmt. unfold pfaceWords. rewrite !Forall_app.
        pose proof (SM_face_lt sm OK _ _ A1) as LF'. change (2^31) with 2147483648 in LF'.
        assert (BD : pf_bdry f < 3).
        { rewrite A4. unfold side_bdry, MeshBoundary, PartitionBoundary, NotBoundary.
          repeat match goal with |- context [if ?b then _ else _] => destruct b end; lia. }
        split; [repeat (apply Forall_cons; [assumption|]); apply Forall_nil|]. split; [exact A5|].
        split; [apply Forall_cons; [lia|apply Forall_nil]|].
        split; [repeat (apply Forall_cons; [assumption|]); apply Forall_nil|].
        apply Forall_cons; [lia|apply Forall_nil].
      + apply Forall_forall. intros n Hn. destruct (po_node _ _ _ _ _ PO n Hn) as (sn & A1 & A2).
        rewrite <- pnodeWords_fmt. unfold pnodeWords. rewrite Forall_app, A2. rewrite Forall_forall in U6. split; [pose proof (U6 sn (nth_error_In _ _ A1)) as U; rewrite <- snodeWords_fmt in U; exact U|].
        constructor; [|constructor]. pose proof (SM_node_lt sm OK _ _ A1). lia.
    - intros i Hi. rewrite HO by lia. f_equal. rewrite L. lia.
    - intros p P Hp. apply Forall_forall. intros f Hf. destruct (face_rec p P f Hp Hf) as (sf & _ & _ & _ & A4 & _).
      rewrite A4. unfold side_bdry, MeshBoundary, PartitionBoundary, NotBoundary.
      repeat match goal with |- context [if ?b then _ else _] => destruct b end; lia.
  Qed.
End Consequences.

(** ---- ids that do not fit in an int ---- *)
Definition intRange (x : N) : Prop := x < 2147483648 \/ 18446744071562067968 <= x.
Lemma viaInt_range x : intRange (viaInt x).
Proof.
  unfold viaInt, intRange, i32_to_u64, to_i32. 
  assert (H : (Z.of_N (x mod 4294967296) < 4294967296)%Z) by (pose proof (N.mod_lt x 4294967296); lia).
  assert (H0 : (0 <= Z.of_N (x mod 4294967296))%Z) by lia.
  revert H H0. generalize (Z.of_N (x mod 4294967296)). intros z H H0.
  destruct (Z.ltb_spec z 2147483648).
  - rewrite Z.mod_small by lia. left. lia.
  - right. replace (z - 4294967296)%Z with ((z - 4294967296 + 18446744073709551616) + (-1) * 18446744073709551616)%Z by lia.
    rewrite Z.mod_add by lia. rewrite Z.mod_small by lia. lia.
Qed.
Lemma insertN_forall (P : N -> Prop) x s : P x -> Forall P s -> Forall P (insertN x s).
Proof.
  intros H1 H2. apply Forall_forall. intros y Hy. apply insertN_in in Hy as [->|Hy]; auto.
  rewrite Forall_forall in H2; auto.
Qed.
Lemma fold_insert_forall (P : N -> Prop) f l s : (forall x, P (f x)) -> Forall P s ->
  Forall P (fold_left (fun s (x : N) => insertN (f x) s) l s).
Proof. intros H; revert s; induction l; cbn; intros s Hs; auto. apply IHl. now apply insertN_forall. Qed.

Lemma updN_inv {A} (l l' : list A) i f : updN l i f = Some l' -> exists a, nthN l i = Some a /\
  forall j, nthN l' j = if j =? i then Some (f a) else nthN l j.
Proof.
  intros H. destruct (nthN l i) as [a|] eqn:E.
  - destruct (updN_ok l i f a E) as (l2 & E2 & _ & K). rewrite H in E2. apply Some_inj in E2. subst. eauto.
  - unfold updN in H. rewrite E in H. discriminate.
Qed.

Lemma sortIntoSets_gen sm pv cells : forall acc acc', sortIntoSets sm pv cells acc = Some acc' ->
  (forall q s, nthN acc q = Some s -> Forall intRange (ps_faces s) /\ Forall intRange (ps_nodes s)) ->
  (forall q s, nthN acc' q = Some s -> Forall intRange (ps_faces s) /\ Forall intRange (ps_nodes s)) /\
  (forall q s, nthN acc q = Some s -> exists s', nthN acc' q = Some s' /\ incl (ps_cells s) (ps_cells s')) /\
  (forall c p, In c cells -> nthN pv c = Some p -> exists s, nthN acc' p = Some s /\ In c (ps_cells s)).
Proof.
  induction cells as [|c cells IH]; intros acc acc' H R; cbn [sortIntoSets] in H.
  - inversion H; subst. split; auto. split; [intros; eexists; split; eauto; apply incl_refl|intros ? ? []].
  - destruct (nthN pv c) as [p|] eqn:Ep; [|discriminate]. cbn [obind] in H.
    destruct (nthN (sm_cells sm) c) as [sc|] eqn:Es; [|discriminate]. cbn [obind] in H.
    destruct (updN acc p (addCell c sc)) as [acc1|] eqn:Eu; [|discriminate]. cbn [obind] in H.
    destruct (updN_inv _ _ _ _ Eu) as (s0 & Hs0 & K).
    destruct (IH acc1 acc' H) as (I1 & I2 & I3).
    { intros q s Hq. rewrite K in Hq. destruct (N.eqb_spec q p); [|now apply (R q)]. apply Some_inj in Hq. subst s q.
      destruct (R p s0 Hs0). unfold addCell; cbn [ps_faces ps_nodes].
      split; apply fold_insert_forall; auto; apply viaInt_range. }
    split; auto. split.
    + intros q s Hq. assert (HQ : exists s1, nthN acc1 q = Some s1 /\ incl (ps_cells s) (ps_cells s1)).
      { rewrite K. destruct (N.eqb_spec q p); [|exists s; split; auto; apply incl_refl]. subst q.
        exists (addCell c sc s0). split; auto. rewrite Hq in Hs0. apply Some_inj in Hs0. subst s0.
        intros x Hx. unfold addCell; cbn [ps_cells]. apply insertN_in. now right. }
      destruct HQ as (s1 & H1 & H2). destruct (I2 q s1 H1) as (s' & H3 & H4). exists s'. split; auto.
      eapply incl_tran; eauto.
    + intros c' p' [<-|Hc'] Hp'; [|now apply I3]. rewrite Ep in Hp'. apply Some_inj in Hp'. subst p'.
      destruct (I2 p (addCell c sc s0)) as (s' & H3 & H4). { now rewrite K, N.eqb_refl. }
      exists s'. split; auto. apply H4. unfold addCell; cbn [ps_cells]. apply insertN_in. now left.
Qed.

Lemma mapM_none {A B} (f : A -> option B) l a : In a l -> f a = None -> mapM f l = None.
Proof.
  induction l as [|b l IH]; intros H E; [destruct H|]. cbn. destruct H as [->|H]; [now rewrite E|].
  destruct (f b); auto. now rewrite IH.
Qed.

Lemma create_large_id sm pv np c sc f : sm_numCells sm = lenN (sm_cells sm) -> 
  SM_cell sm c = Some sc -> In f (q4l (sc_faces sc) ++ q4l (sc_nodes sc)) ->
  2147483648 <= f < 18446744071562067968 -> createFromSerialMesh sm pv np = None.
Proof.
  intros EC Hc Hf Rf. unfold createFromSerialMesh.
  destruct (N.eqb_spec (N.of_nat (length pv)) (sm_numCells sm)) as [EL|]; cbn [negb]; auto.
  rewrite EC. unfold lenN. rewrite Nat2N.id. fold (allCells sm).
  destruct (sortIntoSets sm pv (allCells sm) (repeat (mkPsets [] [] []) np)) as [sets|] eqn:E; cbn [obind]; auto.
  destruct (sortIntoSets_gen _ _ _ _ _ E) as (I1 & _ & I3).
  { intros q s H. rewrite nthN_nth in H. apply nth_error_In, repeat_spec in H. subst s. cbn. auto. }
  assert (Hin : In c (allCells sm)) by (apply in_allCells; eauto).
  assert (HP : exists p, nthN pv c = Some p).
  { rewrite nthN_nth. destruct (nth_error pv (N.to_nat c)) eqn:EN; eauto. apply nth_error_None in EN.
    unfold SM_cell in Hc. assert (N.to_nat c < length (sm_cells sm))%nat by (apply nth_error_Some; congruence).
    unfold lenN in EC. lia. }
  destruct HP as (p & Hp). destruct (I3 c p Hin Hp) as (s & Hs & Hcs). destruct (I1 p s Hs) as (R1 & R2).
  assert (NF : findN f (gpMap (ps_faces s)) = None).
  { apply findN_gp_none_gen. intros C. rewrite Forall_forall in R1. destruct (R1 f C); lia. }
  assert (NN : findN f (gpMap (ps_nodes s)) = None).
  { apply findN_gp_none_gen. intros C. rewrite Forall_forall in R2. destruct (R2 f C); lia. }
  assert (EP : createPartition sm pv sets p = None).
  { unfold createPartition. rewrite Hs. cbn [obind]. rewrite (mapM_none _ _ c Hcs); [reflexivity|].
    unfold createCell. unfold SM_cell in Hc. rewrite nthN_nth, Hc. cbn [obind]. cbv zeta beta.
    apply in_app_iff in Hf.
    destruct Hf as [Hf|Hf]; cbn [q4l In] in Hf; repeat (destruct Hf as [Hf|Hf]); try (exfalso; exact Hf); rewrite ?Hf, ?NF, ?NN; cbn [obind];
    repeat match goal with |- obind (findN ?a ?b) _ = None => destruct (findN a b); cbn [obind]; auto end; try reflexivity. }
  rewrite (mapM_none _ _ p); [reflexivity| |exact EP].
  assert (Lp : (N.to_nat p < length sets)%nat).
  { rewrite nthN_nth in Hs. apply nth_error_Some. congruence. }
  apply in_map_iff. exists (N.to_nat p). rewrite N2Nat.id. split; auto. apply in_seq.
  assert (LS : length sets = np).
  { clear - E. assert (G : forall cells acc acc', sortIntoSets sm pv cells acc = Some acc' -> length acc' = length acc).
    { induction cells as [|c cells IH]; intros acc acc' H; cbn [sortIntoSets] in H; [inversion H; auto|].
      destruct (nthN pv c) as [p|]; [|discriminate]. cbn [obind] in H.
      destruct (nthN (sm_cells sm) c) as [sc|]; [|discriminate]. cbn [obind] in H.
      destruct (nthN acc p) as [s0|] eqn:Es; [|unfold updN in H; rewrite Es in H; discriminate].
      destruct (updN_ok acc p (addCell c sc) s0 Es) as (l' & Eu & L & _). rewrite Eu in H. cbn [obind] in H.
      rewrite (IH _ _ H). auto. }
    rewrite (G _ _ _ E). now rewrite repeat_length. }
  lia.
Qed.
