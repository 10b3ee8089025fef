(** Proofs for the MOAB utilities: materials, geometry, asserts. *)
From Coq Require Import Reals Permutation Sorted Lra.
From Flocq Require Import Core IEEE754.BinarySingleNaN IEEE754.Binary IEEE754.Bits.
From Verif Require Import Prelude Bytes PsiFileModel MeshModel MeshSpec CreateModel CreateSpec CreateProofs TychoModel TychoSpec GeometryModel GeometryProofs RefineSpec RefinedSpec ViewSpec MoabModel MoabSpec MoabProofs.
From Verif Require Import DoubleModel DoubleProofs GridSpec GridProofs.
Local Open Scope N_scope.

(** ---- materials ---- *)
Lemma f2_fun {A B} (R : A -> B -> Prop) l m m' : (forall a b b', In a l -> R a b -> R a b' -> b = b') -> Forall2 R l m -> Forall2 R l m' -> m = m'.
Proof.
  intros F H. revert m'. induction H as [|a b l m Hab H IH]; intros m' G; inversion G as [|? b' ? m'' Hab' G']; subst; auto.
  f_equal; [eapply F; eauto; now left|]. apply IH; auto. intros; eapply F; eauto. now right.
Qed.
Lemma pts_perm db t P pts : closed db -> NoDup (q4l t) -> m_corners db t P -> Forall2 (fun v p => In (v, p) (mb_vert db)) (toRange (q4l t)) pts -> Permutation pts (q4l P).
Proof.
  intros C ND M F. destruct (Permutation_Forall2 (toRange_perm _ ND) F) as (l & PL & F').
  assert (l = q4l P); [|now subst]. eapply f2_fun; [|exact F'|exact M]. cbn. intros a b b' _ H G.
  apply (lookup_in _ (cl_vert db C)) in H. apply (lookup_in _ (cl_vert db C)) in G. congruence.
Qed.
(** What the two arithmetics must compute: the sum of four numbers in any order, the quotient by 4 and the comparisons. *)
Definition good_mean {T} (A : arith T) (bits : N -> T) (dec : N -> R) (l : list N) : Prop := forall x y z w, incl [x; y; z; w] l ->
  let m := adiv A (aadd A (aadd A (aadd A (aadd A (azero A) (bits x)) (bits y)) (bits z)) (bits w)) (alit A 4) in
  between A m = true <-> (25 < (dec x + dec y + dec z + dec w) / 4 < 75)%R.
Lemma mean_perm dec k P q : Permutation q (q4l P) -> exists p, q = q4l p /\ mean dec k p = mean dec k P.
Proof.
  intros H. destruct P as [a b c d]. symmetry in H. destruct (perm4 _ _ _ _ _ H) as (x & m & _ & -> & D).
  assert (G : forall u v w, Permutation [u; v; w] m -> exists u' v' w', m = [u'; v'; w'] /\ (dec (k u) + dec (k v) + dec (k w) = dec (k u') + dec (k v') + dec (k w'))%R).
  { clear. intros u v w H. apply perm3 in H. destruct H as [->|[->|[->|[->|[->| ->]]]]]; do 3 eexists; (split; [reflexivity|]); ring. }
  destruct D as [(-> & D)|[(-> & D)|[(-> & D)|(-> & D)]]]; destruct (G _ _ _ D) as (u & v & w & -> & E); eexists (Q4 _ u v w); (split; [reflexivity|]); unfold mean; cbn [r0 r1 r2 r3].
  all: cbn [r0 r1 r2 r3] in E; lra.
Qed.
Lemma material_ok {T} (A : arith T) (bits : N -> T) dec P pts nested :
  (forall k, In k [t0; t1; t2] -> good_mean A bits dec (map k (q4l P))) -> Permutation pts (q4l P) ->
  (materialIndex A bits nested pts = 1 \/ materialIndex A bits nested pts = 2) /\ (materialIndex A bits nested pts = 2 <-> nested = true /\ in_box dec P).
Proof.
  intros G PM. unfold materialIndex. split; [destruct (_ && _); auto|].
  assert (K : forall k, In k [t0; t1; t2] -> between A (adiv A (fold_left (fun s p => aadd A s (bits (k p))) pts (azero A)) (alit A (Z.of_nat (length pts)))) = true <-> (25 < mean dec k P < 75)%R).
  { intros k Hk. destruct (mean_perm dec k P pts PM) as (p & E & <-). subst pts. destruct p as [a b c d]. cbn [q4l r0 r1 r2 r3 length fold_left]. change (Z.of_nat 4) with 4%Z.
    unfold mean. cbn [r0 r1 r2 r3]. apply (G k Hk). intros x [<-|[<-|[<-|[<-|[]]]]]; apply in_map; apply (Permutation_in _ PM); cbn; tauto. }
  assert (K0 := K t0 ltac:(cbn; tauto)). assert (K1 := K t1 ltac:(cbn; tauto)). assert (K2 := K t2 ltac:(cbn; tauto)). clear K.
  unfold centroid. cbn [t0 t1 t2]. match type of K0 with (?b = true <-> _) => set (b0 := b) in * end.
  match type of K1 with (?b = true <-> _) => set (b1 := b) in * end. match type of K2 with (?b = true <-> _) => set (b2 := b) in * end. clearbody b0 b1 b2.
  unfold in_box. split.
  - destruct nested; cbn [andb]; [|discriminate]. destruct b0, b1, b2; cbn [andb]; try discriminate. intros _. split; auto. intros k [<-|[<-|[<-|[]]]]; [apply K0|apply K1|apply K2]; reflexivity.
  - intros (-> & H). pose proof (proj2 K0 (H t0 ltac:(cbn; tauto))). pose proof (proj2 K1 (H t1 ltac:(cbn; tauto))). pose proof (proj2 K2 (H t2 ltac:(cbn; tauto))). now subst b0 b1 b2.
Qed.
Lemma good_mean_R dec l : good_mean Rops dec dec l.
Proof.
  intros x y z w _. unfold between. cbn [adiv aadd azero alit agt Rops]. replace (0 + dec x + dec y + dec z + dec w)%R with (dec x + dec y + dec z + dec w)%R by ring.
  destruct (Rgt_dec _ _), (Rgt_dec _ _); cbn [andb]; split; intros; try discriminate; try lra; auto.
Qed.
Lemma result_materials {T} (A : arith T) (bits : N -> T) dec db nested sm : closed db ->
  Forall2 (cell_rel A bits db nested) (toRange (map fst (mb_tet db))) (sm_cells sm) ->
  (forall k, In k [t0; t1; t2] -> good_mean A bits dec (map (fun e => k (snd e)) (mb_vert db))) -> materials_ok db dec nested sm.
Proof.
  intros C RC G h t P sc Ht MC Hsc. destruct (cell_from A bits db C nested sm RC _ _ Hsc) as (h' & E & t' & hs & pts & Ht' & F & ND & PF & PN & FP & ->).
  assert (h = h') by (eapply rank_inj; [apply (cl_teth db C)|apply in_fst; eauto|apply in_fst; eauto|exact E]). subst h'.
  pose proof (tet_unique db C _ _ _ Ht Ht'). subst t'. apply material_ok; [|eapply pts_perm; eauto; apply (cl_tet db C _ _ Ht)].
  intros k Hk x y z w I. apply (G k Hk). eapply incl_tran; [exact I|]. intros a Ha. apply in_map_iff in Ha. destruct Ha as (p & <- & Hp).
  unfold m_corners in MC. apply In_nth_error in Hp. destruct Hp as (i & Hp). destruct (f2r _ _ _ _ _ MC Hp) as (v & _ & Hv). apply (in_map (fun e => k (snd e)) _ _ Hv).
Qed.

(** ---- geometry ---- *)
Lemma points_perm dec p P : Permutation (q4l p) (q4l P) -> Permutation (q4l (points dec p)) (q4l (points dec P)).
Proof.
  intros H. set (f := fun p : q3 N => Q3 (dec (t0 p)) (dec (t1 p)) (dec (t2 p))). change (Permutation (map f (q4l p)) (map f (q4l P))). now apply Permutation_map.
Qed.
Lemma inside_perm4 p q x : Permutation (q4l p) (q4l q) -> (inside p x -> inside q x) /\ (strictly_inside p x -> strictly_inside q x).
Proof.
  destruct p as [a b c d], q as [a' b' c' d']. intros H. destruct (perm4 _ _ _ _ _ H) as (y & m & _ & E & D). unfold q4l in E; cbn [r0 r1 r2 r3] in E, D. assert (E1 : y = a') by congruence. assert (E2 : m = [b'; c'; d']) by congruence. clear E H. subst y m.
  assert (G : forall u v w, Permutation [u; v; w] [b'; c'; d'] -> forall (al be ga : R), exists al' be' ga' : R, forall k : q3 R -> R,
     (al * k u + be * k v + ga * k w = al' * k b' + be' * k c' + ga' * k d')%R /\ (al + be + ga = al' + be' + ga')%R /\
     (0 <= al -> 0 <= be -> 0 <= ga -> 0 <= al' /\ 0 <= be' /\ 0 <= ga')%R /\ (0 < al -> 0 < be -> 0 < ga -> 0 < al' /\ 0 < be' /\ 0 < ga')%R).
  { clear. intros u v w H al be ga. apply perm3 in H. destruct H as [H|[H|[H|[H|[H|H]]]]]; injection H; intros; subst;
    [exists al, be, ga|exists al, ga, be|exists be, al, ga|exists be, ga, al|exists ga, al, be|exists ga, be, al]; intros k; (split; [ring|]); (split; [ring|]); tauto. }
  unfold inside, strictly_inside, bary. cbn [r0 r1 r2 r3].
  destruct D as [(E & D)|[(E & D)|[(E & D)|(E & D)]]]; subst a'; split; intros (s1 & s2 & s3 & s4 & HB & ->); destruct HB as (B1 & B2 & B3 & B4 & B5);
  [ destruct (G _ _ _ D s2 s3 s4) as (u & v & w & K); exists s1, u, v, w
  | destruct (G _ _ _ D s2 s3 s4) as (u & v & w & K); exists s1, u, v, w
  | destruct (G _ _ _ D s1 s3 s4) as (u & v & w & K); exists s2, u, v, w
  | destruct (G _ _ _ D s1 s3 s4) as (u & v & w & K); exists s2, u, v, w
  | destruct (G _ _ _ D s1 s2 s4) as (u & v & w & K); exists s3, u, v, w
  | destruct (G _ _ _ D s1 s2 s4) as (u & v & w & K); exists s3, u, v, w
  | destruct (G _ _ _ D s1 s2 s3) as (u & v & w & K); exists s4, u, v, w
  | destruct (G _ _ _ D s1 s2 s3) as (u & v & w & K); exists s4, u, v, w ];
  destruct (K t0) as (K0 & KS & KN & KP); destruct (K t1) as (K1 & _); destruct (K t2) as (K2 & _);
  (split; [try (destruct (KN ltac:(lra) ltac:(lra) ltac:(lra)) as (?&?&?)); try (destruct (KP ltac:(lra) ltac:(lra) ltac:(lra)) as (?&?&?)); repeat split; lra|f_equal; lra]).
Qed.

Definition pt (dec : N -> R) (p : q3 N) : q3 R := Q3 (dec (t0 p)) (dec (t1 p)) (dec (t2 p)).
Lemma perm_some {A} (l m : list A) : Permutation (map Some l) (map Some m) -> Permutation l m.
Proof.
  intros H. apply (Permutation_flat_map (fun o => match o with Some x => [x] | None => [] end)) in H.
  assert (E : forall l : list A, flat_map (fun o => match o with Some x => [x] | None => [] end) (map Some l) = l) by (induction l0; cbn; congruence). now rewrite !E in H.
Qed.
Section Geo.
  Context {T : Type} (A : arith T) (bits : N -> T) (dec : N -> R) (db : mdb) (C : closed db) (nested : bool) (sm : smesh).
  Context (RC : Forall2 (cell_rel A bits db nested) (toRange (map fst (mb_tet db))) (sm_cells sm)).
  Context (RF : Forall2 (face_rel db) (toRange (map fst (mb_tri db))) (sm_faces sm)).
  Context (RN : Forall2 (node_rel db) (toRange (map fst (mb_vert db))) (sm_nodes sm)).
  Notation rv := (rank (mb_vert db)).
  Notation rc := (rank (mb_tet db)).

  Lemma points_of l ps : Forall2 (fun v p => In (v, p) (mb_vert db)) l ps -> map (s_point sm dec) (map rv l) = map Some (map (pt dec) ps).
  Proof.
    induction 1 as [|v p l ps H F IH]; cbn [map]; [reflexivity|]. f_equal; auto. unfold s_point. rewrite (node_at db C sm RN _ _ H). reflexivity.
  Qed.
  Lemma corners_ex h t : In (h, t) (mb_tet db) -> exists P, m_corners db t P.
  Proof.
    intros Ht. destruct (cl_tet db C _ _ Ht) as (_ & K). destruct t as [a b c d]. cbn [q4l r0 r1 r2 r3] in K.
    destruct (K a) as (pa & Ka); [cbn; tauto|]. destruct (K b) as (pb & Kb); [cbn; tauto|]. destruct (K c) as (pc & Kc); [cbn; tauto|]. destruct (K d) as (pd & Kd); [cbn; tauto|].
    exists (Q4 pa pb pc pd). unfold m_corners, q4l. cbn [r0 r1 r2 r3]. do 4 (constructor; [assumption|]). constructor.
  Qed.
  Lemma cell_geo h t P sc p : In (h, t) (mb_tet db) -> m_corners db t P -> cell_rel A bits db nested h sc -> map (s_point sm dec) (q4l (sc_nodes sc)) = map Some (q4l p) ->
    Permutation (q4l p) (q4l (points dec P)).
  Proof.
    intros Ht M (t' & hs & pts & Ht' & _ & _ & _ & PN & _) E. pose proof (tet_unique db C _ _ _ Ht Ht'). subst t'.
    apply perm_some. rewrite <- E. change (q4l (points dec P)) with (map (pt dec) (q4l P)). rewrite <- (points_of _ _ M). now apply Permutation_map.
  Qed.
  Lemma cell_geo_ex h t P : In (h, t) (mb_tet db) -> m_corners db t P -> exists p, s_cell sm dec (rc h) p /\ Permutation (q4l p) (q4l (points dec P)).
  Proof.
    intros Ht M. destruct (cell_at A bits db C nested sm RC _ _ Ht) as (sc & Hsc & CR). pose proof CR as (t' & hs & pts & Ht' & _ & _ & _ & PN & _).
    pose proof (tet_unique db C _ _ _ Ht Ht'). subst t'.
    assert (PP : Permutation (map (s_point sm dec) (q4l (sc_nodes sc))) (map Some (map (pt dec) (q4l P)))) by (rewrite <- (points_of _ _ M); now apply Permutation_map).
    destruct (Permutation_map_inv _ _ PP) as (l & E & PL).
    assert (L : length l = 4%nat) by (rewrite <- (Permutation_length PL); reflexivity). destruct (toQ4_ok l L) as (p & _ & Q). subst l.
    exists p. split; [exists sc; split; [exact Hsc|exact E]|]. symmetry. exact PL.
  Qed.
  Lemma geo_in_mesh x : in_mesh sm dec x <-> exists h t P, In (h, t) (mb_tet db) /\ m_corners db t P /\ inside (points dec P) x.
  Proof.
    split.
    - intros (g & p & (sc & Hsc & E) & I). destruct (cell_from A bits db C nested sm RC _ _ Hsc) as (h & -> & CR). pose proof CR as (t & _ & _ & Ht & _).
      destruct (corners_ex _ _ Ht) as (P & M). exists h, t, P. split; auto. split; auto. eapply inside_perm4; [|exact I]. eapply cell_geo; eauto.
    - intros (h & t & P & Ht & M & I). destruct (cell_geo_ex _ _ _ Ht M) as (p & Hp & PM). exists (rc h), p. split; auto. eapply inside_perm4; [|exact I]. now symmetry.
  Qed.
  Lemma geo_solid : m_solid db dec -> solid sm dec.
  Proof.
    intros (S1 & S2). constructor.
    - intros g p (sc & Hsc & E). destruct (cell_from A bits db C nested sm RC _ _ Hsc) as (h & -> & CR). pose proof CR as (t & _ & _ & Ht & _).
      destruct (corners_ex _ _ Ht) as (P & M). pose proof (cell_geo _ _ _ _ _ Ht M CR E) as PM. specialize (S1 _ _ _ Ht M). destruct (vol6_perm _ _ PM) as [X|X]; lra.
    - intros g g' p p' x NE (sc & Hsc & E) (sc' & Hsc' & E') I I'. destruct (cell_from A bits db C nested sm RC _ _ Hsc) as (h & -> & CR). pose proof CR as (t & _ & _ & Ht & _).
      destruct (cell_from A bits db C nested sm RC _ _ Hsc') as (h' & -> & CR'). pose proof CR' as (t' & _ & _ & Ht' & _).
      destruct (corners_ex _ _ Ht) as (P & M). destruct (corners_ex _ _ Ht') as (P' & M').
      apply (S2 _ _ _ _ _ _ x Ht M Ht' M'); [congruence| |].
      + exact (proj2 (inside_perm4 _ _ x (cell_geo _ _ _ _ _ Ht M CR E)) I).
      + exact (proj2 (inside_perm4 _ _ x (cell_geo _ _ _ _ _ Ht' M' CR' E')) I').
  Qed.
  Lemma corners3 h s : In (h, s) (mb_tri db) -> exists P, Forall2 (fun v p => In (v, p) (mb_vert db)) (q3l s) (q3l P).
  Proof.
    intros Hs. pose proof (fun v => vert_of db C h s v Hs) as K. destruct s as [a b c]. cbn [q3l t0 t1 t2] in K.
    destruct (K a) as (pa & Ka); [cbn; tauto|]. destruct (K b) as (pb & Kb); [cbn; tauto|]. destruct (K c) as (pc & Kc); [cbn; tauto|]. exists (Q3 pa pb pc). unfold q3l. cbn [t0 t1 t2]. do 3 (constructor; [assumption|]). constructor.
  Qed.
  Lemma face_geo k s sf F P : In (k, s) (mb_tri db) -> face_rel db k sf -> map (s_point sm dec) (q3l (sf_nodes sf)) = map Some (q3l F) ->
    Forall2 (fun v p => In (v, p) (mb_vert db)) (q3l s) (q3l P) -> Permutation (q3l F) (map (pt dec) (q3l P)).
  Proof.
    intros Hs (s' & Hs' & PN & _) E M. pose proof (tri_unique db C _ _ _ Hs Hs'). subst s'. apply perm_some. rewrite <- E, <- (points_of _ _ M). now apply Permutation_map.
  Qed.
  Lemma face_outer k s sf : In (k, s) (mb_tri db) -> face_rel db k sf ->
    (In INVALID (q2l (sf_cells sf)) <-> exists h t, In (h, t) (mb_tet db) /\ tet_has t s /\ forall h' t', In (h', t') (mb_tet db) -> tet_has t' s -> h' = h).
  Proof.
    intros Hs (s' & Hs' & _ & D). pose proof (tri_unique db C _ _ _ Hs Hs'). subst s'.
    assert (NV : forall a, In a (adjCells db s) -> rc a <> INVALID). { intros a Ha. apply adjCells_in in Ha. destruct Ha as (t & Ht & _). exact (proj1 (small_valid _ (tet_small db C _ _ Ht))). }
    assert (NDc : NoDup (adjCells db s)) by (apply sorted_nodup; apply toRange_set).
    destruct D as [(a & EA & E)|(a & b & EA & E)]; rewrite E; cbn [q2l In MeshModel.p0 MeshModel.p1].
    - split; [intros _|auto]. assert (Ha : In a (adjCells db s)) by (rewrite EA; now left). apply adjCells_in in Ha. destruct Ha as (t & Ht & TH). exists a, t. split; auto. split; auto.
      intros h' t' Ht' TH'. assert (X : In h' (adjCells db s)) by (apply adjCells_in; eauto). rewrite EA in X. destruct X as [X|[]]; auto.
    - split.
      + intros [X|[X|[]]]; exfalso; [apply (NV a)|apply (NV b)]; auto; rewrite EA; cbn; auto.
      + intros (h & t & Ht & TH & U). exfalso. assert (Ha : In a (adjCells db s)) by (rewrite EA; now left). assert (Hb : In b (adjCells db s)) by (rewrite EA; cbn; auto).
        apply adjCells_in in Ha. apply adjCells_in in Hb. destruct Ha as (ta & Ha & Ka), Hb as (tb & Hb & Kb). pose proof (U _ _ Ha Ka). pose proof (U _ _ Hb Kb). subst. rewrite EA, NoDup_cons_iff in NDc. cbn in NDc. tauto.
  Qed.
  Lemma tet_has_perm t s s' : Permutation (q3l s) (q3l s') -> tet_has t s -> tet_has t s'.
  Proof. intros P H v Hv. apply H. exact (Permutation_in _ (Permutation_sym P) Hv). Qed.
  Lemma geo_boundary F : boundary sm dec F -> exists F', same_tri F F' /\ m_boundary db dec F'.
  Proof.
    intros (f & sf & Hf & HI & sf' & Hf' & E). rewrite Hf in Hf'. apply Some_inj in Hf'. subst sf'. destruct (face_from db C sm RF _ _ Hf) as (k & -> & FR). pose proof FR as (s & Hs & _).
    apply (face_outer _ _ _ Hs FR) in HI. destruct HI as (h & t & Ht & TH & U). destruct (cl_tri db C _ _ Hs) as (NDs & _).
    destruct (tet_side t s NDs TH) as (s1 & Hs1 & E1). destruct (side_face _ _ Hs1) as (s2 & Hs2 & P2).
    assert (PS : Permutation (q3l s) (q3l s2)). { rewrite <- P2. apply same_set_perm; auto. eapply side_nodup; eauto. apply (cl_tet db C _ _ Ht). }
    destruct (corners3 _ _ Hs) as (P & M). pose proof (face_geo _ _ _ _ _ Hs FR E M) as PF.
    destruct (Permutation_Forall2 PS M) as (l & PL & M'). assert (L : length l = 3%nat) by (rewrite <- (Permutation_length PL); reflexivity). destruct (toQ3_ok l L) as (P' & _ & Q). subst l.
    exists (Q3 (pt dec (t0 P')) (pt dec (t1 P')) (pt dec (t2 P'))). split.
    - unfold same_tri. rewrite PF. exact (Permutation_map (pt dec) PL).
    - inversion M' as [|? ? ? ? X0 M1]; subst. inversion M1 as [|? ? ? ? X1 M2]; subst. inversion M2 as [|? ? ? ? X2 M3]; subst.
      exists h, t, s2, (t0 P'), (t1 P'), (t2 P'). split; auto. split; auto. split; auto. split; auto. split; auto. split; [|reflexivity].
      intros h' t' Ht' TH'. apply (U h' t' Ht'). eapply tet_has_perm; [|exact TH']. now symmetry.
  Qed.
  Lemma geo_boundary_inv F : m_boundary db dec F -> exists F', same_tri F F' /\ boundary sm dec F'.
  Proof.
    intros (h & t & s & p & q & r & Ht & Hs & Hp & Hq & Hr & U & ->). destruct (face_side _ _ Hs) as (s1 & Hs1 & P1). destruct (cl_full db C _ _ _ Ht Hs1) as (k & s2 & Hs2 & E2).
    destruct (face_at db C sm RF _ _ Hs2) as (sf & Hsf & FR).
    assert (PS : Permutation (q3l s) (q3l s2)). { rewrite P1. apply same_set_perm; auto; [eapply side_nodup; eauto; apply (cl_tet db C _ _ Ht)|apply (cl_tri db C _ _ Hs2)]. }
    assert (M : Forall2 (fun v p => In (v, p) (mb_vert db)) (q3l s) [p; q; r]) by (unfold q3l; do 3 (constructor; [assumption|]); constructor).
    destruct (Permutation_Forall2 PS M) as (l & PL & M').
    pose proof FR as (s3 & Hs3 & PN & _). pose proof (tri_unique db C _ _ _ Hs2 Hs3). subst s3.
    assert (PP : Permutation (map (s_point sm dec) (q3l (sf_nodes sf))) (map Some (map (pt dec) l))) by (rewrite <- (points_of _ _ M'); now apply Permutation_map).
    destruct (Permutation_map_inv _ _ PP) as (m & E & PM).
    assert (L : length m = 3%nat) by (rewrite <- (Permutation_length PM), map_length, <- (Permutation_length PL); reflexivity). destruct (toQ3_ok m L) as (F' & _ & Q). subst m.
    exists F'. split; [unfold same_tri; rewrite <- PM; exact (Permutation_map (pt dec) PL)|].
    exists (rank (mb_tri db) k), sf. split; auto. split; [|exists sf; split; auto].
    apply (face_outer _ _ _ Hs2 FR). exists h, t. split; auto. assert (TS : tet_has t s) by (eapply tet_has_perm; [symmetry; exact P1|now apply side_tet]).
    split; [eapply tet_has_perm; eauto|]. intros h' t' Ht' TH'. apply (U h' t' Ht'). eapply tet_has_perm; [|exact TH']. now symmetry.
  Qed.
End Geo.

(** ---- the centroid in doubles ---- *)
Section Doubles.
  Local Open Scope R_scope.
  Lemma div_rnd x y : fin x = true -> val y <> 0 -> Rabs (rnd (val x / val y)) < bpow radix2 1024 -> fin (adiv Dops x y) = true /\ val (adiv Dops x y) = rnd (val x / val y).
  Proof.
    intros Fx Y L. cbn [adiv Dops]. unfold b64_div. pose proof (Bdiv_correct 53 1024 (@eq_refl comparison Lt) (@eq_refl comparison Lt) binop_nan_pl64 mode_NE x y Y) as K. change (round_mode mode_NE) with ZnearestE in K.
    rewrite (Rlt_bool_true _ _ L) in K. destruct K as (K1 & K2 & _). split; [|exact K1]. rewrite Fx in K2. exact K2.
  Qed.
  Context (e : Z) (E : (-1072 <= e <= 960)%Z).
  Definition gmul (b : Z) (x : binary64) : Prop := fin x = true /\ exists m : Z, (Z.abs m <= b)%Z /\ val x = IZR m * bpow radix2 e.
  Lemma gmul_add b c x y : gmul b x -> gmul c y -> (b + c <= P53)%Z -> gmul (b + c) (aadd Dops x y) /\ val (aadd Dops x y) = val x + val y.
  Proof.
    intros (Fx & m & Bm & Vx) (Fy & k & Bk & Vy) B. assert (S : val x + val y = IZR (m + k) * bpow radix2 e) by (rewrite Vx, Vy, plus_IZR; ring).
    assert (RS : rnd (val x + val y) = IZR (m + k) * bpow radix2 e) by (rewrite S; eapply rnd_id; [reflexivity|lia|lia]).
    destruct (add_rnd x y Fx Fy) as (F1 & V1).
    { apply (rnd_bound _ (Z.abs (m + k)) e); [|lia|lia]. rewrite S, Rabs_mult, (Rabs_pos_eq (bpow radix2 e)) by apply bpow_ge_0. rewrite abs_IZR. apply Rle_refl. }
    rewrite V1, RS. split; [|now rewrite S]. split; auto. exists (m + k)%Z. rewrite V1, RS. split; [lia|reflexivity].
  Qed.
  Lemma lit_val : fin (alit Dops 4) = true /\ val (alit Dops 4) = 4 /\ fin (alit Dops 25) = true /\ val (alit Dops 25) = 25 /\ fin (alit Dops 75) = true /\ val (alit Dops 75) = 75.
  Proof. cbn [alit Dops]. repeat split; vm_compute; lra. Qed.
  Lemma quarter x : gmul P53 x -> fin (adiv Dops x (alit Dops 4)) = true /\ val (adiv Dops x (alit Dops 4)) = val x / 4.
  Proof.
    intros (Fx & m & Bm & Vx). destruct lit_val as (F4 & V4 & _). remember (alit Dops 4) as four eqn:E4. clear E4.
    assert (S : val x / val four = IZR m * bpow radix2 (e - 2)). { rewrite Vx, V4. replace (e - 2)%Z with (e + -2)%Z by lia. rewrite bpow_plus. replace (bpow radix2 (-2)) with (/ 4) by (vm_compute; lra). field. }
    assert (RS : rnd (val x / val four) = IZR m * bpow radix2 (e - 2)) by (rewrite S; eapply rnd_id; [reflexivity|lia|lia]).
    destruct (div_rnd x four Fx) as (F1 & V1); [rewrite V4; lra| |].
    { apply (rnd_bound _ (Z.abs m) (e - 2)); [|lia|lia]. rewrite S, Rabs_mult, (Rabs_pos_eq (bpow radix2 (e - 2))) by apply bpow_ge_0. rewrite abs_IZR. apply Rle_refl. }
    split; auto. rewrite V1, RS, <- S, V4. reflexivity.
  Qed.
  Lemma between_D x : fin x = true -> between Dops x = true <-> 25 < val x < 75.
  Proof.
    intros F. unfold between. destruct lit_val as (_ & _ & F1 & V1 & F2 & V2). rewrite andb_true_iff, (dgt_ok _ _ F F1), (dgt_ok _ _ F2 F), V1, V2. lra.
  Qed.
  Lemma good_mean_D l : (forall x, In x l -> gmul (2 ^ 50) (ddec x)) -> good_mean Dops ddec number l.
  Proof.
    intros H x y z w I. change (2 ^ 50)%Z with 1125899906842624%Z in H.
    assert (Hx := H x (I x ltac:(cbn; tauto))). assert (Hy := H y (I y ltac:(cbn; tauto))). assert (Hz := H z (I z ltac:(cbn; tauto))). assert (Hw := H w (I w ltac:(cbn; tauto))). clear H I.
    unfold number. set (X := ddec x) in *. set (Y := ddec y) in *. set (Z' := ddec z) in *. set (W := ddec w) in *. clearbody X Y Z' W.
    assert (H0 : gmul 0 (azero Dops)). { split; [reflexivity|]. exists 0%Z. split; [cbn; lia|]. rewrite Rmult_0_l. reflexivity. }
    assert (V0 : val (azero Dops) = 0) by reflexivity. remember (azero Dops) as zero eqn:E0. clear E0.
    destruct (gmul_add _ _ _ _ H0 Hx ltac:(lia)) as (G1 & V1). destruct (gmul_add _ _ _ _ G1 Hy ltac:(lia)) as (G2 & V2).
    destruct (gmul_add _ _ _ _ G2 Hz ltac:(lia)) as (G3 & V3). destruct (gmul_add _ _ _ _ G3 Hw ltac:(lia)) as (G4 & V4).
    remember (aadd Dops (aadd Dops (aadd Dops (aadd Dops zero X) Y) Z') W) as s eqn:Es. rewrite V3, V2, V1, V0 in V4.
    destruct (quarter s) as (F5 & V5). { destruct G4 as (F & m & B & V). split; auto. exists m. split; [lia|exact V]. }
    cbv zeta. rewrite (between_D _ F5), V5, V4. replace (0 + val X + val Y + val Z' + val W) with (val X + val Y + val Z' + val W) by ring. tauto.
  Qed.
End Doubles.

(** ---- a triangle that is not a side of one or two tetrahedra ---- *)
Section Stray.
  Context (alloc : list N -> N) (AL : forall l, ~ In (alloc l) l) {T : Type} (A : arith T) (bits : N -> T).
  Definition grows (db db' : mdb) : Prop := mb_tet db' = mb_tet db /\ incl (mb_tri db) (mb_tri db') /\ NoDup (map fst (mb_tri db')).
  Lemma grows_trans a b c : grows a b -> grows b c -> grows a c.
  Proof. intros (A1 & A2 & A3) (B1 & B2 & B3). split; [congruence|]. split; auto. eapply incl_tran; eauto. Qed.
  Lemma adjSide_grows l : forall db fs, NoDup (map fst (mb_tri db)) -> grows db (fst (fold_left (adjSide alloc) l (db, fs))).
  Proof.
    induction l as [|s l IH]; intros db fs ND; cbn [fold_left]; [split; [reflexivity|]; split; auto; apply incl_refl|].
    unfold adjSide at 2. destruct (findTri s (mb_tri db)) as [k|]; [auto|].
    eapply grows_trans; [|apply IH]; cbn [mb_tri mb_tet].
    - split; [reflexivity|]. cbn [mb_tri]. split; [intros x Hx; apply in_or_app; auto|]. rewrite map_app. apply nodup_snoc; auto. apply AL.
    - rewrite map_app. apply nodup_snoc; auto. apply AL.
  Qed.
  Lemma adjFaces_grows db h r : NoDup (map fst (mb_tri db)) -> adjFaces alloc db h = Some r -> grows db (fst r).
  Proof.
    intros ND. unfold adjFaces. destruct (lookup h (mb_tet db)); cbn [obind]; [|discriminate]. intros H. apply Some_inj in H. subst r. now apply adjSide_grows.
  Qed.
  Lemma createAll_grows l : forall db db', NoDup (map fst (mb_tri db)) -> foldM (fun db h => option_map fst (adjFaces alloc db h)) l db = Some db' -> grows db db'.
  Proof.
    induction l as [|h l IH]; intros db db' ND H; cbn [foldM] in H; [apply Some_inj in H; subst; split; [reflexivity|]; split; auto; apply incl_refl|].
    destruct (adjFaces alloc db h) as [r|] eqn:E; cbn [option_map obind] in H; [|discriminate]. pose proof (adjFaces_grows _ _ _ ND E) as G. eapply grows_trans; [exact G|]. apply IH; auto. apply G.
  Qed.
  Lemma cells_grow nested fm nm l : forall db acc r, NoDup (map fst (mb_tri db)) -> foldM (cellData alloc A bits nested fm nm) l (db, acc) = Some r -> grows db (fst r).
  Proof.
    induction l as [|h l IH]; intros db acc r ND H; cbn [foldM] in H; [apply Some_inj in H; subst; split; [reflexivity|]; split; auto; apply incl_refl|].
    destruct (cellData alloc A bits nested fm nm (db, acc) h) as [[db1 acc1]|] eqn:E; cbn [obind] in H; [|discriminate].
    assert (G : grows db db1).
    { unfold cellData in E. destruct (adjFaces alloc db h) as [[db2 fs]|] eqn:EF; cbn [obind] in E; [|discriminate]. pose proof (adjFaces_grows _ _ _ ND EF) as G. cbn [fst] in G.
      repeat match type of E with obind ?o _ = Some _ => destruct o; cbn [obind] in E; [|discriminate] end. apply Some_inj in E. assert (db1 = db2) by congruence. now subst. }
    eapply grows_trans; [exact G|]. eapply IH; [apply G|exact H].
  Qed.
  Lemma stray name0 version0 db h s c : NoDup (map fst (mb_tri db)) -> In (h, s) (mb_tri db) ->
    (forall h' t, In (h', t) (mb_tet db) -> ~ tet_has t s) \/
    (exists a ta b tb d td, In (a, ta) (mb_tet db) /\ In (b, tb) (mb_tet db) /\ In (d, td) (mb_tet db) /\ tet_has ta s /\ tet_has tb s /\ tet_has td s /\ a <> b /\ a <> d /\ b <> d) ->
    (c = 1 \/ c = 2)%Z -> moabToSerialMesh alloc A bits name0 version0 c db = None.
  Proof.
    intros ND Hs D Hc. unfold moabToSerialMesh. replace ((c =? 1) || (c =? 2))%Z with true by (destruct Hc; subst; reflexivity).
    destruct (moabCreateAllFaces alloc db) as [db1|] eqn:E1; cbn [obind]; [|reflexivity]. pose proof (createAll_grows _ _ _ ND E1) as (G1 & G2 & G3).
    unfold createSerialMesh.
    destruct (foldM _ _ (db1, [])) as [[db2 cells]|] eqn:E2; cbn [obind]; [|reflexivity]. pose proof (cells_grow _ _ _ _ _ _ _ G3 E2) as (K1 & K2 & K3). cbn [fst] in K1, K2, K3.
    rewrite (mapM_none _ _ h); [reflexivity|apply toRange_in; apply in_fst; exists s; auto|].
    unfold faceData. rewrite (lookup_in _ K3 h s (K2 _ (G2 _ Hs))). cbn [obind].
    destruct (mapM _ (adjCells db2 s)) as [cs|] eqn:E3; cbn [obind]; [|reflexivity]. apply mapM_length in E3.
    assert (L : length cs <> 1%nat /\ length cs <> 2%nat).
    { rewrite E3. pose proof (adjCells_in db2 s) as AI. rewrite K1, G1 in AI. destruct D as [D|D].
      - destruct (adjCells db2 s) as [|a l]; [cbn; lia|]. exfalso. destruct (proj1 (AI a) (or_introl eq_refl)) as (t & Ht & TH). exact (D _ _ Ht TH).
      - destruct D as (a & ta & b & tb & d & td & Ha & Hb & Hd & Ta & Tb & Td & N1 & N2 & N3).
        assert (Ia : In a (adjCells db2 s)) by (apply AI; eauto). assert (Ib : In b (adjCells db2 s)) by (apply AI; eauto). assert (Id : In d (adjCells db2 s)) by (apply AI; eauto).
        destruct (adjCells db2 s) as [|x [|y [|z l]]]; cbn [length In] in *; lia. }
    destruct cs as [|x [|y [|z l]]]; cbn [length] in L; try lia; reflexivity.
  Qed.
End Stray.
