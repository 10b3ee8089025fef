From Verif Require Import Prelude LayoutModel LayoutSpec.
Local Open Scope N_scope.

(** Elementary mixed-radix facts. *)
Lemma radix_bound x y i j : i < x -> j < y -> j * x + i < x * y.
Proof. intros. nia. Qed.

Lemma radix_mod x i j : i < x -> (j * x + i) mod x = i.
Proof. intros. rewrite N.add_comm, N.mod_add by lia. now apply N.mod_small. Qed.

Lemma radix_div x i j : i < x -> (j * x + i) / x = j.
Proof.
  intros. rewrite N.div_add_l by lia. rewrite N.div_small by auto. lia.
Qed.

Lemma le_mul a b : b <> 0 -> a <= a * b.
Proof. intros. nia. Qed.

Lemma mat2_index_ok x y i j :
  x * y < two64 -> i < x -> j < y ->
  exists k, mat2_index x y i j = Some k /\ k < mat2_size x y /\ k mod x = i /\ k / x = j.
Proof.
  intros Hs Hi Hj.
  pose proof (radix_bound x y i j Hi Hj) as Hb.
  exists (j * x + i). unfold mat2_index, mat2_size.
  rewrite (proj2 (N.ltb_lt i x) Hi), (proj2 (N.ltb_lt j y) Hj). cbn [andb].
  rewrite (w64_small (j * x)) by nia. rewrite (w64_small (j * x + i)) by lia.
  rewrite (w64_small (x * y)) by lia.
  repeat split; auto using radix_mod, radix_div.
Qed.

Lemma mat2_index_onto x y k :
  x * y < two64 -> k < mat2_size x y ->
  k mod x < x /\ k / x < y /\ mat2_index x y (k mod x) (k / x) = Some k.
Proof.
  intros Hs Hk. unfold mat2_size in Hk. rewrite w64_small in Hk by auto.
  assert (Hx : x <> 0) by nia.
  pose proof (N.mod_lt k x Hx) as H1.
  assert (H2 : k / x < y) by (apply N.div_lt_upper_bound; lia).
  pose proof (N.div_mod k x Hx) as E.
  split; [auto|split;[auto|]].
  unfold mat2_index.
  rewrite (proj2 (N.ltb_lt _ x) H1), (proj2 (N.ltb_lt _ y) H2). cbn [andb].
  rewrite (w64_small (k / x * x)) by nia.
  rewrite w64_small by nia. f_equal. lia.
Qed.

Lemma index3_ok ng nv nc g v c :
  ng * nv * nc < two64 -> g < ng -> v < nv -> c < nc ->
  exists k, index3 ng nv nc g v c = Some k /\ k < size3 ng nv nc /\
    k mod ng = g /\ (k / ng) mod nv = v /\ k / (ng * nv) = c.
Proof.
  intros Hs Hg Hv Hc.
  pose proof (radix_bound nv nc v c Hv Hc) as B1.
  pose proof (radix_bound ng (nv * nc) g (c * nv + v) Hg B1) as B2.
  exists ((c * nv + v) * ng + g). unfold index3, size3.
  rewrite (proj2 (N.ltb_lt _ _) Hg), (proj2 (N.ltb_lt _ _) Hv), (proj2 (N.ltb_lt _ _) Hc).
  cbn [andb].
  assert (nv * nc <= ng * nv * nc) by nia.
  assert (ng * nv <= ng * nv * nc) by nia.
  rewrite (w64_small (c * nv)) by nia.
  rewrite (w64_small (c * nv + v)) by nia.
  rewrite (w64_small ((c * nv + v) * ng)) by nia.
  rewrite (w64_small ((c * nv + v) * ng + g)) by nia.
  rewrite (w64_small (ng * nv)) by nia.
  rewrite (w64_small (ng * nv * nc)) by nia.
  split; [reflexivity|]. split; [nia|].
  split; [apply radix_mod; auto|].
  rewrite radix_div by auto. split; [apply radix_mod; auto|].
  rewrite <- N.div_div by lia. rewrite radix_div by auto. apply radix_div; auto.
Qed.

Lemma index3_onto ng nv nc k :
  ng * nv * nc < two64 -> k < size3 ng nv nc ->
  exists g v c, g < ng /\ v < nv /\ c < nc /\ index3 ng nv nc g v c = Some k.
Proof.
  intros Hs Hk. unfold size3 in Hk.
  assert (Hng : ng <> 0) by (intros ->; rewrite N.mul_0_l in Hk; cbn in Hk; lia).
  assert (Hnv : nv <> 0) by (intros ->; rewrite N.mul_0_r in Hk; cbn in Hk; lia).
  assert (Hnc : nc <> 0) by (intros ->; rewrite N.mul_0_r in Hk; cbn in Hk; lia).
  rewrite (w64_small (ng * nv)) in Hk by nia.
  rewrite (w64_small (ng * nv * nc)) in Hk by nia.
  pose proof (N.mod_lt k ng Hng) as H1.
  pose proof (N.mod_lt (k / ng) nv Hnv) as H2.
  assert (H3 : k / (ng * nv) < nc) by (apply N.div_lt_upper_bound; lia).
  exists (k mod ng), ((k / ng) mod nv), (k / (ng * nv)).
  do 3 (split; [auto|]).
  destruct (index3_ok ng nv nc _ _ _ Hs H1 H2 H3) as (k' & E & _ & D1 & D2 & D3).
  rewrite E. f_equal.
  rewrite <- N.div_div in D3 by lia. rewrite <- N.div_div in D3 by lia.
  rewrite (N.div_mod k' ng), (N.div_mod k ng) by lia.
  rewrite D1. f_equal. f_equal.
  rewrite (N.div_mod (k' / ng) nv), (N.div_mod (k / ng) nv) by lia.
  rewrite D2, D3. reflexivity.
Qed.

Lemma mat3_index_is_index3 x y z i j k : mat3_index x y z i j k = index3 x y z i j k.
Proof. reflexivity. Qed.

Lemma index4_ok ng nv na nc g v a c :
  ng * nv * na * nc < two64 -> g < ng -> v < nv -> a < na -> c < nc ->
  exists k, index4 ng nv na nc g v a c = Some k /\ k < size4 ng nv na nc /\
    digits4 ng nv na k = (g, v, a, c).
Proof.
  intros Hs Hg Hv Ha Hc.
  pose proof (radix_bound na nc a c Ha Hc) as B1.
  pose proof (radix_bound nv (na * nc) v (c * na + a) Hv B1) as B2.
  pose proof (radix_bound ng (nv * (na * nc)) g ((c * na + a) * nv + v) Hg B2) as B3.
  assert (E4 : ng * (nv * (na * nc)) = ng * nv * na * nc) by lia.
  assert (M1 : nv * (na * nc) <= ng * (nv * (na * nc))) by nia.
  assert (M2 : na * nc <= nv * (na * nc)) by nia.
  assert (M3 : ng * nv * na <= ng * nv * na * nc) by nia.
  assert (M4 : ng * nv <= ng * nv * na) by nia.
  exists (((c * na + a) * nv + v) * ng + g). unfold index4, size4, digits4.
  rewrite (proj2 (N.ltb_lt _ _) Hg), (proj2 (N.ltb_lt _ _) Hv),
    (proj2 (N.ltb_lt _ _) Ha), (proj2 (N.ltb_lt _ _) Hc).
  cbn [andb].
  rewrite (w64_small (c * na)) by lia.
  rewrite (w64_small (c * na + a)) by lia.
  rewrite (w64_small ((c * na + a) * nv)) by lia.
  rewrite (w64_small ((c * na + a) * nv + v)) by lia.
  rewrite (w64_small (((c * na + a) * nv + v) * ng)) by lia.
  rewrite (w64_small (((c * na + a) * nv + v) * ng + g)) by lia.
  rewrite (w64_small (ng * nv)) by lia.
  rewrite (w64_small (ng * nv * na)) by lia.
  rewrite (w64_small (ng * nv * na * nc)) by lia.
  split; [reflexivity|]. split; [lia|].
  rewrite radix_mod by auto.
  rewrite <- (N.div_div _ (ng * nv) na) by nia.
  rewrite <- (N.div_div _ ng nv) by lia.
  rewrite !radix_div by auto. rewrite !radix_mod by auto. reflexivity.
Qed.

Lemma digits4_inj ng nv na k k' :
  ng <> 0 -> nv <> 0 -> na <> 0 ->
  digits4 ng nv na k = digits4 ng nv na k' -> k = k'.
Proof.
  intros Hg Hv Ha E. unfold digits4 in E.
  assert (Hgv : ng * nv <> 0) by nia.
  rewrite <- !(N.div_div _ (ng * nv) na) in E by lia.
  rewrite <- !(N.div_div _ ng nv) in E by lia.
  injection E as E1 E2 E3 E4.
  rewrite (N.div_mod k ng), (N.div_mod k' ng) by lia. rewrite E1. f_equal. f_equal.
  rewrite (N.div_mod (k/ng) nv), (N.div_mod (k'/ng) nv) by lia. rewrite E2. f_equal. f_equal.
  rewrite (N.div_mod (k/ng/nv) na), (N.div_mod (k'/ng/nv) na) by lia. rewrite E3, E4. reflexivity.
Qed.

Lemma size4_eq ng nv na nc : ng * nv * na * nc < two64 -> nc <> 0 ->
  na <> 0 -> size4 ng nv na nc = ng * nv * na * nc.
Proof.
  intros. assert (ng * nv <= ng * nv * na) by (apply le_mul; auto).
  assert (ng * nv * na <= ng * nv * na * nc) by (apply le_mul; auto).
  unfold size4. rewrite (w64_small (ng * nv)) by lia.
  rewrite (w64_small (ng*nv*na)) by lia. apply w64_small; auto.
Qed.

Lemma size4_nonzero ng nv na nc k : k < size4 ng nv na nc ->
  ng <> 0 /\ nv <> 0 /\ na <> 0 /\ nc <> 0.
Proof.
  unfold size4; intros H; repeat split; intros ->;
    repeat (rewrite N.mul_0_l in H || rewrite N.mul_0_r in H || change (w64 0) with 0 in H); lia.
Qed.

Lemma index4_onto ng nv na nc k :
  ng * nv * na * nc < two64 -> k < size4 ng nv na nc ->
  exists g v a c, g < ng /\ v < nv /\ a < na /\ c < nc /\
    index4 ng nv na nc g v a c = Some k.
Proof.
  intros Hs Hk. destruct (size4_nonzero _ _ _ _ _ Hk) as (Hg & Hv & Ha & Hc).
  rewrite size4_eq in Hk by auto.
  assert (Hgv : ng * nv <> 0) by nia. assert (Hgva : ng * nv * na <> 0) by nia.
  pose proof (N.mod_lt k ng Hg) as H1.
  pose proof (N.mod_lt (k / ng) nv Hv) as H2.
  pose proof (N.mod_lt (k / (ng * nv)) na Ha) as H3.
  assert (H4 : k / (ng * nv * na) < nc) by (apply N.div_lt_upper_bound; lia).
  exists (k mod ng), ((k / ng) mod nv), ((k / (ng * nv)) mod na), (k / (ng * nv * na)).
  do 4 (split; [auto|]).
  destruct (index4_ok ng nv na nc _ _ _ _ Hs H1 H2 H3 H4) as (k' & E & _ & D).
  rewrite E. f_equal. apply (digits4_inj ng nv na); auto.
Qed.

Lemma index4_some ng nv na nc g v a c k : index4 ng nv na nc g v a c = Some k ->
  g < ng /\ v < nv /\ a < na /\ c < nc.
Proof.
  unfold index4.
  destruct (N.ltb_spec g ng), (N.ltb_spec v nv), (N.ltb_spec a na), (N.ltb_spec c nc);
    cbn; try discriminate; auto.
Qed.

(** Agreement between buffer and abstract array. *)
Definition agrees {T} ng nv na nc (b : buf T) (m : arr4 T) : Prop :=
  blen b = size4 ng nv na nc /\
  forall g v a c, g < ng -> v < nv -> a < na -> c < nc ->
    read4 ng nv na nc b g v a c = Some (m g v a c).

Lemma agrees_new {T} (z : T) ng nv na nc : ng * nv * na * nc < two64 ->
  agrees ng nv na nc (new4 z ng nv na nc) (fun _ _ _ _ => z).
Proof.
  intros Hs. split; [reflexivity|]. intros.
  destruct (index4_ok ng nv na nc g v a c) as (k & E & B & _); auto.
  unfold read4. rewrite E. unfold buf_read. cbn.
  now rewrite (proj2 (N.ltb_lt _ _) B).
Qed.

Lemma write_at_agrees {T} ng nv na nc (b : buf T) m k x :
  ng * nv * na * nc < two64 -> agrees ng nv na nc b m -> k < size4 ng nv na nc ->
  exists b', buf_write b k x = Some b' /\
    agrees ng nv na nc b' (spec_step ng nv na nc m (WRaw k x)).
Proof.
  intros Hs (Hl & Hr) Hk. unfold buf_write. rewrite Hl.
  rewrite (proj2 (N.ltb_lt _ _) Hk). eexists; split; [reflexivity|].
  split; [reflexivity|]. intros g v a c Hg Hv Ha Hc.
  specialize (Hr g v a c Hg Hv Ha Hc).
  destruct (index4_ok ng nv na nc g v a c) as (k' & E & B & D); auto.
  unfold read4 in *. rewrite E in *. unfold buf_read in *. cbn [blen bget spec_step] in *.
  rewrite Hl in Hr. rewrite (proj2 (N.ltb_lt _ _) B) in *.
  unfold fupdN. destruct (N.eqb_spec k' k) as [->|Hne].
  - rewrite D. rewrite !N.eqb_refl. reflexivity.
  - destruct (digits4 ng nv na k) as [[[g0 v0] a0] c0] eqn:Dk.
    destruct (N.eqb_spec g g0), (N.eqb_spec v v0), (N.eqb_spec a a0), (N.eqb_spec c c0);
      cbn; auto.
    subst. exfalso. apply Hne. apply (digits4_inj ng nv na); try lia. congruence.
Qed.

Lemma step4_agrees {T} ng nv na nc (b : buf T) m o :
  ng * nv * na * nc < two64 -> agrees ng nv na nc b m -> op4_ok ng nv na nc o ->
  exists b', step4 ng nv na nc b o = Some b' /\
    agrees ng nv na nc b' (spec_step ng nv na nc m o).
Proof.
  intros Hs Ha Ho. destruct o as [g v a c x|i x|x]; cbn [op4_ok] in Ho.
  - destruct Ho as (Hg & Hv & Hna & Hc).
    destruct (index4_ok ng nv na nc g v a c) as (k & E & B & D); auto.
    cbn [step4]. rewrite E.
    destruct (write_at_agrees _ _ _ _ b m k x Hs Ha B) as (b' & Eb & Hb).
    exists b'; split; auto.
    unfold agrees in *. destruct Hb as [L R]. split; auto.
    intros. rewrite R by auto. cbn [spec_step]. rewrite D. reflexivity.
  - cbn [step4].
    assert (B : i < size4 ng nv na nc) by (rewrite size4_eq; nia).
    rewrite (proj2 (N.ltb_lt _ _) B). apply write_at_agrees; auto.
  - cbn [step4]. eexists; split; [reflexivity|].
    destruct Ha as [Hl Hr]. split; [exact Hl|]. intros.
    destruct (index4_ok ng nv na nc g v a c) as (k & E & B & D); auto.
    unfold read4. rewrite E. unfold buf_read. cbn. rewrite Hl.
    now rewrite (proj2 (N.ltb_lt _ _) B).
Qed.

Lemma run4_agrees {T} ng nv na nc (l : list (op4 T)) : forall b m,
  ng * nv * na * nc < two64 -> agrees ng nv na nc b m ->
  Forall (op4_ok ng nv na nc) l ->
  exists b', run4 ng nv na nc b l = Some b' /\
    agrees ng nv na nc b' (fold_left (spec_step ng nv na nc) l m).
Proof.
  induction l as [|o l IH]; intros b m Hs Ha Hf.
  - exists b; split; auto.
  - inversion Hf; subst.
    destruct (step4_agrees ng nv na nc b m o Hs Ha H1) as (b1 & E1 & A1).
    destruct (IH b1 _ Hs A1 H2) as (b2 & E2 & A2).
    exists b2. split; [|exact A2]. cbn [run4]. now rewrite E1.
Qed.

Lemma history4 {T} (z : T) ng nv na nc (l : list (op4 T)) :
  ng * nv * na * nc < two64 -> Forall (op4_ok ng nv na nc) l ->
  exists b, run4 ng nv na nc (new4 z ng nv na nc) l = Some b /\
    forall g v a c, g < ng -> v < nv -> a < na -> c < nc ->
      read4 ng nv na nc b g v a c =
      Some (fold_left (spec_step ng nv na nc) l (fun _ _ _ _ => z) g v a c).
Proof.
  intros Hs Hf.
  destruct (run4_agrees ng nv na nc l _ _ Hs (agrees_new z ng nv na nc Hs) Hf) as (b & E & A).
  exists b; split; [exact E|]. apply A.
Qed.

Lemma layout4 ng nv na nc : ng * nv * na * nc < two64 ->
  (forall g v a c, g < ng -> v < nv -> a < na -> c < nc ->
     exists k, index4 ng nv na nc g v a c = Some k /\ k < size4 ng nv na nc) /\
  (forall g v a c g' v' a' c' k,
     index4 ng nv na nc g v a c = Some k -> index4 ng nv na nc g' v' a' c' = Some k ->
     (g, v, a, c) = (g', v', a', c')) /\
  (forall k, k < size4 ng nv na nc ->
     exists g v a c, index4 ng nv na nc g v a c = Some k) /\
  (forall g v a c, ~ (g < ng /\ v < nv /\ a < na /\ c < nc) ->
     index4 ng nv na nc g v a c = None).
Proof.
  intros Hs. split; [|split; [|split]].
  - intros. destruct (index4_ok ng nv na nc g v a c) as (k & E & B & _); eauto.
  - intros * E1 E2.
    destruct (index4_some _ _ _ _ _ _ _ _ _ E1) as (?&?&?&?).
    destruct (index4_some _ _ _ _ _ _ _ _ _ E2) as (?&?&?&?).
    destruct (index4_ok ng nv na nc g v a c) as (k1 & F1 & _ & D1); auto.
    destruct (index4_ok ng nv na nc g' v' a' c') as (k2 & F2 & _ & D2); auto.
    rewrite E1 in F1; rewrite E2 in F2. congruence.
  - intros. destruct (index4_onto ng nv na nc k) as (g & v & a & c & ?&?&?&?& E); auto.
    exists g, v, a, c; auto.
  - intros. destruct (index4 ng nv na nc g v a c) eqn:E; auto.
    apply index4_some in E. tauto.
Qed.

Lemma layout3 ng nv nc : ng * nv * nc < two64 ->
  (forall g v c, g < ng -> v < nv -> c < nc ->
     exists k, index3 ng nv nc g v c = Some k /\ k < size3 ng nv nc) /\
  (forall g v c g' v' c' k,
     index3 ng nv nc g v c = Some k -> index3 ng nv nc g' v' c' = Some k ->
     (g, v, c) = (g', v', c')) /\
  (forall k, k < size3 ng nv nc -> exists g v c, index3 ng nv nc g v c = Some k) /\
  (forall g v c, ~ (g < ng /\ v < nv /\ c < nc) -> index3 ng nv nc g v c = None).
Proof.
  intros Hs.
  assert (Hsome : forall g v c k, index3 ng nv nc g v c = Some k -> g < ng /\ v < nv /\ c < nc).
  { intros * E. unfold index3 in E.
    destruct (N.ltb_spec g ng), (N.ltb_spec v nv), (N.ltb_spec c nc); cbn in E; try discriminate; auto. }
  split; [|split; [|split]].
  - intros. destruct (index3_ok ng nv nc g v c) as (k & E & B & _); eauto.
  - intros * E1 E2.
    destruct (Hsome _ _ _ _ E1) as (?&?&?). destruct (Hsome _ _ _ _ E2) as (?&?&?).
    destruct (index3_ok ng nv nc g v c) as (k1 & F1 & _ & A1 & A2 & A3); auto.
    destruct (index3_ok ng nv nc g' v' c') as (k2 & F2 & _ & B1 & B2 & B3); auto.
    rewrite E1 in F1; rewrite E2 in F2. congruence.
  - intros. destruct (index3_onto ng nv nc k) as (g & v & c & ?&?&?& E); auto.
    exists g, v, c; auto.
  - intros. destruct (index3 ng nv nc g v c) eqn:E; auto. apply Hsome in E. tauto.
Qed.

Lemma layout2 x y : x * y < two64 ->
  (forall i j, i < x -> j < y -> exists k, mat2_index x y i j = Some k /\ k < mat2_size x y) /\
  (forall i j i' j' k, mat2_index x y i j = Some k -> mat2_index x y i' j' = Some k ->
     (i, j) = (i', j')) /\
  (forall k, k < mat2_size x y -> exists i j, mat2_index x y i j = Some k) /\
  (forall i j, ~ (i < x /\ j < y) -> mat2_index x y i j = None).
Proof.
  intros Hs.
  assert (Hsome : forall i j k, mat2_index x y i j = Some k -> i < x /\ j < y).
  { intros * E. unfold mat2_index in E.
    destruct (N.ltb_spec i x), (N.ltb_spec j y); cbn in E; try discriminate; auto. }
  split; [|split; [|split]].
  - intros. destruct (mat2_index_ok x y i j) as (k & E & B & _); eauto.
  - intros * E1 E2.
    destruct (Hsome _ _ _ E1). destruct (Hsome _ _ _ E2).
    destruct (mat2_index_ok x y i j) as (k1 & F1 & _ & A1 & A2); auto.
    destruct (mat2_index_ok x y i' j') as (k2 & F2 & _ & B1 & B2); auto.
    rewrite E1 in F1; rewrite E2 in F2. congruence.
  - intros. destruct (mat2_index_onto x y k) as (?&?&?); eauto.
  - intros. destruct (mat2_index x y i j) eqn:E; auto. apply Hsome in E. tauto.
Qed.

(** Without the size bound the product of the extents wraps and an in-range
    index leaves the allocated block. *)
Lemma layout4_wraps :
  exists ng nv na nc g v a c k,
    g < ng /\ v < nv /\ a < na /\ c < nc /\ ng < two64 /\ nv < two64 /\ na < two64 /\ nc < two64 /\
    index4 ng nv na nc g v a c = Some k /\ size4 ng nv na nc <= k.
Proof.
  exists 2, 4, 8, (2^58), 0, 0, 0, 1.
  eexists. vm_compute. repeat split; reflexivity || (intro; discriminate).
Qed.
