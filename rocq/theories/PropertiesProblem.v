(** The test problem: C47, C48, C49. *)
From Coq Require Import Reals Lra Permutation.
From Verif Require Import Prelude Bytes MeshModel MeshSpec CreateModel CreateSpec TychoModel TychoSpec FluxModel FluxSpec FluxProofs ProblemModel ProblemSpec.
From Verif Require PropertiesCreate PropertiesTycho TychoMeshProofs.
Local Open Scope R_scope.

(** ** Cross sections *)
Theorem C47_materials : forall (T : Type) mats (t1 s1 t2 s2 : T) sT sS,
  createCrossSections mats t1 s1 t2 s2 = Some (sT, sS) ->
  length sT = length mats /\ length sS = length mats /\
  forall c, (nth_error mats c = Some 1%N -> nth_error sT c = Some t1 /\ nth_error sS c = Some s1) /\
            (nth_error mats c = Some 2%N -> nth_error sT c = Some t2 /\ nth_error sS c = Some s2).
Proof.
  intros T mats t1 s1 t2 s2 sT sS H. unfold createCrossSections in H. destruct (mapM _ mats) as [l|] eqn:E; [|discriminate]. injection H as <- <-.
  rewrite !map_length. pose proof (mapM_length _ _ _ E) as L. split; auto. split; auto.
  assert (K : forall c m, nth_error mats c = Some m -> exists p, nth_error l c = Some p /\ crossSection t1 s1 t2 s2 m = Some p).
  { intros c m Hm. destruct (nth_error l c) as [p|] eqn:Ep. 2:{ apply nth_error_None in Ep. assert (nth_error mats c <> None) as Q by congruence. apply nth_error_Some in Q. lia. }
    destruct (mapM_nth _ _ _ _ _ E Ep) as (m' & Hm' & Hp). rewrite Hm in Hm'. injection Hm' as <-. eauto. }
  intros c. rewrite !nth_error_map. split; intros Hm; destruct (K c _ Hm) as (p & -> & Hp); cbn in Hp; injection Hp as <-; auto.
Qed.
Print Assumptions C47_materials.

(** The run goes on exactly when every material is 1 or 2. *)
Theorem C47_aborts : forall (T : Type) mats (t1 s1 t2 s2 : T),
  createCrossSections mats t1 s1 t2 s2 <> None <-> Forall (fun m => m = 1%N \/ m = 2%N) mats.
Proof.
  intros T mats t1 s1 t2 s2. unfold createCrossSections. split.
  - intros H. destruct (mapM _ mats) as [l|] eqn:E; [|congruence]. apply Forall_forall. intros m Hm.
    destruct (mapM_in _ _ _ m E Hm) as (p & Hp & _). unfold crossSection in Hp.
    destruct (N.eqb_spec m 1); auto. destruct (N.eqb_spec m 2); auto. discriminate.
  - intros F. rewrite Forall_forall in F.
    rewrite (mapM_some _ (fun m => if (m =? 1)%N then (t1, s1) else (t2, s2))); [discriminate|].
    intros m Hm. unfold crossSection. destruct (F m Hm) as [->| ->]; reflexivity.
Qed.
Print Assumptions C47_aborts.

(** From the serial mesh: whatever the partition, the cross sections of a local cell are those
    of the material its global cell has in the mesh file. *)
Theorem C47_serial : forall (T : Type) ltb sm pv np m p P t (t1 s1 t2 s2 : T) sT sS c g sc, serial_mesh_ok sm -> partition_vector_ok sm pv np ->
  createFromSerialMesh sm pv np = Some m -> PM_part m p = Some P -> readTychoMesh ltb P p = Some t ->
  createCrossSections (tm_material t) t1 s1 t2 s2 = Some (sT, sS) ->
  getLGCell t c = Some g -> SM_cell sm g = Some sc ->
  (sc_mat sc = 1%N -> nth_error sT c = Some t1 /\ nth_error sS c = Some s1) /\
  (sc_mat sc = 2%N -> nth_error sT c = Some t2 /\ nth_error sS c = Some s2).
Proof.
  intros T ltb sm pv np m p P t t1 s1 t2 s2 sT sS c g sc OK PV CR HP RT CS LG SC.
  destruct (PropertiesCreate.C11_partition_total sm pv np OK PV) as (m' & E & _ & _ & _ & _ & K). rewrite CR in E. injection E as <-.
  unfold readTychoMesh in RT. destruct (adjLoop P); [|discriminate]. cbn [obind] in RT. destruct (sideLoop P _); [|discriminate]. cbn [obind] in RT.
  destruct (procLoop P _ p); [|discriminate]. cbn [obind] in RT. destruct (vrtxLoop ltb P _) as [(ftc, ctf)|]; [|discriminate]. cbn [obind] in RT. injection RT as <-.
  unfold getLGCell in LG. cbn [tm_lGCells tm_material] in *. rewrite nth_error_map in LG. destruct (nth_error (pt_cells P) c) as [C|] eqn:EC; [|discriminate].
  cbn in LG. injection LG as <-. destruct (K p P C HP (nth_error_In _ _ EC)) as (_ & sc' & SC' & MT & _). rewrite SC in SC'. injection SC' as <-.
  rewrite <- MT. destruct (C47_materials T _ t1 s1 t2 s2 sT sS CS) as (_ & _ & Q). specialize (Q c). rewrite nth_error_map, EC in Q. cbn [option_map] in Q.
  split; intros M; apply Q; now rewrite M.
Qed.
Print Assumptions C47_serial.

Example C47_ex : createCrossSections [1; 2; 1]%N 10 1 20 2 = Some ([10; 20; 10], [1; 2; 1]) /\ createCrossSections [1; 3]%N 10 1 20 2 = None.
Proof. split; reflexivity. Qed.

(** ** The source of the hat *)
Lemma radius_mul x y z : sqrt ((x - cubeSize / 2) * (x - cubeSize / 2) + (y - cubeSize / 2) * (y - cubeSize / 2) + (z - cubeSize / 2) * (z - cubeSize / 2)) = radius x y z.
Proof. unfold radius, cubeSize. f_equal. field. Qed.

Lemma radius_nonneg x y z : 0 <= radius x y z. Proof. apply sqrt_pos. Qed.
Lemma radius_sq x y z : radius x y z * radius x y z = (x - 50)^2 + (y - 50)^2 + (z - 50)^2.
Proof. unfold radius. apply sqrt_sqrt. pose proof (pow2_ge_0 (x - 50)). pose proof (pow2_ge_0 (y - 50)). pose proof (pow2_ge_0 (z - 50)). lra. Qed.

(** The radius along a line through a point other than the centre. *)
Lemma radius_along x y z xi eta mu : radius x y z <> 0 ->
  derivable_pt_lim (fun s => radius (x + s * xi) (y + s * eta) (z + s * mu)) 0
    (((x - 50) * xi + (y - 50) * eta + (z - 50) * mu) / radius x y z).
Proof.
  intros NZ. assert (P : 0 < radius x y z) by (pose proof (radius_nonneg x y z); lra).
  set (q := fun s => (x + s * xi - 50)^2 + (y + s * eta - 50)^2 + (z + s * mu - 50)^2).
  assert (Q0 : q 0 = (x - 50)^2 + (y - 50)^2 + (z - 50)^2) by (unfold q; ring).
  assert (Dq : derivable_pt_lim q 0 (2 * ((x - 50) * xi + (y - 50) * eta + (z - 50) * mu))).
  { set (A := (x - 50)^2 + (y - 50)^2 + (z - 50)^2). set (B := 2 * ((x - 50) * xi + (y - 50) * eta + (z - 50) * mu)). set (C := xi^2 + eta^2 + mu^2).
    apply (derivable_pt_lim_ext (fun s => A + (B * s + C * (s * s)))). { intros s. unfold q, A, B, C. ring. }
    assert (D : derivable_pt_lim (fct_cte A + (mult_real_fct B id + mult_real_fct C (id * id)))%F 0 (0 + (B * 1 + C * (1 * id 0 + id 0 * 1)))).
    { apply derivable_pt_lim_plus; [apply derivable_pt_lim_const|]. apply derivable_pt_lim_plus; apply derivable_pt_lim_scal; [apply derivable_pt_lim_id|].
      apply derivable_pt_lim_mult; apply derivable_pt_lim_id. }
    replace (0 + (B * 1 + C * (1 * id 0 + id 0 * 1))) with B in D by (unfold id; ring). exact D. }
  assert (Ds : derivable_pt_lim sqrt (q 0) (/ (2 * sqrt (q 0)))).
  { apply derivable_pt_lim_sqrt. rewrite Q0, <- radius_sq. now apply Rmult_lt_0_compat. }
  assert (SQ : sqrt (q 0) = radius x y z) by (rewrite Q0; reflexivity).
  pose proof (derivable_pt_lim_comp q sqrt 0 _ _ Dq Ds) as D. rewrite SQ in D.
  replace (((x - 50) * xi + (y - 50) * eta + (z - 50) * mu) / radius x y z)
    with (/ (2 * radius x y z) * (2 * ((x - 50) * xi + (y - 50) * eta + (z - 50) * mu))) by (field; auto).
  exact D.
Qed.

Lemma near f l r : derivable_pt_lim f 0 l -> f 0 < r \/ r < f 0 -> exists d, 0 < d /\ forall s, - d < s < d -> (f 0 < r -> f s < r) /\ (r < f 0 -> r < f s).
Proof.
  intros D NE. assert (C : continuity_pt f 0) by (apply derivable_continuous_pt; exists l; exact D).
  assert (E : 0 < Rabs (f 0 - r)) by (apply Rabs_pos_lt; lra).
  destruct (C (Rabs (f 0 - r)) E) as (d & Pd & K). exists d. split; auto. intros s Hs.
  destruct (Req_dec s 0) as [->|Ns]; [tauto|].
  specialize (K s). assert (H : Rabs (f s - f 0) < Rabs (f 0 - r)).
  { apply K. split. { split; [exact I|]. lra. } cbn. unfold R_dist. rewrite Rminus_0_r. apply Rabs_def1; lra. }
  destruct NE; [rewrite (Rabs_left (f 0 - r)) in H by lra|rewrite (Rabs_pos_eq (f 0 - r)) in H by lra]; apply Rabs_def2 in H; split; lra.
Qed.

(** The derivative of the hat away from centre and kink. *)
Lemma hat_along p om : rad p <> 0 -> rad p <> 30 ->
  along hat p om (if Rle_dec (rad p) 30 then - (((t0 p - 50) * t0 om + (t1 p - 50) * t1 om + (t2 p - 50) * t2 om) / (30 * rad p)) else 0).
Proof.
  intros NZ NK. unfold along. pose proof (radius_along (t0 p) (t1 p) (t2 p) (t0 om) (t1 om) (t2 om) NZ) as D.
  set (f := fun s => radius (t0 p + s * t0 om) (t1 p + s * t1 om) (t2 p + s * t2 om)) in *.
  assert (F0 : f 0 = rad p) by (unfold f, rad; f_equal; ring).
  destruct (near f _ 30 D) as (d & Pd & K). { rewrite F0. lra. } rewrite F0 in K.
  destruct (Rle_dec (rad p) 30) as [L|L].
  - apply (derivable_pt_lim_locally_ext (fun s => 1 - / 30 * f s) _ 0 (- d) d); [lra| |].
    { intros s Hs. unfold hat. fold (f s). destruct (K s Hs) as (K1 & _). specialize (K1 ltac:(lra)). rewrite Rmax_right; [lra|]. lra. }
    fold (rad p) in D.
    replace (- (((t0 p - 50) * t0 om + (t1 p - 50) * t1 om + (t2 p - 50) * t2 om) / (30 * rad p)))
      with (0 - / 30 * (((t0 p - 50) * t0 om + (t1 p - 50) * t1 om + (t2 p - 50) * t2 om) / rad p)) by (field; auto).
    apply derivable_pt_lim_minus; [apply derivable_pt_lim_const|]. now apply derivable_pt_lim_scal.
  - apply (derivable_pt_lim_locally_ext (fun _ => 0) _ 0 (- d) d); [lra| |apply derivable_pt_lim_const].
    intros s Hs. unfold hat. fold (f s). destruct (K s Hs) as (_ & K2). specialize (K2 ltac:(lra)). rewrite Rmax_left; [reflexivity|]. lra.
Qed.

Lemma hatSource_eq pos om sT sS nA nG nC src c a v g : (c < nC)%nat -> (a < nA)%nat -> (v < 4)%nat -> (g < nG)%nat ->
  hatSource pos om sT sS nA nG nC src c a v g = hatValue pos om sT sS c a v.
Proof.
  intros Hc Ha Hv Hg.
  set (new := fun (x : option R) (k : nat * nat * nat * nat) => let '(c, a, v, g) := k in hatValue pos om sT sS c a v).
  transitivity (at4 (fold_left (fun e k => put4 e k (new (at4 e k) k)) (quad nA nG nC) src) (c, a, v, g)).
  { unfold hatSource. cbn [at4]. rewrite (fold_ext _ (fun e k => put4 e k (new (at4 e k) k))); [reflexivity|]. intros e [[[c' a'] v'] g']. reflexivity. }
  rewrite (loop_entry at4 key4 put4 new put4_at key4_at), quad_key4. unfold inside.
  destruct (Nat.ltb_spec c nC); [|lia]. destruct (Nat.ltb_spec v 4); [|lia]. destruct (Nat.ltb_spec g nG); [|lia]. destruct (Nat.ltb_spec a nA); [|lia]. reflexivity.
Qed.

(** Away from the centre and the kink the source is the transport operator applied to the hat:
    derivative along the direction, plus sigma_t times the hat, minus the scattering sum (weights
    summing to 4 pi) of the isotropic hat. *)
Theorem C48_residual : forall pos om sT sS nA nG nC src wt c a v g, (c < nC)%nat -> (a < nA)%nat -> (v < 4)%nat -> (g < nG)%nat ->
  overAngles nA wt (fun _ => 1) = 4 * PI -> rad (pos c v) <> 0 -> rad (pos c v) <> 30 ->
  exists D, along hat (pos c v) (om a) D /\
    hatSource pos om sT sS nA nG nC src c a v g =
    Some (D + sT c * hatAt (pos c v) - sS c / (4 * PI) * overAngles nA wt (fun _ => hatAt (pos c v))).
Proof.
  intros pos om sT sS nA nG nC src wt c a v g Hc Ha Hv Hg W NZ NK.
  eexists. split; [apply hat_along; auto|]. rewrite hatSource_eq by auto. unfold hatValue. rewrite radius_mul. fold (rad (pos c v)).
  assert (O : overAngles nA wt (fun _ => hatAt (pos c v)) = 4 * PI * hatAt (pos c v)).
  { rewrite <- W. unfold overAngles. induction (seq 0 nA) as [|b l IH]; cbn; [lra|]. unfold lsum in IH. rewrite IH. ring. }
  rewrite O. pose proof PI_RGT_0.
  destruct (Rle_dec (rad (pos c v)) 30) as [L|L].
  - unfold rdiv. destruct (Req_EM_T (30 * rad (pos c v)) 0) as [E|_]. { exfalso. apply NZ. lra. } cbn [obind]. f_equal.
    unfold hatAt, hat. fold (rad (pos c v)). rewrite Rmax_right by lra. unfold cubeSize. field. split; [lra|auto].
  - f_equal. unfold hatAt, hat. fold (rad (pos c v)). rewrite Rmax_left by lra. field. lra.
Qed.
Print Assumptions C48_residual.

(** The error measure is zero exactly when every cell average is the hat at the centroid. *)
Lemma average_mean f : average f = mean f.
Proof. unfold average, sum4, mean. cbn. f_equal. ring. Qed.
Lemma actual_hat pos c : psiActual pos c = hatAt (centroid (pos c)).
Proof.
  unfold psiActual. rewrite !average_mean.
  assert (M : forall f : nat -> R, mean (fun v => f v - cubeSize / 2) = mean f - cubeSize / 2) by (intros; unfold mean, cubeSize; field).
  rewrite !M, radius_mul. unfold hatAt, hat, centroid. cbn [t0 t1 t2]. set (r := radius _ _ _). destruct (Rle_dec r 30); [rewrite Rmax_right|rewrite Rmax_left]; lra.
Qed.
Lemma sq_sum_zero {X} (l : list X) (f : X -> R) a b : 0 <= b ->
  0 <= snd (fold_left (fun s k => (a s k, snd s + f k * f k)) l (0, b)) /\
  (snd (fold_left (fun (s : R * R) k => (a s k, snd s + f k * f k)) l (0, b)) = 0 <-> b = 0 /\ forall k, In k l -> f k = 0).
Proof.
  enough (G : forall n, 0 <= b -> 0 <= snd (fold_left (fun (s : R * R) k => (a s k, snd s + f k * f k)) l (n, b)) /\
    (snd (fold_left (fun (s : R * R) k => (a s k, snd s + f k * f k)) l (n, b)) = 0 <-> b = 0 /\ forall k, In k l -> f k = 0)) by apply G.
  revert b. induction l as [|k l IH]; intros b n B; cbn [fold_left snd].
  - split; auto. split; [intros ->; split; [auto|intros ? []]|tauto].
  - pose proof (Rle_0_sqr (f k)) as S. unfold Rsqr in S. destruct (IH (b + f k * f k) (a (n, b) k)) as (I1 & I2); [lra|].
    split; auto. rewrite I2. split.
    + intros (E & K). assert (b = 0) by lra. split; auto. intros k' [<-|Hk]; auto. assert (Z : f k * f k = 0) by lra. now apply Rmult_integral in Z as [?|?].
    + intros (-> & K). rewrite (K k (or_introl eq_refl)). split; [ring|]. intros; apply K; now right.
Qed.
Lemma sums_zero pos nA nG nC psi : 0 <= snd (hatSums pos nA nG nC psi) /\
  (snd (hatSums pos nA nG nC psi) = 0 <-> forall c a g, (c < nC)%nat -> (a < nA)%nat -> (g < nG)%nat -> mean (fun v => psi c a v g) = hatAt (centroid (pos c))).
Proof.
  pose proof (sq_sum_zero (list_prod (list_prod (seq 0 nC) (seq 0 nA)) (seq 0 nG))
    (fun k => let '(c, a, g) := k in average (fun v => psi c a v g) - psiActual pos c)
    (fun s k => let '(c, a, g) := k in fst s + average (fun v => psi c a v g) * average (fun v => psi c a v g)) 0 (Rle_refl 0)) as (K1 & K2).
  unfold hatSums.
  rewrite (fold_ext _ (fun (s : R * R) (k : nat * nat * nat) => ((let '(c, a, g) := k in fst s + average (fun v => psi c a v g) * average (fun v => psi c a v g)),
    snd s + (let '(c, a, g) := k in average (fun v => psi c a v g) - psiActual pos c) * (let '(c, a, g) := k in average (fun v => psi c a v g) - psiActual pos c)))).
  2:{ intros s [[c a] g]. reflexivity. }
  split; [exact K1|]. rewrite K2. split.
  - intros (_ & K) c a g Hc Ha Hg. specialize (K (c, a, g)). cbv beta iota in K. rewrite average_mean, actual_hat in K.
    assert (I : In (c, a, g) (list_prod (list_prod (seq 0 nC) (seq 0 nA)) (seq 0 nG))).
    { apply in_prod; [apply in_prod|]; apply in_seq; lia. }
    specialize (K I). lra.
  - intros K. split; auto. intros [[c a] g] I. apply in_prod_iff in I as (I & Ig). apply in_prod_iff in I as (Ic & Ia). apply in_seq in Ic, Ia, Ig.
    rewrite average_mean, actual_hat, K by lia. ring.
Qed.
Theorem C48_error_zero : forall nR pos nA nG nC psi e, hatL2Error nR pos nA nG nC psi = Some e ->
  0 <= e /\ (e = 0 <-> forall r c a g, (r < nR)%nat -> (c < nC r)%nat -> (a < nA)%nat -> (g < nG)%nat ->
    mean (fun v => psi r c a v g) = hatAt (centroid (pos r c))).
Proof.
  intros nR pos nA nG nC psi e H. unfold hatL2Error, rdiv in H. cbn zeta in H.
  set (norm := fold_right (fun r s => fst (hatSums (pos r) nA nG (nC r) (psi r)) + s) 0 (seq 0 nR)) in *.
  set (diff := fold_right (fun r s => snd (hatSums (pos r) nA nG (nC r) (psi r)) + s) 0 (seq 0 nR)) in *.
  destruct (Req_EM_T norm 0) as [|NZ]; [discriminate|]. cbn [obind] in H. injection H as <-.
  split; [apply sqrt_pos|].
  assert (N0 : 0 <= norm).
  { unfold norm. clear. induction (seq 0 nR) as [|r l IH]; cbn; [lra|]. assert (0 <= fst (hatSums (pos r) nA nG (nC r) (psi r))); [|lra].
    unfold hatSums. assert (G : forall (l : list (nat * nat * nat)) (s : R * R), 0 <= fst s -> 0 <= fst (fold_left (fun s k => let '(c, a, g) := k in
       (fst s + average (fun v => psi r c a v g) * average (fun v => psi r c a v g), snd s + (average (fun v => psi r c a v g) - psiActual (pos r) c) * (average (fun v => psi r c a v g) - psiActual (pos r) c))) l s)).
    { induction l0 as [|[[c a] g] l0 IHl]; intros s Hs; cbn [fold_left]; auto. apply IHl. cbn [fst]. pose proof (Rle_0_sqr (average (fun v => psi r c a v g))) as Q. unfold Rsqr in Q. lra. }
    apply G. cbn. lra. }
  assert (D : 0 <= diff /\ (diff = 0 <-> forall r c a g, In r (seq 0 nR) -> (c < nC r)%nat -> (a < nA)%nat -> (g < nG)%nat -> mean (fun v => psi r c a v g) = hatAt (centroid (pos r c)))).
  { unfold diff. clear. induction (seq 0 nR) as [|r l (I1 & I2)]; cbn [fold_right]. { split; [lra|]. split; auto. intros _ ? ? ? ? []. }
    destruct (sums_zero (pos r) nA nG (nC r) (psi r)) as (S1 & S2). split; [lra|]. split.
    - intros E. assert (E1 : snd (hatSums (pos r) nA nG (nC r) (psi r)) = 0) by lra. assert (E2 : fold_right (fun r s => snd (hatSums (pos r) nA nG (nC r) (psi r)) + s) 0 l = 0) by lra.
      intros r' c a g [<-|Hr] Hc Ha Hg; [now apply S2|]. now apply I2.
    - intros K. apply Rplus_eq_R0 || idtac. assert (E1 : snd (hatSums (pos r) nA nG (nC r) (psi r)) = 0) by (apply S2; intros; apply K; auto; now left).
      assert (E2 : fold_right (fun r s => snd (hatSums (pos r) nA nG (nC r) (psi r)) + s) 0 l = 0) by (apply I2; intros; apply K; auto; now right). lra. }
  destruct D as (D0 & DZ).
  assert (E : sqrt (diff / norm) = 0 <-> diff = 0).
  { split.
    - intros E. apply sqrt_eq_0 in E. 2:{ unfold Rdiv. apply Rmult_le_pos; auto. left. apply Rinv_0_lt_compat. lra. }
      unfold Rdiv in E. apply Rmult_integral in E as [E|E]; auto. exfalso. apply (Rinv_neq_0_compat norm NZ E).
    - intros ->. unfold Rdiv. rewrite Rmult_0_l. apply sqrt_0. }
  rewrite E, DZ. split; intros K r c a g Hr; apply K; [apply in_seq; lia|apply in_seq in Hr; lia].
Qed.
Print Assumptions C48_error_zero.

(** ** Not met: the source at the centre *)
Theorem C49_centre_refuted : forall pos om sT sS nA nG nC src c a v g, (c < nC)%nat -> (a < nA)%nat -> (v < 4)%nat -> (g < nG)%nat ->
  (hatSource pos om sT sS nA nG nC src c a v g = None <-> pos c v = Q3 50 50 50).
Proof.
  intros pos om sT sS nA nG nC src c a v g Hc Ha Hv Hg. rewrite hatSource_eq by auto. unfold hatValue. rewrite radius_mul. fold (rad (pos c v)).
  assert (Z : rad (pos c v) = 0 <-> pos c v = Q3 50 50 50).
  { unfold rad, radius. split.
    - intros E. pose proof (radius_sq (t0 (pos c v)) (t1 (pos c v)) (t2 (pos c v))) as Q. unfold radius in Q. rewrite E in Q.
      pose proof (pow2_ge_0 (t0 (pos c v) - 50)). pose proof (pow2_ge_0 (t1 (pos c v) - 50)). pose proof (pow2_ge_0 (t2 (pos c v) - 50)).
      assert (Z : forall x, (x - 50)^2 = 0 -> x = 50) by (intros x Ex; cbn in Ex; rewrite Rmult_1_r in Ex; apply Rmult_integral in Ex; lra).
      destruct (pos c v) as [x y z]. cbn [t0 t1 t2] in *. rewrite (Z x), (Z y), (Z z) by lra. reflexivity.
    - intros ->. cbn [t0 t1 t2]. replace ((50 - 50)^2 + (50 - 50)^2 + (50 - 50)^2) with 0 by ring. apply sqrt_0. }
  fold (rad (pos c v)). rewrite <- Z. clear Z. generalize (rad (pos c v)). intros d. destruct (Rle_dec d 30) as [L|L].
  - unfold rdiv. destruct (Req_EM_T (30 * d) 0) as [E|E]; cbn [obind].
    + split; auto. intros _. lra.
    + split; [discriminate|]. intros E'. elim E. rewrite E'. ring.
  - split; [discriminate|]. intros ->. lra.
Qed.
Print Assumptions C49_centre_refuted.

(** A tetrahedron with a vertex at the centre, one inside the hat, one outside. *)
Definition C48_pos (c v : nat) : q3 R := match v with 0%nat => Q3 50 50 50 | 1%nat => Q3 65 50 50 | 2%nat => Q3 50 90 50 | _ => Q3 50 50 60 end.
Lemma rad_axis d : 0 <= d -> radius (50 + d) 50 50 = d /\ radius 50 (50 + d) 50 = d.
Proof.
  intros H. unfold radius. split; (match goal with |- sqrt ?e = _ => replace e with (d * d) by ring end); now apply sqrt_square.
Qed.
Example C48_ex : rad (C48_pos 0 1) = 15 /\ rad (C48_pos 0 2) = 40 /\
  hatSource C48_pos (fun _ => Q3 1 0 0) (fun _ => 3) (fun _ => 1) 1 1 1 (fun _ _ _ _ => None) 0 0 1 0 = Some (- / 30 + 1) /\
  hatSource C48_pos (fun _ => Q3 1 0 0) (fun _ => 3) (fun _ => 1) 1 1 1 (fun _ _ _ _ => None) 0 0 2 0 = Some 0 /\
  hatSource C48_pos (fun _ => Q3 1 0 0) (fun _ => 3) (fun _ => 1) 1 1 1 (fun _ _ _ _ => None) 0 0 0 0 = None.
Proof.
  assert (R1 : rad (C48_pos 0 1) = 15). { unfold rad. cbn [C48_pos t0 t1 t2]. replace 65 with (50 + 15) by ring. apply rad_axis; lra. }
  assert (R2 : rad (C48_pos 0 2) = 40). { unfold rad. cbn [C48_pos t0 t1 t2]. replace 90 with (50 + 40) by ring. apply rad_axis; lra. }
  split; [exact R1|]. split; [exact R2|]. rewrite !hatSource_eq by lia. split; [|split].
  - unfold hatValue. rewrite radius_mul. fold (rad (C48_pos 0 1)). rewrite R1. destruct (Rle_dec 15 30); [|lra]. unfold rdiv. destruct (Req_EM_T (30 * 15) 0); [lra|].
    cbn [obind C48_pos t0 t1 t2]. f_equal. unfold cubeSize. field.
  - unfold hatValue. rewrite radius_mul. fold (rad (C48_pos 0 2)). rewrite R2. destruct (Rle_dec 40 30); [lra|]. reflexivity.
  - rewrite <- (hatSource_eq _ _ _ _ 1 1 1 (fun _ _ _ _ => None) 0 0 0 0) by lia.
    apply (C49_centre_refuted C48_pos (fun _ => Q3 1 0 0) (fun _ => 3) (fun _ => 1) 1 1 1 (fun _ _ _ _ => None) 0 0 0 0); auto.
Qed.
