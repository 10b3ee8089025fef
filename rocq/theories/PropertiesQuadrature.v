(** Angular quadrature: the properties. *)
From Coq Require Import Reals Lra Permutation.
From Coquelicot Require Import Coquelicot.
From Verif Require Import Prelude MeshModel TychoModel QuadratureModel QuadratureSpec QuadratureProofs.
Local Open Scope R_scope.

Lemma qsum_perm q q' f : Permutation q q' -> qsum q f = qsum q' f.
Proof. unfold qsum. induction 1; cbn [map fold_right]; try lra. Qed.
Lemma qsum_map q g f : (forall d, d_w (g d) = d_w d) -> qsum (map g q) f = fold_right Rplus 0 (map (fun d => d_w d * f (d_xi (g d)) (d_eta (g d)) (d_mu (g d))) q).
Proof. intros H. unfold qsum. rewrite map_map. f_equal. apply map_ext. intros d. now rewrite H. Qed.
Lemma qsum_add q f g : qsum q (fun a b c => f a b c + g a b c) = qsum q f + qsum q g.
Proof. unfold qsum. induction q as [|d q IH]; cbn; [lra|]. rewrite IH. ring. Qed.
Lemma qsum_opp q f : qsum q (fun a b c => - f a b c) = - qsum q f.
Proof. unfold qsum. induction q as [|d q IH]; cbn; [lra|]. rewrite IH. ring. Qed.
Lemma qsum_ext_in q f g : (forall d, In d q -> f (d_xi d) (d_eta d) (d_mu d) = g (d_xi d) (d_eta d) (d_mu d)) -> qsum q f = qsum q g.
Proof. intros H. unfold qsum. f_equal. apply map_ext_in. intros d I. now rewrite H. Qed.

Lemma inv n q : quadrature n = Some q -> exists gn gw, gauss n = Some (gn, gw) /\ table_ok n gn gw /\ q = map (D n gn gw) (idx n).
Proof.
  intros H. destruct (gauss n) as [(gn, gw)|] eqn:G.
  - rewrite (quadrature_eq n gn gw G) in H. apply Some_inj in H. exists gn, gw. split; [auto|]. split; [now apply gauss_ok|]. auto.
  - unfold quadrature in H. rewrite G in H. discriminate.
Qed.

(** The supported orders: exactly the even orders from 2 to 30; any other order stops the run. *)
Theorem C46_supported n : (exists q, quadrature n = Some q) <-> (exists h, (1 <= h <= 15)%nat /\ n = (2 * h)%nat).
Proof.
  assert (Orders : map fst gaussTables = map (fun h => 2 * h)%nat (seq 1 15)) by (vm_compute; reflexivity).
  split.
  - intros (q & H). destruct (inv n q H) as (gn & gw & G & _). unfold gauss in G. destruct (find _ gaussTables) as [e|] eqn:E; [|discriminate].
    apply find_some in E as (I & E). apply Nat.eqb_eq in E. apply (in_map fst) in I. rewrite Orders in I. apply in_map_iff in I as (h & Eh & I). apply in_seq in I. exists h. lia.
  - intros (h & Lh & ->). assert (I : In (2 * h)%nat (map fst gaussTables)) by (rewrite Orders; apply in_map_iff; exists h; split; auto; apply in_seq; lia).
    apply in_map_iff in I as ((m & (gn & gw)) & Em & I). cbn in Em. subst m.
    destruct (gauss (2 * h)) as [(gn', gw')|] eqn:G.
    + eexists. apply (quadrature_eq _ gn' gw' G).
    + exfalso. unfold gauss in G. destruct (find _ gaussTables) as [e|] eqn:E; [discriminate|]. pose proof (find_none _ _ E _ I) as F. cbn in F. rewrite Nat.eqb_refl in F. discriminate.
Qed.

(** 2 n^2 directions; each is a unit vector of positive weight. *)
Theorem C46_directions n q : quadrature n = Some q ->
  length q = (2 * n * n)%nat /\ forall d, In d q -> d_xi d ^ 2 + d_eta d ^ 2 + d_mu d ^ 2 = 1 /\ 0 < d_w d.
Proof.
  intros H. destruct (inv n q H) as (gn & gw & G & OK & ->). split.
  - rewrite map_length. apply idx_length.
  - intros d I. apply in_map_iff in I as (ik & <- & I). now apply unit_dir.
Qed.

Lemma flip_comp a b c q : map (flip a b c) q = map (flip a 1 1) (map (flip 1 b 1) (map (flip 1 1 c) q)).
Proof. rewrite !map_map. apply map_ext. intros d. unfold flip. cbn. apply dir_eq; ring. Qed.
Lemma flip_one q : map (flip 1 1 1) q = q.
Proof. rewrite <- map_id. apply map_ext. intros [a b c w]. unfold flip. cbn. apply dir_eq; ring. Qed.

(** The set of weighted directions is mapped onto itself by every change of signs of the coordinates (in particular by
    the antipodal map) and by the quarter turn about the z axis. *)
Theorem C46_symmetric n q : quadrature n = Some q ->
  (forall sx sy sz, sign sx -> sign sy -> sign sz -> Permutation (map (flip sx sy sz) q) q) /\ Permutation (map turn q) q.
Proof.
  intros H. destruct (inv n q H) as (gn & gw & G & OK & ->). split; [|now apply turned].
  intros sx sy sz X Y Z. rewrite flip_comp.
  apply Permutation_trans with (map (flip sx 1 1) (map (flip 1 sy 1) (map (D n gn gw) (idx n)))).
  { do 2 apply Permutation_map. destruct Z as [->| ->]; [rewrite flip_one; apply Permutation_refl|now apply flip_z]. }
  apply Permutation_trans with (map (flip sx 1 1) (map (D n gn gw) (idx n))).
  { apply Permutation_map. destruct Y as [->| ->]; [rewrite flip_one; apply Permutation_refl|now apply flip_y]. }
  destruct X as [->| ->]; [rewrite flip_one; apply Permutation_refl|now apply flip_x].
Qed.

(** Hence functions that change sign with the direction, or with a change of signs of some coordinates, sum to zero -
    exactly, whatever the values of the nodes: no net current in an isotropic flux, no off-diagonal second moments. *)
Theorem C46_odd n q f sx sy sz : quadrature n = Some q -> sign sx -> sign sy -> sign sz ->
  (forall a b c, f (sx * a) (sy * b) (sz * c) = - f a b c) -> qsum q f = 0.
Proof.
  intros H X Y Z O. destruct (C46_symmetric n q H) as (P & _). specialize (P sx sy sz X Y Z).
  pose proof (qsum_perm _ _ f P) as E. rewrite qsum_map in E by reflexivity. cbn [flip d_xi d_eta d_mu] in E.
  assert (E2 : qsum q f = - qsum q f). { rewrite <- qsum_opp. rewrite <- E at 1. unfold qsum. f_equal. apply map_ext. intros d. now rewrite O. }
  lra.
Qed.

(** ---- integrals over the polar cosine ---- *)
Lemma peval_cons a p x : peval (a :: p) x = a + x * peval p x. Proof. reflexivity. Qed.
Fixpoint msum (k : nat) (p : list R) : R := match p with [] => 0 | a :: p' => a * mono k + msum (S k) p' end.
Lemma int_pow k : is_RInt (fun x => x ^ k) (-1) 1 (mono k).
Proof.
  assert (SK : INR (S k) <> 0) by (apply not_0_INR; lia).
  assert (E : mono k = / INR (S k) * 1 ^ S k - / INR (S k) * (-1) ^ S k).
  { unfold mono, intNum. rewrite pow1. destruct (Nat.even k) eqn:Ev.
    - apply Nat.even_spec in Ev as (h & ->). replace (S (2 * h)) with (S (2 * h)) by auto. rewrite pow_1_odd. field. auto.
    - assert (O : Nat.odd k = true) by (unfold Nat.odd; now rewrite Ev). apply Nat.odd_spec in O as (h & ->). replace (S (2 * h + 1)) with (2 * (h + 1))%nat by lia. rewrite pow_1_even. field. replace (2 * (h + 1))%nat with (S (2 * h + 1)) by lia. auto. }
  rewrite E. apply (is_RInt_derive (fun x => / INR (S k) * x ^ S k) (fun x => x ^ k)).
  - intros x _. auto_derive; auto. cbn [Nat.pred]. field. auto.
  - intros x _. apply continuity_pt_filterlim. apply derivable_continuous_pt, derivable_pt_pow.
Qed.
Lemma int_poly p : forall k, is_RInt (fun x => x ^ k * peval p x) (-1) 1 (msum k p).
Proof.
  induction p as [|a p IH]; intros k; cbn [msum].
  - apply (is_RInt_ext (fun _ => 0)); [intros; unfold peval; cbn; ring|]. pose proof (is_RInt_const (V:=R_NormedModule) (-1) 1 0) as C. unfold scal in C. cbn in C. unfold mult in C. cbn in C. rewrite Rmult_0_r in C. exact C.
  - apply (is_RInt_ext (fun x => plus (scal a (x ^ k)) (x ^ S k * peval p x))).
    + intros x _. rewrite peval_cons. unfold plus, scal. cbn. unfold mult. cbn. ring.
    + apply (is_RInt_plus (V:=R_NormedModule)); [|apply IH]. apply (is_RInt_scal (V:=R_NormedModule)). apply int_pow.
Qed.
Lemma close_poly n gn gw (OK : table_ok n gn gw) p : forall k, (k + length p <= 2 * n)%nat ->
  Rabs (gsum gn gw (fun x => x ^ k * peval p x) - msum k p) <= / 10 ^ 14 * pnorm p.
Proof.
  assert (P14 : 0 < / 10 ^ 14) by (apply Rinv_0_lt_compat, pow_lt; lra).
  induction p as [|a p IH]; intros k H.
  - cbn [msum]. rewrite (gsum_ext gn gw _ (fun x => 0 * x)) by (intros; unfold peval; cbn; ring). rewrite gsum_scal. unfold pnorm. cbn [fold_right]. rewrite Rmult_0_l, Rminus_0_r, Rabs_R0. lra.
  - cbn [length] in H. rewrite (gsum_ext gn gw _ (fun x => a * x ^ k + x ^ S k * peval p x)) by (intros; rewrite peval_cons; cbn; ring).
    rewrite gsum_add, gsum_scal. cbn [msum]. unfold pnorm. cbn [fold_right]. fold (pnorm p).
    replace (a * gsum gn gw (fun x => x ^ k) + gsum gn gw (fun x => x ^ S k * peval p x) - (a * mono k + msum (S k) p))
      with (a * (gsum gn gw (fun x => x ^ k) - mono k) + (gsum gn gw (fun x => x ^ S k * peval p x) - msum (S k) p)) by ring.
    eapply Rle_trans; [apply Rabs_triang|]. rewrite Rabs_mult, Rmult_plus_distr_l. apply Rplus_le_compat; [|apply IH; lia].
    rewrite (Rmult_comm (/ _)). apply Rmult_le_compat_l; [apply Rabs_pos|]. apply (moment_close n gn gw OK). lia.
Qed.

(** Every polynomial in the polar cosine of degree below 2 n is integrated over the sphere up to the rounding of the
    16-digit tables: its integral over the sphere is 2 pi times the one over [-1, 1]. *)
Theorem C46_polar n q p (J : R) : quadrature n = Some q -> (length p <= 2 * n)%nat -> is_RInt (peval p) (-1) 1 J ->
  Rabs (qsum q (fun _ _ mu => peval p mu) - 2 * PI * J) <= 2 * PI * / 10 ^ 14 * pnorm p.
Proof.
  intros H L I. destruct (inv n q H) as (gn & gw & G & OK & ->). fold (QuadratureProofs.q n gn gw). rewrite qsum_mu by auto.
  assert (E : J = msum 0 p).
  { rewrite <- (is_RInt_unique _ _ _ _ I). apply is_RInt_unique. apply (is_RInt_ext (fun x => x ^ 0 * peval p x)); [intros; cbn; ring|]. apply int_poly. }
  rewrite E. rewrite <- Rmult_minus_distr_l, Rabs_mult. pose proof PI_RGT_0. rewrite Rabs_pos_eq by lra. replace (2 * PI * / 10 ^ 14 * pnorm p) with (2 * PI * (/ 10 ^ 14 * pnorm p)) by ring. apply Rmult_le_compat_l; [lra|].
  rewrite (gsum_ext gn gw _ (fun x => x ^ 0 * peval p x)) by (intros; cbn; ring). apply (close_poly n gn gw OK). lia.
Qed.

(** Weights and second moments: within the rounding of the tables of 4 pi and 4 pi / 3. *)
Theorem C46_normalised n q : quadrature n = Some q ->
  let tol := 2 * PI * / 10 ^ 14 in
  Rabs (qsum q (fun _ _ _ => 1) - 4 * PI) <= tol /\
  Rabs (qsum q (fun xi _ _ => xi ^ 2) - 4 * PI / 3) <= tol /\
  Rabs (qsum q (fun _ eta _ => eta ^ 2) - 4 * PI / 3) <= tol /\
  Rabs (qsum q (fun _ _ mu => mu ^ 2) - 4 * PI / 3) <= tol.
Proof.
  intros H tol. pose proof (proj1 (C46_supported n) (ex_intro _ q H)) as (h & Lh & En).
  assert (One : Rabs (qsum q (fun _ _ _ => 1) - 4 * PI) <= tol).
  { pose proof (C46_polar n q [1] 2 H) as B. cbn [length] in B. replace (4 * PI) with (2 * PI * 2) by ring.
    assert (E : qsum q (fun _ _ _ => 1) = qsum q (fun _ _ mu => peval [1] mu)) by (apply qsum_ext_in; intros; unfold peval; cbn; ring). rewrite E.
    eapply Rle_trans; [apply B; [lia|]|]. 2:{ unfold pnorm, tol. cbn [fold_right]. rewrite Rabs_R1. lra. }
    pose proof (int_poly [1] 0) as I. cbn [msum] in I. unfold mono, intNum in I. cbn [Nat.even INR] in I. replace (1 * (2 / 1) + 0) with 2 in I by field.
    apply (is_RInt_ext (fun x => x ^ 0 * peval [1] x)); [intros; cbn; ring|exact I]. }
  assert (Mu : Rabs (qsum q (fun _ _ mu => mu ^ 2) - 4 * PI / 3) <= tol).
  { pose proof (C46_polar n q [0; 0; 1] (2 / 3) H) as B. cbn [length] in B. replace (4 * PI / 3) with (2 * PI * (2 / 3)) by field.
    assert (E : qsum q (fun _ _ mu => mu ^ 2) = qsum q (fun _ _ mu => peval [0; 0; 1] mu)) by (apply qsum_ext_in; intros; unfold peval; cbn; ring). rewrite E.
    eapply Rle_trans; [apply B; [lia|]|]. 2:{ unfold pnorm, tol. cbn [fold_right]. rewrite Rabs_R1, Rabs_R0. lra. }
    pose proof (int_poly [0; 0; 1] 0) as I. cbn [msum] in I. unfold mono, intNum in I. cbn [Nat.even INR] in I.
    replace (0 * (2 / 1) + (0 * (0 / (1 + 1)) + (1 * (2 / (1 + 1 + 1)) + 0))) with (2 / 3) in I by field.
    apply (is_RInt_ext (fun x => x ^ 0 * peval [0; 0; 1] x)); [intros; cbn; ring|exact I]. }
  assert (XY : qsum q (fun xi _ _ => xi ^ 2) = qsum q (fun _ eta _ => eta ^ 2)).
  { destruct (C46_symmetric n q H) as (_ & T). rewrite <- (qsum_perm _ _ (fun xi _ _ => xi ^ 2) T), qsum_map by reflexivity. unfold qsum. f_equal. apply map_ext. intros d. cbn [turn d_xi]. ring. }
  assert (Sum : qsum q (fun _ _ _ => 1) = qsum q (fun xi _ _ => xi ^ 2) + qsum q (fun _ eta _ => eta ^ 2) + qsum q (fun _ _ mu => mu ^ 2)).
  { rewrite <- !qsum_add. apply qsum_ext_in. intros d I. symmetry. apply (C46_directions n q H), I. }
  assert (X : Rabs (qsum q (fun xi _ _ => xi ^ 2) - 4 * PI / 3) <= tol).
  { replace (qsum q (fun xi _ _ => xi ^ 2) - 4 * PI / 3) with (/ 2 * ((qsum q (fun _ _ _ => 1) - 4 * PI) - (qsum q (fun _ _ mu => mu ^ 2) - 4 * PI / 3))) by lra.
    rewrite Rabs_mult, Rabs_pos_eq by lra. apply Rabs_le_between in One, Mu.
    assert (Rabs ((qsum q (fun _ _ _ => 1) - 4 * PI) - (qsum q (fun _ _ mu => mu ^ 2) - 4 * PI / 3)) <= 2 * tol) by (apply Rabs_le; lra). lra. }
  split; [exact One|]. split; [exact X|]. split; [rewrite <- XY; exact X|exact Mu].
Qed.

(** The weights do not sum to 4 pi exactly: the tables are rounded. *)
Theorem C46_exact_refuted : exists n q, quadrature n = Some q /\ qsum q (fun _ _ _ => 1) <> 4 * PI.
Proof.
  destruct (gauss 4) as [(gn, gw)|] eqn:G; [|vm_compute in G; discriminate]. exists 4%nat. eexists. split; [apply (quadrature_eq _ gn gw G)|].
  pose proof (gauss_ok _ _ _ G) as OK. fold (QuadratureProofs.q 4 gn gw).
  rewrite (qsum_mu 4 gn gw OK (fun _ => 1)).
  rewrite (gsum_ext gn gw _ (fun x => x ^ 0)) by reflexivity. rewrite gsum_moment.
  assert (M : (moment gn gw 0 =? 2 * 10 ^ 16)%Z = false). { vm_compute in G. injection G as <- <-. vm_compute. reflexivity. }
  apply Z.eqb_neq in M. intros E. apply M. apply eq_IZR. rewrite mult_IZR. change (IZR (10 ^ 16)) with (IZR (10 ^ Z.of_nat 16)). rewrite <- (pow_IZR 10 16).
  pose proof PI_RGT_0 as P. assert (P16 : 10 ^ 16 <> 0) by (apply pow_nonzero; lra). replace (16 * 1)%nat with 16%nat in E by reflexivity.
  set (m := IZR (moment gn gw 0)) in *. assert (E2 : 2 * PI * (m / 10 ^ 16 - 2) = 0) by lra. apply Rmult_integral in E2 as [|E2]; [lra|].
  replace m with ((m / 10 ^ 16) * 10 ^ 16) by (field; auto). replace (m / 10 ^ 16) with 2 by lra. reflexivity.
Qed.

(** Witness: order 2, eight directions, one per octant. *)
Example C46_ex : exists q, quadrature 2 = Some q /\ length q = 8%nat /\ Rabs (qsum q (fun _ _ _ => 1) - 4 * PI) <= 2 * PI * / 10 ^ 14 /\ qsum q (fun xi eta _ => xi * eta) = 0.
Proof.
  destruct (proj2 (C46_supported 2)) as (q & H); [exists 1%nat; lia|]. exists q. split; [exact H|]. split; [rewrite (proj1 (C46_directions 2 q H)); reflexivity|].
  split; [apply (C46_normalised 2 q H)|]. apply (C46_odd 2 q _ (-1) 1 1 H); unfold sign; auto. intros. ring.
Qed.

Print Assumptions C46_supported.
Print Assumptions C46_directions.
Print Assumptions C46_symmetric.
Print Assumptions C46_odd.
Print Assumptions C46_polar.
Print Assumptions C46_normalised.
Print Assumptions C46_exact_refuted.
