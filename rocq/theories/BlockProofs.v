From Coq Require Import Permutation.
From Verif Require Import Prelude MeshModel TraverseModel TraverseSpec TraverseInv TraverseProofs TraverseSafe TraverseTerm TraverseRun PropertiesTraverse.
From Verif Require Import CommModel CommProofs BlockModel BlockSpec.

(** A traverser without communication, on meshes whose sides agree about the flow (what the exchange needs). *)
Definition block_run {V D : Type} (R : run V D) : Prop := (sys_ok (u_ranks R) (u_angles R) (u_mesh R) (u_mate R) /\ good_run R) /\ u_dir R = Forward /\ u_comm R = false.

Section Local.
  Context {V D : Type}.
  Variables (zeroD : D) (R : run V D).
  Hypothesis B : block_run R.
  Notation Psi := (nat -> nat -> nat -> V).
  Notation Bnd := (nat -> nat -> nat -> D).
  Notation localSolution := (solution Forward false (u_ranks R) (u_angles R) (u_mesh R) (u_data R) (u_mate R)).

  Lemma step_bnd S0 S r l S' psi bnd : starts R psi bnd S0 -> reaches R S0 S -> rstep R r S l S' -> forall x, r_bnd (g_r S' x) = r_bnd (g_r S x).
  Proof.
    destruct B as ((_ & G) & Dr & Cm). intros I H (Hr & ST) x. pose proof (run_inv R psi bnd G S0 S I H) as C. pose proof G as (G1 & G2 & G3 & G4).
    destruct (Nat.eq_dec x r) as [->|N]; [|now rewrite (other_step _ _ _ _ _ _ _ _ _ r S l S' ST x N)].
    assert (SR : forall st', g_r (setR S r st') r = st') by (intros st'; now rewrite g_setR, Nat.eqb_refl).
    unfold starts, reaches in *. rewrite Cm in *.
    destruct (serial_phase (u_dir R) (u_mpi R) (u_ranks R) (u_angles R) (u_threads R) (u_psize R) (u_mesh R) (u_data R) (u_mate R) psi bnd S r C Hr) as [(s & P)|P];
      destruct ST; try (rewrite P in H0; discriminate); rewrite SR.
    - unfold compute. destruct (fold_left _ _ _) as [[[nd q] buf]|]; reflexivity.
    - reflexivity.
  Qed.
  Lemma reach_bnd S0 S psi bnd : starts R psi bnd S0 -> reaches R S0 S -> forall x, r_bnd (g_r S x) = r_bnd (g_r S0 x).
  Proof.
    intros I H. induction H as [|S r l S' H IH Hr ST]; auto. intros x. rewrite <- IH. apply (step_bnd S0 S r l S' psi bnd I H). split; auto.
  Qed.
  Lemma start_bnd S0 psi bnd x : starts R psi bnd S0 -> x < u_ranks R -> r_bnd (g_r S0 x) = bnd x.
  Proof.
    intros (I & _) Hx. specialize (I x Hx). unfold initRank in I. destruct (initQueue _ _ _ _ _ _ x); [|discriminate]. cbn [obind] in I. apply Some_inj in I. now rewrite <- I.
  Qed.
  Lemma sweep_local psi bnd psi' bnd' : sweepLocal R psi bnd psi' bnd' -> localSolution bnd psi' /\ (forall r, r < u_ranks R -> bnd' r = bnd r).
  Proof.
    intros (S0 & S & I & H & F & E). pose proof B as ((_ & G) & Dr & Cm). pose proof (end_solution R psi bnd G S (run_inv R psi bnd G S0 S I H) F) as SO. rewrite Dr, Cm in SO. split.
    - intros r c a VA. pose proof (SO r c a VA) as K. cbv beta in K. destruct (E r ltac:(apply VA)) as (Ep & _). rewrite Ep, K. f_equal. apply map_ext. intros f.
      unfold seen. destruct (isIncoming _ _ _ _ _); auto. destruct (u_mate R (r, c, f)) as [[[q c'] f']|]; auto. destruct (Nat.eqb_spec q r); [|reflexivity]. now rewrite Ep.
    - intros r Hr. destruct (E r Hr) as (_ & ->). rewrite (reach_bnd S0 S psi bnd I H). now apply (start_bnd S0 psi bnd).
  Qed.
  Lemma local_acyclic : acyclic Forward true (u_ranks R) (u_angles R) (u_mesh R) (u_mate R) -> racyclic R.
  Proof.
    destruct B as (_ & Dr & Cm). intros (lvl & L). unfold racyclic. rewrite Dr, Cm. exists lvl. intros a r c q c' Ha (Hr & Hc & f & f' & Hf & Hm & Hi & _).
    apply L; auto. split; auto. split; auto. exists f, f'. auto.
  Qed.
  Lemma sweep_total psi bnd : u_max R > 0 -> racyclic R -> exists psi' bnd', sweepLocal R psi bnd psi' bnd'.
  Proof.
    intros MC AC. destruct B as ((_ & G) & Dr & Cm). destruct (C30_finishes _ _ R psi bnd G ltac:(now left) MC AC) as ((S0 & I) & K). destruct (K S0 S0 I ltac:(constructor)) as (S & _ & H & F).
    exists (fun r => r_val (g_r S r)), (fun r => r_bnd (g_r S r)), S0, S. repeat (split; auto).
  Qed.
  Lemma exchange_ok psi bnd bnd' : exchange zeroD R psi bnd bnd' -> forall r c f q c' f' a, u_mate R (r, c, f) = Some (q, c', f') -> q <> r -> a < u_angles R -> rm_out (u_mesh R r) a c f = false ->
    bnd' r (rm_side (u_mesh R r) c f) a = td_getData (u_data R) q c' f' a (psi q c' a).
  Proof.
    destruct B as ((G1 & _) & _). intros X r c f q c' f' a Hm Hne Ha Ho. destruct (so_range _ _ _ _ G1 r c f _ Hm) as (Hr & _). destruct (X r Hr) as (order & P & E).
    destruct (comm_sides _ _ _ _ (td_getData (u_data R)) zeroD G1 psi r order (bnd r) Hr P) as (b & Eb & K & _). rewrite Eb in E. apply Some_inj in E. subst b. eapply K; eauto.
  Qed.
  Lemma exchange_total psi bnd : exists bnd', exchange zeroD R psi bnd bnd'.
  Proof.
    destruct B as ((G1 & _) & _).
    exists (fun r => match commSides (u_angles R) (u_mesh R) (td_getData (u_data R)) zeroD psi r (posted (u_angles R) (u_mesh R) r) (bnd r) with Some b => b | None => bnd r end).
    intros r Hr. exists (posted (u_angles R) (u_mesh R) r). split; [apply Permutation_refl|].
    destruct (comm_sides _ _ _ _ (td_getData (u_data R)) zeroD G1 psi r _ (bnd r) Hr (Permutation_refl _)) as (b & Eb & _). now rewrite Eb.
  Qed.
  Lemma incoming_out r a c f : isIncoming Forward (u_mesh R r) a c f = true -> rm_out (u_mesh R r) a c f = false.
  Proof. unfold isIncoming. intros H. destruct (rm_out (u_mesh R r) a c f); auto; discriminate. Qed.

  (** One block sweep: where the boundary data is right up to [k] crossings, the result is right up to [k] + 1. *)
  Section Step.
    Variables (val : Psi).
    Hypothesis SV : full_solution R val.
    Hypothesis AC : acyclic Forward true (u_ranks R) (u_angles R) (u_mesh R) (u_mate R).
    Definition right (k : nat) (psi : Psi) : Prop := forall r c a, valid (u_ranks R) (u_angles R) (u_mesh R) r c a -> (forall n, crossings R a (r, c) n -> n < k) -> psi r c a = val r c a.
    Definition bright (k : nat) (bnd : Bnd) : Prop := forall r c f q c' f' a, u_mate R (r, c, f) = Some (q, c', f') -> q <> r -> a < u_angles R -> rm_out (u_mesh R r) a c f = false ->
      (forall n, crossings R a (q, c') n -> n < k) -> bnd r (rm_side (u_mesh R r) c f) a = td_getData (u_data R) q c' f' a (val q c' a).
    Lemma right_exchange k psi bnd bnd' : right k psi -> exchange zeroD R psi bnd bnd' -> bright k bnd'.
    Proof.
      intros P X r c f q c' f' a Hm Hne Ha Ho K. rewrite (exchange_ok psi bnd bnd' X r c f q c' f' a Hm Hne Ha Ho). f_equal. apply P; auto.
      destruct B as ((G1 & _) & _). pose proof (so_sym _ _ _ _ G1 _ _ Hm) as Hb. destruct (so_range _ _ _ _ G1 _ _ _ _ Hb) as (? & ? & _). now split.
    Qed.
    Lemma bright_0 bnd : bright 0 bnd.
    Proof. intros r c f q c' f' a _ _ _ _ K. specialize (K 0 (cr_start R a _)). lia. Qed.
    Lemma right_sweep k psi bnd : bright k bnd -> localSolution bnd psi -> right (S k) psi.
    Proof.
      intros BR SO. destruct B as ((G1 & _) & _). destruct AC as (lvl & L). intros r c a. remember (lvl r c a) as m eqn:Em. revert r c Em. induction m as [m IH] using lt_wf_ind. intros r c Em VA K.
      rewrite (SO r c a VA), (SV bnd r c a VA). f_equal. apply map_ext_in. intros f Hf. apply in_seq in Hf. unfold seen. destruct (isIncoming _ _ _ _ _) eqn:Ei; auto.
      destruct (u_mate R (r, c, f)) as [[[q c'] f']|] eqn:Hm; auto. f_equal. pose proof VA as (Hr & Hc & Ha).
      pose proof (so_sym _ _ _ _ G1 _ _ Hm) as Hb. destruct (so_range _ _ _ _ G1 _ _ _ _ Hb) as (Hq & Hc' & _).
      assert (U : TraverseSpec.upwind Forward true (u_ranks R) (u_mesh R) (u_mate R) a (q, c') (r, c)) by (split; auto; split; auto; exists f, f'; split; [lia|auto]).
      destruct (Nat.eqb_spec q r) as [E|E].
      - subst q. f_equal. apply (IH (lvl r c' a)); [subst m; apply L; auto|reflexivity|now split|].
        intros n Cn. specialize (K _ (cr_step R a (r, c') (r, c) n Cn U)). cbn [fst] in K. now rewrite Nat.eqb_refl in K.
      - apply BR; auto. { now apply incoming_out. }
        intros n Cn. specialize (K _ (cr_step R a (q, c') (r, c) n Cn U)). cbn [fst] in K. destruct (Nat.eqb_spec q r); [easy|]. lia.
    Qed.
    Lemma right_all k psi : (forall r c a n, valid (u_ranks R) (u_angles R) (u_mesh R) r c a -> crossings R a (r, c) n -> n < k) -> right k psi -> agree R psi val.
    Proof. intros K P r c a VA. apply P; auto. intros n Cn. eapply K; eauto. Qed.
  End Step.

  (** Acyclic graphs have only finitely many crossings. *)
  Lemma crossings_level lvl : (forall a r c q c', a < u_angles R -> TraverseSpec.upwind Forward true (u_ranks R) (u_mesh R) (u_mate R) a (q, c') (r, c) -> lvl q c' a < lvl r c a) ->
    forall a x n, a < u_angles R -> crossings R a x n -> n <= lvl (fst x) (snd x) a.
  Proof.
    intros L a x n Ha H. induction H as [x|[q c'] [r c] n H IH U]; [lia|]. cbn [fst snd] in *. specialize (L a r c q c' Ha U). destruct (q =? r); lia.
  Qed.
  Lemma bound3 (f : nat -> nat -> nat -> nat) (n : nat) (m : nat -> nat) (k : nat) : exists b, forall r c a, r < n -> c < m r -> a < k -> f r c a < b.
  Proof.
    assert (B1 : forall (g : nat -> nat) j, exists b, forall i, i < j -> g i < b).
    { intros g j. induction j as [|j (b & IH)]; [exists 0; lia|]. exists (Nat.max b (S (g j))). intros i Hi. destruct (Nat.eq_dec i j) as [->|]; [lia|]. specialize (IH i ltac:(lia)). lia. }
    assert (B2 : forall (g : nat -> nat -> nat) j i, exists b, forall x y, x < j -> y < i -> g x y < b).
    { intros g j i. induction j as [|j (b & IH)]; [exists 0; lia|]. destruct (B1 (g j) i) as (b' & K). exists (Nat.max b b'). intros x y Hx Hy.
      destruct (Nat.eq_dec x j) as [->|]; [specialize (K y Hy); lia|]. specialize (IH x y ltac:(lia) Hy). lia. }
    induction n as [|n (b & IH)]; [exists 0; lia|]. destruct (B2 (f n) (m n) k) as (b' & K). exists (Nat.max b b'). intros r c a Hr Hc Ha.
    destruct (Nat.eq_dec r n) as [->|]; [specialize (K c a Hc Ha); lia|]. specialize (IH r c a ltac:(lia) Hc Ha). lia.
  Qed.
  Lemma crossings_bounded : acyclic Forward true (u_ranks R) (u_angles R) (u_mesh R) (u_mate R) ->
    exists k, forall r c a n, valid (u_ranks R) (u_angles R) (u_mesh R) r c a -> crossings R a (r, c) n -> n < k.
  Proof.
    intros (lvl & L). destruct (bound3 lvl (u_ranks R) (fun r => rm_nCells (u_mesh R r)) (u_angles R)) as (b & Kb). exists b. intros r c a n (Hr & Hc & Ha) C.
    pose proof (crossings_level lvl L a (r, c) n Ha C). cbn in H. specialize (Kb r c a Hr Hc Ha). lia.
  Qed.
End Local.

(** The loop. *)
Section Loop.
  Context {V D : Type}.
  Variables (zeroD : D) (R : run V D).
  Hypothesis B : block_run R.
  Notation Psi := (nat -> nat -> nat -> V).
  Notation Bnd := (nat -> nat -> nat -> D).
  Variable (stop : Psi -> Psi -> bool).

  Lemma bright_ext k val (b b' : Bnd) : (forall r, r < u_ranks R -> b' r = b r) -> bright R val k b -> bright R val k b'.
  Proof.
    intros E K r c f q c' f' a Hm Hne Ha Ho Cr. destruct B as ((G1 & _) & _). destruct (so_range _ _ _ _ G1 _ _ _ _ Hm) as (Hr & _). rewrite E by auto. apply K; auto.
  Qed.
  Lemma loop_right val mx iter psi0 psi bnd psi' bnd' n k : full_solution R val -> acyclic Forward true (u_ranks R) (u_angles R) (u_mesh R) (u_mate R) ->
    pbjLoop zeroD R stop mx iter psi0 psi bnd psi' bnd' n -> bright R val k bnd -> n > 0 -> right R val (k + n) psi'.
  Proof.
    intros SV AC H. revert k. induction H as [iter psi0 psi bnd NL|iter psi0 psi bnd psi' bnd' LT SW ST|iter psi0 psi bnd psi1 bnd1 bnd2 psi' bnd' n LT SW ST X H IH]; intros k K Hn.
    - lia.
    - destruct (sweep_local R B _ _ _ _ SW) as (SO & _). replace (k + 1) with (S k) by lia. eapply right_sweep; eauto.
    - destruct (sweep_local R B _ _ _ _ SW) as (SO & E). pose proof (right_sweep R B val SV AC k psi1 bnd K SO) as R1.
      pose proof (right_exchange zeroD R B val (S k) psi1 bnd1 bnd2 R1 X) as K2. destruct n as [|n].
      + inversion H as [i p0 p b NL E1 E2 E3 E4 E5 E6| |]; subst. replace (k + 1) with (S k) by lia. exact R1.
      + replace (k + S (S n)) with (S k + S n) by lia. apply IH; auto. lia.
  Qed.
  Lemma loop_count mx iter psi0 psi bnd psi' bnd' n : pbjLoop zeroD R stop mx iter psi0 psi bnd psi' bnd' n ->
    n <= mx - iter /\ (iter < mx -> n > 0) /\ (n < mx - iter -> exists p, stop p psi' = true) /\ (n = 0 -> psi' = psi /\ bnd' = bnd).
  Proof.
    intros H. induction H as [iter psi0 psi bnd NL|iter psi0 psi bnd psi' bnd' LT SW ST|iter psi0 psi bnd psi1 bnd1 bnd2 psi' bnd' n LT SW ST X H IH].
    - split; [lia|]. split; [lia|]. split; [lia|]. auto.
    - split; [lia|]. split; [lia|]. split; [eauto|]. lia.
    - destruct IH as (I1 & I2 & I3 & I4). split; [lia|]. split; [lia|]. split; [|lia]. intros. apply I3. lia.
  Qed.
  Lemma loop_total mx iter psi0 psi bnd : u_max R > 0 -> racyclic R -> exists psi' bnd' n, pbjLoop zeroD R stop mx iter psi0 psi bnd psi' bnd' n.
  Proof.
    intros MC AC. remember (mx - iter) as m eqn:E. revert iter psi0 psi bnd E. induction m as [|m IH]; intros iter psi0 psi bnd E.
    - exists psi, bnd, 0. apply pbj_limit. lia.
    - destruct (sweep_total R B psi bnd MC AC) as (psi1 & bnd1 & SW). destruct (stop psi0 psi1) eqn:ST.
      + exists psi1, bnd1, 1. apply pbj_break; auto. lia.
      + destruct (exchange_total zeroD R B psi1 bnd1) as (bnd2 & X). destruct (IH (S iter) psi1 psi1 bnd2 ltac:(lia)) as (psi' & bnd' & n & H).
        exists psi', bnd', (S n). eapply pbj_next; eauto. lia.
  Qed.
End Loop.
Section Stops.
  Context {V D : Type}.
  Variables (zeroD : D) (R : run V D).
  Hypothesis B : block_run R.
  Variable (stop : (nat -> nat -> nat -> V) -> (nat -> nat -> nat -> V) -> bool).
  Lemma loop_stops val mx K iter psi0 psi bnd psi' bnd' n k : full_solution R val -> acyclic Forward true (u_ranks R) (u_angles R) (u_mesh R) (u_mate R) ->
    (forall p p', agree R p p' -> stop p p' = true) ->
    (forall r c a n, valid (u_ranks R) (u_angles R) (u_mesh R) r c a -> crossings R a (r, c) n -> n < K) ->
    pbjLoop zeroD R stop mx iter psi0 psi bnd psi' bnd' n -> bright R val k bnd -> right R val k psi0 -> k <= K -> n <= K - k + 1.
  Proof.
    intros SV AC TS HK H. revert k. induction H as [iter psi0 psi bnd NL|iter psi0 psi bnd psi' bnd' LT SW ST|iter psi0 psi bnd psi1 bnd1 bnd2 psi' bnd' n LT SW ST X H IH]; intros k BR RI Hk; [lia|lia|].
    destruct (sweep_local R B _ _ _ _ SW) as (SO & E). pose proof (right_sweep R B val SV AC k psi1 bnd BR SO) as R1.
    pose proof (right_exchange zeroD R B val (S k) psi1 bnd1 bnd2 R1 X) as K2. destruct (Nat.eq_dec k K) as [->|NK].
    - exfalso. rewrite TS in ST; [discriminate|]. intros r c a VA. rewrite (right_all R val K psi0 HK RI r c a VA). symmetry.
      apply (right_all R val (S K) psi1); auto. intros r' c' a' n' V' C'. specialize (HK r' c' a' n' V' C'). lia.
    - specialize (IH (S k) K2 R1 ltac:(lia)). lia.
  Qed.
  Lemma outer_count inner mx iter psi0 psi bnd psi' bnd' n : outerLoop zeroD R inner stop mx iter psi0 psi bnd psi' bnd' n ->
    n <= mx - iter /\ (iter < mx -> n > 0) /\ (n = 0 -> psi' = psi /\ bnd' = bnd).
  Proof.
    intros H. induction H as [iter psi0 psi bnd NL|iter psi0 psi bnd psi' bnd' LT SW ST|iter psi0 psi bnd psi1 bnd1 bnd2 psi' bnd' n LT SW ST X H IH].
    - split; [lia|]. split; [lia|]. auto.
    - split; [lia|]. split; lia.
    - destruct IH as (I1 & I2 & I4). split; [lia|]. split; lia.
  Qed.
End Stops.
Lemma si_count {V D F} (zeroD : D) (Rof : F -> run V D) phiOf stop mx iter phi0 psi bnd phi' psi' bnd' n : siLoop zeroD Rof phiOf stop mx iter phi0 psi bnd phi' psi' bnd' n ->
  n <= mx - iter /\ (iter < mx -> n > 0) /\ (n = 0 -> psi' = psi /\ bnd' = bnd).
Proof.
  intros H. induction H.
  - split; [lia|]. split; [lia|]. auto.
  - split; [lia|]. split; lia.
  - destruct IHsiLoop as (I1 & I2 & I4). split; [lia|]. split; lia.
Qed.
Lemma end_full {V D} (R R' : run V D) val0 bnd0 S0 S : good_run R' -> u_dir R' = Forward -> u_comm R' = true -> u_ranks R' = u_ranks R -> u_angles R' = u_angles R -> u_mesh R' = u_mesh R ->
  u_data R' = u_data R -> u_mate R' = u_mate R -> starts R' val0 bnd0 S0 -> reaches R' S0 S -> ends R' S -> full_solution R (fun r => r_val (g_r S r)).
Proof.
  intros G E1 E2 E3 E4 E5 E6 E7 I H F bnd. pose proof (end_solution R' val0 bnd0 G S (run_inv R' val0 bnd0 G S0 S I H) F) as SO. rewrite E1, E2, E3, E4, E5, E6, E7 in SO.
  intros r c a VA. exact (SO r c a VA).
Qed.
