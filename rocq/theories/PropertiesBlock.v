(** C43 and C44: parallel block Jacobi (src/SweeperPBJ.cc). *)
From Coq Require Import Permutation.
From Verif Require Import Prelude MeshModel TraverseModel TraverseSpec TraverseRun TraverseCases PropertiesTraverse.
From Verif Require Import CommModel CommProofs BlockModel BlockSpec BlockProofs.

(** [R] and [R'] are the same problem, swept by the block method and with communication. *)
Definition same_problem {V D : Type} (R R' : run V D) : Prop :=
  block_run R /\ good_run R' /\ racyclic R' /\ u_dir R' = Forward /\ u_comm R' = true /\
  u_ranks R' = u_ranks R /\ u_angles R' = u_angles R /\ u_mesh R' = u_mesh R /\ u_data R' = u_data R /\ u_mate R' = u_mate R.
Lemma same_acyclic {V D} (R R' : run V D) : same_problem R R' -> acyclic Forward true (u_ranks R) (u_angles R) (u_mesh R) (u_mate R).
Proof. intros (_ & _ & AC & E1 & E2 & E3 & E4 & E5 & E6 & E7). unfold racyclic in AC. now rewrite E1, E2, E3, E4, E5, E7 in AC. Qed.

(** C43: let [n] be the number of block sweeps done. From any psi and any boundary data, wherever all upwind
    paths cross between ranks less than [n] times, the result is that of a sweep with communication. *)
Theorem C43_crossings : forall V D (zeroD : D) (R R' : run V D) stop ddIterMax psi bnd psi' bnd' n val0 bnd0 S0 S,
  same_problem R R' -> pbjSweep zeroD R stop ddIterMax psi bnd psi' bnd' n ->
  starts R' val0 bnd0 S0 -> reaches R' S0 S -> ends R' S ->
  forall r c a, valid (u_ranks R) (u_angles R) (u_mesh R) r c a -> (forall m, crossings R a (r, c) m -> m < n) -> psi' r c a = r_val (g_r S r) c a.
Proof.
  intros V D zeroD R R' stop mx psi bnd psi' bnd' n val0 bnd0 S0 S SP H I HR F r c a VA K. pose proof (same_acyclic R R' SP) as AC.
  destruct SP as (B & G & _ & E1 & E2 & E3 & E4 & E5 & E6 & E7). pose proof (end_full R R' val0 bnd0 S0 S G E1 E2 E3 E4 E5 E6 E7 I HR F) as SV.
  assert (Hn : n > 0) by (specialize (K 0 (cr_start R a _)); lia).
  exact (loop_right zeroD R B stop _ mx 1 psi psi bnd psi' bnd' n 0 SV AC H (bright_0 R _ bnd) Hn r c a VA K).
Qed.
(** C43: on an acyclic mesh there is a number [K], depending on mesh and partition only, of sweeps after which
    (and from which on) the whole result is that of a sweep with communication; block Jacobi always ends, and if
    the error test accepts two equal fields, it stops by itself after at most [K] + 1 sweeps. *)
Theorem C43_finite : forall V D (zeroD : D) (R R' : run V D), same_problem R R' -> u_max R > 0 ->
  exists K, (forall r c a n, valid (u_ranks R) (u_angles R) (u_mesh R) r c a -> crossings R a (r, c) n -> n < K) /\
  forall stop ddIterMax psi bnd,
    (exists psi' bnd' n, pbjSweep zeroD R stop ddIterMax psi bnd psi' bnd' n) /\
    forall psi' bnd' n val0 bnd0 S0 S, pbjSweep zeroD R stop ddIterMax psi bnd psi' bnd' n ->
      starts R' val0 bnd0 S0 -> reaches R' S0 S -> ends R' S ->
      (K <= n -> agree R psi' (fun r => r_val (g_r S r))) /\
      ((forall p p', agree R p p' -> stop p p' = true) -> n <= K + 1).
Proof.
  intros V D zeroD R R' SP MX. pose proof (same_acyclic R R' SP) as AC. pose proof SP as (B & G & _ & E1 & E2 & E3 & E4 & E5 & E6 & E7).
  destruct (crossings_bounded R AC) as (K & HK). exists K. split; [exact HK|]. intros stop mx psi bnd. split.
  { apply loop_total; auto. now apply local_acyclic. }
  intros psi' bnd' n val0 bnd0 S0 S H I HR F. pose proof (end_full R R' val0 bnd0 S0 S G E1 E2 E3 E4 E5 E6 E7 I HR F) as SV. split.
  - intros Hn r c a VA. eapply (C43_crossings V D zeroD R R'); eauto. intros m Cm. specialize (HK r c a m VA Cm). lia.
  - intros TS. replace (K + 1) with (K - 0 + 1) by lia.
    eapply (loop_stops zeroD R B stop _ mx K 1 psi psi bnd psi' bnd' n 0 SV AC TS HK H (bright_0 R _ bnd)); [|lia].
    intros r c a VA Z. specialize (Z 0 (cr_start R a _)). lia.
Qed.
(** C43: an iterate that the next exchange and sweep reproduce is the solution, also on cyclic meshes. *)
Theorem C43_fixed_point : forall V D (zeroD : D) (R : run V D) psi bnd bnd1 psi1 bnd2,
  block_run R -> exchange zeroD R psi bnd bnd1 -> sweepLocal R psi bnd1 psi1 bnd2 -> agree R psi1 psi -> full_solution R psi.
Proof.
  intros V D zeroD R psi bnd bnd1 psi1 bnd2 B X SW AG b. destruct (sweep_local R B _ _ _ _ SW) as (SO & _). pose proof B as ((G1 & _) & _).
  intros r c a VA. rewrite <- (AG r c a VA), (SO r c a VA). f_equal. apply map_ext_in. intros f Hf. apply in_seq in Hf. unfold seen.
  destruct (isIncoming _ _ _ _ _) eqn:Ei; auto. destruct (u_mate R (r, c, f)) as [[[q c'] f']|] eqn:Hm; auto. f_equal.
  pose proof (so_sym _ _ _ _ G1 _ _ Hm) as Hb. destruct (so_range _ _ _ _ G1 _ _ _ _ Hb) as (Hq & Hc' & _). pose proof VA as (Hr & Hc & Ha).
  destruct (Nat.eqb_spec q r) as [->|E]; [f_equal; apply AG; now split|].
  apply (exchange_ok zeroD R B psi bnd bnd1 X); auto. now apply incoming_out.
Qed.

(** C44: block Jacobi does at most ddIterMax - 1 sweeps, and with ddIterMax <= 1 none: psi is returned as it
    was given. The same holds for the other two loops. (The expectation "up to ddIterMax" is refuted: for no
    ddIterMax > 0 that many sweeps are possible.) *)
Theorem C44_pbj_refuted : forall V D (zeroD : D) (R : run V D) stop ddIterMax psi bnd psi' bnd' n, pbjSweep zeroD R stop ddIterMax psi bnd psi' bnd' n ->
  n <= ddIterMax - 1 /\ (ddIterMax > 0 -> n <> ddIterMax) /\ (ddIterMax <= 1 -> psi' = psi /\ bnd' = bnd) /\ (1 < ddIterMax -> n > 0) /\
  (n < ddIterMax - 1 -> exists psi0, stop psi0 psi' = true).
Proof.
  intros V D zeroD R stop mx psi bnd psi' bnd' n H. destruct (loop_count zeroD R stop mx 1 _ _ _ _ _ _ H) as (A & Bn & C & E).
  split; [lia|]. split; [lia|]. split; [intros; apply E; lia|]. split; [lia|]. exact C.
Qed.
Theorem C44_outer_refuted : forall V D (zeroD : D) (R : run V D) inner stop ddIterMax psi0 psi bnd psi' bnd' n, outerLoop zeroD R inner stop ddIterMax 1 psi0 psi bnd psi' bnd' n ->
  n <= ddIterMax - 1 /\ (ddIterMax <= 1 -> psi' = psi /\ bnd' = bnd) /\ (1 < ddIterMax -> n > 0).
Proof. intros. destruct (outer_count zeroD R stop inner _ _ _ _ _ _ _ _ H) as (A & Bn & E). split; [lia|]. split; [intros; apply E; lia|lia]. Qed.
Theorem C44_si_refuted : forall V D F (zeroD : D) (Rof : F -> run V D) phiOf stop ddIterMax phi0 psi bnd phi' psi' bnd' n, siLoop zeroD Rof phiOf stop ddIterMax 1 phi0 psi bnd phi' psi' bnd' n ->
  n <= ddIterMax - 1 /\ (ddIterMax <= 1 -> psi' = psi /\ bnd' = bnd) /\ (1 < ddIterMax -> n > 0).
Proof. intros. destruct (si_count zeroD Rof phiOf stop _ _ _ _ _ _ _ _ _ H) as (A & Bn & E). split; [lia|]. split; [intros; apply E; lia|lia]. Qed.

(** The two cells on two ranks: a path crosses once; two sweeps are enough, one is not. *)
Definition twoBlock : run nat nat := mkRun Forward false TychoTwoSided 2 2 1 10 24 twoMesh sumData twoMate.
Lemma two_same : same_problem twoBlock (twoRun TychoTwoSided).
Proof.
  split; [split; [|split; reflexivity]|]. { split; [|exact (two_good TychoTwoSided)]. apply (fit_ok Forward); [apply (two_good TychoTwoSided)|exact (two_acyclic TychoTwoSided)]. }
  split; [exact (two_good _)|]. split; [exact (two_acyclic _)|]. split; [reflexivity|]. split; [reflexivity|]. split; [reflexivity|]. split; [reflexivity|]. split; [reflexivity|]. split; reflexivity.
Qed.
Example C43_ex : same_problem twoBlock (twoRun TychoTwoSided) /\ crossings twoBlock 0 (1, 0) 1 /\
  (forall a r n, crossings twoBlock a (r, 0) n -> a < 2 -> n < 2) /\
  forall bnd psi1 bnd1, sweepLocal twoBlock (fun _ _ _ => 0) bnd psi1 bnd1 -> bnd 1 0 0 = 77 -> psi1 1 0 0 = td_update sumData 1 0 0 [Some 77; None; None; None].
Proof.
  split; [exact two_same|]. split; [|split].
  - apply (cr_step twoBlock 0 (0, 0) (1, 0) 0); [constructor|]. split; [cbn; lia|]. split; [cbn; lia|]. exists 0, 0. split; [lia|]. split; [reflexivity|]. split; [reflexivity|now left].
  - destruct (two_acyclic TychoTwoSided) as (lvl & L). cbn [u_dir u_comm u_ranks u_angles u_mesh u_mate twoRun] in L.
    assert (E : forall a y x, a < 2 -> TraverseSpec.upwind Forward true 2 twoMesh twoMate a y x -> a = fst y /\ a <> fst x).
    { intros a [q c'] [r c] Ha (Hr & Hc & f & f' & Hf & Hm & Hi & _). apply two_mate in Hm. destruct Hm as (_ & -> & -> & Em). injection Em as -> -> ->.
      destruct r as [|[|r]]; [| |lia]; (destruct a as [|[|a]]; [| |lia]); (discriminate Hi || cbn; lia). }
    intros a r n H Ha. inversion H as [x|y x m Hy U]; subst; [lia|]. cbn [u_ranks u_mesh u_mate twoBlock] in U.
    assert (m = 0) as ->. { inversion Hy as [x|z x k Hz Uz]; subst; auto. cbn [u_ranks u_mesh u_mate twoBlock] in Uz. pose proof (E _ _ _ Ha U). pose proof (E _ _ _ Ha Uz). lia. }
    destruct (_ =? _); lia.
  - intros bnd psi1 bnd1 SW Hb. pose proof two_same as (B & _). destruct (sweep_local twoBlock B _ _ _ _ SW) as (SO & _).
    rewrite (SO 1 0 0 ltac:(split; [cbn; lia|split; cbn; lia])). f_equal. cbn [seq map]. unfold seen. cbn. now rewrite Hb.
Qed.
Example C44_ex : exists psi' bnd', pbjSweep 0 twoBlock (fun _ _ => false) 3 (fun _ _ _ => 0) (fun _ _ _ => 5) psi' bnd' 2.
Proof.
  pose proof two_same as (B & _). destruct (loop_total 0 twoBlock B (fun _ _ => false) 3 1 (fun _ _ _ => 0) (fun _ _ _ => 0) (fun _ _ _ => 5)) as (psi' & bnd' & n & H).
  { cbn. lia. } { apply local_acyclic; [exact B|]. exact (same_acyclic _ _ two_same). }
  exists psi', bnd'. destruct (loop_count 0 twoBlock _ _ _ _ _ _ _ _ _ H) as (A & _ & C & _). destruct (Nat.eq_dec n 2) as [->|]; [exact H|]. destruct C as (p & C); [lia|discriminate].
Qed.
Print Assumptions C43_crossings. Print Assumptions C43_finite. Print Assumptions C43_fixed_point. Print Assumptions C44_pbj_refuted. Print Assumptions C44_outer_refuted. Print Assumptions C44_si_refuted.
