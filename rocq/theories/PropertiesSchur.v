(** C45: the vectors of the Schur methods. C61: what the Schur methods compute. *)
From Coq Require Import Reals Lra.
From Verif Require Import Prelude Bytes MeshModel GeometryModel GaussModel TransportModel TransportSpec TransportProofs.
From Verif Require Import AngleModel TraverseModel TraverseSpec TraverseRun PropertiesTraverse SweepModel SweepSpec SweepProofs PropertiesSweep FluxModel FluxSpec FluxProofs PropertiesFlux SourceModel SourceSpec SourceProofs PropertiesSource.
From Verif Require Import EnergySpec EnergyProofs PropertiesEnergy CommModel BlockModel BlockProofs SchurModel SchurSpec PackProofs SchurProofs.

(** C45: the unknowns of a rank (values entering through interface faces) can be numbered without gaps such that
    getPsiBoundSize is their number, psiBoundToVec puts every unknown at its number and nothing anywhere else,
    and vecToPsiBound takes it from there and changes nothing else. *)
Theorem C45_layout : forall (T : Type) nR nA nG M mate r, sys_ok nR nA M mate -> r < nR ->
  exists n no, numbering nA nG M mate r n no /\ getPsiBoundSize nA nG (M r) = (n mod 2 ^ 64)%N /\
  ((n <= INT_MAX)%N -> forall (x : N -> T) (b : nat -> nat -> nat -> nat -> T),
    (exists x', psiBoundToVec nA nG (M r) x b = Some x' /\ (forall u, is_unknown nA nG M mate r u -> x' (no u) = at_unknown M r b u) /\ (forall i, (n <= i)%N -> x' i = x i)) /\
    (exists b', vecToPsiBound nA nG (M r) x b = Some b' /\ (forall u, is_unknown nA nG M mate r u -> at_unknown M r b' u = x (no u)) /\
      (forall s a fv G, (forall c f, interface M mate r a c f -> rm_side (M r) c f = s -> ~ (a < nA /\ fv < 3 /\ G < nG)) -> b' s a fv G = b s a fv G))) /\
  ((INT_MAX < n)%N -> forall (x : N -> T) (b : nat -> nat -> nat -> nat -> T), psiBoundToVec nA nG (M r) x b = None /\ vecToPsiBound nA nG (M r) x b = None).
Proof.
  intros T nR nA nG M mate r SY Hr. exists (count nA nG M r), (no nA nG M r). split; [eapply no_numbering; eauto|]. split; [apply size_w64|]. split.
  - intros H x b. split; [eapply pack_ok; eauto|]. destruct (unpack_ok nR nA nG M mate SY r x b Hr H) as (b' & E & K1 & K2). exists b'. split; auto. split; auto.
    intros s a fv G N. apply K2. intros [[[[a' c] f] fv'] G'] (I & U) P. cbn in P. inversion P; subst. eapply N; eauto.
  - intros H x b. now apply pack_undefined.
Qed.
(** C45: round trips. *)
Theorem C45_vector_back : forall (T : Type) nR nA nG M mate r, sys_ok nR nA M mate -> r < nR ->
  forall (x y x' : N -> T) b b', vecToPsiBound nA nG (M r) x b = Some b' -> psiBoundToVec nA nG (M r) y b' = Some x' ->
  forall i, x' i = if N.ltb i (getPsiBoundSize nA nG (M r)) then x i else y i.
Proof.
  intros T nR nA nG M mate r SY Hr x y x' b b' E1 E2 i. destruct (C45_layout T nR nA nG M mate r SY Hr) as (n & no & (N1 & N2 & N3) & -> & K & O).
  destruct (N.leb_spec n INT_MAX) as [L|L]; [|destruct (O L x b); congruence]. assert (S : (n mod 2 ^ 64 = n)%N) by (apply N.mod_small; unfold INT_MAX in L; lia). rewrite S.
  destruct (K L x b) as (_ & b1 & F1 & A1 & _). rewrite F1 in E1. apply Some_inj in E1. subst b1. destruct (K L y b') as ((x1 & F2 & A2 & B2) & _). rewrite F2 in E2. apply Some_inj in E2. subst x1.
  destruct (N.ltb_spec i n) as [Hi|Hi]; [|now apply B2]. destruct (N3 i Hi) as (u & U & <-). now rewrite A2, A1.
Qed.
Theorem C45_data_back : forall (T : Type) nR nA nG M mate r, sys_ok nR nA M mate -> r < nR ->
  forall (x x' : N -> T) b b0 b', psiBoundToVec nA nG (M r) x b = Some x' -> vecToPsiBound nA nG (M r) x' b0 = Some b' ->
  forall u, is_unknown nA nG M mate r u -> at_unknown M r b' u = at_unknown M r b u.
Proof.
  intros T nR nA nG M mate r SY Hr x x' b b0 b' E1 E2 u U. destruct (C45_layout T nR nA nG M mate r SY Hr) as (n & no & _ & _ & K & O).
  destruct (N.leb_spec n INT_MAX) as [L|L]; [|destruct (O L x b); congruence].
  destruct (K L x b) as ((x1 & F1 & A1 & _) & _). rewrite F1 in E1. apply Some_inj in E1. subst x1. destruct (K L x' b0) as (_ & b1 & F2 & A2 & _). rewrite F2 in E2. apply Some_inj in E2. subst b1. now rewrite A2, A1.
Qed.
(** C45 fails for large problems: the index is an int, and with one interface face and 2^31 / 3 groups it overflows. *)
Theorem C45_overflow_refuted : forall (T : Type) nR nA nG M mate r a c f, sys_ok nR nA M mate -> r < nR -> a < nA -> interface M mate r a c f -> (INT_MAX < 3 * N.of_nat nG)%N ->
  forall (x : N -> T) b, psiBoundToVec nA nG (M r) x b = None /\ vecToPsiBound nA nG (M r) x b = None.
Proof. intros T nR nA nG M mate r a c f SY Hr Ha I H x b. apply pack_undefined. pose proof (count_ge nR nA nG M mate SY r a c f Hr I Ha). lia. Qed.

(** ** C61 *)
Section Statements.
  Variables (R0 : run (value R) (block R)) (g : gaussElim) (nG : nat) (geo : nat -> rgeo R) (sigmaT : nat -> nat -> R) (pr : nat -> nat -> nat -> N).
  Notation GPsi := (nat -> nat -> nat -> nat -> nat -> R).
  Notation GBnd := (nat -> nat -> nat -> nat -> nat -> R).
  Notation GPhi := (nat -> nat -> nat -> nat -> R).
  Notation GVec := (nat -> N -> R).
  Definition sameVec (x y : GVec) : Prop := forall r i, r < u_ranks R0 -> (i < getPsiBoundSize (u_angles R0) nG (u_mesh R0 r))%N -> x r i = y r i.
  (** Exact solutions of the linear systems: some call of the operator gives the right-hand side. *)
  Definition schurExact (b x : GVec) : Prop := exists psi bnd b0 b' psi' bnd', schurOp R0 g nG geo sigmaT pr x psi bnd b0 b' psi' bnd' /\ sameVec b' b.
  Definition schurOuterExact (inner : GPsi -> GBnd -> GPsi -> GPsi -> Prop) (b x : GVec) : Prop := exists psi bnd b0 b' psi' bnd', schurOuterOp R0 g nG geo sigmaT pr inner x psi bnd b0 b' psi' bnd' /\ sameVec b' b.
  Definition schurKrylovExact (pi : R) (wt : nat -> R) (sigmaS : nat -> nat -> R) (b : GVec) (bphi : GPhi) (x : GVec) (xphi : GPhi) : Prop :=
    exists psi bnd phi src b0 b' bphi' psi' bnd', schurKrylovOp R0 g nG geo sigmaT pr pi wt sigmaS x xphi psi bnd phi src b0 b' bphi' psi' bnd' /\ sameVec b' b /\ samePhi R0 nG bphi' bphi.
  (** No rank has more than INT_MAX unknowns. *)
  Definition vectors_fit : Prop := forall r l, r < u_ranks R0 -> NoDup l -> (forall u, In u l -> is_unknown (u_angles R0) nG (u_mesh R0) (u_mate R0) r u) -> (N.of_nat (length l) <= INT_MAX)%N.
  (** The inner solvers of SweeperSchurOuter (467-479): SourceIteration with local sweeps. *)
  Definition innerSweep (bnd : GBnd) (zeroPsiBound : bool) (src psi psi' : GPsi) : Prop := exists bnd', localSweep R0 g nG geo sigmaT pr src psi (if zeroPsiBound then zeroBound else bnd) psi' bnd'.
End Statements.

Section Proofs.
  Context {X : Type}.
  Variables (node : nat -> nat -> nat -> X) (R0 : run (value R) (block R)) (g : gaussElim) (nG : nat) (geo : nat -> rgeo R) (sigmaT : nat -> nat -> R) (pr : nat -> nat -> nat -> N).
  Hypothesis OK : transport_ok node R0 geo sigmaT.
  Hypothesis FVS : face_vertices R0 geo.
  Notation GPsi := (nat -> nat -> nat -> nat -> nat -> R).
  Notation GBnd := (nat -> nat -> nat -> nat -> nat -> R).
  Notation GVec := (nat -> N -> R).
  Notation teq := (transport_eq node R0 nG geo sigmaT).
  Notation leq := (local_eq node R0 nG geo sigmaT).
  Notation same := (same R0 nG).
  Notation sameBnd := (sameBnd R0 nG).
  Notation ex := (exchanged R0 nG geo).
  Notation M := (u_mesh R0). Notation nR := (u_ranks R0). Notation nA := (u_angles R0).
  Notation isU := (is_unknown nA nG M (u_mate R0)).
  Notation num := (PackProofs.no nA nG M).
  (** [x] holds the data [b]. *)
  Definition holds (x : GVec) (b : GBnd) : Prop := forall r u, r < nR -> isU r u -> at_unknown M r (b r) u = x r (num r u).
  Lemma fits_unpack x b b' : unpackAll R0 nG x b b' -> forall r, r < nR -> (count nA nG M r <= INT_MAX)%N.
  Proof. intros H r Hr. destruct (N.leb_spec (count nA nG M r) INT_MAX) as [|L]; auto. specialize (H r Hr). destruct (pack_undefined nA nG M r (x r) (b r) L). congruence. Qed.
  Lemma fits_pack x b x' : packAll R0 nG x b x' -> forall r, r < nR -> (count nA nG M r <= INT_MAX)%N.
  Proof. intros H r Hr. destruct (N.leb_spec (count nA nG M r) INT_MAX) as [|L]; auto. specialize (H r Hr). destruct (pack_undefined nA nG M r (x r) (b r) L). congruence. Qed.
  Lemma unpack_holds x b b' : unpackAll R0 nG x b b' -> holds x b'.
  Proof.
    intros H r u Hr U. pose proof (fits_unpack _ _ _ H r Hr) as L. specialize (H r Hr). destruct (unpack_ok nR nA nG M _ (sys node R0 geo sigmaT OK) r (x r) (b r) Hr L) as (b1 & E & K & _). rewrite E in H. apply Some_inj in H. subst b1. now apply K.
  Qed.
  Lemma pack_holds x b x' : packAll R0 nG x b x' -> holds x' b.
  Proof.
    intros H r u Hr U. pose proof (fits_pack _ _ _ H r Hr) as L. specialize (H r Hr). destruct (pack_ok nR nA nG M _ (sys node R0 geo sigmaT OK) r (x r) (b r) Hr L) as (x1 & E & K & _). rewrite E in H. apply Some_inj in H. subst x1. symmetry. now apply K.
  Qed.
  Lemma size_count r : (count nA nG M r <= INT_MAX)%N -> vecSize R0 nG r = count nA nG M r.
  Proof. intros L. unfold vecSize. rewrite size_w64. apply w64_small. unfold count, INT_MAX, two64 in *. lia. Qed.
  Lemma num_lt r u : r < nR -> isU r u -> (num r u < count nA nG M r)%N.
  Proof. intros Hr U. now apply (no_numbering nR nA nG M _ (sys node R0 geo sigmaT OK) r Hr). Qed.
  Lemma holds_same x b b' : holds x b -> holds x b' -> sameBnd b b'.
  Proof. intros H H' r u Hr U. now rewrite (H r u Hr U), (H' r u Hr U). Qed.
  Lemma holds_ext x b b' : sameBnd b b' -> holds x b -> holds x b'.
  Proof. intros E H r u Hr U. rewrite <- (E r u Hr U). now apply H. Qed.
  Lemma bnd_trans b b' b'' : sameBnd b b' -> sameBnd b' b'' -> sameBnd b b''.
  Proof. intros E E' r u Hr U. now rewrite (E r u Hr U), (E' r u Hr U). Qed.
  Lemma bnd_sym b b' : sameBnd b b' -> sameBnd b' b.
  Proof. intros E r u Hr U. now rewrite (E r u Hr U). Qed.
  Lemma eq_bnd b b' : (forall r, r < nR -> b r = b' r) -> sameBnd b b'.
  Proof. intros E r u Hr U. now rewrite (E r Hr). Qed.
  (** x - y = b for vectors with data bx, by, b. *)
  Lemma minus_bnd x y b b' bx by_ bb : (forall r, r < nR -> (count nA nG M r <= INT_MAX)%N) -> holds x bx -> holds y by_ -> holds b bb -> b' = xMinus R0 nG x y -> sameVec R0 nG b' b ->
    sameBnd bx (fun r s a fv G => 1 * by_ r s a fv G + 1 * bb r s a fv G)%R.
  Proof.
    intros L HX HY HB -> E r u Hr U. pose proof (num_lt r u Hr U) as Hn. rewrite <- (size_count r (L r Hr)) in Hn. specialize (E r (num r u) Hr Hn). unfold xMinus in E. rewrite (proj2 (N.ltb_lt _ _) Hn) in E.
    pose proof (HX r u Hr U) as A. pose proof (HY r u Hr U) as B. pose proof (HB r u Hr U) as C. destruct u as [[[[a c] f] fv] G]. cbn [at_unknown] in *. lra.
  Qed.
  Lemma sweep_of src psi bnd psi' bnd' : localSweep R0 g nG geo sigmaT pr src psi bnd psi' bnd' -> leq src bnd psi'.
  Proof. intros H. now apply (sweep_leq node R0 g nG geo sigmaT pr OK) in H. Qed.
  Notation LEXT := (local_ext node R0 nG geo sigmaT OK FVS).
  Notation LIN := (local_lin node R0 nG geo sigmaT OK).
  Notation UNIQ := (local_unique node R0 nG geo sigmaT OK FVS).
  Notation GLOB := (local_global node R0 nG geo sigmaT OK FVS).
  (** The argument all three methods share: if p1 solves with source Q1 and no inflow, p2 with Q2 and inflow b, and b is
      what p1 + p2 sends, then a local solution with Q1 + Q2 and b is a global one. *)
  Lemma join Q1 Q2 b w1 w2 p1 p2 p : leq Q1 zeroBound p1 -> leq Q2 b p2 -> ex p1 w1 -> ex p2 w2 -> sameBnd b (fun r s a fv G => 1 * w2 r s a fv G + 1 * w1 r s a fv G)%R ->
    leq (fun r c a v G => 1 * Q2 r c a v G + 1 * Q1 r c a v G)%R b p ->
    same p (fun r c a v G => 1 * p2 r c a v G + 1 * p1 r c a v G)%R /\ ex p b /\ teq (fun r c a v G => 1 * Q2 r c a v G + 1 * Q1 r c a v G)%R p.
  Proof.
    intros D1 D2 E1 E2 EB D. pose proof (LIN _ _ _ _ _ _ 1%R 1%R D2 D1) as DS.
    assert (S : same p (fun r c a v G => 1 * p2 r c a v G + 1 * p1 r c a v G)%R).
    { eapply UNIQ; [exact D|]. eapply LEXT; [apply same_refl| |apply same_refl|exact DS]. intros r [[[[a c] f] fv] G] Hr U. cbn. unfold zeroBound. ring. }
    split; auto. assert (E : ex p b).
    { eapply (exchanged_psi node R0 nG geo sigmaT OK FVS); [apply same_sym; exact S|]. eapply (exchanged_bnd node R0 nG geo sigmaT OK); [apply bnd_sym; exact EB|]. now apply exchanged_lin. }
    split; auto. now apply (GLOB _ b).
  Qed.

  Lemma schur_sweep src psi prev psi' prev' : schurSweep R0 g nG geo sigmaT pr (schurExact R0 g nG geo sigmaT pr) src psi prev psi' prev' -> teq src psi' /\ ex psi' prev'.
  Proof.
    intros (psi1 & bnd1 & bnd2 & b0 & b & x & psi2 & bnd3 & bnd4 & bnd5 & S1 & C1 & P1 & (psiX & bndX & c0 & b' & psiY & bndY & (bX & bY & y & UX & SX & CX & PX & EM) & EV) & U1 & U2 & S2).
    pose proof (sweep_of _ _ _ _ _ S1) as D1. pose proof (sweep_of _ _ _ _ _ SX) as D2. pose proof (sweep_of _ _ _ _ _ S2) as D.
    pose proof (comm_exchanged node R0 g nG geo sigmaT pr OK _ _ _ C1) as E1. pose proof (comm_exchanged node R0 g nG geo sigmaT pr OK _ _ _ CX) as E2.
    pose proof (unpack_holds _ _ _ UX) as HX. pose proof (unpack_holds _ _ _ U1) as H1. pose proof (unpack_holds _ _ _ U2) as H2.
    pose proof (minus_bnd x y b b' bX bndY bnd2 (fits_unpack _ _ _ UX) HX (pack_holds _ _ _ PX) (pack_holds _ _ _ P1) EM EV) as EB.
    pose proof (holds_same _ _ _ HX H1) as S14. pose proof (holds_same _ _ _ HX H2) as S1p.
    assert (D' : leq (fun r c a v G => 1 * zeroSource r c a v G + 1 * src r c a v G)%R bX psi').
    { eapply LEXT; [|apply bnd_sym; exact S14|apply same_refl|exact D]. intros r c a v G _ _ _. unfold zeroSource. ring. }
    destruct (join src zeroSource bX bnd2 bndY psi1 psiY psi' D1 D2 E1 E2 EB D') as (_ & EX & T). split.
    - eapply (eq_ext node R0 nG geo sigmaT OK); [|apply same_refl|exact T]. intros r c a v G _ _ _. unfold zeroSource. ring.
    - eapply (exchanged_bnd node R0 nG geo sigmaT OK); [exact S1p|exact EX].
  Qed.
  Lemma schur_krylov pi wt sigmaS src psi' : schurKrylovSolve R0 g nG geo sigmaT pr pi wt sigmaS (schurKrylovExact R0 g nG geo sigmaT pr pi wt sigmaS) src psi' -> scattering_eq node R0 nG geo sigmaT pi sigmaS wt src psi'.
  Proof.
    intros (psi1 & bnd1 & bnd2 & b0 & b & x & xphi & psi2 & bnd3 & bnd4 & bnd5 & S1 & C1 & P1 & (psiX & bndX & phi & srcX & c0 & b' & bphi' & psiY & bndY & (bX & bY & y & UX & K) & EV & EP) & U1 & S2).
    cbv zeta in K. destruct K as (SX & CX & PX & EM & EPHI).
    pose proof (sweep_of _ _ _ _ _ S1) as D1. pose proof (sweep_of _ _ _ _ _ SX) as D2. pose proof (sweep_of _ _ _ _ _ S2) as D.
    pose proof (comm_exchanged node R0 g nG geo sigmaT pr OK _ _ _ C1) as E1. pose proof (comm_exchanged node R0 g nG geo sigmaT pr OK _ _ _ CX) as E2.
    pose proof (unpack_holds _ _ _ UX) as HX. pose proof (unpack_holds _ _ _ U1) as H1.
    pose proof (minus_bnd x y b b' bX bndY bnd2 (fits_unpack _ _ _ UX) HX (pack_holds _ _ _ PX) (pack_holds _ _ _ P1) EM EV) as EB.
    pose proof (holds_same _ _ _ HX H1) as S14. set (S := fun (r c a v G : nat) => (sigmaS r c / (4 * pi) * xphi r c v G)%R).
    assert (D2' : leq S bX psiY).
    { eapply LEXT; [|intros r u _ _; reflexivity|apply same_refl|exact D2]. intros r c a v G (Hr & Hc & Ha) Hv HG. cbv beta.
      rewrite (proj1 (C42_phiToPsi R _ _ _ _ _ c a v G)) by auto. exact (proj1 (proj1 (C42_operatorS R Rops pi nG (rm_nCells (M r)) (sigmaS r) (xphi r) (phi r) c v G) ltac:(auto))). }
    assert (D' : leq (fun r c a v G => 1 * S r c a v G + 1 * src r c a v G)%R bX psi').
    { eapply LEXT; [|apply bnd_sym; exact S14|apply same_refl|exact D]. intros r c a v G (Hr & Hc & Ha) Hv HG. cbv beta.
      rewrite (proj2 (proj1 (C42_total R Rops pi nA nG (rm_nCells (M r)) (sigmaS r) (src r) (xphi r) (src r) c a v G) ltac:(auto))). unfold S. cbn. change (IZR 4) with 4%R. ring. }
    destruct (join src S bX bnd2 bndY psi1 psiY psi' D1 D2' E1 E2 EB D') as (PS & _ & T).
    assert (FX : forall r c v G, r < nR -> c < rm_nCells (M r) -> v < 4 -> G < nG -> scalarFlux R0 wt psi' r c v G = xphi r c v G).
    { intros r c v G Hr Hc Hv HG. rewrite (flux_ext R0 nG wt _ _ r c v G PS) by auto. rewrite flux_lin. specialize (EP r c v G Hr Hc Hv HG). rewrite EPHI in EP.
      rewrite (flux_same R0 nG wt psiY) in EP by auto. rewrite (flux_same R0 nG wt psi1) in EP by auto. lra. }
    unfold scattering_eq. eapply (eq_ext node R0 nG geo sigmaT OK); [|apply same_refl|exact T]. intros r c a v G (Hr & Hc & Ha) Hv HG. cbv beta. rewrite FX by auto. unfold S, scattered. lra.
  Qed.

  (** *** Scattering on one rank *)
  Section Scatter.
    Variables (pi : R) (wt : nat -> R) (k : R) (sigmaS : nat -> nat -> R).
    Hypothesis SO : scattering_ok node R0 geo sigmaT pi wt k sigmaS.
    Hypothesis K1 : (k < 1)%R.
    Notation lsc := (local_scattering node R0 nG geo sigmaT pi sigmaS wt).
    Notation sc psi := (fun r c a v G => sigmaS r c / (4 * pi) * scalarFlux R0 wt psi r c v G)%R.
    Lemma alone_scatters : scattering_ok node (alone R0) geo sigmaT pi wt k sigmaS.
    Proof.
      constructor; [apply (alone_ok node R0 geo sigmaT OK)| |apply SO|apply SO]. intros r c f q c' f' a Hm Ha. apply alone_mate in Hm as (-> & Hm). exact (so_faces _ _ _ _ _ _ _ _ SO _ _ _ _ _ _ _ Hm Ha).
    Qed.
    Lemma lsc_lin Q1 Q2 b1 b2 p1 p2 x y : lsc Q1 b1 p1 -> lsc Q2 b2 p2 ->
      lsc (fun r c a v G => x * Q1 r c a v G + y * Q2 r c a v G)%R (fun r s a fv G => x * b1 r s a fv G + y * b2 r s a fv G)%R (fun r c a v G => x * p1 r c a v G + y * p2 r c a v G)%R.
    Proof.
      intros D1 D2. unfold local_scattering. eapply LEXT; [|intros r u _ _; reflexivity|apply same_refl|exact (LIN _ _ _ _ _ _ x y D1 D2)]. intros r c a v G _ _ _. cbv beta. rewrite flux_lin. unfold scattered. ring.
    Qed.
    Lemma lsc_ext Q Q' b b' p p' : same Q Q' -> sameBnd b b' -> same p p' -> lsc Q b p -> lsc Q' b' p'.
    Proof.
      intros EQ EB EP D. unfold local_scattering. eapply LEXT; [|exact EB|exact EP|exact D]. intros r c a v G VA Hv HG. pose proof VA as (Hr & Hc & Ha). cbv beta. rewrite EQ by auto. f_equal. now apply (flux_ext R0 nG wt).
    Qed.
    Lemma lsc_unique Q b p p' : lsc Q b p -> lsc Q b p' -> same p p'.
    Proof.
      intros D D'. pose proof (lsc_lin _ _ _ _ _ _ 1%R (-1)%R D D') as D1. pose proof (lsc_lin _ _ _ _ _ _ 0%R 0%R D D) as D0. unfold local_scattering in D1, D0.
      apply (local_alone node R0 nG geo sigmaT OK FVS) in D1; [|intros r [[[[a c] f] fv] G] _ _; cbn; ring]. apply (local_alone node R0 nG geo sigmaT OK FVS) in D0; [|intros r [[[[a c] f] fv] G] _ _; cbn; ring].
      destruct (C62_well_posed X node (alone R0) nG geo sigmaT pi wt k sigmaS (fun _ _ _ _ _ => 0%R) alone_scatters K1) as (_ & U).
      assert (E : same (fun r c a v G => 1 * p r c a v G + -1 * p' r c a v G)%R (fun r c a v G => 0 * p r c a v G + 0 * p r c a v G)%R).
      { apply U; unfold scattering_eq.
        - eapply (eq_ext node (alone R0) nG geo sigmaT (alone_ok node R0 geo sigmaT OK)); [|apply same_refl|exact D1]. intros r c a v G _ _ _. unfold scattered. change (scalarFlux (alone R0)) with (scalarFlux R0). ring.
        - eapply (eq_ext node (alone R0) nG geo sigmaT (alone_ok node R0 geo sigmaT OK)); [|apply same_refl|exact D0]. intros r c a v G _ _ _. unfold scattered. change (scalarFlux (alone R0)) with (scalarFlux R0). ring. }
      intros r c a v G VA Hv HG. specialize (E r c a v G VA Hv HG). cbv beta in E. lra.
    Qed.
    Lemma schur_outer (inner : GPsi -> GBnd -> GPsi -> GPsi -> Prop) src psi' : (forall s b p p', inner s b p p' -> lsc s b p') ->
      schurOuterSolve R0 g nG geo sigmaT pr inner (schurOuterExact R0 g nG geo sigmaT pr inner) src psi' -> scattering_eq node R0 nG geo sigmaT pi sigmaS wt src psi'.
    Proof.
      intros IN (psi1 & bnd1 & b0 & b & x & psi2 & bnd2 & bnd3 & S1 & C1 & P1 & (psiX & bndX & c0 & b' & psiY & bndY & (bX & y & UX & SX & CX & PX & EM) & EV) & U1 & S2).
      apply IN in S1, SX, S2.
      pose proof (comm_exchanged node R0 g nG geo sigmaT pr OK _ _ _ C1) as E1. pose proof (comm_exchanged node R0 g nG geo sigmaT pr OK _ _ _ CX) as E2.
      pose proof (unpack_holds _ _ _ UX) as HX. pose proof (unpack_holds _ _ _ U1) as H1.
      pose proof (minus_bnd x y b b' bX bndY bnd1 (fits_unpack _ _ _ UX) HX (pack_holds _ _ _ PX) (pack_holds _ _ _ P1) EM EV) as EB.
      pose proof (holds_same _ _ _ HX H1) as S14. pose proof (lsc_lin _ _ _ _ _ _ 1%R 1%R SX S1) as DS.
      assert (PS : same psi' (fun r c a v G => 1 * psiY r c a v G + 1 * psi1 r c a v G)%R).
      { eapply lsc_unique; [exact S2|]. eapply lsc_ext; [| |apply same_refl|exact DS].
        - intros r c a v G _ _ _. unfold zeroSource. ring.
        - intros r u Hr U. rewrite <- (S14 r u Hr U). destruct u as [[[[a c] f] fv] G]. cbn. unfold zeroBound. ring. }
      assert (E : ex psi' bX).
      { eapply (exchanged_psi node R0 nG geo sigmaT OK FVS); [apply same_sym; exact PS|]. eapply (exchanged_bnd node R0 nG geo sigmaT OK); [apply bnd_sym; exact EB|]. now apply exchanged_lin. }
      unfold scattering_eq. apply (GLOB _ bX); auto. eapply LEXT; [apply same_refl|apply bnd_sym; exact S14|apply same_refl|exact S2].
    Qed.
  End Scatter.
  Lemma inner_krylov pi wt sigmaS src bnd psi psi' :
    krylov Rops pi nA nG wt (fun r => rm_nCells (M r)) sigmaS (innerSweep R0 g nG geo sigmaT pr bnd)
      (fun b x => exists psi s psi' s' b', lhsOperator Rops pi nA nG wt (fun r => rm_nCells (M r)) sigmaS (innerSweep R0 g nG geo sigmaT pr bnd) x psi s b' psi' s' /\ samePhi R0 nG b' b) src psi psi' ->
    local_scattering node R0 nG geo sigmaT pi sigmaS wt src bnd psi'.
  Proof.
    intros (psiB & x & psi2 & tmp & (bB & SB) & (psi0 & s & psi1 & s' & b' & (ES & (b1 & S1) & EB) & SP) & (bF & SF)). cbv iota in *.
    pose proof (sweep_of _ _ _ _ _ SB) as DB. pose proof (sweep_of _ _ _ _ _ S1) as D1. pose proof (sweep_of _ _ _ _ _ SF) as DF.
    set (S := fun (r c a v G : nat) => (sigmaS r c / (4 * pi) * x r c v G)%R).
    assert (D1' : leq S zeroBound psi1).
    { eapply LEXT; [|intros r u _ _; reflexivity|apply same_refl|exact D1]. intros r c a v G (Hr & Hc & Ha) Hv HG. rewrite ES.
      rewrite (proj1 (C42_phiToPsi R _ _ _ _ _ c a v G)) by auto. exact (proj2 (proj1 (C42_operatorS R Rops pi nG (rm_nCells (M r)) (sigmaS r) (x r) (x r) c v G) ltac:(auto))). }
    pose proof (LIN src S bnd zeroBound psiB psi1 1%R 1%R DB D1') as DS.
    assert (PS : same psi' (fun r c a v G => 1 * psiB r c a v G + 1 * psi1 r c a v G)%R).
    { eapply UNIQ; [exact DF|]. eapply LEXT; [| |apply same_refl|exact DS].
      - intros r c a v G VA Hv HG. rewrite total_same by auto. unfold scattered, S. lra.
      - intros r [[[[a c] f] fv] G] _ _. cbn. unfold zeroBound. ring. }
    assert (FX : forall r c v G, r < nR -> c < rm_nCells (M r) -> v < 4 -> G < nG -> scalarFlux R0 wt psi' r c v G = x r c v G).
    { intros r c v G Hr Hc Hv HG. rewrite (flux_ext R0 nG wt _ _ r c v G PS) by auto. rewrite flux_lin. specialize (SP r c v G Hr Hc Hv HG). rewrite EB in SP. cbn [asub Rops] in SP.
      rewrite (flux_same R0 nG wt psi1) in SP by auto. rewrite (flux_same R0 nG wt psiB) in SP by auto. lra. }
    unfold local_scattering. eapply LEXT; [|intros r u _ _; reflexivity|apply same_refl|exact DF].
    intros r c a v G VA Hv HG. rewrite total_same by auto. cbv beta. pose proof VA as (Hr & Hc & Ha). f_equal. now rewrite FX.
  Qed.
  Lemma inner_fixed pi wt sigmaS gsum iterMax errMax src bnd psi iters psi' phiNew phiOld error :
    fixedPoint Rops pi nA nG wt (fun r => rm_nCells (M r)) sigmaS gsum (innerSweep R0 g nG geo sigmaT pr bnd false) iterMax errMax src psi iters psi' phiNew phiOld error ->
    (0 < iters)%N -> samePhi R0 nG phiNew phiOld -> local_scattering node R0 nG geo sigmaT pi sigmaS wt src bnd psi'.
  Proof.
    intros H HI SP. destruct (C40_limits _ _ _ _ _ _ _ _ _ _ _ _ _ _ _ _ _ _ _ H) as (_ & _ & _ & K4 & K5). destruct (K5 HI) as (E & psi0 & total0 & _ & (b' & SW)). cbv iota in SW.
    pose proof (sweep_of _ _ _ _ _ SW) as D. unfold local_scattering. eapply LEXT; [|intros r u _ _; reflexivity|apply same_refl|exact D].
    intros r c a v G VA Hv HG. rewrite total_same by auto. cbv beta. pose proof VA as (Hr & Hc & Ha). f_equal. rewrite <- SP by auto. rewrite K4. now apply flux_same.
  Qed.

  (** *** Existence and uniqueness of the exact solution *)
  Hypothesis FIT : vectors_fit R0 nG.
  Lemma fit r : r < nR -> (count nA nG M r <= INT_MAX)%N.
  Proof. intros Hr. apply (FIT r (unknowns nA nG (M r)) Hr); [apply unknowns_nodup|]. intros u I. now apply (unknowns_In nR nA nG M _ (sys node R0 geo sigmaT OK) r). Qed.
  Lemma unpack_exists x b : exists b', unpackAll R0 nG x b b'.
  Proof.
    exists (fun r => match vecToPsiBound nA nG (M r) (x r) (b r) with Some b' => b' | None => b r end). intros r Hr. destruct (unpack_ok nR nA nG M _ (sys node R0 geo sigmaT OK) r (x r) (b r) Hr (fit r Hr)) as (b' & E & _). now rewrite E.
  Qed.
  Lemma pack_exists x b : exists x', packAll R0 nG x b x'.
  Proof.
    exists (fun r => match psiBoundToVec nA nG (M r) (x r) (b r) with Some x' => x' | None => x r end). intros r Hr. destruct (pack_ok nR nA nG M _ (sys node R0 geo sigmaT OK) r (x r) (b r) Hr (fit r Hr)) as (b' & E & _). now rewrite E.
  Qed.
  Lemma vec_by_unknown x y : (forall r u, r < nR -> isU r u -> x r (num r u) = y r (num r u)) -> sameVec R0 nG x y.
  Proof.
    intros H r i Hr Hi. fold (vecSize R0 nG r) in Hi. rewrite (size_count r (fit r Hr)) in Hi.
    destruct (proj2 (proj2 (no_numbering nR nA nG M _ (sys node R0 geo sigmaT OK) r Hr)) i Hi) as (u & U & <-). now apply H.
  Qed.
  Lemma schur_solvable src psi prev : exists psi' prev', schurSweep R0 g nG geo sigmaT pr (schurExact R0 g nG geo sigmaT pr) src psi prev psi' prev'.
  Proof.
    destruct (eq_exists node R0 NoPivot nG geo sigmaT (fun _ _ _ => 0%N) OK src) as (sol & TS).
    destruct (comm_exists node R0 g nG geo sigmaT pr OK sol zeroBound) as (wS & CS). pose proof (comm_exchanged node R0 g nG geo sigmaT pr OK _ _ _ CS) as ES.
    destruct (local_sweep_exists node R0 g nG geo sigmaT pr OK src psi zeroBound) as (psi1 & bnd1 & S1). destruct (comm_exists node R0 g nG geo sigmaT pr OK psi1 bnd1) as (bnd2 & C1).
    destruct (pack_exists (fun _ _ => 0%R) bnd2) as (b & P1). destruct (pack_exists (fun _ _ => 0%R) wS) as (x & PX). pose proof (pack_holds _ _ _ PX) as HX.
    destruct (unpack_exists x zeroBound) as (bX & UX). destruct (local_sweep_exists node R0 g nG geo sigmaT pr OK zeroSource zeroSource bX) as (psiY & bY & SY). destruct (comm_exists node R0 g nG geo sigmaT pr OK psiY bY) as (bndY & CY).
    destruct (pack_exists (fun _ _ => 0%R) bndY) as (y & PY). destruct (unpack_exists x prev) as (prev' & UP). destruct (local_sweep_exists node R0 g nG geo sigmaT pr OK src psi bX) as (psi' & b5 & S2).
    exists psi', prev', psi1, bnd1, bnd2, (fun _ _ => 0%R), b, x, psi, zeroBound, bX, b5. split; [exact S1|]. split; [exact C1|]. split; [exact P1|]. split; [|split; [exact UX|split; [exact UP|exact S2]]].
    exists zeroSource, zeroBound, (fun _ _ => 0%R), (xMinus R0 nG x y), psiY, bndY. split; [exists bX, bY, y; repeat (split; [assumption|]); reflexivity|].
    (* sol = psi1 + psiY *)
    pose proof (sweep_of _ _ _ _ _ S1) as D1. pose proof (sweep_of _ _ _ _ _ SY) as DY. pose proof (proj2 (GLOB src wS sol ES) TS) as DS. pose proof (unpack_holds _ _ _ UX) as HB.
    pose proof (holds_same _ _ _ HX HB) as EB. pose proof (LIN _ _ _ _ _ _ 1%R 1%R DY D1) as DJ.
    assert (PS : same sol (fun r c a v G => 1 * psiY r c a v G + 1 * psi1 r c a v G)%R).
    { eapply UNIQ; [exact DS|]. eapply LEXT; [| |apply same_refl|exact DJ].
      - intros r c a v G _ _ _. unfold zeroSource. ring.
      - intros r u Hr U. rewrite (EB r u Hr U). destruct u as [[[[a c] f] fv] G]. cbn. unfold zeroBound. ring. }
    pose proof (comm_exchanged node R0 g nG geo sigmaT pr OK _ _ _ C1) as E1. pose proof (comm_exchanged node R0 g nG geo sigmaT pr OK _ _ _ CY) as EY.
    pose proof (exchanged_psi node R0 nG geo sigmaT OK FVS _ _ _ PS ES) as ES'. pose proof (exchanged_lin R0 nG geo _ _ _ _ 1%R 1%R EY E1) as EJ. pose proof (exchanged_same R0 nG geo _ _ _ ES' EJ) as SB.
    apply vec_by_unknown. intros r u Hr U. pose proof (num_lt r u Hr U) as Hn. rewrite <- (size_count r (fit r Hr)) in Hn. unfold xMinus. rewrite (proj2 (N.ltb_lt _ _) Hn).
    rewrite <- (HX r u Hr U), <- (pack_holds _ _ _ PY r u Hr U), <- (pack_holds _ _ _ P1 r u Hr U). specialize (SB r u Hr U). destruct u as [[[[a c] f] fv] G]. cbn [at_unknown] in *. lra.
  Qed.
  Lemma schur_determined b x x' : schurExact R0 g nG geo sigmaT pr b x -> schurExact R0 g nG geo sigmaT pr b x' -> sameVec R0 nG x x'.
  Proof.
    intros (p1 & w1 & c1 & b1 & q1 & v1 & (bX1 & bY1 & y1 & U1 & S1 & C1 & P1 & M1) & V1) (p2 & w2 & c2 & b2 & q2 & v2 & (bX2 & bY2 & y2 & U2 & S2 & C2 & P2 & M2) & V2).
    pose proof (unpack_holds _ _ _ U1) as H1. pose proof (unpack_holds _ _ _ U2) as H2.
    pose proof (sweep_of _ _ _ _ _ S1) as D1. pose proof (sweep_of _ _ _ _ _ S2) as D2.
    pose proof (comm_exchanged node R0 g nG geo sigmaT pr OK _ _ _ C1) as E1. pose proof (comm_exchanged node R0 g nG geo sigmaT pr OK _ _ _ C2) as E2.
    assert (DB : sameBnd (fun r s a fv G => 1 * bX1 r s a fv G + -1 * bX2 r s a fv G)%R (fun r s a fv G => 1 * v1 r s a fv G + -1 * v2 r s a fv G)%R).
    { intros r u Hr U. pose proof (num_lt r u Hr U) as Hn. rewrite <- (size_count r (fit r Hr)) in Hn. specialize (V1 r (num r u) Hr Hn). specialize (V2 r (num r u) Hr Hn). rewrite M1 in V1. rewrite M2 in V2.
      unfold xMinus in V1, V2. rewrite (proj2 (N.ltb_lt _ _) Hn) in V1, V2. pose proof (H1 r u Hr U) as A1. pose proof (H2 r u Hr U) as A2. pose proof (pack_holds _ _ _ P1 r u Hr U) as B1. pose proof (pack_holds _ _ _ P2 r u Hr U) as B2.
      destruct u as [[[[a c] f] fv] G]. cbn [at_unknown] in *. lra. }
    pose proof (LIN _ _ _ _ _ _ 1%R (-1)%R D1 D2) as D. pose proof (exchanged_lin R0 nG geo _ _ _ _ 1%R (-1)%R E1 E2) as E.
    pose proof (proj1 (GLOB _ _ _ E) (LEXT _ _ _ _ _ _ (same_refl _ _ _) DB (same_refl _ _ _) D)) as TD. pose proof (eq_lin node R0 nG geo sigmaT OK _ _ _ _ 0 0 TD TD) as T0.
    assert (Z : same (fun r c a v G => 1 * q1 r c a v G + -1 * q2 r c a v G)%R (fun _ _ _ _ _ => 0%R)).
    { eapply (eq_unique node R0 nG geo sigmaT OK); [exact TD|]. eapply (eq_ext node R0 nG geo sigmaT OK); [| |exact T0]; intros r c a v G _ _ _; unfold zeroSource; ring. }
    pose proof (exchanged_psi node R0 nG geo sigmaT OK FVS _ _ _ Z E) as EZ.
    apply vec_by_unknown. intros r u Hr U. rewrite <- (H1 r u Hr U), <- (H2 r u Hr U). specialize (DB r u Hr U). destruct u as [[[[a c] f] fv] G]. pose proof U as ((q & c' & f' & Hm & N & O) & Ha & Hf & HG). specialize (EZ r c f q c' f' a fv G Hm N Ha O Hf HG).
    cbn [at_unknown] in *. lra.
  Qed.
  Section ScatterExists.
    Variables (pi : R) (wt : nat -> R) (k : R) (sigmaS : nat -> nat -> R).
    Hypothesis SO : scattering_ok node R0 geo sigmaT pi wt k sigmaS.
    Hypothesis K1 : (k < 1)%R.
    Notation lsc := (local_scattering node R0 nG geo sigmaT pi sigmaS wt).
    Lemma lsc_exists Q b : exists p, lsc Q b p.
    Proof.
      destruct (local_sweep_exists node R0 g nG geo sigmaT pr OK zeroSource zeroSource b) as (pb & b' & SB). pose proof (sweep_of _ _ _ _ _ SB) as DB.
      destruct (C62_well_posed X node (alone R0) nG geo sigmaT pi wt k sigmaS (fun r c a v G => Q r c a v G + sigmaS r c / (4 * pi) * scalarFlux R0 wt pb r c v G)%R (alone_scatters pi wt k sigmaS SO) K1) as ((q & DQ) & _).
      unfold scattering_eq in DQ. change (scalarFlux (alone R0)) with (scalarFlux R0) in DQ. pose proof (alone_local node R0 nG geo sigmaT _ _ DQ) as DL. pose proof (LIN _ _ _ _ _ _ 1%R 1%R DB DL) as D.
      eexists. unfold local_scattering. eapply LEXT; [| |apply same_refl|exact D].
      - intros r c a v G _ _ _. cbv beta. rewrite flux_lin. unfold zeroSource, scattered. ring.
      - intros r [[[[a c] f] fv] G] _ _. cbn. ring.
    Qed.
    (** The solution, split into a part without inflow and one with. *)
    Lemma krylov_solvable src : exists psi', schurKrylovSolve R0 g nG geo sigmaT pr pi wt sigmaS (schurKrylovExact R0 g nG geo sigmaT pr pi wt sigmaS) src psi'.
    Proof.
      destruct (C62_well_posed X node R0 nG geo sigmaT pi wt k sigmaS src SO K1) as ((sol & TS) & _). unfold scattering_eq in TS.
      destruct (comm_exists node R0 g nG geo sigmaT pr OK sol zeroBound) as (wS & CS). pose proof (comm_exchanged node R0 g nG geo sigmaT pr OK _ _ _ CS) as ES.
      destruct (local_sweep_exists node R0 g nG geo sigmaT pr OK src zeroSource zeroBound) as (psi1 & bnd1 & S1). destruct (comm_exists node R0 g nG geo sigmaT pr OK psi1 bnd1) as (bnd2 & C1).
      destruct (pack_exists (fun _ _ => 0%R) bnd2) as (b & P1). destruct (pack_exists (fun _ _ => 0%R) wS) as (x & PX). pose proof (pack_holds _ _ _ PX) as HX.
      destruct (unpack_exists x zeroBound) as (bX & UX). set (xphi := scalarFlux R0 wt sol). set (nC := fun r => rm_nCells (M r)).
      set (src1 := fun r => phiToPsi nA nG (nC r) (operatorS Rops pi nG (nC r) (sigmaS r) (xphi r) (fun _ _ _ => 0%R)) (fun _ _ _ _ => 0%R)).
      destruct (local_sweep_exists node R0 g nG geo sigmaT pr OK src1 zeroSource bX) as (psiY & bY & SY). destruct (comm_exists node R0 g nG geo sigmaT pr OK psiY bY) as (bndY & CY).
      destruct (pack_exists (fun _ _ => 0%R) bndY) as (y & PY). destruct (local_sweep_exists node R0 g nG geo sigmaT pr OK (fun r => calcTotalSourceAliased Rops pi nA nG (nC r) (sigmaS r) (src r) (xphi r)) zeroSource bX) as (psi' & b5 & S2).
      exists psi', psi1, bnd1, bnd2, (fun _ _ => 0%R), b, x, xphi, zeroSource, zeroBound, bX, b5. split; [exact S1|]. split; [exact C1|]. split; [exact P1|]. split; [|split; [exact UX|exact S2]].
      exists zeroSource, zeroBound, (fun _ _ _ _ => 0%R), (fun _ _ _ _ _ => 0%R), (fun _ _ => 0%R), (xMinus R0 nG x y), (fun r c v G => xphi r c v G - gPsiToPhi Rops nA nG wt nC psiY r c v G)%R, psiY, bndY.
      split; [exists bX, bY, y; split; [exact UX|]; split; [exact SY|]; split; [exact CY|]; split; [exact PY|]; split; reflexivity|].
      pose proof (sweep_of _ _ _ _ _ S1) as D1. pose proof (sweep_of _ _ _ _ _ SY) as DY. pose proof (proj2 (GLOB _ wS sol ES) TS) as DS. pose proof (unpack_holds _ _ _ UX) as HB.
      pose proof (holds_same _ _ _ HX HB) as EB. pose proof (LIN _ _ _ _ _ _ 1%R 1%R DY D1) as DJ.
      assert (PS : same sol (fun r c a v G => 1 * psiY r c a v G + 1 * psi1 r c a v G)%R).
      { eapply UNIQ; [exact DS|]. eapply LEXT; [| |apply same_refl|exact DJ].
        - intros r c a v G (Hr & Hc & Ha) Hv HG. unfold src1. rewrite (proj1 (C42_phiToPsi R _ _ _ _ _ c a v G)) by auto.
          rewrite (proj1 (proj1 (C42_operatorS R Rops pi nG (nC r) (sigmaS r) (xphi r) (fun _ _ _ => 0%R) c v G) ltac:(auto))). unfold scattered, xphi. cbn. change (IZR 4) with 4%R. ring.
        - intros r u Hr U. rewrite (EB r u Hr U). destruct u as [[[[a c] f] fv] G]. cbn. unfold zeroBound. ring. }
      pose proof (comm_exchanged node R0 g nG geo sigmaT pr OK _ _ _ C1) as E1. pose proof (comm_exchanged node R0 g nG geo sigmaT pr OK _ _ _ CY) as EY.
      pose proof (exchanged_psi node R0 nG geo sigmaT OK FVS _ _ _ PS ES) as ES'. pose proof (exchanged_lin R0 nG geo _ _ _ _ 1%R 1%R EY E1) as EJ. pose proof (exchanged_same R0 nG geo _ _ _ ES' EJ) as SB. split.
      - apply vec_by_unknown. intros r u Hr U. pose proof (num_lt r u Hr U) as Hn. rewrite <- (size_count r (fit r Hr)) in Hn. unfold xMinus. rewrite (proj2 (N.ltb_lt _ _) Hn).
        rewrite <- (HX r u Hr U), <- (pack_holds _ _ _ PY r u Hr U), <- (pack_holds _ _ _ P1 r u Hr U). specialize (SB r u Hr U). destruct u as [[[[a c] f] fv] G]. cbn [at_unknown] in *. lra.
      - intros r c v G Hr Hc Hv HG. unfold nC. rewrite (flux_same R0 nG wt psiY), (flux_same R0 nG wt psi1) by auto. unfold xphi. rewrite (flux_ext R0 nG wt _ _ r c v G PS) by auto. rewrite flux_lin. lra.
    Qed.
    Lemma outer_solvable (inner : GPsi -> GBnd -> GPsi -> GPsi -> Prop) src : (forall s b p p', inner s b p p' -> lsc s b p') -> (forall s b p, exists p', inner s b p p') ->
      exists psi', schurOuterSolve R0 g nG geo sigmaT pr inner (schurOuterExact R0 g nG geo sigmaT pr inner) src psi'.
    Proof.
      intros IN TOT. destruct (C62_well_posed X node R0 nG geo sigmaT pi wt k sigmaS src SO K1) as ((sol & TS) & _).
      destruct (comm_exists node R0 g nG geo sigmaT pr OK sol zeroBound) as (wS & CS). pose proof (comm_exchanged node R0 g nG geo sigmaT pr OK _ _ _ CS) as ES.
      destruct (TOT src zeroBound zeroSource) as (psi1 & S1). destruct (comm_exists node R0 g nG geo sigmaT pr OK psi1 zeroBound) as (bnd1 & C1).
      destruct (pack_exists (fun _ _ => 0%R) bnd1) as (b & P1). destruct (pack_exists (fun _ _ => 0%R) wS) as (x & PX). pose proof (pack_holds _ _ _ PX) as HX.
      destruct (unpack_exists x zeroBound) as (bX & UX). destruct (TOT zeroSource bX zeroSource) as (psiY & SY). destruct (comm_exists node R0 g nG geo sigmaT pr OK psiY bX) as (bndY & CY).
      destruct (pack_exists (fun _ _ => 0%R) bndY) as (y & PY). destruct (TOT src bX psiY) as (psi' & S2).
      exists psi', psi1, bnd1, (fun _ _ => 0%R), b, x, psiY, zeroBound, bX. split; [exact S1|]. split; [exact C1|]. split; [exact P1|]. split; [|split; [exact UX|exact S2]].
      exists zeroSource, zeroBound, (fun _ _ => 0%R), (xMinus R0 nG x y), psiY, bndY. split; [exists bX, y; repeat (split; [assumption|]); reflexivity|].
      pose proof (IN _ _ _ _ S1) as D1. pose proof (IN _ _ _ _ SY) as DY. pose proof (proj2 (GLOB _ wS sol ES) TS) as DS. pose proof (unpack_holds _ _ _ UX) as HB.
      pose proof (holds_same _ _ _ HX HB) as EB. pose proof (lsc_lin pi wt sigmaS _ _ _ _ _ _ 1%R 1%R DY D1) as DJ.
      assert (PS : same sol (fun r c a v G => 1 * psiY r c a v G + 1 * psi1 r c a v G)%R).
      { eapply (lsc_unique pi wt k sigmaS SO K1); [exact DS|]. eapply lsc_ext; [| |apply same_refl|exact DJ].
        - intros r c a v G _ _ _. unfold zeroSource. ring.
        - intros r u Hr U. rewrite (EB r u Hr U). destruct u as [[[[a c] f] fv] G]. cbn. unfold zeroBound. ring. }
      pose proof (comm_exchanged node R0 g nG geo sigmaT pr OK _ _ _ C1) as E1. pose proof (comm_exchanged node R0 g nG geo sigmaT pr OK _ _ _ CY) as EY.
      pose proof (exchanged_psi node R0 nG geo sigmaT OK FVS _ _ _ PS ES) as ES'. pose proof (exchanged_lin R0 nG geo _ _ _ _ 1%R 1%R EY E1) as EJ. pose proof (exchanged_same R0 nG geo _ _ _ ES' EJ) as SB.
      apply vec_by_unknown. intros r u Hr U. pose proof (num_lt r u Hr U) as Hn. rewrite <- (size_count r (fit r Hr)) in Hn. unfold xMinus. rewrite (proj2 (N.ltb_lt _ _) Hn).
      rewrite <- (HX r u Hr U), <- (pack_holds _ _ _ PY r u Hr U), <- (pack_holds _ _ _ P1 r u Hr U). specialize (SB r u Hr U). destruct u as [[[[a c] f] fv] G]. cbn [at_unknown] in *. lra.
    Qed.
  End ScatterExists.
End Proofs.

(** C61: SweeperSchur::sweep with an exact solution of its linear system gives what a sweep over the whole mesh gives, from any
    initial psi and any boundary data left by earlier calls; the boundary data kept for the next call is that of the result. *)
Theorem C61_schur : forall X (node : nat -> nat -> nat -> X) R0 g nG geo sigmaT pr, transport_ok node R0 geo sigmaT -> face_vertices R0 geo ->
  forall src psi prev psi' prev', schurSweep R0 g nG geo sigmaT pr (schurExact R0 g nG geo sigmaT pr) src psi prev psi' prev' ->
  transport_eq node R0 nG geo sigmaT src psi' /\ exchanged R0 nG geo psi' prev' /\
  forall psi0 psi1, fullSweep R0 g nG geo sigmaT pr src psi0 psi1 -> same R0 nG psi' psi1.
Proof.
  intros X node R0 g nG geo sigmaT pr OK FV src psi prev psi' prev' H. destruct (schur_sweep node R0 g nG geo sigmaT pr OK FV src psi prev psi' prev' H) as (T & E). split; [exact T|]. split; [exact E|].
  intros psi0 psi1 SW. apply (eq_unique node R0 nG geo sigmaT OK src); auto. eapply sweep_eq; eauto.
Qed.
(** C61: the linear system of every such sweep has an exact solution, and no linear system with this operator has two. *)
Theorem C61_solvable : forall X (node : nat -> nat -> nat -> X) R0 g nG geo sigmaT pr, transport_ok node R0 geo sigmaT -> face_vertices R0 geo -> vectors_fit R0 nG ->
  (forall src psi prev, exists psi' prev', schurSweep R0 g nG geo sigmaT pr (schurExact R0 g nG geo sigmaT pr) src psi prev psi' prev') /\
  (forall b x x', schurExact R0 g nG geo sigmaT pr b x -> schurExact R0 g nG geo sigmaT pr b x' -> sameVec R0 nG x x').
Proof. intros X node R0 g nG geo sigmaT pr OK FV FIT. split; [apply (schur_solvable node); auto|apply (schur_determined node); auto]. Qed.
(** C61: SweeperSchurKrylov::solve with an exact solution of its linear system solves the problem with scattering. *)
Theorem C61_krylov : forall X (node : nat -> nat -> nat -> X) R0 g nG geo sigmaT pr pi wt sigmaS, transport_ok node R0 geo sigmaT -> face_vertices R0 geo ->
  forall src psi', schurKrylovSolve R0 g nG geo sigmaT pr pi wt sigmaS (schurKrylovExact R0 g nG geo sigmaT pr pi wt sigmaS) src psi' ->
  scattering_eq node R0 nG geo sigmaT pi sigmaS wt src psi'.
Proof. intros. eapply schur_krylov; eauto. Qed.
(** C61: SweeperSchurOuter::solve with exact inner and outer solves solves the problem with scattering; inner: the local
    problem with scattering is solved, as source iteration does when it changes nothing any more, or Krylov when exact. *)
Theorem C61_outer : forall X (node : nat -> nat -> nat -> X) R0 g nG geo sigmaT pr pi wt k sigmaS, scattering_ok node R0 geo sigmaT pi wt k sigmaS -> (k < 1)%R -> face_vertices R0 geo ->
  forall (inner : (nat -> nat -> nat -> nat -> nat -> R) -> (nat -> nat -> nat -> nat -> nat -> R) -> (nat -> nat -> nat -> nat -> nat -> R) -> (nat -> nat -> nat -> nat -> nat -> R) -> Prop) src psi',
  (forall s b p p', inner s b p p' -> local_scattering node R0 nG geo sigmaT pi sigmaS wt s b p') ->
  schurOuterSolve R0 g nG geo sigmaT pr inner (schurOuterExact R0 g nG geo sigmaT pr inner) src psi' -> scattering_eq node R0 nG geo sigmaT pi sigmaS wt src psi'.
Proof. intros X node R0 g nG geo sigmaT pr pi wt k sigmaS SO K FV inner src psi' IN H. eapply schur_outer; eauto. apply SO. Qed.
Theorem C61_inner : forall X (node : nat -> nat -> nat -> X) R0 g nG geo sigmaT pr pi wt sigmaS, transport_ok node R0 geo sigmaT -> face_vertices R0 geo ->
  forall src bnd psi psi',
  (forall gsum iterMax errMax iters phiNew phiOld error, fixedPoint Rops pi (u_angles R0) nG wt (fun r => rm_nCells (u_mesh R0 r)) sigmaS gsum (innerSweep R0 g nG geo sigmaT pr bnd false) iterMax errMax src psi iters psi' phiNew phiOld error ->
    (0 < iters)%N -> samePhi R0 nG phiNew phiOld -> local_scattering node R0 nG geo sigmaT pi sigmaS wt src bnd psi') /\
  (krylov Rops pi (u_angles R0) nG wt (fun r => rm_nCells (u_mesh R0 r)) sigmaS (innerSweep R0 g nG geo sigmaT pr bnd)
      (fun b x => exists psi s psi' s' b', lhsOperator Rops pi (u_angles R0) nG wt (fun r => rm_nCells (u_mesh R0 r)) sigmaS (innerSweep R0 g nG geo sigmaT pr bnd) x psi s b' psi' s' /\ samePhi R0 nG b' b) src psi psi' ->
    local_scattering node R0 nG geo sigmaT pi sigmaS wt src bnd psi').
Proof. intros. split; [intros; eapply inner_fixed; eauto|intros; eapply inner_krylov; eauto]. Qed.
(** C61: the linear systems of the other two methods have exact solutions too, with a scattering ratio below 1. *)
Theorem C61_scatter_solvable : forall X (node : nat -> nat -> nat -> X) R0 g nG geo sigmaT pr pi wt k sigmaS, scattering_ok node R0 geo sigmaT pi wt k sigmaS -> (k < 1)%R -> face_vertices R0 geo -> vectors_fit R0 nG ->
  (forall src, exists psi', schurKrylovSolve R0 g nG geo sigmaT pr pi wt sigmaS (schurKrylovExact R0 g nG geo sigmaT pr pi wt sigmaS) src psi') /\
  (forall src, let inner := fun s b (p p' : nat -> nat -> nat -> nat -> nat -> R) => local_scattering node R0 nG geo sigmaT pi sigmaS wt s b p' in
     exists psi', schurOuterSolve R0 g nG geo sigmaT pr inner (schurOuterExact R0 g nG geo sigmaT pr inner) src psi').
Proof.
  intros X node R0 g nG geo sigmaT pr pi wt k sigmaS SO K FV FIT. pose proof (so_transport _ _ _ _ _ _ _ _ SO) as OK. split; [intros src; eapply (krylov_solvable node); eauto|].
  intros src inner. eapply (outer_solvable node); eauto. intros s b p. unfold inner. eapply (lsc_exists node R0 NoPivot nG geo sigmaT (fun _ _ _ => 0%N)); eauto.
Qed.

(** The two tetrahedra on two ranks: one interface face, so 3 vertices and 2 groups at the one angle that enters. *)
Example C45_ex : forall r, r < 2 -> getPsiBoundSize 2 2 (tetMesh r) = 6%N.
Proof. intros [|[|r]] Hr; [reflexivity|reflexivity|lia]. Qed.
Lemma tet_fits : vectors_fit tetRun 2.
Proof.
  intros r l Hr ND I. assert (L : length l <= length (unknowns 2 2 (tetMesh r))).
  { apply NoDup_incl_length; auto. intros u Hu. apply (unknowns_In 2 2 2 tetMesh tetMate); [exact (to_sys _ _ _ _ tet_transport)|exact Hr|now apply I]. }
  assert (length (unknowns 2 2 (tetMesh r)) = 6) by (destruct r as [|[|r]]; [reflexivity|reflexivity|cbn in Hr; lia]). unfold INT_MAX. lia.
Qed.
Example C61_ex : scattering_ok tetNode tetRun tetGeo (fun _ _ => 1%R) PI (fun _ => 2 * PI)%R (/ 2) (fun _ _ => / 2)%R /\ face_vertices tetRun tetGeo /\ vectors_fit tetRun 2.
Proof.
  split; [exact C62_ex|]. split; [|exact tet_fits]. split.
  - intros r c f j _ _ Hf Hj NE. cbn [tetGeo rg_c2f]. destruct (Nat.ltb_spec j f); lia.
  - intros r c f fv _ _ Hf Hfv. cbn [tetGeo rg_f2c]. destruct (Nat.ltb_spec fv f); lia.
Qed.
Example C45_overflow_ex : sys_ok 2 2 tetMesh tetMate /\ interface tetMesh tetMate 0 1 0 0.
Proof. split; [exact (to_sys _ _ _ _ tet_transport)|]. exists 1, 0, 0. split; [reflexivity|]. split; [discriminate|reflexivity]. Qed.
Print Assumptions C45_layout. Print Assumptions C45_vector_back. Print Assumptions C45_data_back. Print Assumptions C45_overflow_refuted.
Print Assumptions C61_schur. Print Assumptions C61_solvable. Print Assumptions C61_krylov. Print Assumptions C61_outer. Print Assumptions C61_inner. Print Assumptions C61_scatter_solvable.
