(** C77: double precision computes the true direction of the flow through every face that is resolved. *)
From Coq Require Import ZArith Reals Lra Lia Permutation String.
From Flocq Require Import Core IEEE754.BinarySingleNaN IEEE754.Binary IEEE754.Bits.
From Verif Require Import Prelude Bytes DeckModel MeshModel MeshSpec CreateSpec TychoSpec RefineSpec GeometryModel GeometrySpec GeometryProofs TransportModel SweepModel ProblemModel ViewModel ViewSpec ViewProofs ViewGeoProofs BitsSpec TraverseModel
  DoubleModel DoubleSpec DoubleProofs PropertiesDouble MainModel PropertiesMain RoundProofs RoundSpec TripleProofs FaceSignProofs MeshRoundProofs.
Local Open Scope R_scope.

Lemma height_triple F v : height F v = triple (subR v (t0 F)) (subR (t1 F) (t0 F)) (subR (t2 F) (t0 F)).
Proof. unfold height, faceCross, crossR, getCrossProduct, dotR, triple, subR. cbn. ring. Qed.
Lemma clear_nonzero o F : clear_of o F -> triple o (subR (t1 F) (t0 F)) (subR (t2 F) (t0 F)) <> 0.
Proof.
  unfold clear_of. intros C E. rewrite E, Rabs_R0 in C.
  assert (0 <= tripleAbs o (subR (t1 F) (t0 F)) (subR (t2 F) (t0 F))); [|lra]. unfold tripleAbs. repeat apply Rplus_le_le_0_compat; apply Rmult_le_pos; try apply Rabs_pos; apply Rplus_le_le_0_compat; apply Rabs_pos.
Qed.
Lemma heron_pos o F : triple o (subR (t1 F) (t0 F)) (subR (t2 F) (t0 F)) <> 0 -> 0 < sqrt (heron16 F) / 4.
Proof.
  intros T. assert (0 < heron16 F); [|assert (0 < sqrt (heron16 F)) by (now apply sqrt_lt_R0); lra].
  assert (E : heron16 F = 4 * dotR (faceCross F) (faceCross F)). { unfold heron16, dist2, dotR, faceCross, crossR, getCrossProduct, subR. destruct F as [[a b c] [d e f] [g h i]]. cbn. ring. }
  assert (T' : triple o (subR (t1 F) (t0 F)) (subR (t2 F) (t0 F)) = dotR o (faceCross F)). { unfold faceCross, crossR, getCrossProduct, dotR, triple, subR. cbn. ring. }
  rewrite E. rewrite T' in T. clear E T'. destruct (faceCross F) as [x y z]. unfold dotR in *. cbn [t0 t1 t2] in *. pose proof (Rle_0_sqr x). pose proof (Rle_0_sqr y). pose proof (Rle_0_sqr z). unfold Rsqr in *.
  destruct (Req_dec x 0) as [->|Nx]; [|pose proof (Rsqr_pos_lt x Nx); unfold Rsqr in *; lra]. destruct (Req_dec y 0) as [->|Ny]; [|pose proof (Rsqr_pos_lt y Ny); unfold Rsqr in *; lra].
  destruct (Req_dec z 0) as [->|Nz]; [exfalso; apply T; ring|pose proof (Rsqr_pos_lt z Nz); unfold Rsqr in *; lra].
Qed.

(** A sufficient condition in terms of lengths: the volume spanned exceeds 2^-48 of the product of the lengths. *)
Theorem C77_clear : forall o F, let a := subR (t1 F) (t0 F) in let b := subR (t2 F) (t0 F) in
  / 2 ^ 96 * (dotR o o * dotR a a * dotR b b) < triple o a b * triple o a b -> clear_of o F.
Proof.
  intros o F a b H. unfold clear_of. cbv zeta. fold a b. clearbody a b. set (T := tripleAbs o a b). assert (T0 : 0 <= T). { unfold T, tripleAbs. repeat apply Rplus_le_le_0_compat; apply Rmult_le_pos; try apply Rabs_pos; apply Rplus_le_le_0_compat; apply Rabs_pos. }
  assert (B : T * T <= 2 * (dotR o o * dotR a a * dotR b b)).
  { unfold T, tripleAbs, dotR. rewrite !Rabs_mult. clear. destruct o as [o0 o1 o2], a as [a0 a1 a2], b as [b0 b1 b2]. cbn [t0 t1 t2].
    assert (Q : forall x, x * x = Rabs x * Rabs x) by (intros x; rewrite <- Rabs_mult; symmetry; apply Rabs_pos_eq, Rle_0_sqr).
    rewrite (Q o0), (Q o1), (Q o2), (Q a0), (Q a1), (Q a2), (Q b0), (Q b1), (Q b2). clear Q. generalize (Rabs o0) (Rabs o1) (Rabs o2) (Rabs a0) (Rabs a1) (Rabs a2) (Rabs b0) (Rabs b1) (Rabs b2). clear. intros o0 o1 o2 a0 a1 a2 b0 b1 b2.
    set (w0 := a1 * b2 + a2 * b1). set (w1 := a2 * b0 + a0 * b2). set (w2 := a0 * b1 + a1 * b0).
    assert (SQ : forall x : R, 0 <= x * x) by (intros x; apply Rle_0_sqr).
    assert (W : w0 * w0 + w1 * w1 + w2 * w2 <= 2 * ((a0 * a0 + a1 * a1 + a2 * a2) * (b0 * b0 + b1 * b1 + b2 * b2))).
    { unfold w0, w1, w2. pose proof (SQ (a1 * b2 - a2 * b1)). pose proof (SQ (a2 * b0 - a0 * b2)). pose proof (SQ (a0 * b1 - a1 * b0)). pose proof (SQ (a0 * b0)). pose proof (SQ (a1 * b1)). pose proof (SQ (a2 * b2)). lra. }
    assert (C : (o0 * w0 + o1 * w1 + o2 * w2) * (o0 * w0 + o1 * w1 + o2 * w2) <= (o0 * o0 + o1 * o1 + o2 * o2) * (w0 * w0 + w1 * w1 + w2 * w2)).
    { pose proof (SQ (o0 * w1 - o1 * w0)). pose proof (SQ (o1 * w2 - o2 * w1)). pose proof (SQ (o2 * w0 - o0 * w2)). lra. }
    eapply Rle_trans; [exact C|]. rewrite Rmult_assoc, <- Rmult_assoc with (r1 := 2), (Rmult_comm 2), Rmult_assoc. apply Rmult_le_compat_l; [pose proof (SQ o0); pose proof (SQ o1); pose proof (SQ o2); lra|exact W]. }
  assert (K : Rabs (/ 562949953421312 * T) < Rabs (triple o a b)).
  { apply Rsqr_lt_abs_0. unfold Rsqr. set (P := dotR o o * dotR a a * dotR b b) in *. assert (PP : 0 <= P). { pose proof (Rle_0_sqr T). unfold Rsqr in *. lra. }
    eapply Rle_lt_trans; [|exact H]. replace (/ 562949953421312 * T * (/ 562949953421312 * T)) with (/ 562949953421312 * / 562949953421312 * (T * T)) by ring.
    replace (/ 2 ^ 96) with (/ 562949953421312 * / 562949953421312 * 4) by field. apply Rle_trans with (/ 562949953421312 * / 562949953421312 * (2 * P)); [apply Rmult_le_compat_l; [lra|exact B]|lra]. }
  rewrite (Rabs_pos_eq (/ 562949953421312 * T)) in K by (apply Rmult_le_pos; lra). exact K.
Qed.

(** The true flow through a resolved face is not zero, and the program computes its direction: outgoing if and only if it flows out. *)
Theorem C77_sign : forall sm nA om a g lf x, serial_mesh_ok sm -> tets_ok sm -> coords_moderate sm -> omegas_moderate nA om -> (a < nA)%nat -> resolved_at sm nA om g lf ->
  s_signed sm rdec (real3 (om a)) g lf x -> x <> 0 /\ (b_out Dops sm ddec om a g lf = true <-> 0 < x).
Proof.
  intros sm nA om a g lf x OK TT CM OM Ha RS (p & f & sf & F0 & n & SC & O & SF & (N1 & N2 & N3 & N4) & ->).
  destruct (apex_ok sm OK TT CM nA om g lf f sf OM RS O) as (F & v & P & EF & EP & VI & SC' & SF' & CV & _ & CA & CO & AB & DD).
  rewrite (s_cell_fun _ _ _ _ _ SC SC') in *. rewrite (s_face_fun _ _ _ _ _ SF SF') in *. clear p F0 SC SF. specialize (N4 _ CV). specialize (CO a Ha). destruct (DD a Ha) as (FI & NZ & DS). clear DD. cbn [t0 t1 t2 rface] in N2, N3, N4.
  pose proof (clear_nonzero _ _ CA) as TA. pose proof (clear_nonzero _ _ CO) as TO. pose proof (heron_pos _ _ TO) as HP. cbn [t0 t1 t2 rface] in TA, TO.
  destruct (outward_sign (real3 (om a)) (subR (real3 v) (real3 (t0 F))) n _ _ N1 N2 N3 N4 TO TA) as (NN & SG). split; [intros Z; apply Rmult_integral in Z; destruct Z; [lra|contradiction]|].
  unfold b_out, b_omN. rewrite EF, EP. cbn [obind]. destruct (omN_sign (om a) F P v VI FI NZ) as (d & -> & E). cbn [orZero]. rewrite E.
  assert (X : 0 < sqrt (heron16 (rface F)) / 4 * dotR (real3 (om a)) n <-> 0 < dotR (real3 (om a)) n).
  { split; intros Q; [|now apply Rmult_lt_0_compat]. apply (Rmult_lt_reg_l (sqrt (heron16 (rface F)) / 4)); lra. }
  rewrite X, SG. clear -AB DS. destruct (Rgt_dec _ 0) as [G|G], (above Dops F v); cbn [xorb].
  - split; [discriminate|]. intros K. exfalso. apply K. split; intros _; [now apply AB|now apply DS].
  - split; [|reflexivity]. intros _ K. assert (false = true) as D; [|discriminate]. apply AB. apply K. now apply DS.
  - split; [|reflexivity]. intros _ K. apply G. apply DS. apply K. now apply AB.
  - split; [discriminate|]. intros K. exfalso. apply K. split; intros Q; exfalso; [apply G; now apply DS|]. apply AB in Q. discriminate.
Qed.

(** A resolved mesh of a solid. *)
Record resolved_mesh (sm : smesh) (nA : nat) (om : nat -> q3 binary64) : Prop := {
  rs_mesh : serial_mesh_ok sm; rs_tets : tets_ok sm; rs_solid : solid sm rdec; rs_coords : coords_moderate sm; rs_omegas : omegas_moderate nA om; rs_resolved : resolved sm nA om }.

Lemma cell_below sm i sc : SM_cell sm i = Some sc -> (i < lenN (sm_cells sm))%N.
Proof. intros H. assert (L : (N.to_nat i < length (sm_cells sm))%nat) by (apply nth_error_Some; unfold SM_cell in H; rewrite H; discriminate). unfold lenN. lia. Qed.
Section Resolved.
  Context (sm : smesh) (nA : nat) (om : nat -> q3 binary64) (RM : resolved_mesh sm nA om).
  Lemma shared_next g lf h lf' f sf : s_opposite sm g lf f sf -> s_opposite sm h lf' f sf -> g <> h -> s_next sm g lf h /\ s_next sm h lf' g.
  Proof using RM.
    destruct RM as [OK TT _ _ _ _]. intros O O' NE. destruct (opp_two sm OK TT g lf h lf' f sf sf O O' (not_eq_sym NE)) as (_ & A). destruct (opp_two sm OK TT h lf' g lf f sf sf O' O NE) as (_ & A').
    assert (NI : forall i sc, SM_cell sm i = Some sc -> i <> INVALID).
    { intros i sc H. pose proof (cell_below sm i sc H) as L. pose proof (smo_cells sm OK) as K. revert L K. generalize INVALID. intros b L K E. subst i. exact (N.lt_irrefl _ (N.lt_trans _ _ _ L K)). }
    destruct O as (sc & E & O), O' as (sc' & E' & O'). split; [exists f, sf|exists f, sf]; (split; [eexists; eauto|split; eauto]).
  Qed.
  (** Signed areas exist at every face. *)
  Lemma signed_ex a g lf f sf : s_opposite sm g lf f sf -> exists x, s_signed sm rdec (real3 (om a)) g lf x.
  Proof using RM.
    destruct RM as [OK TT SO CM _ _]. intros O. pose proof O as (sc & E & _). destruct (b_cell_ok sm OK g sc E) as (P & _ & SC & _). destruct (b_face_ok sm OK TT CM g lf f sf O) as (F & _ & SF & _).
    destruct (normal_face (rcell P) lf (rface F) (sol_volume _ _ SO g _ SC) (s_face_of sm rdec OK TT g lf f sf _ _ O SC SF)) as (n & v & _ & _ & _ & _ & N & _). eexists. exists (rcell P), f, sf, (rface F), n. split; [exact SC|]. split; [exact O|]. split; [exact SF|]. split; [exact N|reflexivity].
  Qed.
  Lemma face_two g lf h lf' f sf : s_opposite sm g lf f sf -> s_opposite sm h lf' f sf -> g <> h -> exists F v w, apex sm g lf F v /\ apex sm h lf' F w /\ above Dops F v = negb (above Dops F w) /\
    forall a, (a < nA)%nat -> let d := vdot Dops (om a) (triNormal Dops F) in is_finite 53 1024 d = true /\ B2R 53 1024 d <> 0.
  Proof using RM.
    intros O O' NE. destruct (shared_next g lf h lf' f sf O O' NE) as (NX & NX'). destruct RM as [OK TT SO CM OM RS].
    destruct (apex_ok sm OK TT CM nA om g lf f sf OM (RS g lf h NX) O) as (F & v & P & EF & EP & VI & SC & SF & CV & EB & CA & CO & AB & DD).
    destruct (apex_ok sm OK TT CM nA om h lf' f sf OM (RS h lf' g NX') O') as (F' & w & P' & EF' & EP' & VI' & SC' & SF' & CV' & EB' & CA' & CO' & AB' & DD').
    assert (F' = F). { rewrite <- EB in EB'. rewrite EF, EF' in EB'. now apply Some_inj in EB'. } subst F'.
    exists F, v, w. split; [exists P; auto|]. split; [exists P'; auto|]. split.
    - pose proof (no_overlap_sides _ _ lf lf' (rface F) _ _ (sol_volume _ _ SO _ _ SC) (sol_volume _ _ SO _ _ SC') (s_face_of sm rdec OK TT _ _ _ _ _ _ O SC SF) (s_face_of sm rdec OK TT _ _ _ _ _ _ O' SC' SF') CV CV' (fun x => sol_apart _ _ SO g h _ _ x NE SC SC')) as H.
      rewrite !height_triple in H. cbn [t0 t1 t2 rface] in H. set (s := triple (subR (real3 v) _) _ _) in *. set (u := triple (subR (real3 w) _) _ _) in *. clearbody s u. clear -H AB AB'.
      destruct (above Dops F v), (above Dops F w); cbn [negb]; auto; exfalso.
      + pose proof (proj1 AB eq_refl). pose proof (proj1 AB' eq_refl). assert (0 < s * u) by now apply Rmult_lt_0_compat. lra.
      + assert (s <= 0) by (destruct (Rlt_or_le 0 s) as [Q|]; auto; apply AB in Q; discriminate). assert (u <= 0) by (destruct (Rlt_or_le 0 u) as [Q|]; auto; apply AB' in Q; discriminate).
        assert (0 <= (- s) * (- u)) by (apply Rmult_le_pos; lra). lra.
    - intros a Ha. destruct (DD a Ha) as (A & B & _). split; [exact A|exact B].
  Qed.
End Resolved.

(** On a resolved mesh the computed signs at the two sides of a face differ, ... *)
Theorem C77_signs : forall sm nA om, resolved_mesh sm nA om -> decided sm nA om /\ signs_ok Dops sm ddec om nA.
Proof. intros sm nA om RM. assert (D : decided sm nA om) by (intros g lf h lf' f sf; exact (face_two sm nA om RM g lf h lf' f sf)). split; [exact D|exact (C66_double_signs sm nA om D)]. Qed.
(** ... no direction is tangent, and the computed flow has cycles if and only if the true one has. *)
Theorem C77_cycles : forall sm nA om, resolved_mesh sm nA om ->
  transversal sm rdec nA (fun a => real3 (om a)) /\ (b_acyclic Dops sm ddec om nA <-> s_acyclic sm rdec nA (fun a => real3 (om a))).
Proof.
  intros sm nA om RM. pose proof RM as [OK TT SO CM OM RS].
  assert (SG : forall a g lf h x, (a < nA)%nat -> s_next sm g lf h -> s_signed sm rdec (real3 (om a)) g lf x -> x <> 0 /\ (b_out Dops sm ddec om a g lf = true <-> 0 < x)).
  { intros a g lf h x Ha NX S. exact (C77_sign sm nA om a g lf x OK TT CM OM Ha (RS g lf h NX) S). }
  split; [intros a g lf h x Ha NX S; exact (proj1 (SG a g lf h x Ha NX S))|]. split; intros (lvl & L); exists lvl.
  - intros a g lf h x Ha NX S X. apply (L a g lf h Ha NX). destruct (SG a g lf h x Ha NX S) as (_ & K). destruct (b_out Dops sm ddec om a g lf); auto. pose proof (proj1 K eq_refl). lra.
  - intros a g lf h Ha NX B. assert (O : exists f sf, s_opposite sm g lf f sf) by (destruct NX as (f & sf & O & _); eauto). destruct O as (f & sf & O). destruct (signed_ex sm nA om RM a g lf f sf O) as (x & S).
    destruct (SG a g lf h x Ha NX S) as (NZ & K). apply (L a g lf h x Ha NX S). destruct (Rlt_or_le 0 x) as [Q|Q]; [apply K in Q; rewrite Q in B; discriminate|lra].
Qed.
(** So a transport problem that is well posed in exact arithmetic is one that double precision can be trusted with. *)
Theorem C77_problem : forall sm nA om sigma, problem_ok sm rdec nA (fun a => real3 (om a)) sigma -> coords_moderate sm -> omegas_moderate nA om -> resolved sm nA om ->
  resolved_mesh sm nA om /\ bits_ok Dops sm ddec om nA /\ compares sm rdec dltb.
Proof.
  intros sm nA om sigma [P1 P2 P3 P4 P5 P6] CM OM RS. assert (RM : resolved_mesh sm nA om) by (constructor; auto). split; [exact RM|]. split.
  - constructor; [constructor; [exact P1|exact P2|exact (proj2 (C77_signs _ _ _ RM))]|]. now apply (proj2 (C77_cycles _ _ _ RM)).
  - apply C66_double_compares. intros n s x H I. exact (proj1 (CM n s x H I)).
Qed.
(** And the program, sweeping by graph traversal, is in the setting of C70 and C71. *)
Theorem C77_setting : forall stod quadrature tol fname deck sm cfg q sigma, problem_ok sm rdec (q_num q) (fun a => real3 (q_omega q a)) sigma ->
  coords_moderate sm -> omegas_moderate (q_num q) (q_omega q) -> resolved sm (q_num q) (q_omega q) ->
  readInput stod fname (Some deck) = Some cfg -> quadrature (cSnOrder cfg) = Some q -> cSweep cfg <> OriginalTycho1 -> cSweep cfg <> OriginalTycho2 ->
  (0 < List.length (sm_cells sm))%nat -> (0 < q_num q)%nat -> (0 < cNGroups cfg)%N -> (N.of_nat (q_num q * List.length (sm_cells sm) * 4) * (24 * cNGroups cfg) < INT_MAX)%N ->
  setting Dops ddec stod quadrature tol fname deck sm cfg q.
Proof.
  intros stod quadrature tol fname deck sm cfg q sigma PB CM OM RS E1 E2 N1 N2 L1 L2 L3 L4. destruct (C77_problem _ _ _ _ PB CM OM RS) as (_ & BO & _).
  constructor; auto. intros [E|E]; contradiction.
Qed.
Print Assumptions C77_clear. Print Assumptions C77_sign. Print Assumptions C77_signs. Print Assumptions C77_cycles. Print Assumptions C77_problem. Print Assumptions C77_setting.
