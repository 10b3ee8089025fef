(** C42 and C40: the operators of src/Util.cc and the loop of src/SourceIteration.cc. *)
From Coq Require Import Reals Lra.
From Verif Require Import Prelude MeshModel GeometryModel FluxModel FluxSpec FluxProofs.

Lemma fold_lsum {X} (l : list X) (f : X -> R) x : fold_left (fun s a => (s + f a)%R) l x = (x + lsum l f)%R.
Proof. revert x. induction l as [|y l IH]; intros x; cbn [fold_left lsum fold_right]; [lra|]. rewrite IH. unfold lsum. lra. Qed.
Lemma lsum_ext {X} (l : list X) (f h : X -> R) : (forall x, In x l -> f x = h x) -> lsum l f = lsum l h.
Proof. unfold lsum. induction l as [|y l IH]; intros E; cbn; auto. rewrite E by now left. rewrite IH; auto. intros. apply E. now right. Qed.
Lemma lsum_lin {X} (l : list X) (f h : X -> R) x y : lsum l (fun a => (x * f a + y * h a)%R) = (x * lsum l f + y * lsum l h)%R.
Proof. unfold lsum. induction l as [|z l IH]; cbn; [lra|]. rewrite IH. lra. Qed.
Lemma in_inside nG nC c v g : inside nG nC c v g = true <-> (c < nC /\ v < 4 /\ g < nG).
Proof. unfold inside. rewrite !andb_true_iff, !Nat.ltb_lt. tauto. Qed.
Lemma phi_sum nA nG wt nC psi c v g : c < nC -> v < 4 -> g < nG -> psiToPhi Rops nA nG wt nC psi c v g = overAngles nA wt (fun a => psi c a v g).
Proof.
  intros Hc Hv Hg. rewrite psiToPhi_eq, (proj2 (in_inside nG nC c v g)) by auto. cbn [aadd amul azero Rops]. rewrite (fold_lsum _ (fun a => (psi c a v g * wt a)%R)). unfold overAngles.
  rewrite Rplus_0_l. apply lsum_ext. intros. lra.
Qed.

(** C42: psiToPhi is the quadrature sum over angles, and zero outside the mesh; it is linear. *)
Theorem C42_psiToPhi : forall nA nG wt nC psi c v g,
  (c < nC -> v < 4 -> g < nG -> psiToPhi Rops nA nG wt nC psi c v g = overAngles nA wt (fun a => psi c a v g)) /\
  (~ (c < nC /\ v < 4 /\ g < nG) -> psiToPhi Rops nA nG wt nC psi c v g = 0%R).
Proof.
  intros nA nG wt nC psi c v g. split; [apply phi_sum|]. intros N. rewrite psiToPhi_eq. destruct (inside nG nC c v g) eqn:E; [|reflexivity]. apply in_inside in E. easy.
Qed.
Theorem C42_linear : forall nA nG wt nC psi1 psi2 x y c v g,
  psiToPhi Rops nA nG wt nC (fun c a v g => x * psi1 c a v g + y * psi2 c a v g)%R c v g =
  (x * psiToPhi Rops nA nG wt nC psi1 c v g + y * psiToPhi Rops nA nG wt nC psi2 c v g)%R.
Proof.
  intros nA nG wt nC psi1 psi2 x y c v g. destruct (inside nG nC c v g) eqn:E.
  - apply in_inside in E. destruct E as (Hc & Hv & Hg). rewrite !phi_sum by auto. unfold overAngles. rewrite <- lsum_lin. apply lsum_ext. intros. lra.
  - rewrite !psiToPhi_eq, E. cbn. lra.
Qed.
(** C42: phiToPsi gives every angle the scalar flux and changes nothing outside the mesh; back again, the flux is multiplied by the sum of the weights. *)
Theorem C42_phiToPsi : forall (T : Type) nA nG nC (phi : nat -> nat -> nat -> T) psi c a v g,
  (c < nC /\ a < nA /\ v < 4 /\ g < nG -> phiToPsi nA nG nC phi psi c a v g = phi c v g) /\
  (~ (c < nC /\ a < nA /\ v < 4 /\ g < nG) -> phiToPsi nA nG nC phi psi c a v g = psi c a v g).
Proof.
  intros T nA nG nC phi psi c a v g. rewrite phiToPsi_eq. split; intros H.
  - rewrite (proj2 (in_inside nG nC c v g)) by tauto. destruct (Nat.ltb_spec a nA); [reflexivity|lia].
  - destruct (inside nG nC c v g) eqn:E; [|reflexivity]. apply in_inside in E. destruct (Nat.ltb_spec a nA); [|reflexivity]. exfalso. apply H. tauto.
Qed.
Theorem C42_roundtrip : forall nA nG wt nC phi psi c v g, c < nC -> v < 4 -> g < nG ->
  psiToPhi Rops nA nG wt nC (phiToPsi nA nG nC phi psi) c v g = (overAngles nA wt (fun _ => 1%R) * phi c v g)%R.
Proof.
  intros nA nG wt nC phi psi c v g Hc Hv Hg. rewrite phi_sum by auto. unfold overAngles.
  rewrite (lsum_ext _ _ (fun a => (phi c v g * (wt a * 1) + 0 * 0)%R)).
  - rewrite (lsum_lin (seq 0 nA) (fun a => (wt a * 1)%R) (fun _ => 0%R)). lra.
  - intros a Ha. apply in_seq in Ha. rewrite (proj1 (C42_phiToPsi R nA nG nC phi psi c a v g)) by lia. lra.
Qed.
(** C42: calcTotalSource adds the scattered flux to the source, in any arithmetic, and the same if the output is
    the source itself. *)
Theorem C42_total : forall (T : Type) (A : arith T) pi nA nG nC sigmaS source phi total c a v g,
  let q := aadd A (source c a v g) (amul A (adiv A (sigmaS c) (amul A (alit A 4) pi)) (phi c v g)) in
  (c < nC /\ a < nA /\ v < 4 /\ g < nG -> calcTotalSource A pi nA nG nC sigmaS source phi total c a v g = q /\ calcTotalSourceAliased A pi nA nG nC sigmaS source phi c a v g = q) /\
  (~ (c < nC /\ a < nA /\ v < 4 /\ g < nG) -> calcTotalSource A pi nA nG nC sigmaS source phi total c a v g = total c a v g /\ calcTotalSourceAliased A pi nA nG nC sigmaS source phi c a v g = source c a v g).
Proof.
  intros T A pi nA nG nC sigmaS source phi total c a v g q. rewrite total_eq, totalAliased_eq. split; intros H.
  - rewrite (proj2 (in_inside nG nC c v g)) by tauto. destruct (Nat.ltb_spec a nA); [now split|lia].
  - destruct (inside nG nC c v g) eqn:E; [|now split]. apply in_inside in E. destruct (Nat.ltb_spec a nA); [|now split]. exfalso. apply H. tauto.
Qed.
Theorem C42_total_real : forall pi nA nG nC sigmaS source phi total c a v g, c < nC -> a < nA -> v < 4 -> g < nG ->
  calcTotalSource Rops pi nA nG nC sigmaS source phi total c a v g = scattered pi (sigmaS c) (source c a v g) (phi c v g).
Proof. intros. now apply (C42_total R Rops). Qed.
(** C42: operatorS, also in place, as lhsOperator uses it. *)
Theorem C42_operatorS : forall (T : Type) (A : arith T) pi nG nC sigmaS phi1 phi2 c v g,
  let q := amul A (adiv A (sigmaS c) (amul A (alit A 4) pi)) (phi1 c v g) in
  (c < nC /\ v < 4 /\ g < nG -> operatorS A pi nG nC sigmaS phi1 phi2 c v g = q /\ operatorSAliased A pi nG nC sigmaS phi1 c v g = q) /\
  (~ (c < nC /\ v < 4 /\ g < nG) -> operatorS A pi nG nC sigmaS phi1 phi2 c v g = phi2 c v g /\ operatorSAliased A pi nG nC sigmaS phi1 c v g = phi1 c v g).
Proof.
  intros T A pi nG nC sigmaS phi1 phi2 c v g q. rewrite operatorS_eq, operatorSAliased_eq. split; intros H.
  - rewrite (proj2 (in_inside nG nC c v g)) by tauto. now split.
  - destruct (inside nG nC c v g) eqn:E; [|now split]. apply in_inside in E. easy.
Qed.
Example C42_ex : psiToPhi Rops 2 1 (fun a => INR (S a)) 1 (fun _ a v _ => INR (10 * a + v)) 0 3 0 = 29%R.
Proof. rewrite phi_sum by lia. unfold overAngles. cbn [seq lsum fold_right]. simpl INR. lra. Qed.

(** C40: fixedPoint makes at most iterMax iterations, one at least if iterMax > 0 and errMax < 1, stops before
    iterMax only when the last relative change is not greater than errMax, and ends whenever the sweeps do. In
    any arithmetic; a change that is not a number is not greater either. *)
Section Loop.
  Context {T : Type}.
  Variables (A : arith T) (pi : T) (nA nG : nat) (wt : nat -> T) (nC : nat -> nat) (sigmaS : nat -> nat -> T) (gsum : (nat -> T) -> T).
  Variable sweep : (nat -> nat -> nat -> nat -> nat -> T) -> (nat -> nat -> nat -> nat -> nat -> T) -> (nat -> nat -> nat -> nat -> nat -> T) -> Prop.
  Variables (iterMax : N) (errMax : T) (source : nat -> nat -> nat -> nat -> nat -> T).
  Notation loop := (fixedPointLoop A pi nA nG wt nC sigmaS gsum sweep iterMax errMax source).
  Notation change := (relError A nG nC gsum).
  Notation flux := (gPsiToPhi A nA nG wt nC).
  Lemma loop_facts iter error psi total phiNew phiOld iter' psi' phiNew' phiOld' error' :
    loop iter error psi total phiNew phiOld iter' psi' phiNew' phiOld' error' -> (iter <= iterMax)%N -> phiNew = flux psi ->
    (iter <= iter' <= iterMax)%N /\ ((iter < iterMax)%N -> agt A error errMax = true -> (iter < iter')%N) /\
    ((iter' < iterMax)%N -> agt A error' errMax = false) /\ phiNew' = flux psi' /\
    (iter' = iter -> psi' = psi /\ error' = error) /\
    ((iter < iter')%N -> error' = change phiNew' phiOld' /\ exists psi0 total0, phiOld' = flux psi0 /\ sweep (gTotal A pi nA nG nC sigmaS source phiOld' total0) psi0 psi').
  Proof.
    intros H. induction H as [iter error psi total phiNew phiOld E|iter error psi total phiNew phiOld psi1 iter' psi' phiNew' phiOld' error' E total1 SW phi1 H IH]; intros LE EF.
    - split; [lia|]. split; [|split; [|split; [auto|split; [auto|lia]]]].
      + intros L1 L2. rewrite L2 in E. apply N.ltb_lt in L1. rewrite L1 in E. discriminate.
      + intros L. apply N.ltb_lt in L. rewrite L in E. exact E.
    - apply andb_prop in E. destruct E as (E1 & E2). apply N.ltb_lt in E1. destruct (IH ltac:(lia) eq_refl) as (I1 & I2 & I3 & I4 & I5 & I6).
      split; [lia|]. split; [lia|]. split; [auto|]. split; [auto|]. split; [lia|]. intros _.
      destruct (N.eq_dec iter' (N.succ iter)) as [->|N].
      + destruct (I5 eq_refl) as (-> & ->). inversion H as [i er p t pn po EE|i er p t pn po p1 i' p' pn' po' er' EE t1 SW1 ph1 HH]; subst.
        * split; [reflexivity|]. exists psi, total. split; [reflexivity|exact SW].
        * exfalso. clear - HH. apply (N.lt_irrefl (N.succ iter)). apply N.lt_le_trans with (N.succ (N.succ iter)); [lia|].
          assert (G : forall i er p t pn po i' p' pn' po' er', loop i er p t pn po i' p' pn' po' er' -> (i <= i')%N) by (intros until 1; induction H; lia). eapply G; eauto.
      + apply I6. lia.
  Qed.
End Loop.
Theorem C40_limits : forall (T : Type) (A : arith T) pi nA nG wt nC sigmaS gsum sweep iterMax errMax source psi iters psi' phiNew phiOld error,
  fixedPoint A pi nA nG wt nC sigmaS gsum sweep iterMax errMax source psi iters psi' phiNew phiOld error ->
  (iters <= iterMax)%N /\ ((0 < iterMax)%N -> agt A (aone A) errMax = true -> (0 < iters)%N) /\
  ((iters < iterMax)%N -> agt A error errMax = false) /\
  phiNew = gPsiToPhi A nA nG wt nC psi' /\
  ((0 < iters)%N -> error = relError A nG nC gsum phiNew phiOld /\
     exists psi0 total0, phiOld = gPsiToPhi A nA nG wt nC psi0 /\ sweep (gTotal A pi nA nG nC sigmaS source phiOld total0) psi0 psi').
Proof.
  intros T A pi nA nG wt nC sigmaS gsum sweep iterMax errMax source psi iters psi' phiNew phiOld error H.
  destruct (loop_facts A pi nA nG wt nC sigmaS gsum sweep iterMax errMax source _ _ _ _ _ _ _ _ _ _ _ H ltac:(lia) eq_refl) as (I1 & I2 & I3 & I4 & I5 & I6).
  split; [lia|]. split; [auto|]. split; [auto|]. split; [auto|]. exact I6.
Qed.
Theorem C40_ends : forall (T : Type) (A : arith T) pi nA nG wt nC sigmaS gsum sweep iterMax errMax source psi,
  (forall total psi, exists psi', sweep total psi psi') ->
  exists iters psi' phiNew phiOld error, fixedPoint A pi nA nG wt nC sigmaS gsum sweep iterMax errMax source psi iters psi' phiNew phiOld error.
Proof.
  intros T A pi nA nG wt nC sigmaS gsum sweep iterMax errMax source psi TOT. unfold fixedPoint.
  assert (K : forall k iter error psi total phiNew phiOld, k = N.to_nat (iterMax - iter) -> exists iters psi' phiNew' phiOld' error',
    fixedPointLoop A pi nA nG wt nC sigmaS gsum sweep iterMax errMax source iter error psi total phiNew phiOld iters psi' phiNew' phiOld' error'); [|eapply K; reflexivity].
  clear psi. induction k as [|k IH]; intros iter error psi total phiNew phiOld Ek.
  - exists iter, psi, phiNew, phiOld, error. apply fp_end. destruct (N.ltb_spec iter iterMax); [lia|reflexivity].
  - destruct (N.ltb iter iterMax && agt A error errMax) eqn:E; [|exists iter, psi, phiNew, phiOld, error; now apply fp_end].
    destruct (TOT (gTotal A pi nA nG nC sigmaS source phiNew total) psi) as (psi1 & SW).
    destruct (IH (N.succ iter) (relError A nG nC gsum (gPsiToPhi A nA nG wt nC psi1) phiNew) psi1 (gTotal A pi nA nG nC sigmaS source phiNew total) (gPsiToPhi A nA nG wt nC psi1) phiNew ltac:(lia)) as (i & p & pn & po & e & H).
    exists i, p, pn, po, e. eapply fp_next; [exact E|exact SW|exact H].
Qed.
(** The expectation of at least one iteration fails for errMax >= 1: nothing is swept and psi is returned as it was. *)
Theorem C40_no_sweep_refuted : forall (T : Type) (A : arith T) pi nA nG wt nC sigmaS gsum sweep iterMax errMax source psi iters psi' phiNew phiOld error,
  agt A (aone A) errMax = false ->
  fixedPoint A pi nA nG wt nC sigmaS gsum sweep iterMax errMax source psi iters psi' phiNew phiOld error -> iters = 0%N /\ psi' = psi.
Proof.
  intros T A pi nA nG wt nC sigmaS gsum sweep iterMax errMax source psi iters psi' phiNew phiOld error E H. inversion H; subst; [auto|]. rewrite E, andb_false_r in *. discriminate.
Qed.
Example C40_ex : forall psi, exists psi' phiNew phiOld error, fixedPoint Rops PI 1 1 (fun _ => 1%R) (fun _ => 1) (fun _ _ => 1%R) (fun f => f 0) (fun _ _ p => p = fun _ _ _ _ _ => 1%R) 5 (/ 2)%R (fun _ _ _ _ _ => 0%R) psi 2%N psi' phiNew phiOld error \/
  fixedPoint Rops PI 1 1 (fun _ => 1%R) (fun _ => 1) (fun _ _ => 1%R) (fun f => f 0) (fun _ _ p => p = fun _ _ _ _ _ => 1%R) 5 (/ 2)%R (fun _ _ _ _ _ => 0%R) psi 1%N psi' phiNew phiOld error.
Proof.
  intros psi. set (sw := fun (_ _ p : nat -> nat -> nat -> nat -> nat -> R) => p = fun _ _ _ _ _ => 1%R).
  set (p1 := fun _ _ _ _ _ : nat => 1%R). set (src := fun _ _ _ _ _ : nat => 0%R).
  set (f := gPsiToPhi Rops 1 1 (fun _ => 1%R) (fun _ => 1)).
  destruct (agt Rops (relError Rops 1 (fun _ => 1) (fun f => f 0) (f p1) (f psi)) (/ 2)%R) eqn:E.
  - exists p1, (f p1), (f p1), (relError Rops 1 (fun _ => 1) (fun f => f 0) (f p1) (f p1)). left. unfold fixedPoint.
    eapply fp_next with (psi1 := p1); [cbn; destruct (Rgt_dec 1 (/2)); [reflexivity|lra]|reflexivity|].
    eapply fp_next with (psi1 := p1); [cbn [N.ltb]; exact E|reflexivity|]. apply fp_end.
    assert (Z : forall g : nat -> nat -> nat -> nat -> R, errorSum Rops 1 (fun _ => 1) 0 g g = 0%R).
    { intros g. unfold errorSum. cbv [tri list_prod seq map app fold_left]. cbn [aadd aabs asub azero Rops]. rewrite !Rminus_diag_eq, !Rabs_R0 by auto. lra. }
    unfold relError. rewrite Z. cbn. unfold Rdiv. rewrite Rmult_0_l. destruct (Rgt_dec 0 (/2)); [lra|reflexivity].
  - exists p1, (f p1), (f psi), (relError Rops 1 (fun _ => 1) (fun f => f 0) (f p1) (f psi)). right. unfold fixedPoint.
    eapply fp_next with (psi1 := p1); [cbn; destruct (Rgt_dec 1 (/2)); [reflexivity|lra]|reflexivity|]. apply fp_end. cbn [N.ltb]. exact E.
Qed.
Print Assumptions C42_psiToPhi. Print Assumptions C42_linear. Print Assumptions C42_phiToPsi. Print Assumptions C42_roundtrip. Print Assumptions C42_total. Print Assumptions C42_total_real. Print Assumptions C42_operatorS.
Print Assumptions C40_limits. Print Assumptions C40_ends. Print Assumptions C40_no_sweep_refuted.
