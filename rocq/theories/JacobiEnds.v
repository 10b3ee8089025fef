(** C80: when a run makes a sweep, and that a sweep of a run has ended. *)
From Coq Require Import Reals.
From Verif Require Import Prelude Bytes DeckModel MeshModel TychoModel GeometryModel GaussModel TransportModel TraverseModel TraverseRun SweepModel FluxModel ProblemModel ViewModel MainModel JacobiModel.

Section Swept.
  Context {T : Type} (A : arith T) (R0 : run (value T) (block T)) (g : gaussElim) (nGroups : nat) (geo : nat -> rgeo T) (sigmaT : nat -> nat -> T) (pr : nat -> nat -> nat -> N).
  Context (pi : T) (sigmaS : nat -> nat -> T) (wt : nat -> T) (gsum : (nat -> T) -> T).
  Context (P : Prop) (LP : forall src psi bnd psi' bnd', localSweepA A R0 g nGroups geo sigmaT pr src psi bnd psi' bnd' -> P).
  Context (ddIterMax : N) (ddErrMax : T) (iterMax : N) (errMax : T) (source : nat -> nat -> nat -> nat -> nat -> T).
  Notation GPsi := (nat -> nat -> nat -> nat -> nat -> T).
  Lemma jacobi_swept src iter psi0 psi bnd ops psi' bnd' : jacobiLoop A R0 g nGroups geo sigmaT pr gsum ddIterMax ddErrMax src iter psi0 psi bnd ops psi' bnd' -> In OSweep ops -> P.
  Proof. intros J I. destruct J; [destruct I|eauto|eauto]. Qed.
  Lemma fixed_swept (sweep : GPsi -> GPsi -> GPsi -> list op -> GPsi -> GPsi -> Prop) : (forall src psi bnd ops psi' bnd', sweep src psi bnd ops psi' bnd' -> In OSweep ops -> P) ->
    forall iter e psi bnd tot phi ops psi' bnd', fixedLoop A R0 nGroups pi sigmaS wt gsum sweep iterMax errMax source iter e psi bnd tot phi ops psi' bnd' -> In OSweep ops -> P.
  Proof.
    intros SP iter e psi bnd tot phi ops psi' bnd' J. induction J as [|iter e psi bnd tot phi ops1 psi1 bnd1 ops psi' bnd' B tot1 SW phi1 J IH]; intros I; [destruct I|].
    apply in_app_or in I. destruct I as [I|[I|I]]; [exact (SP _ _ _ _ _ _ SW I)|discriminate I|exact (IH I)].
  Qed.
  Lemma fixedA_swept (sweep : GPsi -> GPsi -> GPsi -> list op -> GPsi -> GPsi -> Prop) : (forall src psi bnd ops psi' bnd', sweep src psi bnd ops psi' bnd' -> In OSweep ops -> P) ->
    forall psi bnd ops psi' bnd', fixedA A R0 nGroups pi sigmaS wt gsum sweep iterMax errMax source psi bnd ops psi' bnd' -> In OSweep ops -> P.
  Proof. intros SP psi bnd ops psi' bnd' (l & -> & J) [I|I]; [discriminate I|]. exact (fixed_swept sweep SP _ _ _ _ _ _ _ _ _ J I). Qed.
  Lemma outer_swept iter psi0 psi bnd ops psi' : outerLoopA A R0 g nGroups geo sigmaT pr pi sigmaS wt gsum ddIterMax ddErrMax iterMax errMax source iter psi0 psi bnd ops psi' -> In OSweep ops -> P.
  Proof.
    assert (SP : forall src psi bnd ops psi' bnd', outerSweep A R0 g nGroups geo sigmaT pr src psi bnd ops psi' bnd' -> In OSweep ops -> P) by (intros src p b l p' b' (_ & LS) _; eauto).
    intros J. induction J as [|iter psi0 psi bnd ops psi' bnd' B FX ST|iter psi0 psi bnd ops1 psi1 bnd1 bnd2 ops psi' B FX ST CO J IH]; intros I; [destruct I|exact (fixedA_swept _ SP _ _ _ _ _ FX I)|].
    apply in_app_or in I. destruct I as [I|[I|I]]; [exact (fixedA_swept _ SP _ _ _ _ _ FX I)|discriminate I|exact (IH I)].
  Qed.
  Lemma si_swept iter phi0 psi bnd tot ops psi' : siLoopA A R0 g nGroups geo sigmaT pr pi sigmaS wt gsum ddIterMax ddErrMax source iter phi0 psi bnd tot ops psi' -> In OSweep ops -> P.
  Proof. intros J I. destruct J; [destruct I|eauto|eauto]. Qed.

  (** A run whose limits allow it makes a sweep. *)
  Lemma jacobi_first src psi0 psi bnd ops psi' bnd' : (1 < ddIterMax)%N -> jacobiLoop A R0 g nGroups geo sigmaT pr gsum ddIterMax ddErrMax src 1 psi0 psi bnd ops psi' bnd' -> In OSweep ops.
  Proof. intros L J. apply N.ltb_lt in L. inversion J; subst; [congruence|now left|now left]. Qed.
  Lemma fixedA_first (sweep : GPsi -> GPsi -> GPsi -> list op -> GPsi -> GPsi -> Prop) psi bnd ops psi' bnd' : (forall src psi bnd ops psi' bnd', sweep src psi bnd ops psi' bnd' -> In OSweep ops) -> (0 < iterMax)%N -> agt A (aone A) errMax = true ->
    fixedA A R0 nGroups pi sigmaS wt gsum sweep iterMax errMax source psi bnd ops psi' bnd' -> In OSweep ops.
  Proof.
    intros SP L E (l & -> & J). apply N.ltb_lt in L. right. inversion J as [? ? ? ? ? ? B|? ? ? ? ? ? ops1 psi1 bnd1 ops ? ? B tot1 SW phi1 J']; subst; [rewrite L, E in B; discriminate B|].
    apply in_or_app. left. eauto.
  Qed.
  Lemma outer_first psi0 psi bnd ops psi' : (1 < ddIterMax)%N -> (0 < iterMax)%N -> agt A (aone A) errMax = true ->
    outerLoopA A R0 g nGroups geo sigmaT pr pi sigmaS wt gsum ddIterMax ddErrMax iterMax errMax source 1 psi0 psi bnd ops psi' -> In OSweep ops.
  Proof.
    assert (SP : forall src psi bnd ops psi' bnd', outerSweep A R0 g nGroups geo sigmaT pr src psi bnd ops psi' bnd' -> In OSweep ops) by (intros src p b l p' b' (-> & _); now left).
    intros L LI E J. apply N.ltb_lt in L. inversion J as [|? ? ? ? ? ? bnd' B FX ST|? ? ? ? ops1 psi1 bnd1 bnd2 ops2 ? B FX ST CO J']; subst; [congruence|exact (fixedA_first _ _ _ _ _ _ SP LI E FX)|].
    apply in_or_app. left. exact (fixedA_first _ _ _ _ _ _ SP LI E FX).
  Qed.
  Lemma si_first phi0 psi bnd tot ops psi' : (1 < ddIterMax)%N -> siLoopA A R0 g nGroups geo sigmaT pr pi sigmaS wt gsum ddIterMax ddErrMax source 1 phi0 psi bnd tot ops psi' -> In OSweep ops.
  Proof. intros L J. apply N.ltb_lt in L. inversion J; subst; [congruence|now left|now left]. Qed.
End Swept.

Section Solve.
  Context {T : Type} (A : arith T) (dec : N -> T) (pi : T) (cfg : config T) (q : angles T) (t : nat -> tmesh) (np threads : nat) (xs : nat -> list T * list T) (pr : nat -> nat -> nat -> N) (gsum : (nat -> T) -> T).
  Notation lsweep := (localSweepA A (traverser A dec cfg q t np threads) (gaussOf (cGauss cfg)) (N.to_nat (cNGroups cfg)) (fun r => viewGeo A dec (q_omega q) (t r)) (fun r c => nth c (fst (xs r)) (azero A)) pr).
  Lemma solve_swept ops psi (P : Prop) : (forall src psi bnd psi' bnd', lsweep src psi bnd psi' bnd' -> P) -> solveBlock A dec pi cfg q t np threads xs pr gsum ops psi -> In OSweep ops -> P.
  Proof.
    intros LP SO I. unfold solveBlock in SO. destruct (cSweep cfg); try contradiction.
    - destruct SO as (_ & bnd & FX). refine (fixedA_swept A _ _ pi _ _ gsum P _ _ _ _ _ _ _ _ _ _ FX I). intros src p b l p' b' J. exact (jacobi_swept A _ _ _ _ _ _ gsum P LP _ _ _ _ _ _ _ _ _ _ J).
    - destruct SO as (_ & J). exact (outer_swept A _ _ _ _ _ _ pi _ _ gsum P LP _ _ _ _ _ _ _ _ _ _ _ J I).
    - exact (si_swept A _ _ _ _ _ _ pi _ _ gsum P LP _ _ _ _ _ _ _ _ _ _ SO I).
  Qed.
  Lemma solve_first ops psi : (1 < cDdIterMax cfg)%N -> cSweep cfg = PBJSI \/ (0 < cIterMax cfg)%N /\ agt A (aone A) (cErrMax cfg) = true -> solveBlock A dec pi cfg q t np threads xs pr gsum ops psi -> In OSweep ops.
  Proof.
    intros L HI SO. unfold solveBlock in SO. destruct (cSweep cfg); try contradiction.
    - destruct HI as [HI|(HI & HE)]; [discriminate HI|]. destruct SO as (_ & bnd & FX). refine (fixedA_first A _ _ pi _ _ gsum _ _ _ _ _ _ _ _ _ _ HI HE FX). intros src p b l p' b' J. exact (jacobi_first A _ _ _ _ _ _ gsum _ _ _ _ _ _ _ _ _ L J).
    - destruct HI as [HI|(HI & HE)]; [discriminate HI|]. destruct SO as (_ & J). exact (outer_first A _ _ _ _ _ _ pi _ _ gsum _ _ _ _ _ _ _ _ _ _ L HI HE J).
    - exact (si_first A _ _ _ _ _ _ pi _ _ gsum _ _ _ _ _ _ _ _ _ L SO).
  Qed.
End Solve.
