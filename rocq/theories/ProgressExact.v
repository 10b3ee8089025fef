(** Proofs for C87: the changes that are printed in exact arithmetic are those of the serial iteration. *)
From Coq Require Import Reals Lra Permutation.
From Verif Require Import Prelude Bytes LayoutModel PsiFileModel PsiFileSpec DeckModel MeshModel MeshSpec CreateModel CreateSpec CreateProofs TychoModel TychoSpec GeometryModel GaussModel TransportModel TraverseModel TraverseRun SweepModel FluxModel FluxProofs PropertiesFlux ProblemModel
  ViewModel ViewSpec ViewProofs PropertiesView BitsModel BitsSpec BitsProofs PropertiesBits MainModel MainSpec MainProofs MainExact FluxModel ProblemModel ProgressModel ProgressSpec ProgressProofs.


Section Exact.
  Context (dec : N -> R) (enc : R -> N) (ltb : N -> N -> bool) (pi : R) (sm : smesh) (pv : list N) (np : nat) (cfg : config R) (q : angles R) (threads : nat).
  Context (PB : bits_ok Rops sm dec (q_omega q) (q_num q)) (PV : partition_vector_ok sm pv np) (SM : mesh_small sm np) (CMP : exists decR, compares sm decR ltb).
  Context (TH : 0 < threads) (NP : 0 < np) (HG0 : 0 < N.to_nat (cNGroups cfg)) (HA0 : 0 < q_num q) (HC0 : 0 < length (sm_cells sm)).
  Context (SZ : (N.of_nat (q_num q * length (sm_cells sm) * 4) * (24 * cNGroups cfg) < INT_MAX)%N).
  Context (t : nat -> tmesh) (RD : program_reads sm pv np ltb t).
  Context (xs : nat -> list R * list R) (XS : forall r, r < np -> createCrossSections (tm_material (t r)) (cSigmaT1 cfg) (cSigmaS1 cfg) (cSigmaT2 cfg) (cSigmaS2 cfg) = Some (xs r)).
  Notation nG := (N.to_nat (cNGroups cfg)).
  Notation nA := (q_num q).
  Notation om := (q_omega q).
  Notation R0 := (traverser Rops dec cfg q t np threads).
  Notation nCells := (fun r => rm_nCells (u_mesh R0 r)).
  Notation sigT := (by_material Rops sm (cSigmaT1 cfg) (cSigmaT2 cfg)).
  Notation sigS := (by_material Rops sm (cSigmaS1 cfg) (cSigmaS2 cfg)).
  Notation hold := (holds Rops np cfg q t).
  Notation phi psi := (gPsiToPhi Rops nA nG (q_weight q) nCells psi).

  Context (gsum : (nat -> R) -> R) (GS : forall x, gsum x = rsum (map x (seq 0 np))).
  Notation sr := (s_run sm dec om nA (q_weight q) pi (gaussOf (cGauss cfg)) nG sigT sigS (N.to_nat (cIterMax cfg)) (cErrMax cfg)).
  Notation sends := (s_ends sm dec om nA (q_weight q) pi (gaussOf (cGauss cfg)) nG sigT sigS (N.to_nat (cIterMax cfg)) (cErrMax cfg)).

  Lemma log_exact tol pr l iters psi : (cSweep cfg = OriginalTycho1 \/ cSweep cfg = OriginalTycho2 -> beyond_tol Rops sm dec om nA tol) -> sweeperSolveLog Rops dec pi tol cfg q t np threads xs pr gsum l iters psi ->
    forall k n e, nth_error (shown l) k = Some (n, e) -> exists V, sr (S k) e V.
  Proof.
    intros CL (sweep & SWP & l' & -> & L). rewrite shown_app. cbn [shown]. rewrite app_nil_r.
    assert (K : forall i e psi x tot n l i' psi' x', fixedLog Rops pi nA nG (q_weight q) nCells (fun r c => nth c (snd (xs r)) 0%R) gsum (plain sweep) (cIterMax cfg) (cErrMax cfg)
        (fun r => hatSourceA Rops dec om (t r) (xs r)) i e psi x tot n l i' psi' x' -> n = phi psi -> forall Val, hold psi Val -> sr (N.to_nat i) e Val -> forall k m er, nth_error (shown l) k = Some (m, er) -> exists V, sr (N.to_nat i + S k) er V).
    { clear L. intros i e psi0 x tot n l i' psi' x' L. induction L as [|i e psi0 x tot n l1 psi1 x1 l i' psi' x' B total1 SW phi1 error1 L IH]; intros En Val HV IT k m er; [destruct k; discriminate|].
      subst n. destruct SW as (SW & ->). destruct (sweep_ok Rops dec enc ltb pi sm pv np cfg q threads PB PV SM CMP TH NP HG0 HA0 HC0 SZ t RD xs XS tol CL pr sweep psi0 Val tot psi1 SWP HV SW) as (Val1 & H1 & B1 & N1).
      apply Bool.andb_true_iff in B. destruct B as (B & B'). apply N.ltb_lt in B. cbn in B'. destruct (Rgt_dec e (cErrMax cfg)); [|discriminate].
      assert (S1 : sr (S (N.to_nat i)) error1 Val1). { unfold error1, phi1. rewrite (change_ok dec enc ltb pi sm pv np cfg q threads PB PV SM CMP TH NP HG0 HA0 HC0 SZ t RD xs XS gsum GS psi0 psi1 Val Val1 HV H1). econstructor; eauto; lia. }
      destruct k as [|k]; cbn [app shown nth_error]; intros E.
      - apply Some_inj in E. inversion E; subst. exists Val1. now rewrite Nat.add_1_r.
      - rewrite <- N2Nat.inj_succ in S1. destruct (IH eq_refl Val1 H1 S1 k m er E) as (V & HV'). exists V. rewrite N2Nat.inj_succ in HV'. now rewrite <- plus_n_Sm. }
    intros k n e E. refine (K _ _ _ _ _ _ _ _ _ _ L eq_refl _ _ _ k n e E); [|apply sr_zero]. intros r c g a v G _ _ _ _ _. reflexivity.
  Qed.
End Exact.
