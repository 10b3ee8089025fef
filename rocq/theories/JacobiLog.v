(** C79: which logs the solvers make; one part. *)
From Coq Require Import Reals Permutation.
From Verif Require Import Prelude Bytes LayoutModel PsiFileModel DeckModel MeshModel MeshSpec CreateSpec TychoModel GeometryModel GaussModel TransportModel TraverseModel TraverseSpec TraverseRun SweepModel CommModel BlockModel FluxModel ProblemModel ViewModel ViewSpec BitsSpec BitsProofs MainModel MainSpec.
From Verif Require Import JacobiModel JacobiSpec.

Lemma again_app {X} n (l : list X) : again n l ++ l = l ++ again n l.
Proof. induction n; cbn [again]; [now rewrite app_nil_r|]. now rewrite <- app_assoc, IHn. Qed.
Lemma sweeps_app l1 l2 : sweeps (l1 ++ l2) = sweeps l1 + sweeps l2.
Proof. unfold sweeps. now rewrite filter_app, app_length. Qed.

Inductive jacobi_log : list op -> Prop :=
| jl_none : jacobi_log []
| jl_last : jacobi_log [OSweep]
| jl_more l : jacobi_log l -> jacobi_log (OSweep :: OExchange :: l).
Lemma steps_log n l : jacobi_steps n l -> jacobi_log l.
Proof. intros [->|(k & _ & ->)]; [induction n|induction k]; cbn; constructor; auto. Qed.
Lemma steps_some n l : jacobi_steps n l -> 0 < n -> l <> [].
Proof. intros [->|(k & _ & ->)] H; [destruct n; [lia|discriminate]|destruct k; discriminate]. Qed.

Section Shape1.
  Context {T : Type} (A : arith T) (R0 : run (value T) (block T)) (g : gaussElim) (nGroups : nat) (geo : nat -> rgeo T) (sigmaT : nat -> nat -> T) (pr : nat -> nat -> nat -> N) (gsum : (nat -> T) -> T) (ddIterMax : N) (ddErrMax : T).
  Lemma jacobi_shape src iter psi0 psi bnd ops psi' bnd' : jacobiLoop A R0 g nGroups geo sigmaT pr gsum ddIterMax ddErrMax src iter psi0 psi bnd ops psi' bnd' ->
    jacobi_steps (N.to_nat ddIterMax - N.to_nat iter) ops.
  Proof.
    induction 1 as [iter psi0 psi bnd B|iter psi0 psi bnd psi' bnd' B LS ST|iter psi0 psi bnd psi1 bnd1 bnd2 ops psi' bnd' B LS ST CO J IH]; rewrite ?N.ltb_lt, ?N.ltb_ge in B.
    - left. replace (N.to_nat ddIterMax - N.to_nat iter) with 0 by lia. reflexivity.
    - right. exists 0. split; [lia|reflexivity].
    - replace (N.to_nat ddIterMax - N.to_nat iter) with (S (N.to_nat ddIterMax - N.to_nat (N.succ iter))) by lia. destruct IH as [->|(k & Hk & ->)]; [left; reflexivity|right]. exists (S k). split; [lia|reflexivity].
  Qed.
End Shape1.
Section Shape2.
  Context {T : Type} (A : arith T) (R0 : run (value T) (block T)) (nGroups : nat) (pi : T) (sigmaS : nat -> nat -> T) (wt : nat -> T) (gsum : (nat -> T) -> T) (iterMax : N) (errMax : T) (source : nat -> nat -> nat -> nat -> nat -> T).
  Lemma fixed_shape (sweep : _ -> _ -> _ -> list op -> _ -> _ -> Prop) (P : list op -> Prop) : (forall src psi bnd ops psi' bnd', sweep src psi bnd ops psi' bnd' -> P ops) -> forall iter e psi bnd tot phi ops psi' bnd', fixedLoop A R0 nGroups pi sigmaS wt gsum sweep iterMax errMax source iter e psi bnd tot phi ops psi' bnd' ->
    exists its, ops = concat (map (fun l => l ++ [OFlux]) its) /\ Forall P its /\ length its <= N.to_nat iterMax - N.to_nat iter.
  Proof.
    intros HP. induction 1 as [iter e psi bnd tot phi B|iter e psi bnd tot phi ops1 psi1 bnd1 ops psi' bnd' B tot1 SS phi1 J (its & -> & FA & LE)].
    - exists []. split; [reflexivity|]. split; [constructor|cbn; lia].
    - exists (ops1 :: its). split; [cbn [map concat]; now rewrite <- app_assoc|]. split; [constructor; eauto|]. apply andb_true_iff in B as (B & _). apply N.ltb_lt in B. cbn. lia.
  Qed.
End Shape2.
Lemma singles its : Forall (eq [OSweep]) its -> concat (map (fun l => l ++ [OFlux]) its) = again (length its) [OSweep; OFlux].
Proof. induction 1 as [|x its <- H IH]; [reflexivity|]. cbn [map concat length again]. now rewrite IH. Qed.
Section Shape.
  Context {T : Type} (A : arith T) (R0 : run (value T) (block T)) (g : gaussElim) (nGroups : nat) (geo : nat -> rgeo T) (sigmaT : nat -> nat -> T) (pr : nat -> nat -> nat -> N).
  Context (pi : T) (sigmaS : nat -> nat -> T) (wt : nat -> T) (gsum : (nat -> T) -> T) (ddIterMax : N) (ddErrMax : T) (iterMax : N) (errMax : T) (source : nat -> nat -> nat -> nat -> nat -> T).
  Lemma outer_shape iter psi0 psi bnd ops psi' : outerLoopA A R0 g nGroups geo sigmaT pr pi sigmaS wt gsum ddIterMax ddErrMax iterMax errMax source iter psi0 psi bnd ops psi' ->
    exists its, (ops = outer_log its /\ length its = N.to_nat ddIterMax - N.to_nat iter \/ ops ++ [OExchange] = outer_log its /\ 0 < length its <= N.to_nat ddIterMax - N.to_nat iter) /\ Forall (fun n => n <= N.to_nat iterMax) its.
  Proof.
    assert (FX : forall psi bnd ops psi' bnd', fixedA A R0 nGroups pi sigmaS wt gsum (outerSweep A R0 g nGroups geo sigmaT pr) iterMax errMax source psi bnd ops psi' bnd' -> exists n, ops = OFlux :: again n [OSweep; OFlux] /\ n <= N.to_nat iterMax).
    { intros p b o p' b' (o' & -> & J). destruct (fixed_shape _ _ _ _ _ _ _ _ _ _ _ (eq [OSweep]) (fun _ _ _ _ _ _ H => eq_sym (proj1 H)) _ _ _ _ _ _ _ _ _ J) as (its & -> & FA & LE). exists (length its). rewrite singles by exact FA. split; [reflexivity|]. cbn in LE. lia. }
    induction 1 as [iter psi0 psi bnd B|iter psi0 psi bnd ops psi' bnd' B F ST|iter psi0 psi bnd ops1 psi1 bnd1 bnd2 ops psi' B F ST CO J (its & E & FA)]; rewrite ?N.ltb_lt, ?N.ltb_ge in B.
    - exists []. split; [left; split; [reflexivity|cbn; lia]|constructor].
    - destruct (FX _ _ _ _ _ F) as (n & -> & Hn). exists [n]. split; [right; split; [unfold outer_log; cbn [map concat]; now rewrite app_nil_r|cbn; lia]|now constructor].
    - destruct (FX _ _ _ _ _ F) as (n & -> & Hn). exists (n :: its). split; [|now constructor]. unfold outer_log in *. cbn [map concat length]. destruct E as [(<- & LE)|(<- & LE)]; [left|right]; (split; [|lia]).
      + cbn [app]. rewrite <- !app_assoc. reflexivity.
      + cbn [app]. rewrite <- !app_assoc. reflexivity.
  Qed.
End Shape.
Section ShapeSI.
  Context {T : Type} (A : arith T) (R0 : run (value T) (block T)) (g : gaussElim) (nGroups : nat) (geo : nat -> rgeo T) (sigmaT : nat -> nat -> T) (pr : nat -> nat -> nat -> N).
  Context (pi : T) (sigmaS : nat -> nat -> T) (wt : nat -> T) (gsum : (nat -> T) -> T) (ddIterMax : N) (ddErrMax : T) (source : nat -> nat -> nat -> nat -> nat -> T).
  Lemma si_shape iter phi0 psi bnd tot ops psi' : siLoopA A R0 g nGroups geo sigmaT pr pi sigmaS wt gsum ddIterMax ddErrMax source iter phi0 psi bnd tot ops psi' ->
    exists n, ops = again n [OSweep; OFlux; OExchange] /\ n <= N.to_nat ddIterMax - N.to_nat iter.
  Proof.
    induction 1 as [iter phi0 psi bnd tot B|iter phi0 psi bnd tot psi' bnd1 bnd2 B LS CO ST|iter phi0 psi bnd tot psi1 bnd1 bnd2 ops psi' B LS CO ST J (n & -> & LE)]; rewrite ?N.ltb_lt, ?N.ltb_ge in B.
    - exists 0. split; [reflexivity|lia].
    - exists 1. split; [reflexivity|lia].
    - exists (S n). split; [reflexivity|lia].
  Qed.
End ShapeSI.

Section Alone.
  Context {T : Type} (A : arith T) (sm : smesh) (dec : N -> T) (om : nat -> q3 T) (nA : nat) (wt : nat -> T) (pi : T) (gs : gaussElim) (nG : nat) (sT sS : N -> T) (tg : N -> N -> bool).
  Context (ONE : forall g h sg sh, SM_cell sm g = Some sg -> SM_cell sm h = Some sh -> tg g h = true).
  Notation fol := (follows A sm dec om nA wt pi gs nG sT sS tg).
  Notation jsw := (j_sweep A sm dec om nA gs nG sT tg).
  Notation em := (j_emission A sm dec om pi sT sS).
  Notation iterate := (b_iterate A sm dec om nA wt pi gs nG sT sS).
  Notation fl := (b_flux A nA wt).
  Definition all_some (V : nat -> N -> value T) : Prop := forall a g sc, a < nA -> SM_cell sm g = Some sc -> V a g <> None.
  Lemma one_sweep Q L V : jsw Q L V -> b_sweep A sm dec om gs nG sT nA Q V.
  Proof.
    intros H a g sc Ha HS. destruct (H a g sc Ha HS) as (psiB & c2f & BI & C2 & E). exists psiB, c2f. split; [|auto]. intros lf fv G Hl Hf HG. destruct (BI lf fv G Hl Hf HG) as (Z & I). split; [exact Z|].
    intros h f sf n sh k O SN SO NF SH NK. rewrite (I h f sf n sh k O SN SO NF SH NK). unfold mixed. now rewrite (ONE g h sc sh HS SH).
  Qed.
  Lemma iterate_next n V L V' : iterate n V -> jsw (em (fl V)) L V' -> all_some V' -> iterate (S n) V'.
  Proof. intros I J F. econstructor; [exact I|exact (one_sweep _ _ _ J)|exact F]. Qed.
  (** Sweeps with one source. *)
  Lemma jacobi_one l : jacobi_log l -> forall k V0 V L F rest s, iterate k V0 -> F = fl V0 -> (l = [] -> iterate (S k) V) -> fol (l ++ OFlux :: rest) (mkJ V L F) s ->
    exists V' L', iterate (S k) V' /\ fol rest (mkJ V' L' (fl V')) s.
  Proof.
    induction 1 as [| |l H IH]; intros k V0 V L F rest s I0 EF NE FO.
    - inversion FO; subst. exists V, L. split; auto.
    - inversion FO as [| |V1 L1 F1 V' l1 s1 JS FV FO'|]; subst. inversion FO' as [|V2 L2 F2 l2 s2 FO''| |]; subst. exists V', L. split; [eapply iterate_next; eauto|exact FO''].
    - inversion FO as [| |V1 L1 F1 V' l1 s1 JS FV FO'|]; subst. inversion FO' as [| | |V2 L2 F2 l2 s2 FO'']; subst. eapply (IH k V0 V' V' (fl V0)); eauto. intros _. eapply iterate_next; eauto.
  Qed.
  Lemma pbj_one its : Forall jacobi_log its -> Forall (fun l => l <> []) its -> forall k V L F s, iterate k V -> fol (pbj_log its) (mkJ V L F) s -> iterate (k + length its) (j_val s).
  Proof.
    intros H1 H2 k V L F s IT FO. inversion FO as [|V2 L2 F2 l2 s2 FO'| |]; subst. clear FO. revert k V L IT FO'. induction H1 as [|l its J H1 IH]; intros k V L IT FO.
    - inversion FO; subst. cbn. now rewrite Nat.add_0_r.
    - apply Forall_cons_iff in H2 as (NE & H2). cbn [map concat] in FO. rewrite <- app_assoc in FO. cbn [app] in FO.
      destruct (jacobi_one l J k V V L (fl V) _ s IT eq_refl ltac:(congruence) FO) as (V' & L' & IT' & FO'). cbn [length]. rewrite <- Nat.add_succ_comm. eapply IH; eauto.
  Qed.
  Lemma inner_one n : forall k V L rest s, iterate k V -> fol (again n [OSweep; OFlux] ++ rest) (mkJ V L (fl V)) s -> exists V' L', iterate (k + n) V' /\ fol rest (mkJ V' L' (fl V')) s.
  Proof.
    induction n as [|n IH]; intros k V L rest s IT FO; [rewrite Nat.add_0_r; eauto|]. cbn [again app] in FO. inversion FO as [| |V1 L1 F1 V' l1 s1 JS FV FO'|]; subst. inversion FO' as [|V2 L2 F2 l2 s2 FO''| |]; subst.
    rewrite <- Nat.add_succ_comm. eapply IH; [eapply iterate_next; eauto|exact FO''].
  Qed.
  Lemma sweeps_again n : sweeps (again n [OSweep; OFlux]) = n.
  Proof. induction n; [reflexivity|]. cbn [again]. rewrite sweeps_app, IHn. reflexivity. Qed.
  Lemma outer_one its : forall k V L F s, iterate k V -> fol (outer_log its) (mkJ V L F) s -> iterate (k + sweeps (outer_log its)) (j_val s).
  Proof.
    unfold outer_log. induction its as [|n its IH]; intros k V L F s IT FO; [inversion FO; subst; cbn; now rewrite Nat.add_0_r|]. cbn [map concat app] in FO |- *. inversion FO as [|V2 L2 F2 l2 s2 FO'| |]; subst.
    rewrite <- app_assoc in FO'. destruct (inner_one n k V L _ s IT FO') as (V' & L' & IT' & FO''). cbn [app] in FO''. inversion FO'' as [| | |V3 L3 F3 l3 s3 FO3]; subst.
    pose proof (IH _ _ _ _ _ IT' FO3) as R. replace (k + sweeps _) with (k + n + sweeps (concat (map (fun n => OFlux :: again n [OSweep; OFlux] ++ [OExchange]) its))); [exact R|].
    change (OFlux :: (again n [OSweep; OFlux] ++ [OExchange]) ++ concat (map (fun n => OFlux :: again n [OSweep; OFlux] ++ [OExchange]) its)) with ([OFlux] ++ (again n [OSweep; OFlux] ++ [OExchange]) ++ concat (map (fun n => OFlux :: again n [OSweep; OFlux] ++ [OExchange]) its)).
    rewrite !sweeps_app, sweeps_again. cbn. lia.
  Qed.
  Lemma si_one n : forall k V L F s, iterate k V -> (forall g v G, F g v G = fl V g v G) -> fol (again n [OSweep; OFlux; OExchange]) (mkJ V L F) s -> iterate (k + n) (j_val s).
  Proof.
    induction n as [|n IH]; intros k V L F s IT EF FO; [inversion FO; subst; cbn; now rewrite Nat.add_0_r|]. cbn [again app] in FO. inversion FO as [| |V1 L1 F1 V' l1 s1 JS FV FO'|]; subst. inversion FO' as [|V2 L2 F2 l2 s2 FO''| |]; subst. inversion FO'' as [| | |V3 L3 F3 l3 s3 FO3]; subst.
    rewrite <- Nat.add_succ_comm. eapply IH; [|reflexivity|exact FO3]. econstructor; [exact IT| |exact FV].
    intros a g sc Ha HS. destruct (one_sweep _ _ _ JS a g sc Ha HS) as (psiB & c2f & B1 & B2 & B3). exists psiB, c2f. split; [exact B1|]. split; [exact B2|].
    match type of B3 with vsame _ _ ?x => match goal with |- vsame _ _ ?y => assert (EE : x = y); [|rewrite <- EE; exact B3] end end. apply solve_ext; [reflexivity|]. intros v G _ _. unfold j_emission, b_emission. now rewrite EF.
  Qed.
End Alone.
