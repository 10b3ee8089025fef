(** Proofs for C72: without communication between steps (the traversals of the block methods) g_mpiType is not looked at. *)
From Coq Require Import Reals.
From Verif Require Import Prelude MeshModel GeometryModel GaussModel TransportModel TraverseModel TraverseSpec TraverseRun SweepModel FluxModel SourceModel CommModel BlockModel SchurModel PbjModel.

Section Mpi.
  Context {V D : Type}.
  Variables (dir : direction) (m m' : mpiType) (nA nT mx : nat) (psize : N) (M : nat -> rmesh) (T : tdata V D).
  Lemma loop_mpi r left dark : loopTest (D := D) false m M r left dark = loopTest false m' M r left dark.
  Proof. unfold loopTest. destruct m, m'; reflexivity. Qed.
  Lemma end_mpi r (st : rst V D) : endWork false m nT M r st = endWork false m' nT M r st.
  Proof. unfold endWork. now rewrite loop_mpi. Qed.
  Lemma endx_mpi r (st : rst V D) pk : endExchange false m nA nT M T r st pk = endExchange false m' nA nT M T r st pk.
  Proof. unfold endExchange. destruct (fold_left _ _ _) as [[[? ?] ?]|]; [now rewrite loop_mpi|reflexivity]. Qed.
  Lemma init_mpi r (val : nat -> nat -> V) (bnd : nat -> nat -> D) : initRank dir false m nA nT M T r val bnd = initRank dir false m' nA nT M T r val bnd.
  Proof. unfold initRank. now rewrite loop_mpi. Qed.
  Lemma step_mpi r S l S' : step dir false m nA nT mx psize M T r S l S' -> step dir false m' nA nT mx psize M T r S l S'.
  Proof.
    intros H. destruct H.
    - eapply step_work; eauto.
    - rewrite end_mpi. eapply step_end; eauto.
    - apply step_send; auto.
    - eapply step_sent; eauto.
    - eapply step_size; eauto.
    - eapply step_data; eauto.
    - eapply step_recvd; eauto.
    - rewrite endx_mpi. eapply step_wait; eauto.
    - eapply step_csend; eauto.
    - eapply step_csent; eauto.
    - eapply step_cwait; eauto.
    - eapply step_cnone; eauto.
    - eapply step_crecv; eauto.
    - rewrite endx_mpi. eapply step_cend; eauto.
  Qed.
  Lemma reach_mpi n S S' : reach dir false m nA nT mx psize M T n S S' -> reach dir false m' nA nT mx psize M T n S S'.
  Proof. induction 1; [constructor|]. econstructor; eauto using step_mpi. Qed.
End Mpi.

(** The same run under another MPI type and another (unused) pairing of faces. *)
Definition reRun {V D} (m : mpiType) (mate : site -> option site) (U : run V D) : run V D :=
  mkRun (u_dir U) (u_comm U) m (u_ranks U) (u_angles U) (u_threads U) (u_max U) (u_psize U) (u_mesh U) (u_data U) mate.
Section Re.
  Variables (R0 : run (value R) (block R)) (g : gaussElim) (nG : nat) (geo : nat -> rgeo R) (sT : nat -> nat -> R) (pr : nat -> nat -> nat -> N) (m : mpiType) (mate : site -> option site).
  Notation R1 := (reRun m mate R0).
  Notation GPsi := (nat -> nat -> nat -> nat -> nat -> R).
  Lemma local_mpi src val bnd val' bnd' : sweepLocal (blockRun R0 g nG geo sT pr src) val bnd val' bnd' <-> sweepLocal (blockRun R1 g nG geo sT pr src) val bnd val' bnd'.
  Proof.
    split; intros (S0 & S & (I1 & I2) & RE & EN & K); exists S0, S; (split; [split; [|exact I2]|split; [|split; [exact EN|exact K]]]).
    - intros r Hr. rewrite <- (I1 r Hr). symmetry. exact (init_mpi _ _ _ _ _ _ _ r _ _).
    - exact (reach_mpi _ _ _ _ _ _ _ _ _ _ _ _ RE).
    - intros r Hr. rewrite <- (I1 r Hr). symmetry. exact (init_mpi _ _ _ _ _ _ _ r _ _).
    - exact (reach_mpi _ _ _ _ _ _ _ _ _ _ _ _ RE).
  Qed.
  Lemma lsweep_mpi src psi bnd psi' bnd' : localSweep R0 g nG geo sT pr src psi bnd psi' bnd' <-> localSweep R1 g nG geo sT pr src psi bnd psi' bnd'.
  Proof. split; intros (val & SW & E); exists val; (split; [now apply local_mpi|exact E]). Qed.
  Lemma comm_mpi psi bnd bnd' : commAll R0 g nG geo sT pr psi bnd bnd' <-> commAll R1 g nG geo sT pr psi bnd bnd'.
  Proof. reflexivity. Qed.
  Lemma exchange_mpi src psi bnd bnd' : exchange noBlock (blockRun R0 g nG geo sT pr src) psi bnd bnd' <-> exchange noBlock (blockRun R1 g nG geo sT pr src) psi bnd bnd'.
  Proof. reflexivity. Qed.
  Lemma schurOp_mpi x psi bnd b0 b psi' bnd' : schurOp R0 g nG geo sT pr x psi bnd b0 b psi' bnd' <-> schurOp R1 g nG geo sT pr x psi bnd b0 b psi' bnd'.
  Proof. split; intros (bx & b1 & y & U & L & C & P & E); exists bx, b1, y; (split; [exact U|split; [now apply lsweep_mpi|split; [exact C|split; [exact P|exact E]]]]). Qed.
  Lemma schurSweep_mpi (so so' : (nat -> N -> R) -> (nat -> N -> R) -> Prop) src psi prev psi' prev' : (forall b x, so b x -> so' b x) ->
    schurSweep R0 g nG geo sT pr so src psi prev psi' prev' -> schurSweep R1 g nG geo sT pr so' src psi prev psi' prev'.
  Proof.
    intros SO (psi1 & b1 & b2 & b0 & b & x & psi2 & b3 & b4 & b5 & L & C & P & S & U & W & L2). exists psi1, b1, b2, b0, b, x, psi2, b3, b4, b5.
    split; [now apply lsweep_mpi|]. split; [exact C|]. split; [exact P|]. split; [now apply SO|]. split; [exact U|]. split; [exact W|]. now apply lsweep_mpi.
  Qed.
  Lemma schurSweep_mpi' (so so' : (nat -> N -> R) -> (nat -> N -> R) -> Prop) src psi prev psi' prev' : (forall b x, so b x -> so' b x) ->
    schurSweep R1 g nG geo sT pr so src psi prev psi' prev' -> schurSweep R0 g nG geo sT pr so' src psi prev psi' prev'.
  Proof.
    intros SO (psi1 & b1 & b2 & b0 & b & x & psi2 & b3 & b4 & b5 & L & C & P & S & U & W & L2). exists psi1, b1, b2, b0, b, x, psi2, b3, b4, b5.
    split; [now apply lsweep_mpi|]. split; [exact C|]. split; [exact P|]. split; [now apply SO|]. split; [exact U|]. split; [exact W|]. now apply lsweep_mpi.
  Qed.
  Section Outer.
    Variables (inn inn' : GPsi -> GPsi -> GPsi -> GPsi -> Prop).
    Lemma outerOp_mpi x psi bnd b0 b psi' bnd' : (forall s b p p', inn s b p p' -> inn' s b p p') -> schurOuterOp R0 g nG geo sT pr inn x psi bnd b0 b psi' bnd' -> schurOuterOp R1 g nG geo sT pr inn' x psi bnd b0 b psi' bnd'.
    Proof. intros IN (bx & y & U & I & C & P & E). exists bx, y. split; [exact U|]. split; [now apply IN|]. split; [exact C|]. split; [exact P|exact E]. Qed.
    Lemma outerOp_mpi' x psi bnd b0 b psi' bnd' : (forall s b p p', inn s b p p' -> inn' s b p p') -> schurOuterOp R1 g nG geo sT pr inn x psi bnd b0 b psi' bnd' -> schurOuterOp R0 g nG geo sT pr inn' x psi bnd b0 b psi' bnd'.
    Proof. intros IN (bx & y & U & I & C & P & E). exists bx, y. split; [exact U|]. split; [now apply IN|]. split; [exact C|]. split; [exact P|exact E]. Qed.
    Lemma outerSolve_mpi (so so' : (nat -> N -> R) -> (nat -> N -> R) -> Prop) src psi' : (forall s b p p', inn s b p p' -> inn' s b p p') -> (forall b x, so b x -> so' b x) ->
      schurOuterSolve R0 g nG geo sT pr inn so src psi' -> schurOuterSolve R1 g nG geo sT pr inn' so' src psi'.
    Proof.
      intros IN SO (psi1 & b1 & b0 & b & x & psi2 & b2 & b3 & I & C & P & S & U & I2). exists psi1, b1, b0, b, x, psi2, b2, b3.
      split; [now apply IN|]. split; [exact C|]. split; [exact P|]. split; [now apply SO|]. split; [exact U|now apply IN].
    Qed.
    Lemma outerSolve_mpi' (so so' : (nat -> N -> R) -> (nat -> N -> R) -> Prop) src psi' : (forall s b p p', inn s b p p' -> inn' s b p p') -> (forall b x, so b x -> so' b x) ->
      schurOuterSolve R1 g nG geo sT pr inn so src psi' -> schurOuterSolve R0 g nG geo sT pr inn' so' src psi'.
    Proof.
      intros IN SO (psi1 & b1 & b0 & b & x & psi2 & b2 & b3 & I & C & P & S & U & I2). exists psi1, b1, b0, b, x, psi2, b2, b3.
      split; [now apply IN|]. split; [exact C|]. split; [exact P|]. split; [now apply SO|]. split; [exact U|now apply IN].
    Qed.
  End Outer.
  Variables (pi : R) (wt : nat -> R) (sS : nat -> nat -> R).
  Lemma krylovOp_mpi x xphi psi bnd phi src b0 b bphi psi' bnd' : schurKrylovOp R0 g nG geo sT pr pi wt sS x xphi psi bnd phi src b0 b bphi psi' bnd' <-> schurKrylovOp R1 g nG geo sT pr pi wt sS x xphi psi bnd phi src b0 b bphi psi' bnd'.
  Proof. split; intros (bx & b1 & y & U & L & K); exists bx, b1, y; (split; [exact U|split; [now apply lsweep_mpi|exact K]]). Qed.
  Lemma krylovSolve_mpi (so so' : (nat -> N -> R) -> (nat -> nat -> nat -> nat -> R) -> (nat -> N -> R) -> (nat -> nat -> nat -> nat -> R) -> Prop) src psi' : (forall b f x y, so b f x y -> so' b f x y) ->
    schurKrylovSolve R0 g nG geo sT pr pi wt sS so src psi' -> schurKrylovSolve R1 g nG geo sT pr pi wt sS so' src psi'.
  Proof.
    intros SO (psi1 & b1 & b2 & b0 & b & x & xp & psi2 & b3 & b4 & b5 & L & C & P & S & U & L2). exists psi1, b1, b2, b0, b, x, xp, psi2, b3, b4, b5.
    split; [now apply lsweep_mpi|]. split; [exact C|]. split; [exact P|]. split; [now apply SO|]. split; [exact U|now apply lsweep_mpi].
  Qed.
  Lemma krylovSolve_mpi' (so so' : (nat -> N -> R) -> (nat -> nat -> nat -> nat -> R) -> (nat -> N -> R) -> (nat -> nat -> nat -> nat -> R) -> Prop) src psi' : (forall b f x y, so b f x y -> so' b f x y) ->
    schurKrylovSolve R1 g nG geo sT pr pi wt sS so src psi' -> schurKrylovSolve R0 g nG geo sT pr pi wt sS so' src psi'.
  Proof.
    intros SO (psi1 & b1 & b2 & b0 & b & x & xp & psi2 & b3 & b4 & b5 & L & C & P & S & U & L2). exists psi1, b1, b2, b0, b, x, xp, psi2, b3, b4, b5.
    split; [now apply lsweep_mpi|]. split; [exact C|]. split; [exact P|]. split; [now apply SO|]. split; [exact U|now apply lsweep_mpi].
  Qed.
  Lemma pbj_mpi src stop mx it p0 p b p' b' n : pbjLoop noBlock (blockRun R0 g nG geo sT pr src) stop mx it p0 p b p' b' n <-> pbjLoop noBlock (blockRun R1 g nG geo sT pr src) stop mx it p0 p b p' b' n.
  Proof.
    split; (induction 1 as [|it p0 p b p' b' L SW ST|it p0 p b p1 b1 b2 p' b' n L SW ST EX _ IH]; [now constructor|eapply pbj_break; eauto; now apply local_mpi|]);
      (eapply pbj_next; [exact L|apply local_mpi; exact SW|exact ST|exact EX|exact IH]).
  Qed.
  Lemma siLoop_mpi {F : Type} (src : F -> GPsi) (phiOf : (nat -> nat -> nat -> value R) -> F) stop mx it f0 p0 b0 f p b n :
    siLoop noBlock (fun f => blockRun R0 g nG geo sT pr (src f)) phiOf stop mx it f0 p0 b0 f p b n <-> siLoop noBlock (fun f => blockRun R1 g nG geo sT pr (src f)) phiOf stop mx it f0 p0 b0 f p b n.
  Proof.
    split; (induction 1 as [|it f0 p0 b0 p1 b1 b2 L SW EX ST|it f0 p0 b0 p1 b1 b2 f' p' b' n' L SW EX ST _ IH]; [now constructor| |]).
    - eapply si_break; [exact L|apply local_mpi; exact SW|exact EX|exact ST].
    - eapply si_next; [exact L|apply local_mpi; exact SW|exact EX|exact ST|exact IH].
    - eapply si_break; [exact L|apply local_mpi; exact SW|exact EX|exact ST].
    - eapply si_next; [exact L|apply local_mpi; exact SW|exact EX|exact ST|exact IH].
  Qed.
  Lemma si_mpi Q tmp stop mx phi p b n : blockSI R0 g nG geo sT pr pi sS wt Q tmp stop mx phi p b n <-> blockSI R1 g nG geo sT pr pi sS wt Q tmp stop mx phi p b n.
  Proof. exact (siLoop_mpi (fun phi0 => gTotal Rops pi (u_angles R0) nG (fun r => rm_nCells (u_mesh R0 r)) sS Q phi0 tmp) _ stop mx 1 _ _ _ phi p b n). Qed.
  Lemma outerLoop_mpi (inn inn' : GPsi -> GPsi -> GPsi -> Prop) stop mx it p0 p b p' b' n : (forall b p p', inn b p p' -> inn' b p p') ->
    outerLoop noBlock (blockRun R0 g nG geo sT pr zeroSource) (fun psi bnd psi' bnd' => inn bnd (readPsi psi) (readPsi psi') /\ bnd' = bnd) stop mx it p0 p b p' b' n ->
    outerLoop noBlock (blockRun R1 g nG geo sT pr zeroSource) (fun psi bnd psi' bnd' => inn' bnd (readPsi psi) (readPsi psi') /\ bnd' = bnd) stop mx it p0 p b p' b' n.
  Proof.
    intros IN H. induction H as [|it p0 p1 b1 p2 b2 L (I & E) ST|it p0 p1 b1 p2 b2 b3 p' b' n' L (I & E) ST EX _ IH]; [now constructor| |].
    - eapply outer_break; [exact L|exact (conj (IN _ _ _ I) E)|exact ST].
    - eapply outer_next; [exact L|exact (conj (IN _ _ _ I) E)|exact ST|exact EX|exact IH].
  Qed.
  Lemma bouter_mpi (inn inn' : GPsi -> GPsi -> GPsi -> Prop) stop mx p b n : (forall b p p', inn b p p' -> inn' b p p') -> blockOuter R0 g nG geo sT pr inn stop mx p b n -> blockOuter R1 g nG geo sT pr inn' stop mx p b n.
  Proof. apply outerLoop_mpi. Qed.
End Re.
