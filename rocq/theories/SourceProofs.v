(** Lemmas for PropertiesSource. *)
From Coq Require Import Reals Lra.
From Verif Require Import Prelude Bytes MeshModel GeometryModel GaussModel TransportModel TransportSpec TransportProofs.
From Verif Require Import AngleModel TraverseModel TraverseSpec TraverseRun PropertiesTraverse SweepModel SweepSpec SweepProofs PropertiesSweep FluxModel FluxSpec FluxProofs PropertiesFlux SourceModel SourceSpec.

Lemma upwind_lin area p1 p2 n1 n2 x y f j : (TransportSpec.upwind area (fun v => x * p1 v + y * p2 v) (fun f j => x * n1 f j + y * n2 f j) f j = x * TransportSpec.upwind area p1 n1 f j + y * TransportSpec.upwind area p2 n2 f j)%R.
Proof. unfold TransportSpec.upwind. destruct (Rgt_dec _ _); reflexivity. Qed.
Lemma dg_lin V area sg Q1 Q2 n1 n2 p1 p2 x y : dg V area sg Q1 n1 p1 -> dg V area sg Q2 n2 p2 ->
  dg V area sg (fun v => x * Q1 v + y * Q2 v)%R (fun f j => x * n1 f j + y * n2 f j)%R (fun v => x * p1 v + y * p2 v)%R.
Proof.
  intros D1 D2 i Hi. specialize (D1 i Hi). specialize (D2 i Hi). unfold dg_row in *.
  assert (UL := upwind_lin area p1 p2 n1 n2 x y). unfold sumFace, sum4 in *.
  destruct i as [|[|[|[|i]]]]; [| | | |lia]; cbn [Nat.eqb] in *; rewrite !UL; clear UL;
    apply Rminus_diag_eq in D1; apply Rminus_diag_eq in D2; apply Rminus_diag_uniq;
    match type of D1 with ?e1 = _ => match type of D2 with ?e2 = _ => transitivity (x * e1 + y * e2)%R; [unfold Rdiv; ring|rewrite D1, D2; ring] end end.
Qed.
Lemma dg_ext V area sg Q Q' nb psi psi' : (forall v, v < 4 -> Q v = Q' v) -> (forall v, v < 4 -> psi v = psi' v) -> dg V area sg Q nb psi -> dg V area sg Q' nb psi'.
Proof.
  intros EQ EP D i Hi. specialize (D i Hi). unfold dg_row, sumFace, sum4, TransportSpec.upwind in *. rewrite <- !EQ, <- !EP by lia. destruct i as [|[|[|[|i]]]]; [exact D..|lia].
Qed.

Section Source.
  Context {X : Type}.
  Variables (node : nat -> nat -> nat -> X) (R0 : run (value R) (block R)) (g : gaussElim) (nG : nat) (geo : nat -> rgeo R) (sigmaT : nat -> nat -> R) (pr : nat -> nat -> nat -> N).
  Hypothesis OK : transport_ok node R0 geo sigmaT.
  Notation GPsi := (nat -> nat -> nat -> nat -> nat -> R).
  Notation teq := (transport_eq node R0 nG geo sigmaT).
  Notation same := (same R0 nG).

  Lemma mate_valid r c f q c' f' a : u_mate R0 (r, c, f) = Some (q, c', f') -> a < u_angles R0 -> okc R0 q c' a.
  Proof.
    destruct (to_good _ _ _ _ OK) as (G1 & _). intros Hm Ha. pose proof (sf_sym _ _ _ _ _ G1 _ _ Hm) as Hb. destruct (sf_range _ _ _ _ _ G1 _ _ _ _ Hb) as (? & ? & _). now split.
  Qed.
  Lemma eq_lin Q1 Q2 p1 p2 x y : teq Q1 p1 -> teq Q2 p2 -> teq (fun r c a v G => x * Q1 r c a v G + y * Q2 r c a v G)%R (fun r c a v G => x * p1 r c a v G + y * p2 r c a v G)%R.
  Proof.
    intros D1 D2 r c a G VA HG. destruct (D1 r c a G VA HG) as (n1 & N1 & E1). destruct (D2 r c a G VA HG) as (n2 & N2 & E2).
    exists (fun f j => x * n1 f j + y * n2 f j)%R. split; [|exact (dg_lin _ _ _ _ _ _ _ _ _ x y E1 E2)].
    intros f j Hf Hj NE NO. specialize (N1 f j Hf Hj NE NO). specialize (N2 f j Hf Hj NE NO). unfold across in *. destruct (u_mate R0 (r, c, f)) as [[[q c'] f']|] eqn:Hm; [|rewrite N1, N2; ring].
    destruct N1 as (k & K1 & K2 & K3 & K4). destruct N2 as (k' & K1' & K2' & K3' & K4'). destruct (mate_valid _ _ _ _ _ _ a Hm ltac:(apply VA)) as (Hq & Hc' & _).
    assert (k' = k) as -> by (apply (to_nodes _ _ _ _ OK q c'); auto; congruence). exists k. split; [auto|]. split; [auto|]. split; [auto|]. now rewrite K4, K4'.
  Qed.
  Lemma eq_ext Q Q' p p' : same Q Q' -> same p p' -> teq Q p -> teq Q' p'.
  Proof.
    intros EQ EP D r c a G VA HG. destruct (D r c a G VA HG) as (nb & N & E). exists nb. split.
    - intros f j Hf Hj NE NO. specialize (N f j Hf Hj NE NO). unfold across in *. destruct (u_mate R0 (r, c, f)) as [[[q c'] f']|] eqn:Hm; [|exact N].
      destruct N as (k & K1 & K2 & K3 & K4). exists k. split; [auto|]. split; [auto|]. split; [auto|]. rewrite K4. apply EP; auto. eapply mate_valid; eauto. apply VA.
    - eapply dg_ext; [| |exact E]; cbv beta; intros v Hv; [now apply EQ|now apply EP].
  Qed.
  Lemma eq_unique Q p p' : teq Q p -> teq Q p' -> same p p'.
  Proof.
    intros D D' r c a v G VA Hv HG. destruct (to_good _ _ _ _ OK) as (G1 & _). pose proof (to_acyclic _ _ _ _ OK) as AC. unfold racyclic in AC. rewrite (to_dir _ _ _ _ OK), (to_comm _ _ _ _ OK) in AC.
    exact (global_unique geo sigmaT (fun r c a v G => Q r c a v G) _ _ _ _ _ (to_geo _ _ _ _ OK) (to_sigma _ _ _ _ OK) AC (sf_range _ _ _ _ _ G1) (sf_sym _ _ _ _ _ G1) (to_nodes _ _ _ _ OK)
      (fun r c a G v => p r c a v G) (fun r c a G v => p' r c a v G) G (fun r c a V => D r c a G V HG) (fun r c a V => D' r c a G V HG) r c a v VA Hv).
  Qed.
  Lemma sweep_eq src psi psi' : fullSweep R0 g nG geo sigmaT pr src psi psi' -> teq src psi'.
  Proof.
    intros (bnd0 & S0 & S & I & H & F & ->).
    destruct (C57_global_dg X node g geo sigmaT nG src pr (withSource R0 g nG geo sigmaT pr src) _ bnd0 S0 S eq_refl (to_dir _ _ _ _ OK) (to_comm _ _ _ _ OK) (to_good _ _ _ _ OK) (to_acyclic _ _ _ _ OK)
      (to_geo _ _ _ _ OK) (to_sigma _ _ _ _ OK) I H F) as (_ & K & _). exact K.
  Qed.
  Lemma sweep_exists src psi : exists psi', fullSweep R0 g nG geo sigmaT pr src psi psi'.
  Proof.
    set (Rs := withSource R0 g nG geo sigmaT pr src).
    destruct (C30_finishes _ _ Rs (fun r c a => Some (psi r c a)) (fun _ _ _ _ _ => 0%R) (to_good _ _ _ _ OK) ltac:(right; split; [exact (to_comm _ _ _ _ OK)|exact (to_mpi _ _ _ _ OK)]) (to_max _ _ _ _ OK) (to_acyclic _ _ _ _ OK)) as ((S0 & I) & K).
    destruct (K S0 S0 I ltac:(constructor)) as (S & _ & H & F). eexists. exists (fun _ _ _ _ _ => 0%R), S0, S. split; [exact I|]. split; [exact H|]. split; [exact F|reflexivity].
  Qed.
  Lemma eq_exists Q : exists psi, teq Q psi.
  Proof. destruct (sweep_exists Q Q) as (psi & H). exists psi. eapply sweep_eq; eauto. Qed.

  (** What the loops compute, on valid entries. *)
  Variables (pi : R) (sigmaS : nat -> nat -> R) (wt : nat -> R).
  Notation nC := (fun r => rm_nCells (u_mesh R0 r)).
  Notation nA := (u_angles R0).
  Lemma total_same Q phi t : same (gTotal Rops pi nA nG nC sigmaS Q phi t) (fun r c a v G => scattered pi (sigmaS r c) (Q r c a v G) (phi r c v G)).
  Proof. intros r c a v G (Hr & Hc & Ha) Hv HG. unfold gTotal. apply C42_total_real; auto. Qed.
  Lemma flux_same psi r c v G : r < u_ranks R0 -> c < nC r -> v < 4 -> G < nG -> gPsiToPhi Rops nA nG wt nC psi r c v G = scalarFlux R0 wt psi r c v G.
  Proof. intros. unfold gPsiToPhi. now apply phi_sum. Qed.
  Lemma flux_ext psi psi' r c v G : same psi psi' -> r < u_ranks R0 -> c < nC r -> v < 4 -> G < nG -> scalarFlux R0 wt psi r c v G = scalarFlux R0 wt psi' r c v G.
  Proof. intros E Hr Hc Hv HG. unfold scalarFlux, overAngles. apply lsum_ext. intros a Ha. apply in_seq in Ha. rewrite E; auto. split; [|split]; auto. exact (proj2 Ha). Qed.
  Lemma flux_lin p1 p2 x y r c v G : scalarFlux R0 wt (fun r c a v G => x * p1 r c a v G + y * p2 r c a v G)%R r c v G = (x * scalarFlux R0 wt p1 r c v G + y * scalarFlux R0 wt p2 r c v G)%R.
  Proof. unfold scalarFlux, overAngles. rewrite <- lsum_lin. apply lsum_ext. intros. lra. Qed.
End Source.
