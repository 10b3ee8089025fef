(** Lemmas for PropertiesSchur. *)
From Coq Require Import Reals Lra.
From Verif Require Import Prelude Bytes MeshModel GeometryModel GaussModel TransportModel TransportSpec TransportProofs.
From Verif Require Import AngleModel TraverseModel TraverseSpec TraverseRun PropertiesTraverse SweepModel SweepSpec SweepProofs PropertiesSweep FluxModel FluxSpec FluxProofs PropertiesFlux SourceModel SourceSpec SourceProofs.
From Verif Require Import CommModel BlockModel BlockProofs SchurModel SchurSpec PackProofs.

(** Every rank alone, with vacuum around it. *)
Definition aloneMesh (m : rmesh) : rmesh :=
  mkRmesh (rm_nCells m) (rm_adjCell m) (fun c f => match rm_adjCell m c f with Some _ => rm_adjRank m c f | None => None end) (rm_side m) (rm_lgSide m) (rm_glSide m) (rm_sideCell m) (rm_out m).
Definition aloneMate (mate : site -> option site) : site -> option site :=
  fun x => match mate x with Some (q, c', f') => if q =? fst (fst x) then Some (q, c', f') else None | None => None end.
Definition alone {V D} (R : run V D) : run V D :=
  mkRun (u_dir R) (u_comm R) (u_mpi R) (u_ranks R) (u_angles R) (u_threads R) (u_max R) (u_psize R) (fun r => aloneMesh (u_mesh R r)) (u_data R) (aloneMate (u_mate R)).
Lemma alone_mate mate r c f q c' f' : aloneMate mate (r, c, f) = Some (q, c', f') -> q = r /\ mate (r, c, f) = Some (r, c', f').
Proof. unfold aloneMate. cbn [fst]. destruct (mate (r, c, f)) as [[[q' d] h]|]; [|discriminate]. destruct (Nat.eqb_spec q' r) as [->|]; [|discriminate]. intros E. inversion E; subst. auto. Qed.
Lemma alone_mate' mate r c f c' f' : mate (r, c, f) = Some (r, c', f') -> aloneMate mate (r, c, f) = Some (r, c', f').
Proof. unfold aloneMate. cbn [fst]. intros ->. now rewrite Nat.eqb_refl. Qed.

Section Schur.
  Context {X : Type}.
  Variables (node : nat -> nat -> nat -> X) (R0 : run (value R) (block R)) (g : gaussElim) (nG : nat) (geo : nat -> rgeo R) (sigmaT : nat -> nat -> R) (pr : nat -> nat -> nat -> N).
  Hypothesis OK : transport_ok node R0 geo sigmaT.
  Hypothesis FVS : face_vertices R0 geo.
  Notation GPsi := (nat -> nat -> nat -> nat -> nat -> R).
  Notation GBnd := (nat -> nat -> nat -> nat -> nat -> R).
  Notation teq := (transport_eq node R0 nG geo sigmaT).
  Notation leq := (local_eq node R0 nG geo sigmaT).
  Notation same := (same R0 nG).
  Notation M := (u_mesh R0). Notation mate := (u_mate R0). Notation nR := (u_ranks R0). Notation nA := (u_angles R0).
  Notation is_unknown := (is_unknown nA nG M mate).

  Lemma FV r c f j : r < nR -> c < rm_nCells (M r) -> f < 4 -> j < 4 -> j <> f -> rg_c2f (geo r) c f j < 3.
  Proof. apply FVS. Qed.
  Lemma F2C q c f fv : q < nR -> c < rm_nCells (M q) -> f < 4 -> fv < 3 -> rg_f2c (geo q) c f fv < 4.
  Proof. apply FVS. Qed.
  Lemma sys : sys_ok nR nA M mate.
  Proof.
    pose proof (to_acyclic _ _ _ _ OK) as AC. unfold racyclic in AC. rewrite (to_comm _ _ _ _ OK) in AC. destruct (to_good _ _ _ _ OK) as (G & _). exact (fit_ok _ _ _ _ _ G AC).
  Qed.
  Lemma alone_sys : sys_ok nR nA (fun r => aloneMesh (M r)) (aloneMate mate).
  Proof.
    pose proof sys as S. constructor.
    - intros r c f [[q c'] f'] H. apply alone_mate in H as (-> & H). exact (so_range _ _ _ _ S _ _ _ _ H).
    - intros [[r c] f] [[q c'] f'] H. apply alone_mate in H as (-> & H). apply (so_sym _ _ _ _ S) in H. now apply alone_mate'.
    - intros r c f f' H. apply alone_mate in H as (_ & H). exact (so_irr _ _ _ _ S _ _ _ _ H).
    - intros r c f Hr Hc Hf. cbn [aloneMesh rm_adjCell]. rewrite (so_cell _ _ _ _ S r c f Hr Hc Hf). unfold aloneMate. cbn [fst]. destruct (mate (r, c, f)) as [[[q c'] f']|]; auto. destruct (q =? r) eqn:E; auto. now rewrite E.
    - intros r c f Hr Hc Hf. cbn [aloneMesh rm_adjRank]. rewrite (so_cell _ _ _ _ S r c f Hr Hc Hf), (so_rank _ _ _ _ S r c f Hr Hc Hf). unfold aloneMate. cbn [fst]. destruct (mate (r, c, f)) as [[[q c'] f']|]; auto. now destruct (q =? r).
    - intros r c f q c' f' H N. apply alone_mate in H as (-> & _). congruence.
    - intros r c f q c' f' d h q' d' h' H N. apply alone_mate in H as (-> & _). congruence.
    - intros r c f q c' f' a H Ha. apply alone_mate in H as (-> & H). exact (so_flow _ _ _ _ S _ _ _ _ _ _ _ H Ha).
    - intros r Hr. exact (so_size _ _ _ _ S r Hr).
  Qed.
  Lemma alone_ok : transport_ok node (alone R0) geo sigmaT.
  Proof.
    constructor; try apply OK.
    - destruct (to_good _ _ _ _ OK) as (_ & G). split; [apply ok_fit; exact alone_sys|exact G].
    - pose proof (to_acyclic _ _ _ _ OK) as (lvl & L). exists lvl. intros a r c q c' Ha (Hr & Hc & f & f' & Hf & Hm & Hi & D). apply L; auto. apply alone_mate in Hm as (-> & Hm). split; auto. split; auto. exists f, f'. auto.
    - pose proof (to_geo _ _ _ _ OK) as GF. constructor; try apply GF.
      + intros r c f c' f' j Hm. apply alone_mate in Hm as (_ & Hm). exact (gf_local _ _ _ _ _ _ _ _ _ _ _ _ GF r c f c' f' j Hm).
      + intros r c f q c' f' j Hm N. apply alone_mate in Hm as (-> & _). congruence.
  Qed.
  Lemma unk r c f q c' f' a fv G : mate (r, c, f) = Some (q, c', f') -> q <> r -> rm_out (M r) a c f = false -> a < nA -> fv < 3 -> G < nG -> is_unknown r (a, c, f, fv, G).
  Proof. intros Hm N O Ha Hf HG. split; [|auto]. exists q, c', f'. auto. Qed.
  Lemma flow_in r c a f : okc R0 r c a -> f < 4 -> ~ (sarea geo r a c f > 0)%R -> rm_out (M r) a c f = false.
  Proof.
    intros (Hr & Hc & Ha) Hf NO. destruct (rm_out (M r) a c f) eqn:E; auto. exfalso. apply NO. now apply (not_out geo nR nA M mate node (to_geo _ _ _ _ OK)).
  Qed.
  (** The data agrees at all unknowns. *)
  Definition sameBnd (b b' : GBnd) : Prop := forall r u, r < nR -> is_unknown r u -> at_unknown M r (b r) u = at_unknown M r (b' r) u.
  Lemma same_refl p : same p p. Proof. intros r c a v G _ _ _. reflexivity. Qed.
  Lemma same_sym p p' : same p p' -> same p' p. Proof. intros E r c a v G H1 H2 H3. symmetry. now apply E. Qed.
  Lemma same_trans p p' p'' : same p p' -> same p' p'' -> same p p''. Proof. intros E E' r c a v G H1 H2 H3. rewrite E by auto. now apply E'. Qed.

  Lemma local_lin Q1 Q2 b1 b2 p1 p2 x y : leq Q1 b1 p1 -> leq Q2 b2 p2 ->
    leq (fun r c a v G => x * Q1 r c a v G + y * Q2 r c a v G)%R (fun r s a fv G => x * b1 r s a fv G + y * b2 r s a fv G)%R (fun r c a v G => x * p1 r c a v G + y * p2 r c a v G)%R.
  Proof.
    intros D1 D2 r c a G VA HG. destruct (D1 r c a G VA HG) as (n1 & N1 & E1). destruct (D2 r c a G VA HG) as (n2 & N2 & E2).
    exists (fun f j => x * n1 f j + y * n2 f j)%R. split; [|exact (dg_lin _ _ _ _ _ _ _ _ _ x y E1 E2)].
    intros f j Hf Hj NE NO. specialize (N1 f j Hf Hj NE NO). specialize (N2 f j Hf Hj NE NO). unfold entering in *. destruct (mate (r, c, f)) as [[[q c'] f']|] eqn:Hm; [|rewrite N1, N2; ring].
    destruct (Nat.eqb_spec q r) as [->|N]; [|now rewrite N1, N2].
    destruct N1 as (k & K1 & K2 & K3 & K4). destruct N2 as (k' & K1' & K2' & K3' & K4'). destruct (mate_valid node R0 geo sigmaT OK _ _ _ _ _ _ a Hm ltac:(apply VA)) as (Hq & Hc' & _).
    assert (k' = k) as -> by (apply (to_nodes _ _ _ _ OK r c'); auto; congruence). exists k. split; [auto|]. split; [auto|]. split; [auto|]. now rewrite K4, K4'.
  Qed.
  Lemma local_ext Q Q' b b' p p' : same Q Q' -> sameBnd b b' -> same p p' -> leq Q b p -> leq Q' b' p'.
  Proof.
    intros EQ EB EP D r c a G VA HG. destruct (D r c a G VA HG) as (nb & N & E). exists nb. split.
    - intros f j Hf Hj NE NO. specialize (N f j Hf Hj NE NO). unfold entering in *. destruct (mate (r, c, f)) as [[[q c'] f']|] eqn:Hm; [|exact N]. destruct (Nat.eqb_spec q r) as [->|Nq].
      + destruct N as (k & K1 & K2 & K3 & K4). exists k. split; [auto|]. split; [auto|]. split; [auto|]. rewrite K4. apply EP; auto. eapply mate_valid; eauto. apply VA.
      + rewrite N. pose proof VA as (Hr & Hc & Ha). pose proof (flow_in r c a f VA Hf NO) as O. exact (EB r (a, c, f, rg_c2f (geo r) c f j, G) Hr (unk _ _ _ _ _ _ _ _ _ Hm Nq O Ha (FV r c f j Hr Hc Hf Hj NE) HG)).
    - eapply dg_ext; [| |exact E]; cbv beta; intros v Hv; [now apply EQ|now apply EP].
  Qed.
  (** With no inflow: the ranks alone. *)
  Lemma local_alone Q b p : sameBnd b (fun _ _ _ _ _ => 0%R) -> leq Q b p -> transport_eq node (alone R0) nG geo sigmaT Q p.
  Proof.
    intros EB D. apply (local_ext Q Q b (fun _ _ _ _ _ => 0%R) p p (same_refl _) EB (same_refl _)) in D. intros r c a G VA HG. destruct (D r c a G VA HG) as (nb & N & E). exists nb. split; [|exact E].
    intros f j Hf Hj NE NO. specialize (N f j Hf Hj NE NO). unfold entering, across in *. cbn [alone u_mate]. unfold aloneMate. cbn [fst]. destruct (mate (r, c, f)) as [[[q c'] f']|]; [|exact N].
    destruct (Nat.eqb_spec q r) as [->|]; exact N.
  Qed.
  Lemma alone_local Q p : transport_eq node (alone R0) nG geo sigmaT Q p -> leq Q (fun _ _ _ _ _ => 0%R) p.
  Proof.
    intros D r c a G VA HG. destruct (D r c a G VA HG) as (nb & N & E). exists nb. split; [|exact E].
    intros f j Hf Hj NE NO. specialize (N f j Hf Hj NE NO). unfold entering, across in *. cbn [alone u_mate] in N. unfold aloneMate in N. cbn [fst] in N. destruct (mate (r, c, f)) as [[[q c'] f']|]; [|exact N].
    destruct (Nat.eqb_spec q r) as [->|]; exact N.
  Qed.
  Lemma local_unique Q b p p' : leq Q b p -> leq Q b p' -> same p p'.
  Proof.
    intros D D'. pose proof (local_lin _ _ _ _ _ _ 1 (-1) D D') as D1. pose proof (local_lin _ _ _ _ _ _ 0 0 D D) as D0.
    apply local_alone in D1; [|intros r [[[[a c] f] fv] G] _ _; cbn; ring]. apply local_alone in D0; [|intros r [[[[a c] f] fv] G] _ _; cbn; ring].
    assert (E : same (fun r c a v G => 1 * p r c a v G + -1 * p' r c a v G)%R (fun r c a v G => 0 * p r c a v G + 0 * p r c a v G)%R).
    { apply (eq_unique node (alone R0) nG geo sigmaT alone_ok _ _ _ D1). eapply (eq_ext node (alone R0) nG geo sigmaT alone_ok); [|intros r c a v G _ _ _; reflexivity|exact D0]. intros r c a v G _ _ _. cbv beta. ring. }
    intros r c a v G VA Hv HG. specialize (E r c a v G VA Hv HG). cbv beta in E. lra.
  Qed.

  (** Sweeps and exchange. *)
  Lemma block_ok src : block_run (blockRun R0 g nG geo sigmaT pr src).
  Proof. split; [exact (conj sys (to_good _ _ _ _ OK))|]. split; [exact (to_dir _ _ _ _ OK)|reflexivity]. Qed.
  Lemma full_acyclic : acyclic Forward true nR nA M mate.
  Proof. pose proof (to_acyclic _ _ _ _ OK) as AC. unfold racyclic in AC. now rewrite (to_dir _ _ _ _ OK), (to_comm _ _ _ _ OK) in AC. Qed.
  Notation localSweep := (localSweep R0 g nG geo sigmaT pr).
  Notation commAll := (commAll R0 g nG geo sigmaT pr).
  Lemma sweep_leq src psi bnd psi' bnd' : localSweep src psi bnd psi' bnd' -> leq src bnd psi' /\ (forall r, r < nR -> bnd' r = bnd r).
  Proof.
    intros (val & SW & ->). destruct (sweep_local _ (block_ok src) _ _ _ _ SW) as (SO & EB). split; [|exact EB].
    intros r c a G VA HG. destruct (cell_dg g geo sigmaT nG src pr false nR nA M mate node (to_geo _ _ _ _ OK) (to_sigma _ _ _ _ OK) bnd val SO r c a VA) as (_ & D). eexists. split; [|exact (D G HG)].
    intros f j Hf Hj NE NO. cbn beta. unfold entering, seen, isIncoming. rewrite (flow_in r c a f VA Hf NO). cbn [negb]. destruct (mate (r, c, f)) as [[[q c'] f']|] eqn:Hm; [|reflexivity].
    destruct (Nat.eqb_spec q r) as [->|N]; [|reflexivity]. destruct (gf_local _ _ _ _ _ _ _ _ _ _ _ _ (to_geo _ _ _ _ OK) r c f c' f' j Hm Hj NE) as (K1 & K2 & K3).
    eexists. split; [exact K1|]. split; [exact K2|]. split; [exact K3|reflexivity].
  Qed.
  Lemma local_sweep_exists src psi bnd : exists psi' bnd', localSweep src psi bnd psi' bnd'.
  Proof.
    destruct (sweep_total _ (block_ok src) (fun r c a => Some (psi r c a)) bnd (to_max _ _ _ _ OK) (local_acyclic _ (block_ok src) full_acyclic)) as (v & b & H). eexists. exists b, v. split; [exact H|reflexivity].
  Qed.
  Lemma comm_exchanged psi bnd bnd' : commAll psi bnd bnd' -> exchanged R0 nG geo psi bnd'.
  Proof.
    intros H r c f q c' f' a fv G Hm N Ha O Hfv HG. pose proof (exchange_ok (fun _ _ => 0%R) _ (block_ok (fun _ _ _ _ _ => 0%R)) _ _ _ H r c f q c' f' a Hm N Ha O) as K. apply (f_equal (fun b => b fv G)) in K. exact K.
  Qed.
  Lemma comm_exists psi bnd : exists bnd', commAll psi bnd bnd'.
  Proof. exact (exchange_total (fun _ _ => 0%R) _ (block_ok (fun _ _ _ _ _ => 0%R)) (fun r c a => Some (psi r c a)) bnd). Qed.
  Lemma exchanged_same psi bnd bnd' : exchanged R0 nG geo psi bnd -> exchanged R0 nG geo psi bnd' -> sameBnd bnd bnd'.
  Proof. intros E E' r [[[[a c] f] fv] G] Hr ((q & c' & f' & Hm & N & O) & Ha & Hf & HG). cbn. rewrite (E r c f q c' f' a fv G), (E' r c f q c' f' a fv G) by auto. reflexivity. Qed.
  Lemma exchanged_bnd psi b b' : sameBnd b b' -> exchanged R0 nG geo psi b -> exchanged R0 nG geo psi b'.
  Proof.
    intros E H r c f q c' f' a fv G Hm N Ha O Hf HG. rewrite <- (H r c f q c' f' a fv G) by auto. destruct (so_range _ _ _ _ sys _ _ _ _ Hm) as (Hr & _). symmetry. exact (E r (a, c, f, fv, G) Hr (unk _ _ _ _ _ _ _ _ _ Hm N O Ha Hf HG)).
  Qed.
  (** Vertices of the far cell that are exchanged exist. *)
  Lemma far_valid r c f q c' f' a fv : mate (r, c, f) = Some (q, c', f') -> a < nA -> fv < 3 -> okc R0 q c' a /\ rg_f2c (geo q) c' f' fv < 4.
  Proof. intros Hm Ha Hf. split; [eapply mate_valid; eauto|]. pose proof (so_sym _ _ _ _ sys _ _ Hm) as Hb. destruct (so_range _ _ _ _ sys _ _ _ _ Hb) as (? & ? & ?). now apply F2C. Qed.
  Lemma exchanged_psi psi psi' b : same psi psi' -> exchanged R0 nG geo psi b -> exchanged R0 nG geo psi' b.
  Proof.
    intros E H r c f q c' f' a fv G Hm N Ha O Hf HG. rewrite (H r c f q c' f' a fv G) by auto. destruct (far_valid r c f q c' f' a fv Hm Ha Hf). now apply E.
  Qed.
  Lemma exchanged_lin p1 p2 b1 b2 x y : exchanged R0 nG geo p1 b1 -> exchanged R0 nG geo p2 b2 ->
    exchanged R0 nG geo (fun r c a v G => x * p1 r c a v G + y * p2 r c a v G)%R (fun r s a fv G => x * b1 r s a fv G + y * b2 r s a fv G)%R.
  Proof. intros E1 E2 r c f q c' f' a fv G Hm N Ha O Hf HG. rewrite (E1 r c f q c' f' a fv G), (E2 r c f q c' f' a fv G) by auto. reflexivity. Qed.
  (** The local equation with the neighbours' data is the global one. *)
  Lemma local_global Q b p : exchanged R0 nG geo p b -> leq Q b p <-> teq Q p.
  Proof.
    intros EX. split; intros D r c a G VA HG; destruct (D r c a G VA HG) as (nb & N & E); exists nb; (split; [|exact E]); intros f j Hf Hj NE NO; specialize (N f j Hf Hj NE NO); unfold entering, across in *;
      destruct (mate (r, c, f)) as [[[q c'] f']|] eqn:Hm; auto; destruct (Nat.eqb_spec q r) as [->|Nq]; auto.
    - pose proof VA as (Hr & Hc & Ha). destruct (gf_remote _ _ _ _ _ _ _ _ _ _ _ _ (to_geo _ _ _ _ OK) r c f q c' f' j Hm Nq Hj NE) as (K1 & K2 & K3).
      eexists. split; [exact K1|]. split; [exact K2|]. split; [exact K3|]. rewrite N. apply EX; auto; [now apply flow_in|now apply FV].
    - pose proof VA as (Hr & Hc & Ha). destruct (gf_remote _ _ _ _ _ _ _ _ _ _ _ _ (to_geo _ _ _ _ OK) r c f q c' f' j Hm Nq Hj NE) as (K1 & K2 & K3). destruct N as (k & L1 & L2 & L3 & ->).
      rewrite (EX r c f q c' f' a (rg_c2f (geo r) c f j) G Hm Nq Ha (flow_in r c a f VA Hf NO) (FV r c f j Hr Hc Hf Hj NE) HG). f_equal.
      destruct (mate_valid node R0 geo sigmaT OK _ _ _ _ _ _ a Hm Ha) as (Hq & Hc' & _). apply (to_nodes _ _ _ _ OK q c'); auto. congruence.
  Qed.
End Schur.
