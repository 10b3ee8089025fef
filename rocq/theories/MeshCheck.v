(** Executable checks for the hypotheses on example meshes (used by examples only). *)
From Verif Require Import Prelude Bytes MeshModel MeshSpec CreateSpec TychoSpec.
Local Open Scope N_scope.

Definition memN (x : N) (l : list N) : bool := existsb (N.eqb x) l.
Lemma memN_spec x l : memN x l = true <-> In x l.
Proof.
  unfold memN. rewrite existsb_exists. split; [intros (y & H & E); apply N.eqb_eq in E; now subst|intros H; exists x; now rewrite N.eqb_refl].
Qed.
Fixpoint nodupN (l : list N) : bool := match l with [] => true | x :: r => negb (memN x r) && nodupN r end.
Lemma nodupN_spec l : nodupN l = true -> NoDup l.
Proof.
  induction l; cbn; [constructor|]. intros H. apply andb_true_iff in H. destruct H as (A & B). constructor; auto.
  intros X. apply memN_spec in X. rewrite X in A. discriminate.
Qed.
Definition idx {A} (l : list A) : list (N * A) := combine (map N.of_nat (seq 0 (length l))) l.
Lemma idx_in {A} (l : list A) c x : nth_error l (N.to_nat c) = Some x -> In (c, x) (idx l).
Proof.
  intros H. unfold idx. apply (nth_error_In _ (N.to_nat c)).
  assert (K : forall k l n, nth_error l n = Some x -> nth_error (combine (map N.of_nat (seq k (length l))) l) n = Some (N.of_nat (k + n), x)).
  { clear. intros k l. revert k. induction l as [|a l IH]; intros k n H; [destruct n; discriminate|].
    destruct n; cbn in *; [apply Some_inj in H; subst; now rewrite Nat.add_0_r|]. rewrite (IH (S k) n H). f_equal. f_equal. lia. }
  rewrite (K 0%nat l _ H). cbn. now rewrite N2Nat.id.
Qed.
Definition getb {A} (l : list A) (i : N) (q : A -> bool) : bool :=
  match nthN l i with Some a => q a | None => false end.
Lemma getb_spec {A} (l : list A) i q : getb l i q = true -> exists a, nth_error l (N.to_nat i) = Some a /\ q a = true.
Proof.
  unfold getb, nthN. destruct (N.ltb_spec i (N.of_nat (length l))); [|discriminate]. destruct (nth_error l (N.to_nat i)); [eauto|discriminate].
Qed.

Definition small (x : N) : bool := x <? 18446744073709551616.
Definition serial_wfb (m : smesh) : bool :=
  (sm_numCells m =? lenN (sm_cells m)) && (sm_numFaces m =? lenN (sm_faces m)) && (sm_numNodes m =? lenN (sm_nodes m)) &&
  small (9 * lenN (sm_cells m)) && small (5 * lenN (sm_faces m)) && small (3 * lenN (sm_nodes m)) &&
  forallb (fun c => forallb small (scell_fmt c)) (sm_cells m) && forallb (fun c => forallb small (sface_fmt c)) (sm_faces m) &&
  forallb (fun c => forallb small (snode_fmt c)) (sm_nodes m).
Lemma small_all l : forallb small l = true -> Forall u64 l.
Proof. intros H. apply Forall_forall. rewrite forallb_forall in H. intros x Hx. apply N.ltb_lt. now apply H. Qed.
Lemma serial_wfb_ok m : serial_wfb m = true -> serial_wf m.
Proof.
  intros H. unfold serial_wfb in H. repeat (apply andb_true_iff in H; destruct H as (H & ?)).
  unfold serial_wf. rewrite !N.eqb_eq in *. rewrite forallb_forall in *. unfold small in *. rewrite N.ltb_lt in *.
  repeat split; auto; apply Forall_forall; intros x Hx; apply small_all; auto.
Qed.

Definition crossb (sm : smesh) : bool :=
  (lenN (sm_cells sm) <? INVALID) && (lenN (sm_faces sm) <? 2^31) && (lenN (sm_nodes sm) <? 2^31) &&
  forallb (fun e : N * scell => let (c, sc) := e in
    forallb (fun f => getb (sm_faces sm) f (fun sf => memN c (q2l (sf_cells sf)) && forallb (fun n => memN n (q4l (sc_nodes sc))) (q3l (sf_nodes sf)))) (q4l (sc_faces sc)) &&
    forallb (fun n => getb (sm_nodes sm) n (fun _ => true)) (q4l (sc_nodes sc))) (idx (sm_cells sm)) &&
  forallb (fun e : N * sface => let (f, sf) := e in
    forallb (fun c => (c =? INVALID) || getb (sm_cells sm) c (fun sc => memN f (q4l (sc_faces sc)))) (q2l (sf_cells sf))) (idx (sm_faces sm)).

Lemma crossb_ok sm : serial_wf sm -> crossb sm = true -> serial_mesh_ok sm.
Proof.
  intros W H. unfold crossb in H. repeat (apply andb_true_iff in H; destruct H as (H & ?)).
  rewrite N.ltb_lt in *. rewrite forallb_forall in *. constructor; auto.
  - intros c sc f Hc Hf. specialize (H1 (c, sc) (idx_in _ _ _ Hc)). cbn beta iota in H1. apply andb_true_iff in H1. destruct H1 as (A & _).
    rewrite forallb_forall in A. specialize (A f Hf). apply getb_spec in A. destruct A as (sf & E & A). apply andb_true_iff in A.
    destruct A as (A & B). exists sf. split; auto. split; [now apply memN_spec|]. rewrite forallb_forall in B. intros n Hn. apply memN_spec. auto.
  - intros f sf c Hf Hc NI. specialize (H0 (f, sf) (idx_in _ _ _ Hf)). cbn beta iota in H0. rewrite forallb_forall in H0. specialize (H0 c Hc).
    apply orb_true_iff in H0. destruct H0 as [E|E]; [apply N.eqb_eq in E; contradiction|]. apply getb_spec in E.
    destruct E as (sc & E & X). exists sc. split; auto. now apply memN_spec.
  - intros c sc n Hc Hn. specialize (H1 (c, sc) (idx_in _ _ _ Hc)). cbn beta iota in H1. apply andb_true_iff in H1. destruct H1 as (_ & A).
    rewrite forallb_forall in A. specialize (A n Hn). apply getb_spec in A. destruct A as (sn & E & _). eauto.
Qed.

Definition sameb (l l' : list N) : bool := forallb (fun n => memN n l') l && forallb (fun n => memN n l) l'.
Lemma sameb_spec l l' : (forall n, In n l <-> In n l') -> sameb l l' = true.
Proof.
  intros H. unfold sameb. apply andb_true_intro. split; apply forallb_forall; intros x Hx; apply memN_spec; now apply H.
Qed.
Definition tetsb (sm : smesh) : bool :=
  forallb (fun sc => nodupN (q4l (sc_nodes sc)) &&
    forallb (fun e : N * N => forallb (fun e' : N * N => (fst e =? fst e') ||
      match nthN (sm_faces sm) (snd e), nthN (sm_faces sm) (snd e') with
      | Some sf, Some sg => negb (sameb (q3l (sf_nodes sf)) (q3l (sf_nodes sg))) | _, _ => false end)
      (idx (q4l (sc_faces sc)))) (idx (q4l (sc_faces sc)))) (sm_cells sm) &&
  forallb (fun sf => nodupN (q3l (sf_nodes sf)) && negb (MeshModel.p0 (sf_cells sf) =? MeshModel.p1 (sf_cells sf))) (sm_faces sm).
Lemma nthN_some {A} (l : list A) i a : nth_error l (N.to_nat i) = Some a -> nthN l i = Some a.
Proof.
  intros H. unfold nthN. assert (N.to_nat i < length l)%nat by (apply nth_error_Some; congruence).
  destruct (N.ltb_spec i (N.of_nat (length l))); auto. lia.
Qed.
Lemma tetsb_ok sm : tetsb sm = true -> tets_ok sm.
Proof.
  intros H. unfold tetsb in H. apply andb_true_iff in H. destruct H as (H1 & H2). rewrite forallb_forall in *. constructor.
  - intros c sc Hc. specialize (H1 sc (nth_error_In _ _ Hc)). apply andb_true_iff in H1. apply nodupN_spec. tauto.
  - intros f sf Hf. specialize (H2 sf (nth_error_In _ _ Hf)). apply andb_true_iff in H2. destruct H2 as (A & B). split; [now apply nodupN_spec|].
    apply negb_true_iff in B. now apply N.eqb_neq.
  - intros c sc i j f g sf sg Hc Hi Hj Hf Hg EQ. specialize (H1 sc (nth_error_In _ _ Hc)). apply andb_true_iff in H1. destruct H1 as (_ & H1).
    rewrite forallb_forall in H1. specialize (H1 (N.of_nat i, f) (idx_in (q4l (sc_faces sc)) (N.of_nat i) f ltac:(rewrite Nat2N.id; exact Hi))). rewrite forallb_forall in H1.
    specialize (H1 (N.of_nat j, g) (idx_in (q4l (sc_faces sc)) (N.of_nat j) g ltac:(rewrite Nat2N.id; exact Hj))). cbn [fst snd] in H1.
    apply orb_true_iff in H1. destruct H1 as [H1|H1]; [apply N.eqb_eq in H1; lia|].
    rewrite (nthN_some _ _ _ Hf), (nthN_some _ _ _ Hg), (sameb_spec _ _ EQ) in H1. discriminate.
Qed.
