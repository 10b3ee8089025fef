(** The graph handed to METIS: proofs. *)
From Verif Require Import Prelude Bytes MeshModel MeshSpec CreateModel CreateSpec CreateProofs TychoModel TychoSpec TychoProofs MetisModel MetisSpec.
From Coq Require Import Permutation.
Local Open Scope N_scope.

Lemma toIdx_small w x : 1 <= w -> x < 2^(w-1) -> toIdx w x = Z.of_N x.
Proof.
  intros W H. unfold toIdx. assert (2^(w-1) <= 2^w) by (apply N.pow_le_mono_r; lia).
  rewrite N.mod_small by lia. destruct (N.ltb_spec x (2^(w-1))); [auto|lia].
Qed.
Lemma ofIdx_nat n : N.of_nat n < two64 -> ofIdx (Z.of_nat n) = N.of_nat n.
Proof. intros H. unfold ofIdx. rewrite Z.mod_small by lia. lia. Qed.

Lemma count_filter_map {A} (dec : forall x y : A, {x = y} + {x <> y}) {B} (g : B -> A) l d (p : B -> bool) :
  (forall x, In x l -> p x = true <-> g x = d) -> count_occ dec (map g l) d = length (filter p l).
Proof.
  induction l as [|a l IH]; intros H; [auto|]. cbn [map count_occ filter].
  rewrite IH by (intros; apply H; now right).
  pose proof (H a (or_introl eq_refl)) as Ha. destruct (dec (g a) d) as [E|NE], (p a); cbn [length]; auto; [|]; intuition congruence.
Qed.

Section Graph.
  Variables (sm : smesh).
  Hypothesis OK : serial_mesh_ok sm.
  Hypothesis TT : tets_ok sm.
  Let n := length (sm_cells sm).
  Let nf := length (sm_faces sm).

  Lemma nF : sm_numFaces sm = N.of_nat nf. Proof. destruct (smo_wf _ OK) as (_ & H & _). rewrite H. reflexivity. Qed.
  Lemma nCs : sm_numCells sm = N.of_nat n. Proof. destruct (smo_wf _ OK) as (H & _). rewrite H. reflexivity. Qed.

  (** The cell on the other side of a face. *)
  Definition over (c f : N) : N := match SM_face sm f with Some sf => s_across sf c | None => INVALID end.
  Definition inner (c f : N) : bool := negb (over c f =? INVALID).
  Definition facesOf (c : nat) : list N := match nth_error (sm_cells sm) c with Some sc => q4l (sc_faces sc) | None => [] end.
  Definition link (c : nat) : list N := filter (inner (N.of_nat c)) (facesOf c).
  Definition nb (c : nat) : list N := map (over (N.of_nat c)) (link c).
  Definition flat (k : nat) : list N := flat_map nb (seq 0 k).
  Definition psum (k : nat) : nat := length (flat k).

  Lemma SM_nat c : SM_cell sm (N.of_nat c) = nth_error (sm_cells sm) c.
  Proof. unfold SM_cell. now rewrite Nat2N.id. Qed.

  Lemma face_of c f : In f (facesOf c) -> exists sf, SM_face sm f = Some sf /\ In (N.of_nat c) (q2l (sf_cells sf)).
  Proof.
    unfold facesOf. destruct (nth_error (sm_cells sm) c) as [sc|] eqn:E; [|intros []]. intros H.
    rewrite <- SM_nat in E. destruct (smo_cf _ OK _ _ _ E H) as (sf & A & B & _). eauto.
  Qed.
  Lemma facesOf_lt c f : In f (facesOf c) -> (c < n)%nat.
  Proof. unfold facesOf. destruct (nth_error (sm_cells sm) c) eqn:E; [|intros []]. intros _. apply nth_error_Some. congruence. Qed.
  Lemma face_lt f sf : SM_face sm f = Some sf -> (N.to_nat f < nf)%nat.
  Proof. intros H. apply nth_error_Some. unfold SM_face in H. congruence. Qed.
  Lemma facesOf_nodup c : NoDup (facesOf c).
  Proof.
    apply NoDup_nth_error. intros i j Hi E. unfold facesOf in *. destruct (nth_error (sm_cells sm) c) as [sc|] eqn:Ec; [|cbn in Hi; lia].
    destruct (nth_error (q4l (sc_faces sc)) i) as [f|] eqn:Ei; [|apply nth_error_None in Ei; lia]. symmetry in E.
    rewrite <- SM_nat in Ec. destruct (smo_cf _ OK _ _ _ Ec (nth_error_In _ _ Ei)) as (sf & A & _).
    apply (to_distinct _ TT _ _ i j f f sf sf Ec Ei E A A). tauto.
  Qed.

  (** The other side of an inner face is another cell, which has the face too. *)
  Lemma over_ok c f : In f (link c) -> exists d, over (N.of_nat c) f = N.of_nat d /\ (d < n)%nat /\ d <> c /\ In f (link d) /\
    over (N.of_nat d) f = N.of_nat c /\ forall e, In e (faceCells sm f) <-> e = N.of_nat c \/ e = N.of_nat d.
  Proof.
    intros H. apply filter_In in H as (Hf & Hi). destruct (face_of _ _ Hf) as (sf & A & B).
    unfold inner, over, faceCells in *. rewrite A in *. unfold s_across in *. destruct (sf_cells sf) as [a b] eqn:Eq.
    destruct (to_face _ TT _ _ A) as (_ & NE). rewrite Eq in NE. cbn in NE, B.
    assert (G : forall x, (x = a \/ x = b) -> x <> INVALID -> exists d, x = N.of_nat d /\ (d < n)%nat /\ In f (facesOf d)).
    { intros x Hx NI. assert (Hin : In x (q2l (sf_cells sf))) by (rewrite Eq; cbn; destruct Hx; subst; auto).
      destruct (smo_fc _ OK _ _ _ A Hin NI) as (sc & C & D). exists (N.to_nat x). rewrite N2Nat.id. split; auto.
      unfold SM_cell in C. split; [apply nth_error_Some; congruence|]. unfold facesOf. now rewrite C. }
    assert (Lc : N.of_nat c < INVALID).
    { pose proof (smo_cells _ OK). pose proof (facesOf_lt _ _ Hf). unfold n, lenN in *. lia. }
    destruct (N.eqb_spec a (N.of_nat c)) as [->|NA].
    - destruct (N.eqb_spec b INVALID) as [|NI]; [discriminate|].
      destruct (G b (or_intror eq_refl) NI) as (d & -> & Ld & Fd). exists d. split; auto. split; auto. split; [lia|]. split.
      + apply filter_In. split; auto. unfold inner, over. rewrite A. unfold s_across. rewrite Eq.
        destruct (N.eqb_spec (N.of_nat c) (N.of_nat d)); [lia|]. destruct (N.eqb_spec (N.of_nat c) INVALID); [lia|auto].
      + split. { destruct (N.eqb_spec (N.of_nat c) (N.of_nat d)); [lia|auto]. } cbn. intros e. intuition.
    - destruct B as [B|[B|[]]]; [now elim NA|]. subst b.
      destruct (N.eqb_spec a INVALID) as [|NI]; [discriminate|].
      destruct (G a (or_introl eq_refl) NI) as (d & -> & Ld & Fd). exists d. split; auto. split; auto. split; [lia|]. split.
      + apply filter_In. split; auto. unfold inner, over. rewrite A. unfold s_across. rewrite Eq.
        rewrite N.eqb_refl. destruct (N.eqb_spec (N.of_nat c) INVALID); [lia|auto].
      + split. { now rewrite N.eqb_refl. } cbn. intros e. intuition.
  Qed.

  Lemma nb_range c x : In x (nb c) -> exists d, x = N.of_nat d /\ (d < n)%nat /\ d <> c.
  Proof. intros H. apply in_map_iff in H as (f & <- & Hf). destruct (over_ok _ _ Hf) as (d & A & B & C & _). eauto. Qed.

  Lemma nb_shared c d : c <> d -> (d < n)%nat -> count_occ N.eq_dec (nb c) (N.of_nat d) = shared sm (N.of_nat c) (N.of_nat d).
  Proof.
    intros NE Ld. unfold nb, shared. rewrite SM_nat. fold (facesOf c).
    assert (E : match nth_error (sm_cells sm) c with
                | Some sc => length (filter (fun f => existsb (N.eqb (N.of_nat d)) (faceCells sm f)) (q4l (sc_faces sc)))
                | None => 0%nat end = length (filter (fun f => existsb (N.eqb (N.of_nat d)) (faceCells sm f)) (facesOf c)))
      by (unfold facesOf; destruct (nth_error (sm_cells sm) c); auto).
    rewrite E. clear E.
    rewrite (count_filter_map N.eq_dec (over (N.of_nat c)) (link c) (N.of_nat d) (fun f => existsb (N.eqb (N.of_nat d)) (faceCells sm f))).
    - unfold link. f_equal. assert (K : forall f, In f (facesOf c) -> existsb (N.eqb (N.of_nat d)) (faceCells sm f) = true -> inner (N.of_nat c) f = true).
      { intros f Hf He. apply existsb_exists in He as (e & He & Eq). apply N.eqb_eq in Eq. subst e.
        destruct (face_of _ _ Hf) as (sf & A & B). unfold inner, over, faceCells in *. rewrite A in *. unfold s_across.
        pose proof (smo_cells _ OK) as Sz. unfold lenN in Sz. pose proof (facesOf_lt _ _ Hf) as Lc. unfold n in *.
        destruct (sf_cells sf) as [a b]. cbn in B, He. destruct (N.eqb_spec a (N.of_nat c)); [destruct (N.eqb_spec b INVALID)|destruct (N.eqb_spec a INVALID)]; cbn; auto; intuition (subst; lia). }
      induction (facesOf c) as [|f l IH]; auto. cbn [filter].
      destruct (inner (N.of_nat c) f) eqn:Ei; cbn [filter].
      + destruct (existsb _ _); [f_equal|]; apply IH; intros; apply K; auto; now right.
      + destruct (existsb (N.eqb (N.of_nat d)) (faceCells sm f)) eqn:Ee; [rewrite (K f) in Ei; [discriminate|now left|auto]|].
        apply IH. intros; apply K; auto; now right.
    - intros f Hf. destruct (over_ok _ _ Hf) as (e & A & _ & _ & _ & _ & F). rewrite A. rewrite existsb_exists. split.
      + intros (x & Hx & Eq). apply N.eqb_eq in Eq. subst x. apply F in Hx. lia.
      + intros Eq. exists (N.of_nat d). split; [|apply N.eqb_refl]. apply F. right. lia.
  Qed.

  Lemma shared_sym c d : (c < n)%nat -> (d < n)%nat -> c <> d -> shared sm (N.of_nat c) (N.of_nat d) = shared sm (N.of_nat d) (N.of_nat c).
  Proof.
    intros Lc Ld NE.
    assert (W : forall a b, (a < n)%nat -> shared sm (N.of_nat a) (N.of_nat b) = length (filter (fun f => existsb (N.eqb (N.of_nat b)) (faceCells sm f)) (facesOf a))).
    { intros a b La. unfold shared. rewrite SM_nat. unfold facesOf. destruct (nth_error (sm_cells sm) a); auto. }
    rewrite !W by auto. clear W.
    assert (K : forall a b f, (b < n)%nat -> In f (filter (fun f => existsb (N.eqb (N.of_nat b)) (faceCells sm f)) (facesOf a)) ->
      In f (filter (fun f => existsb (N.eqb (N.of_nat a)) (faceCells sm f)) (facesOf b))).
    { intros a b f Lb H. apply filter_In in H as (Hf & He). apply existsb_exists in He as (e & He & Eq). apply N.eqb_eq in Eq. subst e.
      destruct (face_of _ _ Hf) as (sf & A & B). unfold faceCells in *. rewrite A in He.
      pose proof (smo_cells _ OK) as Sz. unfold lenN in Sz.
      destruct (smo_fc _ OK _ _ _ A He) as (sc & C & D). { unfold n in Lb. lia. }
      apply filter_In. split. { unfold facesOf. rewrite SM_nat in C. now rewrite C. }
      rewrite A. apply existsb_exists. exists (N.of_nat a). split; auto. apply N.eqb_refl. }
    apply Permutation_length, NoDup_Permutation; [apply NoDup_filter, facesOf_nodup|apply NoDup_filter, facesOf_nodup|].
    intros f. split; apply K; auto.
  Qed.

  (** ---- the total number of connections ---- *)
  Definition pairs (k : nat) : list (N * N) := flat_map (fun c => map (fun f => (f, N.of_nat c)) (link c)) (seq 0 k).
  Lemma pairs_length k : length (pairs k) = psum k.
  Proof.
    unfold pairs, psum, flat. induction (seq 0 k) as [|a l IH]; auto. cbn [flat_map]. rewrite !app_length, IH. unfold nb. now rewrite !map_length.
  Qed.
  Lemma pairs_In k f x : In (f, x) (pairs k) -> exists c, x = N.of_nat c /\ (c < k)%nat /\ In f (link c).
  Proof.
    intros H. apply in_flat_map in H as (c & Hc & H). apply in_map_iff in H as (g & E & Hg). injection E as -> <-.
    apply in_seq in Hc. exists c. repeat split; auto; lia.
  Qed.
  Lemma pairs_nodup k : NoDup (pairs k).
  Proof.
    induction k as [|k IH]. { constructor. }
    unfold pairs. rewrite seq_S, flat_map_app. cbn [flat_map]. rewrite app_nil_r. apply NoDup_app_intro'; auto.
    - apply FinFun.Injective_map_NoDup. { intros a b E. now injection E. } apply NoDup_filter, facesOf_nodup.
    - intros (f, x) H H'. apply pairs_In in H as (c & -> & Lc & _). apply in_map_iff in H' as (g & E & _). injection E as _ E. lia.
  Qed.
  Lemma psum_le k : (psum k <= 2 * nf)%nat.
  Proof.
    rewrite <- pairs_length.
    transitivity (length (flat_map (fun f => map (fun c => (f, c)) (faceCells sm f)) (map N.of_nat (seq 0 nf)))).
    - apply NoDup_incl_length; [apply pairs_nodup|]. intros (f, x) H. apply pairs_In in H as (c & -> & _ & H).
      apply in_flat_map. exists f. pose proof H as H0. apply filter_In in H0 as (Hf & _). destruct (face_of _ _ Hf) as (sf & A & B).
      split. { apply in_map_iff. exists (N.to_nat f). rewrite N2Nat.id. split; auto. apply in_seq. apply face_lt in A. lia. }
      apply in_map_iff. exists (N.of_nat c). split; auto. unfold faceCells. now rewrite A.
    - assert (G : forall l, (length (flat_map (fun f => map (fun c : N => (f, c)) (faceCells sm f)) l) <= 2 * length l)%nat).
      { induction l as [|f l IH]; auto. cbn [flat_map length]. rewrite app_length, map_length. 
        assert (length (faceCells sm f) <= 2)%nat by (unfold faceCells; destruct (SM_face sm f); cbn; lia). lia. }
      rewrite (G (map N.of_nat (seq 0 nf))). now rewrite map_length, seq_length.
  Qed.
  Lemma flat_S k : flat (S k) = flat k ++ nb k.
  Proof. unfold flat. rewrite seq_S, flat_map_app. cbn [flat_map]. now rewrite app_nil_r. Qed.
  Lemma psum_S k : psum (S k) = (psum k + length (nb k))%nat.
  Proof. unfold psum. now rewrite flat_S, app_length. Qed.
  Lemma psum_le4 k : (psum k <= 4 * k)%nat.
  Proof.
    induction k as [|k IH]; [auto|]. rewrite psum_S. assert (length (nb k) <= 4)%nat.
    { unfold nb, link. rewrite map_length. assert (F : forall (p : N -> bool) l, (length (filter p l) <= length l)%nat).
      { induction l as [|a l IHl]; auto. cbn. destruct (p a); cbn; lia. }
      specialize (F (inner (N.of_nat k)) (facesOf k)). assert (length (facesOf k) <= 4)%nat by (unfold facesOf; destruct (nth_error (sm_cells sm) k); cbn; lia). lia. }
    lia.
  Qed.
  Lemma psum_mono j k : (j <= k)%nat -> (psum j <= psum k)%nat.
  Proof. induction 1; auto. rewrite psum_S. lia. Qed.

  Lemma updN_at {A} (a : list A) (x : A) b g : updN (a ++ x :: b) (N.of_nat (length a)) g = Some (a ++ g x :: b).
  Proof.
    unfold updN. rewrite nthN_nth, Nat2N.id, nth_error_app2, Nat.sub_diag by lia. cbn [nth_error obind].
    rewrite firstn_app, Nat.sub_diag, firstn_O, app_nil_r, firstn_all.
    rewrite skipn_app. replace (S (length a) - length a)%nat with 1%nat by lia.
    rewrite (skipn_all2 a) by lia. reflexivity.
  Qed.

  (** ---- the loops ---- *)
  Variable w : N.
  Hypothesis W1 : 1 <= w.
  Hypothesis W64 : w <= 64.
  Hypothesis SZ : 4 * lenN (sm_cells sm) < 2^(w-1).

  Lemma small k : (k <= 4 * n)%nat -> N.of_nat k < 2^(w-1) /\ N.of_nat k < two64.
  Proof.
    intros H. unfold lenN in SZ. fold n in SZ. assert (2^(w-1) <= 2^63) by (apply N.pow_le_mono_r; lia).
    assert (2^63 < two64) by reflexivity. lia.
  Qed.

  Definition adjOf (l : list N) : list Z := map Z.of_N l ++ repeat 0%Z (2 * nf - length l).

  Lemma adj_upd l x : (length l < 2 * nf)%nat ->
    updN (adjOf l) (N.of_nat (length l)) (fun _ => Z.of_N x) = Some (adjOf (l ++ [x])).
  Proof.
    intros H. unfold adjOf. replace (2 * nf - length l)%nat with (S (2 * nf - S (length l))) by lia. cbn [repeat].
    rewrite <- (map_length Z.of_N l) at 2. rewrite updN_at. rewrite map_app, app_length. cbn [map length].
    rewrite <- app_assoc. cbn [app]. do 4 f_equal. lia.
  Qed.

  Lemma connect_ok c : (c < n)%nat -> forall fs pre, facesOf c = pre ++ fs ->
    foldM (connect w sm (N.of_nat c) (Z.of_nat (psum c))) fs
      (adjOf (flat c ++ map (over (N.of_nat c)) (filter (inner (N.of_nat c)) pre)), N.of_nat (length (filter (inner (N.of_nat c)) pre))) =
    Some (adjOf (flat (S c)), N.of_nat (length (nb c))).
  Proof.
    intros Lc. induction fs as [|f fs IH]; intros pre E.
    - cbn [foldM]. rewrite app_nil_r in E. rewrite flat_S. unfold nb, link. now rewrite E, map_length.
    - assert (Hf : In f (facesOf c)) by (rewrite E; apply in_or_app; right; now left).
      destruct (face_of _ _ Hf) as (sf & A & B). cbn [foldM]. unfold connect at 1. rewrite nthN_nth. fold (SM_face sm f). rewrite A. cbn [obind].
      assert (O : (if MeshModel.p0 (sf_cells sf) =? N.of_nat c then MeshModel.p1 (sf_cells sf) else MeshModel.p0 (sf_cells sf)) = over (N.of_nat c) f).
      { unfold over. rewrite A. unfold s_across. destruct (sf_cells sf); reflexivity. }
      rewrite O. specialize (IH (pre ++ [f])). rewrite <- app_assoc in IH. specialize (IH E). rewrite filter_app in IH. cbn [filter] in IH.
      assert (I : inner (N.of_nat c) f = negb (over (N.of_nat c) f =? INVALID)) by reflexivity.
      destruct (N.eqb_spec (over (N.of_nat c) f) INVALID) as [Ei|Ni]; cbn [negb] in I; rewrite I in IH.
      + rewrite app_nil_r in IH. cbn [obind]. exact IH.
      + assert (Hl : In f (link c)) by (apply filter_In; auto). destruct (over_ok _ _ Hl) as (d & Od & Ld & _).
        pose proof (small (psum c)) as (S1 & S2). { pose proof (psum_le4 c). lia. }
        assert (LN : (length (filter (inner (N.of_nat c)) pre) < length (nb c))%nat).
        { unfold nb, link. rewrite map_length, E, filter_app, app_length. cbn [filter]. rewrite I. cbn [length]. lia. }
        pose proof (psum_S c) as PS. pose proof (psum_le (S c)) as PL. pose proof (psum_le4 (S c)) as P4.
        set (q := length (filter (inner (N.of_nat c)) pre)) in *.
        destruct (small (psum c + q)) as (S3 & S4); [lia|]. destruct (small (psum (S c))) as (_ & S5); [lia|].
        rewrite ofIdx_nat, w64_small by lia.
        replace (N.of_nat (psum c) + N.of_nat q) with (N.of_nat (length (flat c ++ map (over (N.of_nat c)) (filter (inner (N.of_nat c)) pre))))
          by (rewrite app_length, map_length; unfold psum, q; lia).
        rewrite toIdx_small; [|auto|rewrite Od; destruct (small d); lia].
        rewrite adj_upd by (rewrite app_length, map_length; fold q; fold (psum c); lia). cbn [obind].
        rewrite w64_small by lia. rewrite <- app_assoc. rewrite map_app, app_length in IH. cbn [map length] in IH. fold q in IH.
        replace (N.of_nat q + 1) with (N.of_nat (q + 1)) by lia. exact IH.
  Qed.

  Definition xadjOf (k : nat) : list Z := map (fun i => Z.of_nat (psum i)) (seq 0 (S k)) ++ repeat 0%Z (n - k).

  Lemma xadj_nth k : nthN (xadjOf k) (N.of_nat k) = Some (Z.of_nat (psum k)).
  Proof.
    rewrite nthN_nth, Nat2N.id. unfold xadjOf. rewrite nth_error_app1 by (rewrite map_length, seq_length; lia).
    rewrite nth_error_map, nth_error_seq0 by lia. reflexivity.
  Qed.
  Lemma xadj_upd k : (k < n)%nat -> updN (xadjOf k) (N.of_nat (S k)) (fun _ => Z.of_nat (psum (S k))) = Some (xadjOf (S k)).
  Proof.
    intros H. unfold xadjOf. replace (n - k)%nat with (S (n - S k)) by lia. cbn [repeat].
    assert (L : length (map (fun i => Z.of_nat (psum i)) (seq 0 (S k))) = S k) by now rewrite map_length, seq_length.
    pose proof (updN_at (map (fun i => Z.of_nat (psum i)) (seq 0 (S k))) 0%Z (repeat 0%Z (n - S k)) (fun _ => Z.of_nat (psum (S k)))) as K.
    rewrite L in K. rewrite K. clear K. rewrite (seq_S (S k)), map_app. cbn [map]. rewrite <- app_assoc. reflexivity.
  Qed.

  Lemma cell_ok c : (c < n)%nat -> metisCell w sm (xadjOf c, adjOf (flat c)) (N.of_nat c) = Some (xadjOf (S c), adjOf (flat (S c))).
  Proof.
    intros Lc. unfold metisCell. rewrite xadj_nth. cbn [obind]. rewrite nthN_nth, Nat2N.id.
    destruct (nth_error (sm_cells sm) c) as [sc|] eqn:E; [|apply nth_error_None in E; unfold n in Lc; lia]. cbn [obind].
    pose proof (connect_ok c Lc (facesOf c) [] eq_refl) as K. cbn [filter map length app] in K. rewrite app_nil_r in K.
    unfold facesOf in K at 1. rewrite E in K. change (N.of_nat 0) with 0 in K. rewrite K. cbn [obind].
    pose proof (psum_S c) as PS. pose proof (psum_le4 (S c)) as P4. destruct (small (psum (S c))) as (S1 & S2); [lia|].
    pose proof (smo_cells _ OK) as Sz. unfold lenN in Sz. fold n in Sz. assert (INVALID < two64) by reflexivity.
    rewrite ofIdx_nat, (w64_small (N.of_nat c + 1)), (w64_small (_ + _)) by lia.
    replace (N.of_nat (psum c) + N.of_nat (length (nb c))) with (N.of_nat (psum (S c))) by lia.
    rewrite toIdx_small by lia. replace (N.of_nat c + 1) with (N.of_nat (S c)) by lia. rewrite nat_N_Z, xadj_upd by auto. reflexivity.
  Qed.

  Lemma graph_ok : metisGraph w sm = Some (xadjOf n, adjOf (flat n)).
  Proof.
    unfold metisGraph. rewrite nF, nCs, Nat2N.id.
    destruct (small n) as (S1 & S2); [lia|]. rewrite toIdx_small by auto.
    pose proof (smo_faces _ OK) as Sf. unfold lenN in Sf. fold nf in Sf.
    rewrite w64_small by (unfold two64; lia). unfold zeros. destruct (Z.ltb_spec (Z.of_N (N.of_nat n) + 1) 0); [lia|].
    destruct (Z.ltb_spec (Z.of_N (2 * N.of_nat nf)) 0); [lia|]. cbn [obind].
    replace (repeat 0%Z (Z.to_nat (Z.of_N (N.of_nat n) + 1))) with (xadjOf 0).
    2:{ unfold xadjOf. cbn [seq map app]. replace (Z.to_nat (Z.of_N (N.of_nat n) + 1)) with (S n) by lia. cbn [repeat]. rewrite Nat.sub_0_r. reflexivity. }
    replace (repeat 0%Z (Z.to_nat (Z.of_N (2 * N.of_nat nf)))) with (adjOf (flat 0)).
    2:{ unfold adjOf, flat. cbn [seq flat_map map app length]. f_equal. lia. }
    assert (G : forall m k, (k + m = n)%nat -> foldM (metisCell w sm) (map N.of_nat (seq k m)) (xadjOf k, adjOf (flat k)) = Some (xadjOf n, adjOf (flat n))).
    { induction m as [|m IH]; intros k E; cbn [seq map foldM]. { replace k with n by lia. reflexivity. }
      rewrite cell_ok by lia. cbn [obind]. apply IH. lia. }
    apply G. lia.
  Qed.

  Lemma xadj_get c : (c <= n)%nat -> nth c (xadjOf n) (-1)%Z = Z.of_nat (psum c).
  Proof.
    intros H. unfold xadjOf. rewrite app_nth1 by (rewrite map_length, seq_length; lia).
    rewrite (nth_indep _ _ ((fun i => Z.of_nat (psum i)) 0%nat)) by (rewrite map_length, seq_length; lia).
    rewrite (map_nth (fun i => Z.of_nat (psum i))). now rewrite seq_nth by lia.
  Qed.
  Lemma flat_split c : (c < n)%nat -> exists rest, flat n = flat c ++ nb c ++ rest.
  Proof.
    intros H. exists (flat_map nb (seq (S c) (n - S c))). unfold flat. replace n with (c + (1 + (n - S c)))%nat at 1 by lia.
    rewrite seq_app, flat_map_app. f_equal.
  Qed.
  Lemma slice_ok c : (c < n)%nat ->
    slice (adjOf (flat n)) (Z.to_nat (nth c (xadjOf n) (-1)%Z)) (Z.to_nat (nth (S c) (xadjOf n) (-1)%Z)) = map Z.of_N (nb c).
  Proof.
    intros H. rewrite !xadj_get, !Nat2Z.id by lia. rewrite psum_S. replace (psum c + length (nb c) - psum c)%nat with (length (nb c)) by lia.
    unfold slice. replace (psum c + length (nb c) - psum c)%nat with (length (nb c)) by lia.
    destruct (flat_split c H) as (r & E). unfold adjOf. rewrite E. rewrite !map_app, <- !app_assoc.
    rewrite skipn_app. unfold psum. rewrite skipn_all2 by (rewrite map_length; lia). rewrite map_length, Nat.sub_diag. cbn [skipn app].
    rewrite firstn_app. rewrite firstn_all2 by (rewrite map_length; lia). rewrite map_length, Nat.sub_diag, firstn_O. apply app_nil_r.
  Qed.

  Lemma count_Z l d : count_occ Z.eq_dec (map Z.of_N l) (Z.of_nat d) = count_occ N.eq_dec l (N.of_nat d).
  Proof.
    induction l as [|a l IH]; auto. cbn [map count_occ]. rewrite IH. destruct (Z.eq_dec (Z.of_N a) (Z.of_nat d)), (N.eq_dec a (N.of_nat d)); auto; lia.
  Qed.

  Lemma graph_spec : cell_graph sm (xadjOf n) (adjOf (flat n)).
  Proof.
    constructor; fold n.
    - unfold xadjOf. rewrite app_length, map_length, seq_length, repeat_length. lia.
    - now rewrite xadj_get by lia.
    - intros c H. rewrite !xadj_get by lia. rewrite psum_S. lia.
    - rewrite xadj_get by lia. unfold adjOf. rewrite app_length, map_length, repeat_length. fold (psum n). pose proof (psum_le n). lia.
    - intros c x H Hx. rewrite slice_ok in Hx by auto. apply in_map_iff in Hx as (y & <- & Hy). destruct (nb_range _ _ Hy) as (d & -> & Ld & Nd).
      exists d. split; [lia|auto].
    - intros c d Lc Ld NE. rewrite slice_ok by auto. rewrite count_Z. now apply nb_shared.
  Qed.
End Graph.
