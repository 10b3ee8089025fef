(** Lemmas on the vectors of src/SweeperSchur.cc. *)
From Coq Require Import Reals.
From Verif Require Import Prelude MeshModel GeometryModel TraverseModel TraverseSpec SchurModel SchurSpec.
From Verif Require TychoProofs.

(** A list as a numbering. *)
Section Index.
  Context {A : Type} (dec : forall x y : A, {x = y} + {x <> y}).
  Fixpoint posn (l : list A) (x : A) : nat := match l with [] => 0 | y :: l => if dec x y then 0 else S (posn l x) end.
  Lemma posn_nth l x : In x l -> nth_error l (posn l x) = Some x.
  Proof. induction l as [|y l IH]; [intros []|]. intros [->|I]; cbn; [destruct (dec x x); [reflexivity|congruence]|]. destruct (dec x y) as [->|]; [reflexivity|]. now apply IH. Qed.
  Lemma nth_posn l i x : NoDup l -> nth_error l i = Some x -> posn l x = i.
  Proof.
    revert i. induction l as [|y l IH]; intros i ND H; [destruct i; discriminate|]. inversion ND as [|? ? NI ND']; subst. cbn. destruct i as [|i]; cbn in H.
    - apply Some_inj in H. subst. destruct (dec x x); congruence.
    - destruct (dec x y) as [->|]; [apply nth_error_In in H; contradiction|]. f_equal. now apply IH.
  Qed.
End Index.
Definition udec : forall x y : unknown, {x = y} + {x <> y}.
Proof. repeat decide equality. Defined.

Section Pack.
  Context {T : Type}.
  Variables (nA nG : nat) (m : rmesh).
  Notation Bound := (nat -> nat -> nat -> nat -> T).
  Definition unknownsAt (k : nat * nat * nat * nat) : list unknown := let '(a, c, g, f) := k in if onBoundary m a c f then map (fun fv => (a, c, f, fv, g)) (seq 0 3) else [].
  Definition unknowns : list unknown := flat_map unknownsAt (quads nA nG m).
  Definition atU (b : Bound) (u : unknown) : T := let '(a, c, f, fv, G) := u in b (rm_side m c f) a fv G.
  Definition pack1 (b : Bound) (st : option (N * (N -> T))) (u : unknown) := let '(a, c, f, fv, G) := u in packEntry b (rm_side m c f) a G st fv.
  Definition unpack1 (x : N -> T) (st : option (N * Bound)) (u : unknown) := let '(a, c, f, fv, G) := u in unpackEntry x (rm_side m c f) a G st fv.
  Lemma pack_flat b l st : fold_left (packFace m b) l st = fold_left (pack1 b) (flat_map unknownsAt l) st.
  Proof. revert st. induction l as [|[[[a c] g] f] l IH]; intros st; [reflexivity|]. cbn [fold_left flat_map]. rewrite fold_left_app, <- IH. f_equal. unfold packFace, unknownsAt. now destruct (onBoundary m a c f). Qed.
  Lemma unpack_flat x l st : fold_left (unpackFace m x) l st = fold_left (unpack1 x) (flat_map unknownsAt l) st.
  Proof. revert st. induction l as [|[[[a c] g] f] l IH]; intros st; [reflexivity|]. cbn [fold_left flat_map]. rewrite fold_left_app, <- IH. f_equal. unfold unpackFace, unknownsAt. now destruct (onBoundary m a c f). Qed.
  Lemma size_flat l n : (n < two64)%N -> fold_left (sizeFace m) l n = w64 (n + N.of_nat (length (flat_map unknownsAt l))).
  Proof.
    revert n. induction l as [|[[[a c] g] f] l IH]; intros n Hn.
    - cbn. rewrite N.add_0_r. symmetry. now apply w64_small.
    - cbn [fold_left flat_map]. rewrite app_length. unfold sizeFace at 2. unfold unknownsAt at 1. destruct (onBoundary m a c f).
      + rewrite map_length, seq_length. rewrite IH by (unfold w64, two64; apply N.mod_lt; discriminate). cbn [seq fold_left]. unfold w64. repeat (rewrite N.add_mod_idemp_l by discriminate; rewrite <- ?N.add_assoc). f_equal. lia.
      + cbn [length]. now apply IH.
  Qed.
  Lemma size_w64 : getPsiBoundSize nA nG m = w64 (N.of_nat (length unknowns)).
  Proof. unfold getPsiBoundSize. now rewrite size_flat by reflexivity. Qed.

  Lemma pack_none b l : fold_left (pack1 b) l None = None.
  Proof. induction l as [|[[[[a c] f] fv] G] l IH]; [reflexivity|exact IH]. Qed.
  Lemma unpack_none x l : fold_left (unpack1 x) l None = None.
  Proof. induction l as [|[[[[a c] f] fv] G] l IH]; [reflexivity|exact IH]. Qed.
  Lemma pack_over b l i x : (i + N.of_nat (length l) > INT_MAX)%N -> (i <= INT_MAX)%N -> fold_left (pack1 b) l (Some (i, x)) = None.
  Proof.
    revert i x. induction l as [|[[[[a c] f] fv] G] l IH]; intros i x H Hi; [cbn in H; lia|]. cbn [fold_left]. unfold pack1 at 2, packEntry, incInt. cbn [obind]. destruct (N.ltb_spec i INT_MAX); cbn [obind].
    - apply IH; [cbn [length] in H; lia|lia].
    - apply pack_none.
  Qed.
  Lemma unpack_over x l i b : (i + N.of_nat (length l) > INT_MAX)%N -> (i <= INT_MAX)%N -> fold_left (unpack1 x) l (Some (i, b)) = None.
  Proof.
    revert i b. induction l as [|[[[[a c] f] fv] G] l IH]; intros i b H Hi; [cbn in H; lia|]. cbn [fold_left]. unfold unpack1 at 2, unpackEntry, incInt. cbn [obind]. destruct (N.ltb_spec i INT_MAX); cbn [obind].
    - apply IH; [cbn [length] in H; lia|lia].
    - apply unpack_none.
  Qed.
  Lemma pack_fold b l i x : (i + N.of_nat (length l) <= INT_MAX)%N -> exists x', fold_left (pack1 b) l (Some (i, x)) = Some ((i + N.of_nat (length l))%N, x') /\
    (forall k u, nth_error l k = Some u -> x' (i + N.of_nat k)%N = atU b u) /\ (forall j, (j < i \/ i + N.of_nat (length l) <= j)%N -> x' j = x j).
  Proof.
    revert i x. induction l as [|u l IH]; intros i x H.
    - exists x. cbn. rewrite N.add_0_r. split; auto. split; auto. intros [|k] u; discriminate.
    - destruct u as [[[[a c] f] fv] G]. cbn [fold_left]. unfold pack1 at 2, packEntry, incInt. cbn [obind]. cbn [length] in H. destruct (N.ltb_spec i INT_MAX); [|lia]. cbn [obind].
      destruct (IH (i + 1)%N (updN x i (b (rm_side m c f) a fv G)) ltac:(lia)) as (x' & E & K1 & K2). exists x'. split; [rewrite E; f_equal; f_equal; cbn [length]; lia|]. split.
      + intros [|k] u Hu; cbn in Hu.
        * apply Some_inj in Hu. subst u. rewrite K2 by (left; lia). unfold updN. destruct (N.eqb_spec (i + N.of_nat 0) i); [reflexivity|lia].
        * replace (i + N.of_nat (S k))%N with (i + 1 + N.of_nat k)%N by lia. now apply K1.
      + intros j Hj. cbn [length] in Hj. rewrite K2 by lia. unfold updN. destruct (N.eqb_spec j i); [lia|reflexivity].
  Qed.
  Lemma updB_same (b : Bound) s a fv g v : updB b s a fv g v s a fv g = v.
  Proof. unfold updB. now rewrite !Nat.eqb_refl. Qed.
  Lemma updB_other (b : Bound) s a fv g v s' a' fv' g' : (s', a', fv', g') <> (s, a, fv, g) -> updB b s a fv g v s' a' fv' g' = b s' a' fv' g'.
  Proof. intros N. unfold updB. destruct (Nat.eqb_spec s' s), (Nat.eqb_spec a' a), (Nat.eqb_spec fv' fv), (Nat.eqb_spec g' g); cbn; auto. congruence. Qed.
  Definition place (u : unknown) := let '(a, c, f, fv, G) := u in (rm_side m c f, a, fv, G).
  Lemma unpack_fold x l i b : NoDup (map place l) -> (i + N.of_nat (length l) <= INT_MAX)%N -> exists b', fold_left (unpack1 x) l (Some (i, b)) = Some ((i + N.of_nat (length l))%N, b') /\
    (forall k u, nth_error l k = Some u -> atU b' u = x (i + N.of_nat k)%N) /\ (forall s a fv g, ~ In (s, a, fv, g) (map place l) -> b' s a fv g = b s a fv g).
  Proof.
    revert i b. induction l as [|u l IH]; intros i b ND H.
    - exists b. cbn. rewrite N.add_0_r. split; auto. split; auto. intros [|k] u; discriminate.
    - destruct u as [[[[a c] f] fv] G]. cbn [map] in ND. inversion ND as [|? ? NI ND']; subst. cbn [fold_left]. unfold unpack1 at 2, unpackEntry, incInt. cbn [obind]. cbn [length] in H. destruct (N.ltb_spec i INT_MAX); [|lia]. cbn [obind].
      destruct (IH (i + 1)%N (updB b (rm_side m c f) a fv G (x i)) ND' ltac:(lia)) as (b' & E & K1 & K2). exists b'. split; [rewrite E; f_equal; f_equal; cbn [length]; lia|]. split.
      + intros [|k] u Hu; cbn in Hu.
        * apply Some_inj in Hu. subst u. cbn [atU]. rewrite K2 by exact NI. rewrite updB_same. f_equal. lia.
        * replace (i + N.of_nat (S k))%N with (i + 1 + N.of_nat k)%N by lia. now apply K1.
      + intros s a' fv' g Hn. cbn [map] in Hn. rewrite K2 by (intros I; apply Hn; now right). apply updB_other. intros E'. apply Hn. left. cbn. congruence.
  Qed.
End Pack.

(** With the meshes of all ranks. *)
Section Sys.
  Variables (nR nA nG : nat) (M : nat -> rmesh) (mate : site -> option site).
  Hypothesis SY : sys_ok nR nA M mate.
  Notation is_unknown := (is_unknown nA nG M mate).
  Lemma boundary_iff r a c f : r < nR -> c < rm_nCells (M r) -> f < 4 -> onBoundary (M r) a c f = true <-> interface M mate r a c f.
  Proof.
    intros Hr Hc Hf. unfold onBoundary, interface. rewrite (so_cell _ _ _ _ SY r c f Hr Hc Hf), (so_rank _ _ _ _ SY r c f Hr Hc Hf). unfold isIncoming. destruct (mate (r, c, f)) as [[[q c'] f']|] eqn:E.
    - destruct (Nat.eqb_spec q r) as [->|N].
      + rewrite andb_false_r. split; [discriminate|]. intros (q & ? & ? & K & ? & _). inversion K. congruence.
      + rewrite andb_true_r, negb_true_iff. split; [intros O; exists q, c', f'; auto|]. intros (? & ? & ? & _ & _ & O). exact O.
    - rewrite andb_false_r. split; [discriminate|]. intros (? & ? & ? & K & _). discriminate.
  Qed.
  Lemma unknowns_In r u : r < nR -> In u (unknowns nA nG (M r)) <-> is_unknown r u.
  Proof.
    intros Hr. destruct u as [[[[a c] f] fv] G]. unfold unknowns. rewrite in_flat_map. split.
    - intros ([[[a' c'] g] f'] & Q & I). unfold quads in Q. rewrite !in_prod_iff, !in_seq in Q. unfold unknownsAt in I. destruct (onBoundary (M r) a' c' f') eqn:E; [|destruct I].
      apply in_map_iff in I as (fv' & E' & I). inversion E'; subst. apply in_seq in I. apply boundary_iff in E; [|lia..]. cbn. repeat split; auto; lia.
    - intros (I & Ha & Hfv & HG). pose proof I as (q & c' & f' & Hm & _). destruct (so_range _ _ _ _ SY _ _ _ _ Hm) as (_ & Hc & Hf). exists (a, c, G, f). split; [unfold quads; rewrite !in_prod_iff, !in_seq; lia|].
      unfold unknownsAt. rewrite (proj2 (boundary_iff r a c f Hr Hc Hf) I). apply in_map_iff. exists fv. split; auto. apply in_seq. lia.
  Qed.
  Lemma unknowns_nodup r : NoDup (unknowns nA nG (M r)).
  Proof.
    unfold unknowns. assert (H : forall l, NoDup l -> NoDup (flat_map (unknownsAt (M r)) l)).
    { induction l as [|[[[a c] g] f] l IH]; intros ND; [constructor|]. inversion ND as [|? ? NI ND']; subst. cbn [flat_map]. apply TychoProofs.NoDup_app_intro'; auto.
      - unfold unknownsAt. destruct (onBoundary (M r) a c f); [|constructor]. apply FinFun.Injective_map_NoDup; [intros ? ? E; now inversion E|apply seq_NoDup].
      - intros u I1 I2. apply in_flat_map in I2 as ([[[a' c'] g'] f'] & Q & I2). unfold unknownsAt in I1, I2. destruct (onBoundary (M r) a c f); [|destruct I1]. destruct (onBoundary (M r) a' c' f'); [|destruct I2].
        apply in_map_iff in I1 as (? & <- & _). apply in_map_iff in I2 as (? & E & _). inversion E; subst. contradiction. }
    apply H. unfold quads. repeat apply TychoProofs.NoDup_list_prod; apply seq_NoDup.
  Qed.
  Lemma place_inj r u v : r < nR -> is_unknown r u -> is_unknown r v -> place (M r) u = place (M r) v -> u = v.
  Proof.
    intros Hr. destruct u as [[[[a c] f] fv] G], v as [[[[a' c'] f'] fv'] G']. intros ((q & d & h & Hm & N & _) & _) ((q' & d' & h' & Hm' & N' & _) & _) E. cbn in E. inversion E; subst.
    destruct (so_inj _ _ _ _ SY _ _ _ _ _ _ _ _ _ _ _ Hm N Hm' N' H0) as (-> & ->). reflexivity.
  Qed.
  Lemma places_nodup r : r < nR -> NoDup (map (place (M r)) (unknowns nA nG (M r))).
  Proof.
    intros Hr. assert (H : forall l, (forall u, In u l -> is_unknown r u) -> NoDup l -> NoDup (map (place (M r)) l)).
    { induction l as [|u l IH]; intros K ND; [constructor|]. inversion ND as [|? ? NI ND']; subst. cbn [map]. constructor; [|apply IH; auto; intros; apply K; now right].
      intros I. apply in_map_iff in I as (v & E & I). assert (v = u) by (apply (place_inj r v u Hr); auto; [apply K; now right|apply K; now left]). subst. contradiction. }
    apply H; [|apply unknowns_nodup]. intros u I. now apply unknowns_In.
  Qed.
  (** The numbering of the loops. *)
  Definition no (r : nat) (u : unknown) : N := N.of_nat (posn udec (unknowns nA nG (M r)) u).
  Definition count (r : nat) : N := N.of_nat (length (unknowns nA nG (M r))).
  Lemma no_numbering r : r < nR -> numbering nA nG M mate r (count r) (no r).
  Proof.
    intros Hr. unfold numbering, no, count. split; [|split].
    - intros u U. apply unknowns_In in U; auto. apply (posn_nth udec) in U. assert (nth_error (unknowns nA nG (M r)) (posn udec (unknowns nA nG (M r)) u) <> None) by congruence. apply nth_error_Some in H. lia.
    - intros u v U V E. apply unknowns_In in U, V; auto. apply (posn_nth udec) in U, V. apply Nat2N.inj in E. rewrite E in U. congruence.
    - intros i Hi. destruct (nth_error (unknowns nA nG (M r)) (N.to_nat i)) as [u|] eqn:E; [|apply nth_error_None in E; lia]. exists u. split; [apply unknowns_In; auto; now apply nth_error_In in E|].
      rewrite (nth_posn udec _ _ _ (unknowns_nodup r) E). lia.
  Qed.
  Context {T : Type}.
  Notation Bound := (nat -> nat -> nat -> nat -> T).
  Lemma pack_ok r (x : N -> T) (b : Bound) : r < nR -> (count r <= INT_MAX)%N -> exists x', psiBoundToVec nA nG (M r) x b = Some x' /\
    (forall u, is_unknown r u -> x' (no r u) = at_unknown M r b u) /\ (forall i, (count r <= i)%N -> x' i = x i).
  Proof.
    intros Hr H. unfold psiBoundToVec. rewrite pack_flat. fold (unknowns nA nG (M r)). destruct (pack_fold (M r) b (unknowns nA nG (M r)) 0 x ltac:(unfold count in H; lia)) as (x' & -> & K1 & K2).
    exists x'. split; [reflexivity|]. split.
    - intros u U. apply unknowns_In in U; auto. apply (posn_nth udec) in U. specialize (K1 _ _ U). rewrite N.add_0_l in K1. exact K1.
    - intros i Hi. apply K2. right. unfold count in Hi. lia.
  Qed.
  Lemma unpack_ok r (x : N -> T) (b : Bound) : r < nR -> (count r <= INT_MAX)%N -> exists b', vecToPsiBound nA nG (M r) x b = Some b' /\
    (forall u, is_unknown r u -> at_unknown M r b' u = x (no r u)) /\ (forall s a fv g, (forall u, is_unknown r u -> place (M r) u <> (s, a, fv, g)) -> b' s a fv g = b s a fv g).
  Proof.
    intros Hr H. unfold vecToPsiBound. rewrite unpack_flat. fold (unknowns nA nG (M r)). destruct (unpack_fold (M r) x (unknowns nA nG (M r)) 0 b (places_nodup r Hr) ltac:(unfold count in H; lia)) as (b' & -> & K1 & K2).
    exists b'. split; [reflexivity|]. split.
    - intros u U. apply unknowns_In in U; auto. apply (posn_nth udec) in U. specialize (K1 _ _ U). rewrite N.add_0_l in K1. exact K1.
    - intros s a fv g N. apply K2. intros I. apply in_map_iff in I as (u & E & I). apply (N u); auto. now apply unknowns_In.
  Qed.
  Lemma pack_undefined r (x : N -> T) (b : Bound) : (INT_MAX < count r)%N -> psiBoundToVec nA nG (M r) x b = None /\ vecToPsiBound nA nG (M r) x b = None.
  Proof.
    intros H. unfold psiBoundToVec, vecToPsiBound. rewrite pack_flat, unpack_flat. fold (unknowns nA nG (M r)). unfold count in H. rewrite pack_over, unpack_over; cbn [obind]; auto; lia.
  Qed.
  (** One interface face already has 3 unknowns for each group. *)
  Lemma count_ge r a c f : r < nR -> interface M mate r a c f -> a < nA -> (3 * N.of_nat nG <= count r)%N.
  Proof.
    intros Hr I Ha. unfold count. assert (L : length (list_prod (seq 0 nG) (seq 0 3)) <= length (unknowns nA nG (M r))).
    { rewrite <- (map_length (fun k : nat * nat => (a, c, f, snd k, fst k))). apply NoDup_incl_length.
      - apply FinFun.Injective_map_NoDup; [intros (?, ?) (?, ?) E; cbn in E; now inversion E|]. apply TychoProofs.NoDup_list_prod; apply seq_NoDup.
      - intros u J. apply in_map_iff in J as ((G & fv) & <- & J). apply in_prod_iff in J. rewrite !in_seq in J. apply unknowns_In; auto. cbn. split; [exact I|]. lia. }
    rewrite prod_length, !seq_length in L. lia.
  Qed.
End Sys.
