(** Shared helpers: lia configuration, 64-bit wrapping, bounded loops, functional update. *)
From Coq Require Export List Arith NArith ZArith Lia Bool.
From Coq Require Export ZifyBool ZifyNat ZifyN.
Export ListNotations.

Ltac Zify.zify_post_hook ::= Z.div_mod_to_equations.

(** UINT is uint64_t (src/Global.hh:52); unsigned arithmetic wraps modulo 2^64. *)
Definition two64 : N := 18446744073709551616%N.
Definition w64 (x : N) : N := (x mod two64)%N.

(** Point update of a finite table represented as a function. *)
Definition fupd {A} (f : nat -> A) (k : nat) (v : A) : nat -> A :=
  fun i => if Nat.eqb i k then v else f i.
Definition fupdN {A} (f : N -> A) (k : N) (v : A) : N -> A :=
  fun i => if N.eqb i k then v else f i.

Lemma w64_small x : (x < two64)%N -> w64 x = x.
Proof. intros; unfold w64; apply N.mod_small; auto. Qed.

Lemma fupd_same {A} (f : nat -> A) k v : fupd f k v k = v.
Proof. unfold fupd; now rewrite Nat.eqb_refl. Qed.
Lemma fupd_other {A} (f : nat -> A) k v i : i <> k -> fupd f k v i = f i.
Proof. intros; unfold fupd; destruct (Nat.eqb_spec i k); congruence. Qed.
Lemma fupdN_same {A} (f : N -> A) k v : fupdN f k v k = v.
Proof. unfold fupdN; now rewrite N.eqb_refl. Qed.
Lemma fupdN_other {A} (f : N -> A) k v i : i <> k -> fupdN f k v i = f i.
Proof. intros; unfold fupdN; destruct (N.eqb_spec i k); congruence. Qed.

(** Loops whose body may fail (assertion failure or undefined behaviour = [None]). *)
Fixpoint mapM {A B} (f : A -> option B) (l : list A) : option (list B) :=
  match l with
  | [] => Some []
  | a :: t =>
      match f a with
      | None => None
      | Some b => match mapM f t with None => None | Some bs => Some (b :: bs) end
      end
  end.

Lemma mapM_ext {A B} (f g : A -> option B) l :
  (forall a, In a l -> f a = g a) -> mapM f l = mapM g l.
Proof.
  induction l; intros H; cbn; auto.
  rewrite H by (now left). destruct (g a); auto. rewrite IHl; auto. intros; apply H; now right.
Qed.

Lemma mapM_some {A B} (f : A -> option B) (g : A -> B) l :
  (forall a, In a l -> f a = Some (g a)) -> mapM f l = Some (map g l).
Proof.
  induction l; intros H; cbn; auto.
  rewrite H by (now left). rewrite IHl; auto. intros; apply H; now right.
Qed.

Lemma mapM_length {A B} (f : A -> option B) l r : mapM f l = Some r -> length r = length l.
Proof.
  revert r; induction l; cbn; intros r H. { inversion H; auto. }
  destruct (f a); try discriminate. destruct (mapM f l) eqn:E; try discriminate.
  inversion H; cbn; f_equal; auto.
Qed.

Lemma mapM_nth {A B} (f : A -> option B) l r i b : mapM f l = Some r ->
  nth_error r i = Some b -> exists a, nth_error l i = Some a /\ f a = Some b.
Proof.
  revert r i; induction l; cbn; intros r i H Hi.
  - inversion H; subst. destruct i; discriminate.
  - destruct (f a) eqn:Ea; try discriminate. destruct (mapM f l) eqn:E; try discriminate.
    inversion H; subst. destruct i; cbn in *. { inversion Hi; subst; eauto. } eauto.
Qed.

Lemma mapM_in {A B} (f : A -> option B) l r a : mapM f l = Some r -> In a l ->
  exists b, f a = Some b /\ In b r.
Proof.
  revert r; induction l; cbn; intros r H Ha; [easy|].
  destruct (f a0) eqn:Ea; try discriminate. destruct (mapM f l) eqn:E; try discriminate.
  inversion H; subst. destruct Ha; [subst; exists b; cbn; auto|].
  destruct (IHl l0) as (b' & ? & ?); auto. exists b'; cbn; auto.
Qed.

Lemma nth_error_seq0 n i : i < n -> nth_error (seq 0 n) i = Some i.
Proof.
  intros H. rewrite (nth_error_nth' _ 0) by (now rewrite seq_length). now rewrite seq_nth.
Qed.

(** [mapM] over positions of a list. *)
Lemma mapM_seq_nth {A B} (l : list A) (f : nat -> option B) (g : A -> B) :
  (forall i a, nth_error l i = Some a -> f i = Some (g a)) ->
  mapM f (seq 0 (length l)) = Some (map g l).
Proof.
  intros H.
  enough (K : forall k, (forall i a, nth_error l i = Some a -> f (k + i) = Some (g a)) ->
    mapM f (seq k (length l)) = Some (map g l)) by (apply (K 0); auto).
  clear H. induction l; intros k H; cbn; auto.
  pose proof (H 0 a eq_refl) as H0. rewrite Nat.add_0_r in H0. rewrite H0.
  rewrite IHl; auto. intros i x Hx. specialize (H (S i) x Hx).
  now rewrite Nat.add_succ_r in H.
Qed.

Lemma nth_error_concat_fixed {A} w (ll : list (list A)) i k l :
  (forall x, In x ll -> length x = w) -> nth_error ll i = Some l -> k < w ->
  nth_error (concat ll) (i * w + k) = nth_error l k.
Proof.
  revert i; induction ll as [|x ll IH]; intros i Hw Hi Hk; [destruct i; discriminate|].
  cbn. destruct i as [|i]; cbn in *.
  - inversion Hi; subst. apply nth_error_app1. rewrite Hw; auto.
  - rewrite nth_error_app2 by (rewrite Hw by auto; lia). rewrite Hw by auto.
    replace (w + i * w + k - w) with (i * w + k) by lia. apply IH; auto.
Qed.

Lemma concat_length_fixed {A} w (ll : list (list A)) :
  (forall x, In x ll -> length x = w) -> length (concat ll) = length ll * w.
Proof.
  induction ll; intros H; cbn; auto. rewrite app_length, IHll; auto.
  - rewrite H; auto. now left.
  - intros; apply H; now right.
Qed.

Lemma Some_inj {A} (x y : A) : Some x = Some y -> x = y.
Proof. congruence. Qed.

Lemma firstn_app_exact {A} n (x y : list A) : length x = n -> firstn n (x ++ y) = x.
Proof. intros <-. now rewrite firstn_app, Nat.sub_diag, firstn_all, app_nil_r. Qed.
Lemma skipn_app_exact {A} n (x y : list A) : length x = n -> skipn n (x ++ y) = y.
Proof. intros <-. now rewrite skipn_app, Nat.sub_diag, skipn_all. Qed.
Lemma skipn_add {A} n m (l : list A) : skipn (n + m) l = skipn m (skipn n l).
Proof. revert l; induction n; intros l; auto. destruct l; cbn; auto. now destruct m. Qed.
Lemma nth_error_firstn_lt {A} n (l : list A) i : i < n -> nth_error (firstn n l) i = nth_error l i.
Proof.
  revert l i; induction n; intros l i H; [lia|]. destruct l, i; cbn; auto. apply IHn; lia.
Qed.
Lemma nth_error_skipn_add {A} n (l : list A) i : nth_error (skipn n l) i = nth_error l (n + i).
Proof. revert l; induction n; intros l; auto. destruct l; cbn; auto. now destruct i. Qed.
Lemma Forall2_impl {A B} (P Q : A -> B -> Prop) l m :
  (forall a b, P a b -> Q a b) -> Forall2 P l m -> Forall2 Q l m.
Proof. intros H F. induction F; constructor; auto. Qed.
