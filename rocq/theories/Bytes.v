(** Little-endian byte images of 64-bit words, as produced by memcpy / fwrite on the
    little-endian machines the code runs on. *)
From Verif Require Import Prelude.
Local Open Scope N_scope.

Notation bytes := (list N).
Definition is_byte (b : N) : Prop := b < 256.

Fixpoint le_bytes (k : nat) (x : N) : bytes :=
  match k with O => [] | S k' => x mod 256 :: le_bytes k' (x / 256) end.
Fixpoint le_word (l : bytes) : N :=
  match l with [] => 0 | b :: t => b + 256 * le_word t end.

Definition u64_bytes (x : N) : bytes := le_bytes 8 x.
Definition words_bytes (ws : list N) : bytes := concat (map u64_bytes ws).

(** Inverse: groups of eight bytes; a trailing incomplete group is dropped. *)
Fixpoint bytes_words (bs : bytes) : list N :=
  match bs with
  | b0 :: b1 :: b2 :: b3 :: b4 :: b5 :: b6 :: b7 :: t =>
      le_word [b0; b1; b2; b3; b4; b5; b6; b7] :: bytes_words t
  | _ => []
  end.

(** fread / MPI_File_read of [n] 64-bit words from the current position (= the remaining
    bytes); a short read yields [None] (the callers assert the count). *)
Definition fread_words (n : N) (bs : bytes) : option (list N * bytes) :=
  if 8 * n <=? N.of_nat (length bs)
  then Some (bytes_words (firstn (N.to_nat (8 * n)) bs), skipn (N.to_nat (8 * n)) bs)
  else None.

Definition fread_bytes (n : nat) (bs : bytes) : option (bytes * bytes) :=
  if (n <=? length bs)%nat then Some (firstn n bs, skipn n bs) else None.

Lemma le_bytes_length k x : length (le_bytes k x) = k.
Proof. revert x; induction k; cbn; auto. Qed.

Lemma le_roundtrip k x : x < 256 ^ N.of_nat k -> le_word (le_bytes k x) = x.
Proof.
  revert x; induction k; intros x H.
  - cbn in *. lia.
  - cbn [le_bytes le_word]. rewrite IHk.
    + pose proof (N.div_mod x 256). lia.
    + rewrite Nat2N.inj_succ, N.pow_succ_r' in H. apply N.div_lt_upper_bound; lia.
Qed.

Lemma le_bytes_byte k x : Forall is_byte (le_bytes k x).
Proof.
  revert x; induction k; intros; constructor; auto.
  unfold is_byte. apply N.mod_lt; lia.
Qed.

Lemma le_word_roundtrip l : Forall is_byte l -> le_bytes (length l) (le_word l) = l.
Proof.
  induction 1; cbn [length le_bytes le_word]; auto. unfold is_byte in *.
  replace ((x + 256 * le_word l) mod 256) with x.
  2:{ rewrite N.mul_comm, N.mod_add, N.mod_small; lia. }
  replace ((x + 256 * le_word l) / 256) with (le_word l).
  2:{ rewrite N.mul_comm, N.div_add, N.div_small; lia. }
  now rewrite IHForall.
Qed.

Lemma le_word_bound l : Forall is_byte l -> le_word l < 256 ^ N.of_nat (length l).
Proof.
  induction 1; cbn [length le_word]. { cbn; lia. }
  rewrite Nat2N.inj_succ, N.pow_succ_r'. unfold is_byte in *. lia.
Qed.

Lemma u64_length x : length (u64_bytes x) = 8%nat.
Proof. apply le_bytes_length. Qed.

Lemma u64_roundtrip x : x < two64 -> le_word (u64_bytes x) = x.
Proof. intros; apply le_roundtrip. exact H. Qed.

Lemma words_bytes_cons w ws : words_bytes (w :: ws) = u64_bytes w ++ words_bytes ws.
Proof. reflexivity. Qed.

Lemma words_bytes_app a b : words_bytes (a ++ b) = words_bytes a ++ words_bytes b.
Proof. unfold words_bytes. now rewrite map_app, concat_app. Qed.

Lemma words_bytes_length ws : length (words_bytes ws) = (8 * length ws)%nat.
Proof.
  induction ws; auto. rewrite words_bytes_cons, app_length, u64_length, IHws. cbn; lia.
Qed.

Lemma words_bytes_byte ws : Forall is_byte (words_bytes ws).
Proof.
  induction ws; [constructor|]. rewrite words_bytes_cons. apply Forall_app; split; auto.
  apply le_bytes_byte.
Qed.

Lemma bytes_words_u64 x t : x < two64 -> bytes_words (u64_bytes x ++ t) = x :: bytes_words t.
Proof.
  intros H. pose proof (u64_roundtrip x H) as R.
  unfold u64_bytes in *. cbn [le_bytes app] in *. cbn [bytes_words]. now rewrite R.
Qed.

Lemma bytes_words_bytes ws : Forall (fun w => w < two64) ws -> bytes_words (words_bytes ws) = ws.
Proof.
  induction 1; auto. rewrite words_bytes_cons, bytes_words_u64; auto. now f_equal.
Qed.

Lemma fread_words_ok ws t n : Forall (fun w => w < two64) ws -> n = N.of_nat (length ws) ->
  fread_words n (words_bytes ws ++ t) = Some (ws, t).
Proof.
  intros H ->. unfold fread_words.
  rewrite app_length, words_bytes_length.
  replace (N.to_nat (8 * N.of_nat (length ws))) with (8 * length ws)%nat by lia.
  destruct (N.leb_spec (8 * N.of_nat (length ws)) (N.of_nat (8 * length ws + length t))); [|lia].
  rewrite <- (words_bytes_length ws).
  rewrite firstn_app, Nat.sub_diag, firstn_all, skipn_app, Nat.sub_diag, skipn_all.
  cbn [firstn skipn]. rewrite app_nil_r, bytes_words_bytes; auto.
Qed.

Lemma fread_bytes_ok b t n : n = length b -> fread_bytes n (b ++ t) = Some (b, t).
Proof.
  intros ->. unfold fread_bytes. rewrite app_length.
  destruct (Nat.leb_spec (length b) (length b + length t)); [|lia].
  rewrite firstn_app, Nat.sub_diag, firstn_all, skipn_app, Nat.sub_diag, skipn_all.
  cbn [firstn skipn]. now rewrite app_nil_r.
Qed.

(** What a successful read says about the bytes consumed. *)
Lemma bytes_words_back k bs : Forall is_byte bs -> length bs = (8 * k)%nat ->
  words_bytes (bytes_words bs) = bs /\ length (bytes_words bs) = k /\
  Forall (fun w => w < two64) (bytes_words bs).
Proof.
  revert bs; induction k; intros bs Hb Hl.
  - destruct bs; [|cbn in Hl; lia]. split; [reflexivity|split; [reflexivity|constructor]].
  - do 8 (destruct bs as [|? bs]; [cbn in Hl; lia|]).
    assert (L : length bs = (8 * k)%nat) by (cbn in Hl; lia).
    assert (Hb8 : Forall is_byte [n; n0; n1; n2; n3; n4; n5; n6] /\ Forall is_byte bs).
    { change (n :: n0 :: n1 :: n2 :: n3 :: n4 :: n5 :: n6 :: bs)
        with ([n; n0; n1; n2; n3; n4; n5; n6] ++ bs) in Hb. now apply Forall_app in Hb. }
    destruct Hb8 as (H8 & Hr). destruct (IHk bs Hr L) as (A & B & C).
    cbn [bytes_words]. split; [|split].
    + rewrite words_bytes_cons, A. unfold u64_bytes.
      pose proof (le_word_roundtrip _ H8) as R. cbn [length] in R. now rewrite R.
    + cbn [length]. now rewrite B.
    + constructor; auto. apply (le_word_bound _ H8).
Qed.

Lemma fread_words_inv n bs ws t : Forall is_byte bs -> fread_words n bs = Some (ws, t) ->
  bs = words_bytes ws ++ t /\ N.of_nat (length ws) = n /\ Forall (fun w => w < two64) ws /\
  Forall is_byte t.
Proof.
  intros Hb H. unfold fread_words in H.
  destruct (N.leb_spec (8 * n) (N.of_nat (length bs))); [|discriminate].
  set (k := N.to_nat n).
  remember (N.to_nat (8 * n)) as m eqn:Em.
  injection H as <- <-.
  replace m with (8 * k)%nat by (unfold k; lia). clear Em.
  pose proof (firstn_skipn (8 * k) bs) as S.
  rewrite <- S in Hb. apply Forall_app in Hb. destruct Hb as (Hf & Ht).
  destruct (bytes_words_back k (firstn (8 * k) bs)) as (A & B & C); auto.
  { apply firstn_length_le. unfold k; lia. }
  rewrite A, B. repeat split; auto. unfold k; lia.
Qed.

Lemma fread_words_short n bs : N.of_nat (length bs) < 8 * n -> fread_words n bs = None.
Proof.
  intros. unfold fread_words. destruct (N.leb_spec (8 * n) (N.of_nat (length bs))); auto; lia.
Qed.

Lemma fread_bytes_inv n bs b t : fread_bytes n bs = Some (b, t) -> bs = b ++ t /\ length b = n.
Proof.
  unfold fread_bytes. destruct (Nat.leb_spec n (length bs)); [|discriminate].
  intros H'; inversion H'; subst. split; [now rewrite firstn_skipn|].
  now apply firstn_length_le.
Qed.
