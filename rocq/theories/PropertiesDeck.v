(** C05-C07 (input deck reader), C54-C55 (run configuration). *)
From Verif Require Import Prelude DeckModel DeckSpec DeckProofs InputProofs.
From Coq Require Import String Ascii.
Local Open Scope N_scope.

Definition nl : list N := [10].
Lemma kv_by_parse l k v : parseLine l = Some (k, v) -> k <> [] -> line_kv l k v.
Proof. intros H n. apply parseLine_inv in H as [(E & _)|(_ & H)]; congruence. Qed.
Lemma blank_by_parse l : parseLine l = Some ([], []) -> line_blank l.
Proof. intros H. apply parseLine_inv in H as [(_ & _ & H)|(E & _)]; congruence. Qed.

(** C05: a line is read according to the grammar, for every line. *)
Theorem C05_line : forall line k v,
  (parseLine line = Some (k, v) /\ k <> [] <-> line_kv line k v) /\
  (parseLine line = Some ([], []) <-> line_blank line).
Proof.
  intros line k v. split; split.
  - intros (H & n). now apply kv_by_parse.
  - intros H. split; [now apply parseLine_kv|]. destruct H as (? & ? & ? & ? & _ & _ & (n & _) & _); auto.
  - apply blank_by_parse.
  - apply parseLine_blank.
Qed.
Print Assumptions C05_line.

(** C05: every well-formed deck with distinct keys is read and looked up by meaning. *)
Theorem C05_deck_lookup : forall txt ls kvs fname,
  content_of txt ls -> deck_lines ls kvs -> distinct_keys kvs ->
  exists s, readFile kvr_reset fname (Some txt) = (s, None) /\
    (forall k v k', In (k, v) kvs -> same_key k' k -> getString s k' = inl v) /\
    (forall k', (forall k v, In (k, v) kvs -> ~ same_key k' k) -> getString s k' = inr KeyNotFound).
Proof. exact deck_lookup. Qed.
Print Assumptions C05_deck_lookup.

Definition ex_lines : list (list N) :=
  [str "# a deck"; str "  snOrder   8  # angles"; []; str "errMax 1e-5"].
Definition ex_kvs : list (list N * list N) := [(str "snOrder", str "8"); (str "errMax", str "1e-5")].
Example C05_deck_lookup_ex :
  content_of (join_lines ex_lines) ex_lines /\ deck_lines ex_lines ex_kvs /\ distinct_keys ex_kvs /\
  getString (fst (readFile kvr_reset (str "f") (Some (join_lines ex_lines)))) (str "SNORDER") = inl (str "8").
Proof.
  split; [|split; [|split]].
  - split; [|now left]. repeat constructor; intros H; cbn in H; lia.
  - apply dl_blank; [apply blank_by_parse; reflexivity|].
    apply dl_kv; [apply kv_by_parse; [reflexivity|discriminate]|].
    apply dl_blank; [apply blank_by_parse; reflexivity|].
    apply dl_kv; [apply kv_by_parse; [reflexivity|discriminate]|]. constructor.
  - cbn. repeat split; auto. intros k' v' [H|[]]. inversion H; subst. discriminate.
  - vm_compute. reflexivity.
Qed.

(** C05: assigning a key twice (up to case), or any malformed line, makes reading fail. *)
Theorem C05_duplicate_rejected : forall txt fname ls1 ls2 ls3 l1 l2 k1 v1 k2 v2,
  content_of txt (ls1 ++ l1 :: ls2 ++ l2 :: ls3) ->
  line_kv l1 k1 v1 -> line_kv l2 k2 v2 -> same_key k1 k2 ->
  snd (readFile kvr_reset fname (Some txt)) = Some ParseFileError.
Proof. exact deck_duplicate. Qed.
Print Assumptions C05_duplicate_rejected.
Theorem C05_malformed_rejected : forall txt fname ls line, content_of txt ls -> In line ls ->
  ~ line_blank line -> (forall k v, ~ line_kv line k v) ->
  snd (readFile kvr_reset fname (Some txt)) = Some ParseFileError.
Proof. exact deck_malformed. Qed.
Print Assumptions C05_malformed_rejected.

Example C05_duplicate_ex : exists txt, content_of txt ([] ++ str "a 1" :: [[]] ++ str "A 2" :: []) /\
  line_kv (str "a 1") (str "a") (str "1") /\ line_kv (str "A 2") (str "A") (str "2") /\
  same_key (str "a") (str "A").
Proof.
  exists (join_lines [str "a 1"; []; str "A 2"]). split; [|split; [|split]].
  - split; [|now left]. repeat constructor; intros H; cbn in H; lia.
  - apply kv_by_parse; [reflexivity|discriminate].
  - apply kv_by_parse; [reflexivity|discriminate].
  - reflexivity.
Qed.
(** A Windows line end or a path separator makes a line malformed. *)
Example C05_malformed_ex : forall l, l = (str "a 1" ++ [13]) \/ l = str "f dir/file" ->
  ~ line_blank l /\ (forall k v, ~ line_kv l k v).
Proof.
  intros l [->| ->]; split; intros; intros C.
  - apply parseLine_blank in C; discriminate.
  - apply parseLine_kv in C; discriminate.
  - apply parseLine_blank in C; discriminate.
  - apply parseLine_kv in C; discriminate.
Qed.

(** C06: over every sequence of calls the reader shows exactly the outputs of the abstract
    reader that starts with nothing read. *)
Theorem C06_life_cycle : forall ops outs, snd (krun kvr_reset ops) = outs <-> arun None ops outs.
Proof. exact krun_iff. Qed.
Print Assumptions C06_life_cycle.

Example C06_life_cycle_ex :
  arun None [KGet (str "a"); KRead (str "f") None; KRead (str "f") (Some (str "a 1")); KRead (str "g") (Some []);
             KGet (str "A"); KReset; KGet (str "a")]
    [OExn FileNotRead; OExn OpenFileError; OUnit; OExn AlreadyReadAFile; OVal (str "1"); OUnit; OExn FileNotRead].
Proof. apply C06_life_cycle. vm_compute. reflexivity. Qed.

(** C07: failed reads do expose data, for every deck that fails to parse and contains at
    least one well-formed assignment. *)
Theorem C07_failed_read_exposes : forall txt fname ls line k v s,
  content_of txt ls -> In line ls -> line_kv line k v ->
  readFile kvr_reset fname (Some txt) = (s, Some ParseFileError) -> exists v', getString s k = inl v'.
Proof. exact failed_read_exposes. Qed.
Print Assumptions C07_failed_read_exposes.
(** The expected property is false. *)
Theorem C07_no_data_after_failure_refuted :
  ~ (forall txt fname s e k v, readFile kvr_reset fname (Some txt) = (s, Some e) -> getString s k <> inl v).
Proof.
  intros H. apply (H (str "a 1" ++ nl ++ str "b") [] (fst (readFile kvr_reset [] (Some (str "a 1" ++ nl ++ str "b"))))
                     ParseFileError (str "a") (str "1")); vm_compute; reflexivity.
Qed.
Print Assumptions C07_no_data_after_failure_refuted.

(** C54: the configuration accepted is exactly the meaning of the deck; anything else aborts. *)
Theorem C54_configuration : forall D (stod : list N -> option D) fname txt cfg,
  readInput stod fname (Some txt) = Some cfg <->
  exists ls kvs, content_of txt ls /\ deck_lines ls kvs /\ distinct_keys kvs /\ config_of stod kvs cfg.
Proof. exact @readInput_iff. Qed.
Print Assumptions C54_configuration.
Theorem C54_unknown_sweep_rejected : forall D (stod : list N -> option D) fname txt ls kvs v,
  content_of txt ls -> deck_lines ls kvs -> binds kvs (str "SweepType") v ->
  ~ In v (map fst sweep_names) -> readInput stod fname (Some txt) = None.
Proof. exact @readInput_bad_sweep. Qed.
Print Assumptions C54_unknown_sweep_rejected.
Theorem C54_unknown_mpi_rejected : forall D (stod : list N -> option D) fname txt ls kvs v,
  content_of txt ls -> deck_lines ls kvs -> binds kvs (str "MPIType") v ->
  ~ In v (map fst mpi_names) -> readInput stod fname (Some txt) = None.
Proof. exact @readInput_bad_mpi. Qed.
Print Assumptions C54_unknown_mpi_rejected.

(** A non-negative integer written in the deck is the value of the option. *)
Theorem C54_integer_exact : forall v z n, int_meaning v z -> (0 <= z)%Z ->
  (Z.of_N n = (z mod 2 ^ 64)%Z <-> Z.of_N n = z).
Proof.
  intros v z n (s & d & r & _ & _ & _ & _ & _ & B) P. rewrite Z.mod_small; [tauto|].
  change (2 ^ 64)%Z with 18446744073709551616%Z. lia.
Qed.
Print Assumptions C54_integer_exact.

Definition ex_deck (snOrder gauss : string) : list N := join_lines (map str
  [("snOrder " ++ snOrder)%string; "iterMax 100"; "errMax 1e-5"; "maxCellsPerStep 1000"; "intraAngleP 1"; "interAngleP 2";
   "nGroups 1"; "sigmaT1 10"; "sigmaS1 5"; "sigmaT2 10"; "sigmaS2 5"; "OutputFile false"; "OutputFilename out";
   "DD_IterMax 50"; "DD_ErrMax 1e-8"; "SourceIteration TRUE"; "MPIType TychoTwoSided"; "SweepType PBJ";
   ("GaussElim " ++ gauss)%string]%string).
Definition ex_cfg (sn : N) (g : gaussElimT) : config (list N) :=
  mkConfig sn 100 (str "1e-5") 1000 1 2 1 (str "10") (str "5") (str "10") (str "5") false (str "out") 50
    (str "1e-8") true TychoTwoSided PBJ g.
Example C54_configuration_ex : exists ls kvs, content_of (ex_deck "8" "NoPivot") ls /\ deck_lines ls kvs /\
  distinct_keys kvs /\ config_of Some kvs (ex_cfg 8 GE_NoPivot).
Proof. apply (C54_configuration _ Some []). vm_compute. reflexivity. Qed.

(** C55: an unknown GaussElim value and a negative option are accepted silently. *)
Theorem C55_gauss_elim_checked_refuted : ~ (forall D (stod : list N -> option D) fname txt cfg ls kvs v,
  readInput stod fname (Some txt) = Some cfg -> content_of txt ls -> deck_lines ls kvs ->
  binds kvs (str "GaussElim") v -> In v (map fst gauss_names)).
Proof.
  intros H.
  assert (R : readInput Some [] (Some (ex_deck "8" "cramerGlu")) = Some (ex_cfg 8 GE_Original)) by (vm_compute; reflexivity).
  pose proof R as R'. apply C54_configuration in R' as (ls & kvs & C & L & Dk & K).
  assert (B : binds kvs (str "GaussElim") (str "cramerGlu")).
  { destruct (deck_lookup _ _ _ [] C L Dk) as (s & Rd & _).
    assert (E : getString s (str "GaussElim") = inl (str "cramerGlu")).
    { replace s with (fst (readFile kvr_reset [] (Some (ex_deck "8" "cramerGlu")))) by (now rewrite Rd).
      vm_compute. reflexivity. }
    apply readFile_ok in Rd as (ls' & kvs' & C' & L' & Dk' & ->).
    apply getString_iff in E. apply getlines_iff in C, C'. subst.
    enough (kvs' = kvs) by (subst; auto).
    clear - L L'. revert kvs' L'. induction L; intros q Q; inversion Q; subst; auto.
    - exfalso; eapply line_kv_not_blank; eauto.
    - exfalso; eapply line_kv_not_blank; eauto.
    - match goal with A : line_kv ?l _ _, B : line_kv ?l _ _ |- _ => destruct (line_kv_fun _ _ _ _ _ A B); subst end.
      f_equal; auto. }
  specialize (H _ _ _ _ _ _ _ _ R C L B). vm_compute in H. intuition discriminate.
Qed.
Print Assumptions C55_gauss_elim_checked_refuted.
(** Every unknown value selects Original. *)
Theorem C55_unknown_gauss_is_original : forall D (stod : list N -> option D) fname txt ls kvs v cfg,
  content_of txt ls -> deck_lines ls kvs -> binds kvs (str "GaussElim") v ->
  ~ In v (map fst gauss_names) -> readInput stod fname (Some txt) = Some cfg -> cGauss cfg = GE_Original.
Proof. exact @readInput_bad_gauss. Qed.
Print Assumptions C55_unknown_gauss_is_original.
Theorem C55_negative_option_refuted :
  readInput Some [] (Some (ex_deck "-2" "Original")) = Some (ex_cfg 18446744073709551614 GE_Original).
Proof. vm_compute. reflexivity. Qed.
Print Assumptions C55_negative_option_refuted.
