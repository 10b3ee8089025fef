From Verif Require Import Prelude DeckModel DeckSpec DeckProofs.
From Coq Require Import String Ascii.
Local Open Scope N_scope.

Lemma isDigit_spec c : isDigit c = true <-> digit c.
Proof. unfold isDigit, digit. lia. Qed.

Lemma digits_app digs rest acc : Forall digit digs -> (rest = [] \/ exists c t, rest = c :: t /\ ~ digit c) ->
  digits acc (digs ++ rest) = (acc * 10 ^ Z.of_nat (List.length digs) + dec_value digs)%Z.
Proof.
  intros F R; revert acc; induction F as [|c t Hc F IH]; intros acc.
  - cbn [app List.length dec_value]. destruct R as [->|(c & t & -> & n)]; cbn [digits].
    + lia.
    + destruct (isDigit c) eqn:E; [apply isDigit_spec in E; tauto|]. lia.
  - cbn [app digits]. apply isDigit_spec in Hc. rewrite Hc, IH. cbn [List.length dec_value].
    rewrite Nat2Z.inj_succ, Z.pow_succ_r by lia. ring.
Qed.

Lemma digits_split s : exists digs rest, s = digs ++ rest /\ Forall digit digs /\
  (rest = [] \/ exists c t, rest = c :: t /\ ~ digit c).
Proof.
  induction s as [|c s IH]. { exists [], []. auto. }
  destruct (isDigit c) eqn:E.
  - apply isDigit_spec in E. destruct IH as (d & r & -> & F & R). exists (c :: d), r. auto.
  - exists [], (c :: s). repeat split; auto. right. exists c, s. split; auto.
    intros C. apply isDigit_spec in C. congruence.
Qed.

Definition rng (v : Z) := ((-2147483648 <=? v) && (v <=? 2147483647))%Z.
Lemma rng_spec v : rng v = true <-> (-2147483648 <= v <= 2147483647)%Z.
Proof. unfold rng. lia. Qed.

Definition stoi_tail (neg : bool) (s' : list N) : option Z :=
  match s' with
  | c :: _ => if isDigit c then
      let v := digits 0 s' in let v := if neg then (- v)%Z else v in if rng v then Some v else None
      else None
  | [] => None end.
Lemma stoi_unfold s : stoi s =
  let '(neg, s') := match s with
                    | c :: t => if c =? 45 then (true, t) else if c =? 43 then (false, t) else (false, s)
                    | [] => (false, s) end in stoi_tail neg s'.
Proof. reflexivity. Qed.

Lemma stoi_tail_spec neg s z : stoi_tail neg s = Some z <->
  exists digs rest, s = digs ++ rest /\ digs <> [] /\ Forall digit digs /\
    (rest = [] \/ exists c t, rest = c :: t /\ ~ digit c) /\
    z = (if neg then - dec_value digs else dec_value digs)%Z /\ (-2147483648 <= z <= 2147483647)%Z.
Proof.
  split.
  - destruct (digits_split s) as (d & r & -> & F & R). unfold stoi_tail.
    destruct d as [|c d].
    + cbn [app]. destruct R as [->|(c & t & -> & n)]; [discriminate|].
      destruct (isDigit c) eqn:E; [apply isDigit_spec in E; tauto|discriminate].
    + remember (c :: d) as dd. destruct (dd ++ r) as [|x y] eqn:E; [discriminate|]. rewrite <- E.
      destruct (isDigit x); [|discriminate]. rewrite (digits_app dd r 0 F R). cbn [Z.mul Z.add].
      destruct (rng (if neg then _ else _)) eqn:G; [|discriminate]. intros H. apply Some_inj in H. subst z.
      apply rng_spec in G. exists dd, r. subst dd. repeat split; auto; try congruence; lia.
  - intros (d & r & -> & n & F & R & E & B). unfold stoi_tail.
    destruct d as [|c d]; [congruence|]. cbn [app]. inversion F; subst. apply isDigit_spec in H1. rewrite H1.
    change (c :: d ++ r) with ((c :: d) ++ r)%list. rewrite (digits_app (c :: d) r 0 F R). cbn [Z.mul Z.add].
    replace (rng _) with true by (symmetry; now apply rng_spec). reflexivity.
Qed.

Lemma digs_hd (digs rest : list N) c t : digs <> [] -> Forall digit digs -> digs ++ rest = c :: t -> digit c.
Proof. intros n F E. destruct digs; [congruence|]. inversion F; subst. cbn in E. inversion E; subst; auto. Qed.

Lemma stoi_spec v z : stoi v = Some z <-> int_meaning v z.
Proof.
  rewrite stoi_unfold. split.
  - destruct v as [|c t]. { cbn. discriminate. }
    destruct (N.eqb_spec c 45) as [->|n1].
    { intros H. apply stoi_tail_spec in H as (d & r & -> & n & F & R & E & B).
      exists [45], d, r. intuition. }
    destruct (N.eqb_spec c 43) as [->|n2].
    { intros H. apply stoi_tail_spec in H as (d & r & -> & n & F & R & E & B).
      exists [43], d, r. intuition. }
    intros H. apply stoi_tail_spec in H as (d & r & -> & n & F & R & E & B).
    exists [], d, r. intuition.
  - intros (sg & d & r & -> & n & F & R & [(S & E)|(S & E)] & B).
    + destruct S as [->| ->].
      * cbn [app]. destruct (d ++ r) as [|c t] eqn:Q; [destruct d; [congruence|discriminate]|].
        pose proof (digs_hd d r c t n F Q) as Hc. unfold digit in Hc.
        destruct (N.eqb_spec c 45); [lia|]. destruct (N.eqb_spec c 43); [lia|].
        rewrite <- Q. apply stoi_tail_spec. exists d, r. intuition.
      * cbn [app N.eqb Pos.eqb]. apply stoi_tail_spec. exists d, r. intuition.
    + subst sg. cbn [app N.eqb Pos.eqb]. apply stoi_tail_spec. exists d, r. intuition.
Qed.

Lemma int_to_UINT_spec z n : int_to_UINT z = n <-> Z.of_N n = (z mod 2 ^ 64)%Z.
Proof.
  unfold int_to_UINT. change (2 ^ 64)%Z with 18446744073709551616%Z.
  pose proof (Z.mod_pos_bound z 18446744073709551616 ltac:(lia)) as B.
  generalize dependent (z mod 18446744073709551616)%Z. intros. lia.
Qed.

Lemma chars_eqb_spec a b : chars_eqb a b = true <-> a = b.
Proof. unfold chars_eqb. destruct (list_eq_dec _ _ _); intuition congruence. Qed.

Ltac eqbs := repeat match goal with
  | |- context [chars_eqb ?a ?b] => destruct (chars_eqb a b) eqn:?
  end; repeat match goal with
  | H : chars_eqb _ _ = true |- _ => apply chars_eqb_spec in H
  | H : chars_eqb ?a ?b = false |- _ =>
      assert (a <> b) by (intros Q; apply chars_eqb_spec in Q; congruence); clear H
  end.

Lemma parseMpi_spec s m : parseMpi s = Some m <-> In (s, m) mpi_names.
Proof.
  unfold parseMpi, mpi_names. cbn [In]. split.
  - eqbs; subst; intros HH; try discriminate; apply Some_inj in HH; subst; tauto.
  - intros H. repeat (destruct H as [H|H]; [apply pair_equal_spec in H as (? & ?); subst; reflexivity|]). tauto.
Qed.
Lemma parseSweep_spec s m : parseSweep s = Some m <-> In (s, m) sweep_names.
Proof.
  unfold parseSweep, sweep_names. cbn [In]. split.
  - eqbs; subst; intros HH; try discriminate; apply Some_inj in HH; subst; tauto.
  - intros H. repeat (destruct H as [H|H]; [apply pair_equal_spec in H as (? & ?); subst; reflexivity|]). tauto.
Qed.
Lemma parseGauss_spec s m : parseGauss s = m <->
  (In (s, m) gauss_names \/ ~ In s (map fst gauss_names) /\ m = GE_Original).
Proof.
  unfold parseGauss, gauss_names. cbn [In map fst]. split.
  - eqbs; subst; intros <-; try tauto. right. split; auto. intuition congruence.
  - intros [H|(H & ->)].
    + repeat (destruct H as [H|H]; [apply pair_equal_spec in H as (? & ?); subst; reflexivity|]). tauto.
    + eqbs; subst; auto; exfalso; apply H; auto.
Qed.

(** readFile succeeds exactly on well-formed decks *)
Lemma scan_ok acc ls r : scan acc ls r true -> exists kvs, r = (acc ++ kvs)%list /\ deck_lines ls kvs /\
  distinct_keys kvs /\ (forall k v, In (k, v) kvs -> ~ mentions acc k).
Proof.
  intros S. remember true as ok. induction S; try discriminate.
  - exists []. rewrite app_nil_r. repeat split; auto. constructor.
  - destruct (IHS Heqok) as (kvs & -> & L & Dk & M). exists kvs. repeat split; auto. now constructor.
  - destruct (IHS Heqok) as (kvs & -> & L & Dk & M). exists ((k, v) :: kvs). repeat split; auto.
    + now rewrite <- app_assoc.
    + now constructor.
    + intros k' v' I SK. eapply M; eauto. exists k, v. split; [apply in_app_iff; right; now left|]. now apply same_key_sym.
    + intros k' v' [I|I].
      * inversion I; subst; auto.
      * intros C. eapply M; eauto. now apply mentions_app.
Qed.

Lemma readFile_ok txt fname s : readFile kvr_reset fname (Some txt) = (s, None) <->
  exists ls kvs, content_of txt ls /\ deck_lines ls kvs /\ distinct_keys kvs /\
    s = mkKvr (keysOf kvs) (valsOf kvs) true fname.
Proof.
  destruct (readFile_fresh txt) as (r & ok & S & E). rewrite E. split.
  - intros H. destruct ok; inversion H; subst. apply scan_ok in S as (kvs & -> & L & Dk & _).
    exists (getlines txt), kvs. repeat split; auto; apply content_exists.
  - intros (ls & kvs & C & L & Dk & ->). apply getlines_iff in C. subst ls.
    pose proof (deck_scan _ _ L [] ltac:(intros ? ? ? (? & ? & [] & _)) Dk) as S'. cbn in S'.
    destruct (scan_fun _ _ _ _ _ _ S S'); subst. reflexivity.
Qed.

Lemma getString_iff kvs f k v : getString (mkKvr (keysOf kvs) (valsOf kvs) true f) k = inl v <-> binds kvs k v.
Proof.
  pose proof (getString_read kvs f k) as G. destruct (getString _ k) as [w|e].
  - split; intros H; [inversion H; subst; auto|]. f_equal. eapply binds_fun; eauto.
  - split; intros H; [discriminate|]. destruct G as (_ & G). exfalso; eauto using binds_mentions.
Qed.
Section R.
  Context {D : Type} (stod : list N -> option D) (kvs : list (list N * list N)) (f : list N).
  Let s := mkKvr (keysOf kvs) (valsOf kvs) true f.
  Lemma getInt_iff k n : (exists z, getInt s k = inl z /\ int_to_UINT z = n) <-> int_opt kvs k n.
  Proof.
    unfold getInt, int_opt. split.
    - intros (z & H & E). destruct (getString s k) as [v|e] eqn:G; [|discriminate].
      destruct (stoi v) as [z'|] eqn:S; [|discriminate]. inversion H; subst z'.
      exists v, z. apply getString_iff in G. apply stoi_spec in S. apply int_to_UINT_spec in E. auto.
    - intros (v & z & G & S & E). apply (getString_iff kvs f) in G. fold s in G. rewrite G.
      apply stoi_spec in S. rewrite S. exists z. split; auto. now apply int_to_UINT_spec.
  Qed.
  Lemma getDouble_iff k d : getDouble stod s k = inl d <-> dbl_opt stod kvs k d.
  Proof.
    unfold getDouble, dbl_opt. split.
    - intros H. destruct (getString s k) as [v|e] eqn:G; [|discriminate].
      destruct (stod v) as [z'|] eqn:S; [|discriminate]. inversion H; subst z'.
      exists v. apply getString_iff in G. auto.
    - intros (v & G & S). apply (getString_iff kvs f) in G. fold s in G. now rewrite G, S.
  Qed.
  Lemma getBool_iff k b : getBool s k = inl b <-> bool_opt kvs k b.
  Proof.
    unfold getBool, bool_opt. split.
    - intros H. destruct (getString s k) as [v|e] eqn:G; [|discriminate].
      apply getString_iff in G. exists v. split; auto.
      destruct (areStringsEqual v (str "true")) eqn:E1.
      { inversion H; subst. now apply areStringsEqual_spec. }
      destruct (areStringsEqual v (str "false")) eqn:E2; [|discriminate].
      inversion H; subst. now apply areStringsEqual_spec.
    - intros (v & G & S). apply (getString_iff kvs f) in G. fold s in G. rewrite G.
      destruct b.
      + apply areStringsEqual_spec in S. now rewrite S.
      + destruct (areStringsEqual v (str "true")) eqn:E1.
        { apply areStringsEqual_spec in E1. unfold same_key in *. rewrite E1 in S. discriminate. }
        apply areStringsEqual_spec in S. now rewrite S.
  Qed.
End R.

Lemma bindE_some {A B E} (x : A + E) (f : A -> option B) r :
  bindE x f = Some r <-> exists a, x = inl a /\ f a = Some r.
Proof.
  destruct x; cbn; split; intros H; eauto; try discriminate.
  - destruct H as (a' & E1 & E2). inversion E1; subst; auto.
  - destruct H as (a' & E1 & E2). discriminate.
Qed.

Lemma readInput_iff {D} (stod : list N -> option D) fname txt cfg :
  readInput stod fname (Some txt) = Some cfg <->
  exists ls kvs, content_of txt ls /\ deck_lines ls kvs /\ distinct_keys kvs /\ config_of stod kvs cfg.
Proof.
  unfold readInput. destruct (readFile kvr_reset fname (Some txt)) as (s, e) eqn:R. split.
  - destruct e; [discriminate|]. apply readFile_ok in R as (ls & kvs & C & L & Dk & ->).
    intros H. exists ls, kvs. repeat (split; [assumption|]).
    repeat match type of H with
    | bindE _ _ = Some _ => apply bindE_some in H as (? & ? & H)
    end.
    destruct (parseMpi _) as [mpi|] eqn:PM; [|discriminate].
    apply bindE_some in H as (? & ? & H).
    destruct (parseSweep _) as [sw|] eqn:PS; [|discriminate].
    apply bindE_some in H as (? & ? & H). apply Some_inj in H. subst cfg.
    unfold config_of. cbn [cSnOrder cIterMax cErrMax cMaxCellsPerStep cIntraAngleP cInterAngleP cNGroups
      cSigmaT1 cSigmaS1 cSigmaT2 cSigmaS2 cOutputFile cOutputFilename cDdIterMax cDdErrMax cUseSI cMpi cSweep cGauss].
    repeat match goal with
    | |- _ /\ _ => split
    | |- int_opt _ _ _ => eapply getInt_iff; eexists; split; [eassumption|reflexivity]
    | |- dbl_opt _ _ _ _ => eapply getDouble_iff; eassumption
    | |- bool_opt _ _ _ => eapply getBool_iff; eassumption
    | |- binds _ _ _ => eapply getString_iff; eassumption
    end.
    + eexists. split; [eapply getString_iff; eassumption|]. now apply parseMpi_spec.
    + eexists. split; [eapply getString_iff; eassumption|]. now apply parseSweep_spec.
    + eexists. split; [eapply getString_iff; eassumption|]. now apply parseGauss_spec.
  - intros (ls & kvs & C & L & Dk & H).
    assert (R' : readFile kvr_reset fname (Some txt) = (mkKvr (keysOf kvs) (valsOf kvs) true fname, None)).
    { apply readFile_ok. exists ls, kvs. auto. }
    rewrite R in R'. inversion R'; subst s e. clear R R'.
    destruct cfg as [a1 a2 a3 a4 a5 a6 a7 a8 a9 a10 a11 a12 a13 a14 a15 a16 a17 a18 a19].
    unfold config_of in H. cbn [cSnOrder cIterMax cErrMax cMaxCellsPerStep cIntraAngleP cInterAngleP cNGroups
      cSigmaT1 cSigmaS1 cSigmaT2 cSigmaS2 cOutputFile cOutputFilename cDdIterMax cDdErrMax cUseSI cMpi cSweep cGauss] in H.
    destruct H as (H1 & H2 & H3 & H4 & H5 & H6 & H7 & H8 & H9 & H10 & H11 & H12 & H13 & H14 & H15 & H16 & (vm & H17 & M) & (vs & H18 & Sw) & (vg & H19 & Ge)).
    apply (getInt_iff kvs fname) in H1 as (z1 & H1 & E1).
    apply (getInt_iff kvs fname) in H2 as (z2 & H2 & E2).
    apply (getInt_iff kvs fname) in H3 as (z3 & H3 & E3).
    apply (getInt_iff kvs fname) in H4 as (z4 & H4 & E4).
    apply (getInt_iff kvs fname) in H5 as (z5 & H5 & E5).
    apply (getInt_iff kvs fname) in H6 as (z6 & H6 & E6).
    apply (getInt_iff kvs fname) in H7 as (z7 & H7 & E7).
    apply (getDouble_iff stod kvs fname) in H8, H9, H10, H11, H12, H13.
    apply (getBool_iff kvs fname) in H14, H15.
    apply (getString_iff kvs fname) in H16, H17, H18, H19.
    apply parseMpi_spec in M. apply parseSweep_spec in Sw. apply parseGauss_spec in Ge.
    rewrite H1, H2, H3, H4, H5, H6, H7, H8, H9, H10, H11, H12, H13, H14, H15, H16, H17.
    cbn [bindE]. rewrite M, H18. cbn [bindE]. rewrite Sw, H19. cbn [bindE]. now subst.
Qed.

Lemma deck_lines_fun ls kvs kvs' : deck_lines ls kvs -> deck_lines ls kvs' -> kvs' = kvs.
Proof.
  intros L; revert kvs'; induction L; intros q Q; inversion Q; subst; auto.
  - exfalso; eapply line_kv_not_blank; eauto.
  - exfalso; eapply line_kv_not_blank; eauto.
  - match goal with A : line_kv ?l _ _, B : line_kv ?l _ _ |- _ => destruct (line_kv_fun _ _ _ _ _ A B); subst end.
    f_equal; auto.
Qed.
Lemma readInput_config {D} (stod : list N -> option D) fname txt ls kvs cfg :
  content_of txt ls -> deck_lines ls kvs -> readInput stod fname (Some txt) = Some cfg -> config_of stod kvs cfg.
Proof.
  intros C L E. apply readInput_iff in E as (ls' & kvs' & C' & L' & Dk & H).
  apply getlines_iff in C, C'. subst. now rewrite (deck_lines_fun _ _ _ L L') in H.
Qed.
Lemma readInput_bad_sweep {D} (stod : list N -> option D) fname txt ls kvs v :
  content_of txt ls -> deck_lines ls kvs -> binds kvs (str "SweepType") v ->
  ~ In v (map fst sweep_names) -> readInput stod fname (Some txt) = None.
Proof.
  intros C L B N. destruct (readInput stod fname (Some txt)) as [cfg|] eqn:E; auto. exfalso.
  pose proof (readInput_config _ _ _ _ _ _ C L E) as H. unfold config_of in H.
  destruct H as (_ & _ & _ & _ & _ & _ & _ & _ & _ & _ & _ & _ & _ & _ & _ & _ & _ & (w & W & I) & _).
  rewrite (binds_fun _ _ _ _ B W) in N. apply N. apply in_map_iff. exists (w, cSweep cfg). auto.
Qed.
Lemma readInput_bad_mpi {D} (stod : list N -> option D) fname txt ls kvs v :
  content_of txt ls -> deck_lines ls kvs -> binds kvs (str "MPIType") v ->
  ~ In v (map fst mpi_names) -> readInput stod fname (Some txt) = None.
Proof.
  intros C L B N. destruct (readInput stod fname (Some txt)) as [cfg|] eqn:E; auto. exfalso.
  pose proof (readInput_config _ _ _ _ _ _ C L E) as H. unfold config_of in H.
  destruct H as (_ & _ & _ & _ & _ & _ & _ & _ & _ & _ & _ & _ & _ & _ & _ & _ & (w & W & I) & _).
  rewrite (binds_fun _ _ _ _ B W) in N. apply N. apply in_map_iff. exists (w, cMpi cfg). auto.
Qed.
Lemma readInput_bad_gauss {D} (stod : list N -> option D) fname txt ls kvs v cfg :
  content_of txt ls -> deck_lines ls kvs -> binds kvs (str "GaussElim") v ->
  ~ In v (map fst gauss_names) -> readInput stod fname (Some txt) = Some cfg -> cGauss cfg = GE_Original.
Proof.
  intros C L B N E. pose proof (readInput_config _ _ _ _ _ _ C L E) as H. unfold config_of in H.
  destruct H as (_ & _ & _ & _ & _ & _ & _ & _ & _ & _ & _ & _ & _ & _ & _ & _ & _ & _ & (w & W & [I|(_ & I)])); auto.
  rewrite (binds_fun _ _ _ _ B W) in N. exfalso. apply N. apply in_map_iff. exists (w, cGauss cfg). auto.
Qed.
