(** C86: what the reader of input decks prints. *)
From Coq Require Import String Ascii Lia.
From Verif Require Import Prelude DeckModel DeckSpec DeckProofs InfoSpec InfoModel InfoProofs MessageModel MessageSpec MessageProofs.
Local Open Scope N_scope.

(** C86: reading a deck prints one message for each faulty line, in order, and no other; it throws exactly if there is one.
    In the place of the line number n stands the character of code n modulo 256, or nothing. *)
Theorem C86_reports : forall fname txt ls, content_of txt ls -> name_ok fname -> N.of_nat (List.length ls) < 2147483647 ->
  exists ms, increasing (map fst ms) /\ (forall i f, In (i, f) ms <-> faulty ls i f) /\
    readFileText kvr_reset fname (Some txt) = List.concat (map (fun m => about fname (snd m) (shown_for (N.of_nat (fst m) + 1))) ms) /\
    (snd (readFile kvr_reset fname (Some txt)) = None <-> ms = []).
Proof.
  intros fname txt ls C NM _. apply getlines_iff in C. subst ls. destruct (text_fold fname (getlines txt) NM [] [] [] true) as (ms & H1 & H2 & H3 & H4).
  - split; [constructor|]. intros k. split; [intros (? & ? & [] & _)|intros ([|j] & ? & ? & ? & E & _); discriminate].
  - exists ms. split; [exact H2|]. split; [intros i f; rewrite (H3 i f); cbn [List.length List.app]; split; [now intros (_ & F)|intros F; split; [lia|exact F]]|]. split; [exact H1|].
    unfold readFile. cbn [isFileRead kvr_reset keyVector valueVector]. change (keysOf []) with (@nil chars) in H4. change (valsOf []) with (@nil chars) in H4. destruct (fold_left readLine (getlines txt) ([], [], true)) as ((a, b), c). cbn in *. subst c. destruct ms; cbn; split; intros; congruence.
Qed.
Print Assumptions C86_reports.
Lemma kv_parsed l k v : parseLine l = Some (k, v) -> k <> [] -> line_kv l k v.
Proof. intros H n. apply parseLine_inv in H as [(E & _)|(_ & H)]; congruence. Qed.
Lemma only_fault ls ms i f : increasing (map fst ms) -> (forall i f, In (i, f) ms <-> faulty ls i f) -> faulty ls i f -> (forall j h, faulty ls j h -> j = i) -> ms = [(i, f)].
Proof.
  intros IN M F U. assert (FF : forall h, faulty ls i h -> h = f).
  { intros h H. destruct F as (l & E & F). destruct H as (l' & E' & H). rewrite E in E'. injection E' as <-. destruct f, h; auto; [destruct H as (k & v & ? & ? & ? & ? & K & _); destruct (proj2 F k v K)|destruct F as (k & v & ? & ? & ? & ? & K & _); destruct (proj2 H k v K)]. }
  destruct ms as [|(j, h) ms]; [destruct (proj2 (M i f) F)|]. assert (E : j = i) by (apply (U j h), M; now left). subst j. assert (h = f) by (apply FF, M; now left). subst h. f_equal.
  destruct ms as [|(j, h) ms]; [reflexivity|]. cbn in IN. destruct IN as (IN & _). inversion IN as [|? ? L _]. assert (j = i) by (apply (U j h), M; right; now left). lia.
Qed.
(** C86: so if a single line is at fault, the number printed is wrong for every line (a character, not a numeral):
    lines 48 to 57 are reported as lines 0 to 9, and lines 256 apart get the same report. *)
Theorem C86_wrong_line : forall fname txt ls i f, content_of txt ls -> name_ok fname -> N.of_nat (List.length ls) < 2147483647 -> faulty ls i f -> (forall j h, faulty ls j h -> j = i) ->
  (forall s, numeral s (N.of_nat i + 1) -> readFileText kvr_reset fname (Some txt) <> about fname f s) /\
  (forall d, (d < 10)%N -> N.of_nat i + 1 = 48 + d -> exists s, numeral s d /\ readFileText kvr_reset fname (Some txt) = about fname f s) /\
  (forall txt' ls' i', content_of txt' ls' -> N.of_nat (List.length ls') < 2147483647 -> faulty ls' i' f -> (forall j h, faulty ls' j h -> j = i') -> (i' = i + 256)%nat ->
     readFileText kvr_reset fname (Some txt') = readFileText kvr_reset fname (Some txt)).
Proof.
  assert (T : forall fname txt ls i f, content_of txt ls -> name_ok fname -> N.of_nat (List.length ls) < 2147483647 -> faulty ls i f -> (forall j h, faulty ls j h -> j = i) -> readFileText kvr_reset fname (Some txt) = about fname f (shown_for (N.of_nat i + 1))).
  { intros fname txt ls i f C NM SZ F U. destruct (C86_reports fname txt ls C NM SZ) as (ms & H1 & H2 & H3 & _). rewrite (only_fault ls ms i f H1 H2 F U) in H3. rewrite H3. cbn. now rewrite app_nil_r. }
  intros fname txt ls i f C NM SZ F U. rewrite (T fname txt ls i f C NM SZ F U). split; [|split].
  - intros s (NE & D & P & _) E. unfold about in E. repeat apply app_inv_head in E. apply app_inv_tail in E. unfold shown_for in E. destruct (N.eqb_spec ((N.of_nat i + 1) mod 256) 0) as [|NZ]; [congruence|]. subst s.
    assert (SM : N.of_nat i + 1 < 256 -> (N.of_nat i + 1) mod 256 = N.of_nat i + 1) by apply N.mod_small. inversion D as [|? ? C1 _]. cbn [place_value List.length] in P. change (10 ^ N.of_nat 0) with 1 in P. set (c := (N.of_nat i + 1) mod 256) in *. clearbody c. lia.
  - intros d L E. exists [48 + d]. split.
    + split; [discriminate|]. split; [constructor; [lia|constructor]|]. split; [cbn [place_value List.length]; change (10 ^ N.of_nat 0) with 1; lia|]. cbn [hd]. intros E'. f_equal. exact E'.
    + unfold shown_for. rewrite E, N.mod_small by lia. destruct (N.eqb_spec (48 + d) 0); [lia|reflexivity].
  - intros txt' ls' i' C' SZ' F' U' ->. rewrite (T fname txt' ls' _ f C' NM SZ' F' U'). f_equal. unfold shown_for. replace (N.of_nat (i + 256) + 1) with (N.of_nat i + 1 + 1 * 256) by lia. now rewrite N.mod_add.
Qed.
Print Assumptions C86_wrong_line.
(** C86: expected, not met: the report of a fault names the line by its number. *)
Theorem C86_line_named_refuted : ~ (forall fname txt ls i f, content_of txt ls -> name_ok fname -> faulty ls i f -> (forall j h, faulty ls j h -> j = i) ->
  exists s, numeral s (N.of_nat i + 1) /\ readFileText kvr_reset fname (Some txt) = about fname f s).
Proof.
  intros H. set (txt := str "a 1"%string ++ [10] ++ str "snOrder: 8"%string ++ [10]).
  assert (C : content_of txt [str "a 1"; str "snOrder: 8"]) by (apply getlines_iff; reflexivity).
  assert (K0 : line_kv (str "a 1") (str "a") (str "1")) by (apply kv_parsed; [reflexivity|discriminate]).
  assert (B1 : parseLine (str "snOrder: 8") = None) by reflexivity.
  assert (F1 : faulty [str "a 1"; str "snOrder: 8"] 1 Malformed).
  { exists (str "snOrder: 8"). split; [reflexivity|]. split; [intros B; apply parseLine_blank in B; congruence|intros k v K; apply parseLine_kv in K; congruence]. }
  assert (U : forall j h, faulty [str "a 1"; str "snOrder: 8"] j h -> j = 1%nat).
  { intros [|[|j]] h (l & E & F); [exfalso|reflexivity|destruct j; discriminate]. injection E as <-. destruct h; [destruct (proj2 F _ _ K0)|]. destruct F as (? & ? & j & ? & ? & ? & _ & L & _). lia. }
  assert (NM : name_ok (str "deck")) by (intros I; cbn in I; lia).
  destruct (H (str "deck") txt _ _ _ C NM F1 U) as (s & NU & E). exact (proj1 (C86_wrong_line (str "deck") txt _ _ _ C NM eq_refl F1 U) s NU E).
Qed.
Print Assumptions C86_line_named_refuted.
(** C86: all that has been stored, even of a faulty deck, is printed by print, in order, one assignment in a line; these lines are
    themselves a deck without fault that assigns the same. *)
Theorem C86_echo : forall fname txt s e, readFile kvr_reset fname (Some txt) = (s, e) -> name_ok fname ->
  exists body kvs, printText s = ([10] ++ str "--- KeyValueReader Data (" ++ fname ++ str ") ---" ++ [10] ++ body ++ [10], None) /\
    (exists ls, content_of body ls /\ deck_lines ls kvs) /\ distinct_keys kvs /\
    (forall k v, getString s k = inl v <-> binds kvs k v) /\
    forall fname', name_ok fname' -> exists s', readFile kvr_reset fname' (Some body) = (s', None) /\ readFileText kvr_reset fname' (Some body) = [] /\ forall k, getString s' k = getString s k.
Proof.
  intros fname txt s e R NM. destruct (readFile_fresh txt) as (kvs & ok & S & RF). rewrite (RF fname) in R. injection R as <- <-.
  destruct (scan_tokens _ _ _ _ S I (Forall_nil _)) as (D & TK). destruct (echo_deck kvs TK) as (DL & NL & EQ).
  assert (C : content_of (join_lines (map echo kvs)) (map echo kvs)) by (split; [exact NL|now left]).
  exists (join_lines (map echo kvs)), kvs. split; [|split; [|split; [|split]]].
  - unfold printText. cbn [isFileRead negb filename keyVector valueVector]. rewrite (cstr_id fname NM). assert (CB : combine (keysOf kvs) (valsOf kvs) = kvs) by (clear; induction kvs as [|(k, v) t IH]; cbn; [reflexivity|now rewrite IH]). rewrite CB, EQ, <- !app_assoc. reflexivity.
  - exists (map echo kvs). auto.
  - exact D.
  - intros k v. pose proof (getString_read kvs fname k) as G. destruct (getString _ k) as [w|x].
    + split; [intros E; injection E as <-; exact G|]. intros B. f_equal. clear - G B. induction G as [k k' w t SK|k k' w' w t NS G IH]; inversion B; subst; try contradiction; auto.
    + destruct G as (_ & G). split; [discriminate|]. intros B. destruct G. eapply binds_mentions. exact B.
  - intros fname' NM'. destruct (readFile_fresh (join_lines (map echo kvs))) as (kvs' & ok' & S' & RF'). apply getlines_iff in C. rewrite C in S'.
    destruct (scan_fun _ _ _ _ _ _ S' (deck_scan _ _ DL [] ltac:(intros k v _ (? & ? & [] & _)) D)) as (-> & ->). cbn [app] in *.
    exists (mkKvr (keysOf kvs) (valsOf kvs) true fname'). split; [exact (RF' fname')|]. split; [|reflexivity].
    destruct (text_fold fname' (map echo kvs) NM' [] [] [] true) as (ms & H1 & _ & _ & H4).
    { split; [constructor|]. intros k. split; [intros (? & ? & [] & _)|intros ([|j] & ? & ? & ? & E & _); discriminate]. }
    pose proof (RF' fname') as Q. unfold readFile in Q. cbn [isFileRead kvr_reset keyVector valueVector] in Q. rewrite C in Q. cbn [map List.length] in H1, H4. destruct (fold_left readLine (map echo kvs) ([], [], true)) as ((a, b), c). cbn [snd] in H4. subst c.
    destruct ms as [|m ms]; [|cbn in Q; congruence]. unfold readFileText. cbn [isFileRead kvr_reset keyVector]. rewrite C. exact H1.
Qed.
Print Assumptions C86_echo.
(** C86: every other call prints a message exactly if it throws. *)
Theorem C86_calls : forall (D : Type) (stod : chars -> option D) s key,
  (getStringText s key = [] <-> exists v, getString s key = inl v) /\ (getIntText s key = [] <-> exists z, getInt s key = inl z) /\
  (getDoubleText stod s key = [] <-> exists d, getDouble stod s key = inl d) /\ (getBoolText s key = [] <-> exists b, getBool s key = inl b) /\
  (forall e, getString s key = inr e -> getStringText s key = str "KeyValueReader error in file " ++ cstr (filename s) ++ [10] ++ str "   " ++ (match e with KeyNotFound => str "Key not found: " ++ cstr key | _ => str "File not read." end) ++ [10]).
Proof.
  intros D stod s key. assert (ST : getStringText s key = [] <-> exists v, getString s key = inl v).
  { unfold getStringText, getString. destruct (isFileRead s); cbn [negb]; [|split; [discriminate|intros (v & E); discriminate]]. destruct (findKey (keyVector s) key); split; try discriminate; eauto. intros (v & E). discriminate. }
  assert (SI : forall e, getString s key = inr e -> getStringText s key <> []) by (intros e E N; apply ST in N as (v & N); congruence).
  split; [exact ST|]. split; [|split; [|split]].
  - unfold getIntText, getInt. destruct (getString s key) as [v|e] eqn:G; [destruct (stoi v); split; try discriminate; eauto; intros (z & E); discriminate|]. split; [intros N; destruct (SI e eq_refl N)|intros (z & E); discriminate].
  - unfold getDoubleText, getDouble. destruct (getString s key) as [v|e] eqn:G; [destruct (stod v); split; try discriminate; eauto; intros (z & E); discriminate|]. split; [intros N; destruct (SI e eq_refl N)|intros (z & E); discriminate].
  - unfold getBoolText, getBool. destruct (getString s key) as [v|e] eqn:G; [|split; [intros N; destruct (SI e eq_refl N)|intros (z & E); discriminate]]. destruct (areStringsEqual v (str "true")); [split; eauto|]. destruct (areStringsEqual v (str "false")); [split; eauto|]. split; [discriminate|intros (z & E); discriminate].
  - intros e. unfold getStringText, getString. destruct (isFileRead s); cbn [negb].
    + destruct (findKey (keyVector s) key); [discriminate|]. intros E. injection E as <-. unfold printMessage. rewrite cstr_app; [rewrite <- !app_assoc; reflexivity|]. vm_compute. intros H. repeat (destruct H as [H|H]; [discriminate|]). exact H.
    + intros E. injection E as <-. reflexivity.
Qed.
Print Assumptions C86_calls.
(** C86: a deck with a fault on line 3; what is read back from what it prints. *)
Example C86_ex : let txt := str "a 1 # first"%string ++ [10; 10] ++ str "A 2"%string ++ [10] ++ str "b x"%string in
  readFileText kvr_reset (str "deck") (Some txt) = about (str "deck") Duplicate [3] /\ faulty (getlines txt) 2 Duplicate /\
  fst (printText (fst (readFile kvr_reset (str "deck") (Some txt)))) = [10] ++ str "--- KeyValueReader Data (deck) ---" ++ [10] ++ str "    a 1" ++ [10] ++ str "    b x" ++ [10; 10] /\
  getString (fst (readFile kvr_reset (str "copy") (Some (str "    a 1"%string ++ [10] ++ str "    b x"%string ++ [10])))) (str "B") = inl (str "x").
Proof.
  split; [reflexivity|]. split; [|split; reflexivity]. exists (str "A 2"). split; [reflexivity|]. exists (str "A"), (str "2"), 0%nat, (str "a 1 # first"), (str "a"), (str "1").
  split; [apply kv_parsed; [reflexivity|discriminate]|]. split; [lia|]. split; [reflexivity|]. split; [apply kv_parsed; [reflexivity|discriminate]|reflexivity].
Qed.
