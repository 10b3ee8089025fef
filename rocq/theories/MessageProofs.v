From Coq Require Import String Ascii Lia.
From Verif Require Import Prelude DeckModel DeckSpec DeckProofs MessageModel MessageSpec.
Local Open Scope N_scope.

Lemma cstr_id s : ~ In 0 s -> cstr s = s.
Proof. induction s as [|c s IH]; intros H; [reflexivity|]. cbn. destruct (N.eqb_spec c 0) as [->|]; [exfalso; apply H; now left|]. f_equal. apply IH. intros I. apply H. now right. Qed.
Lemma cstr_app a b : ~ In 0 a -> cstr (a ++ b) = (a ++ cstr b)%list.
Proof. induction a as [|c a IH]; intros H; [reflexivity|]. cbn. destruct (N.eqb_spec c 0) as [->|]; [exfalso; apply H; now left|]. f_equal. apply IH. intros I. apply H. now right. Qed.
Lemma tok_nonzero s : token s -> ~ In 0 s /\ ~ In 10 s.
Proof. intros (_ & F). rewrite Forall_forall in F. split; intros I; apply F in I; unfold tokchar in I; lia. Qed.
Lemma said fname f n : name_ok fname -> printMessage fname (match f with Malformed => str "Parse error on line " | Duplicate => str "Duplicate key on line " end ++ [asChar n]) = about fname f (shown_for n).
Proof.
  intros NM. unfold printMessage, about. rewrite (cstr_id fname NM). rewrite cstr_app.
  - unfold shown_for, asChar. destruct f; cbn [cstr]; destruct (n mod 256 =? 0); rewrite <- !app_assoc; reflexivity.
  - destruct f; vm_compute; intros H; repeat (destruct H as [H|H]; [discriminate|]); exact H.
Qed.
Definition line_cases line : (parseLine line = None /\ ~ line_blank line /\ forall k v, ~ line_kv line k v) \/ (parseLine line = Some ([], []) /\ line_blank line) \/ (exists k v, parseLine line = Some (k, v) /\ k <> [] /\ line_kv line k v).
Proof.
  destruct (parseLine line) as [(k, v)|] eqn:E.
  - right. pose proof E as E'. apply parseLine_inv in E as [(E1 & E2 & B)|(N & K)]; [left|right; exists k, v; auto]. subst. auto.
  - left. split; [reflexivity|]. split; [intros B; apply parseLine_blank in B; congruence|intros k v K; apply parseLine_kv in K; congruence].
Qed.
Lemma blank_not_kv line k v : line_blank line -> line_kv line k v -> False.
Proof. intros B K. pose proof (parseLine_blank _ B) as B'. pose proof (parseLine_kv _ _ _ K) as K'. rewrite B' in K'. injection K' as E _. destruct K as (? & ? & ? & ? & _ & _ & (n & _) & _). congruence. Qed.
(** The keys stored are those assigned by the lines before. *)
Definition stored (pre : list (list N)) (kvs : list (list N * list N)) : Prop :=
  nonempty_keys kvs /\ forall k, mentions kvs k <-> exists j line' k' v', nth_error pre j = Some line' /\ line_kv line' k' v' /\ same_key k' k.
Lemma stored_skip pre kvs line : stored pre kvs -> (forall k v, line_kv line k v -> mentions kvs k) -> stored (pre ++ [line]) kvs.
Proof.
  intros (NE & M) H. split; [exact NE|]. intros k. rewrite M. split.
  - intros (j & l & k' & v' & E & R). exists j, l, k', v'. split; [|exact R]. rewrite nth_error_app1; [exact E|]. apply nth_error_Some. congruence.
  - intros (j & l & k' & v' & E & K & SK). destruct (Nat.lt_ge_cases j (List.length pre)) as [L|L].
    + rewrite nth_error_app1 in E by exact L. exists j, l, k', v'. auto.
    + rewrite nth_error_app2 in E by exact L. destruct (j - List.length pre)%nat as [|m]; [|destruct m; discriminate]. injection E as <-. specialize (H _ _ K). apply M in H as (j' & l' & k'' & v'' & E & K' & SK'). exists j', l', k'', v''. split; [exact E|]. split; [exact K'|]. unfold same_key in *. congruence.
Qed.
Lemma stored_add pre kvs line k v : stored pre kvs -> line_kv line k v -> k <> [] -> stored (pre ++ [line]) (kvs ++ [(k, v)]).
Proof.
  intros (NE & M) K NK. split; [apply Forall_app; split; [exact NE|]; constructor; [exact NK|constructor]|]. intros q. split.
  - intros (k' & v' & I & SK). apply in_app_or in I as [I|[I|[]]].
    + destruct (proj1 (M q)) as (j & l & k'' & v'' & E & R); [exists k', v'; auto|]. exists j, l, k'', v''. split; [|exact R]. rewrite nth_error_app1; [exact E|]. apply nth_error_Some. congruence.
    + injection I as -> ->. exists (List.length pre), line, k', v'. split; [rewrite nth_error_app2, Nat.sub_diag by lia; reflexivity|]. split; [exact K|now apply same_key_sym].
  - intros (j & l & k' & v' & E & K' & SK). destruct (Nat.lt_ge_cases j (List.length pre)) as [L|L].
    + rewrite nth_error_app1 in E by exact L. destruct (proj2 (M q)) as (k'' & v'' & I & SK'); [exists j, l, k', v'; auto|]. exists k'', v''. split; [apply in_or_app; now left|exact SK'].
    + rewrite nth_error_app2 in E by exact L. destruct (j - List.length pre)%nat as [|m]; [|destruct m; discriminate]. injection E as <-. destruct (line_kv_fun _ _ _ _ _ K K') as (-> & ->). exists k', v'. split; [apply in_or_app; right; now left|now apply same_key_sym].
Qed.
Lemma faulty_here pre line ls f : faulty (pre ++ line :: ls) (List.length pre) f <->
  match f with Malformed => ~ line_blank line /\ (forall k v, ~ line_kv line k v) | Duplicate => exists k v, line_kv line k v /\ exists j line' k' v', nth_error pre j = Some line' /\ line_kv line' k' v' /\ same_key k' k end.
Proof.
  unfold faulty. assert (E : nth_error (pre ++ line :: ls) (List.length pre) = Some line) by (rewrite nth_error_app2, Nat.sub_diag by lia; reflexivity). split.
  - intros (l & E' & H). rewrite E in E'. injection E' as <-. destruct f; [exact H|]. destruct H as (k & v & j & l' & k' & v' & K & L & E' & K' & SK). rewrite nth_error_app1 in E' by exact L. exists k, v. split; [exact K|]. exists j, l', k', v'. auto.
  - intros H. exists line. split; [exact E|]. destruct f; [exact H|]. destruct H as (k & v & K & j & l' & k' & v' & E' & K' & SK). assert (L : (j < List.length pre)%nat) by (apply nth_error_Some; congruence). exists k, v, j, l', k', v'. rewrite nth_error_app1 by exact L. auto.
Qed.
Definition none {X : Type} (l : list X) : bool := match l with [] => true | _ => false end.
Lemma text_fold fname ls : name_ok fname -> forall pre kvs out ok, stored pre kvs ->
  exists ms, snd (fold_left (readLineText fname) ls (keysOf kvs, N.of_nat (List.length pre) + 1, out)) = (out ++ List.concat (map (fun m => about fname (snd m) (shown_for (N.of_nat (fst m) + 1))) ms))%list /\
    increasing (map fst ms) /\ (forall i f, In (i, f) ms <-> (List.length pre <= i)%nat /\ faulty (pre ++ ls) i f) /\
    snd (fold_left readLine ls (keysOf kvs, valsOf kvs, ok)) = ok && none ms.
Proof.
  intros NM. induction ls as [|line ls IH]; intros pre kvs out ok ST.
  - exists []. cbn. rewrite app_nil_r, andb_true_r. split; [reflexivity|]. split; [exact I|]. split; [|reflexivity]. intros i f. split; [intros []|]. intros (L & l & E & _). assert (X : (i < List.length (pre ++ []))%nat) by (apply nth_error_Some; congruence). rewrite app_nil_r in X. lia.
  - assert (EQ : (pre ++ line :: ls = (pre ++ [line]) ++ ls)%list) by (rewrite <- app_assoc; reflexivity).
    assert (LN : List.length (pre ++ [line]) = S (List.length pre)) by (rewrite app_length; cbn; lia).
    assert (NX : N.of_nat (List.length pre) + 1 + 1 = N.of_nat (List.length (pre ++ [line])) + 1) by (rewrite LN; lia).
    (* a line without fault *)
    assert (GOOD : forall kvs', stored (pre ++ [line]) kvs' -> (forall f, ~ faulty (pre ++ line :: ls) (List.length pre) f) ->
      readLineText fname (keysOf kvs, N.of_nat (List.length pre) + 1, out) line = (keysOf kvs', N.of_nat (List.length pre) + 1 + 1, out) -> readLine (keysOf kvs, valsOf kvs, ok) line = (keysOf kvs', valsOf kvs', ok) ->
      exists ms, snd (fold_left (readLineText fname) (line :: ls) (keysOf kvs, N.of_nat (List.length pre) + 1, out)) = (out ++ List.concat (map (fun m => about fname (snd m) (shown_for (N.of_nat (fst m) + 1))) ms))%list /\
        increasing (map fst ms) /\ (forall i f, In (i, f) ms <-> (List.length pre <= i)%nat /\ faulty (pre ++ line :: ls) i f) /\ snd (fold_left readLine (line :: ls) (keysOf kvs, valsOf kvs, ok)) = ok && none ms).
    { intros kvs' ST' NF E1 E2. destruct (IH (pre ++ [line])%list kvs' out ok ST') as (ms & H1 & H2 & H3 & H4). exists ms. cbn [fold_left]. rewrite E1, E2, NX. split; [exact H1|]. split; [exact H2|]. split; [|exact H4].
      intros i f. rewrite (H3 i f), LN, <- EQ. split; [intros (L & F); split; [lia|exact F]|]. intros (L & F). split; [|exact F]. destruct (Nat.eq_dec i (List.length pre)) as [->|]; [destruct (NF f F)|lia]. }
    (* a line with a fault *)
    assert (BAD : forall f0, stored (pre ++ [line]) kvs -> (forall f, faulty (pre ++ line :: ls) (List.length pre) f <-> f = f0) ->
      readLineText fname (keysOf kvs, N.of_nat (List.length pre) + 1, out) line = (keysOf kvs, N.of_nat (List.length pre) + 1 + 1, (out ++ about fname f0 (shown_for (N.of_nat (List.length pre) + 1)))%list) -> readLine (keysOf kvs, valsOf kvs, ok) line = (keysOf kvs, valsOf kvs, false) ->
      exists ms, snd (fold_left (readLineText fname) (line :: ls) (keysOf kvs, N.of_nat (List.length pre) + 1, out)) = (out ++ List.concat (map (fun m => about fname (snd m) (shown_for (N.of_nat (fst m) + 1))) ms))%list /\
        increasing (map fst ms) /\ (forall i f, In (i, f) ms <-> (List.length pre <= i)%nat /\ faulty (pre ++ line :: ls) i f) /\ snd (fold_left readLine (line :: ls) (keysOf kvs, valsOf kvs, ok)) = ok && none ms).
    { intros f0 ST' NF E1 E2. destruct (IH (pre ++ [line])%list kvs (out ++ about fname f0 (shown_for (N.of_nat (List.length pre) + 1)))%list false ST') as (ms & H1 & H2 & H3 & H4). exists ((List.length pre, f0) :: ms). cbn [fold_left]. rewrite E1, E2, NX.
      split; [rewrite H1; cbn [map List.concat fst snd]; rewrite <- app_assoc; reflexivity|]. split; [|split].
      - cbn [map increasing fst]. split; [|exact H2]. apply Forall_forall. intros j I. apply in_map_iff in I as ((j', f) & E & I). cbn in E. subst j'. apply H3 in I as (L & _). lia.
      - intros i f. cbn [In]. rewrite (H3 i f), LN, <- EQ. split.
        + intros [E|(L & F)]; [|split; [lia|exact F]]. injection E as <- <-. split; [lia|]. now apply NF.
        + intros (L & F). destruct (Nat.eq_dec i (List.length pre)) as [->|]; [left; f_equal; symmetry; now apply NF|right; split; [lia|exact F]].
      - rewrite H4, andb_false_r. reflexivity. }
    destruct (line_cases line) as [(P & NB & NK)|[(P & B)|(k & v & P & NK & K)]].
    + apply (BAD Malformed).
      * apply stored_skip; [exact ST|]. intros k v K. destruct (NK k v K).
      * intros [|]; rewrite faulty_here; split; intros H; try reflexivity; try discriminate; auto. destruct H as (k & v & K & _). destruct (NK k v K).
      * unfold readLineText. rewrite P. f_equal. f_equal. exact (said fname Malformed _ NM).
      * unfold readLine. now rewrite P.
    + apply (GOOD kvs).
      * apply stored_skip; [exact ST|]. intros k v K. destruct (blank_not_kv _ _ _ B K).
      * intros [|]; rewrite faulty_here; intros H; [now destruct H|]. destruct H as (k & v & K & _). exact (blank_not_kv _ _ _ B K).
      * unfold readLineText. rewrite P, (findKey_empty kvs (proj1 ST)). reflexivity.
      * unfold readLine. rewrite P, (findKey_empty kvs (proj1 ST)). reflexivity.
    + destruct (findKey (keysOf kvs) k) as [x|] eqn:FK.
      * assert (MM : mentions kvs k) by (eapply binds_mentions, findKey_some; exact FK). apply (BAD Duplicate).
        -- apply stored_skip; [exact ST|]. intros k' v' K'. now destruct (line_kv_fun _ _ _ _ _ K K') as (<- & <-).
        -- intros [|]; rewrite faulty_here; split; intros H; try reflexivity; try discriminate; [destruct H as (_ & H); destruct (H k v K)|]. exists k, v. split; [exact K|]. now apply (proj2 ST).
        -- unfold readLineText. rewrite P, FK. f_equal. f_equal. exact (said fname Duplicate _ NM).
        -- unfold readLine. now rewrite P, FK.
      * pose proof (proj1 (findKey_none kvs k) FK) as MM. apply (GOOD (kvs ++ [(k, v)])%list).
        -- now apply stored_add.
        -- intros [|]; rewrite faulty_here; intros H; [destruct H as (_ & H); exact (H k v K)|]. destruct H as (k' & v' & K' & H). destruct (line_kv_fun _ _ _ _ _ K K') as (<- & <-). apply MM, (proj2 ST). exact H.
        -- unfold readLineText. rewrite P, FK, map_app. destruct k; [congruence|reflexivity].
        -- unfold readLine. rewrite P, FK, !map_app. destruct k; [congruence|reflexivity].
Qed.

(** What has been stored can be printed and read again. *)
Lemma scan_tokens acc ls r ok : scan acc ls r ok -> distinct_keys acc -> Forall (fun kv => token (fst kv) /\ token (snd kv)) acc -> distinct_keys r /\ Forall (fun kv => token (fst kv) /\ token (snd kv)) r.
Proof.
  induction 1 as [acc|acc line ls r ok B S IH|acc line k v ls r ok K NM S IH|acc line k v ls r ok K MM S IH|acc line ls r ok NB NK S IH]; intros D F; auto.
  apply IH.
  - clear - D NM. induction acc as [|(a, b) t IH]; cbn; [split; [intros ? ? []|exact I]|]. destruct D as (D1 & D2). split.
    + intros k' v' I. apply in_app_or in I as [I|[I|[]]]; [exact (D1 _ _ I)|]. injection I as -> ->. intros SK. apply NM. exists a, b. split; [now left|now apply same_key_sym].
    + apply IH; [|exact D2]. intros (k' & v' & I & SK). apply NM. exists k', v'. split; [now right|exact SK].
  - apply Forall_app. split; [exact F|]. destruct K as (? & ? & ? & ? & _ & _ & T1 & _ & _ & T2 & _). constructor; [split; [exact T1|exact T2]|constructor].
Qed.
Definition echo (kv : list N * list N) : list N := (str "    " ++ fst kv ++ str " " ++ snd kv)%list.
Lemma echo_kv kv : token (fst kv) -> token (snd kv) -> line_kv (echo kv) (fst kv) (snd kv).
Proof.
  intros T1 T2. exists (str "    "), (str " "), [], []. split; [unfold echo; now rewrite !app_nil_r|]. split; [repeat constructor|]. split; [exact T1|]. split; [repeat constructor|]. split; [discriminate|]. split; [exact T2|]. split; [constructor|now left].
Qed.
Lemma echo_deck kvs : Forall (fun kv => token (fst kv) /\ token (snd kv)) kvs -> deck_lines (map echo kvs) kvs /\ Forall (fun l => ~ In 10 l) (map echo kvs) /\
  List.concat (map (fun kv => str "    " ++ cstr (fst kv) ++ str " " ++ cstr (snd kv) ++ [10]) kvs)%list = join_lines (map echo kvs).
Proof.
  induction 1 as [|(k, v) kvs (T1 & T2) F (IH1 & IH2 & IH3)]; [split; [constructor|split; [constructor|reflexivity]]|]. cbn [fst snd] in T1, T2. cbn [map List.concat join_lines fst snd]. split; [|split].
  - apply dl_kv; [exact (echo_kv (k, v) T1 T2)|exact IH1].
  - constructor; [|exact IH2]. unfold echo. cbn [fst snd]. destruct (tok_nonzero k T1) as (_ & A). destruct (tok_nonzero v T2) as (_ & B). intros I. apply in_app_or in I as [I|I]; [cbn in I; lia|]. apply in_app_or in I as [I|I]; [exact (A I)|]. apply in_app_or in I as [I|I]; [cbn in I; lia|exact (B I)].
  - rewrite IH3, (cstr_id k (proj1 (tok_nonzero k T1))), (cstr_id v (proj1 (tok_nonzero v T2))). unfold echo. cbn [fst snd]. rewrite <- !app_assoc. reflexivity.
Qed.
