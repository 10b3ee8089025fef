From Verif Require Import Prelude DeckModel DeckSpec.
From Coq Require Import String Ascii.
Local Open Scope N_scope.

Lemma member_ws c : member c whitespace = true <-> c = 32 \/ c = 9.
Proof. cbn. rewrite !orb_true_iff, !N.eqb_eq. intuition congruence. Qed.

Lemma member_in c s : member c s = true <-> In c s.
Proof.
  unfold member. rewrite existsb_exists. split.
  - intros (x & H & E). apply N.eqb_eq in E. now subst.
  - intros H. exists c. split; auto. apply N.eqb_refl.
Qed.

Definition tokcharb (c : N) : bool :=
  (97 <=? c) && (c <=? 122) || (65 <=? c) && (c <=? 90) || (48 <=? c) && (c <=? 57)
  || (c =? 43) || (c =? 45) || (c =? 95) || (c =? 46).
Lemma tokcharb_spec c : tokcharb c = true <-> tokchar c.
Proof. unfold tokcharb, tokchar. lia. Qed.

Lemma allowed_table : forallb (fun c => Bool.eqb (member c allowableChar) (tokcharb c))
                        (map N.of_nat (seq 0 256)) = true.
Proof. vm_compute. reflexivity. Qed.
Lemma allowed_small : forallb (fun c => c <? 256) allowableChar = true.
Proof. vm_compute. reflexivity. Qed.

Lemma member_tok c : member c allowableChar = true <-> tokchar c.
Proof.
  destruct (N.ltb_spec c 256) as [L|L].
  - pose proof allowed_table as T. rewrite forallb_forall in T.
    specialize (T c). rewrite <- tokcharb_spec.
    assert (I : In c (map N.of_nat (seq 0 256))).
    { apply in_map_iff. exists (N.to_nat c). split; [lia|]. apply in_seq. lia. }
    specialize (T I). apply eqb_prop in T. rewrite T. tauto.
  - split; intros H.
    + apply member_in in H. pose proof allowed_small as T. rewrite forallb_forall in T.
      specialize (T c H). apply N.ltb_lt in T. lia.
    + unfold tokchar in H. lia.
Qed.

(** comments *)
Lemma comments_split line : exists c, line = getRidOfComments line ++ c /\ comment c /\
  ~ In 35 (getRidOfComments line).
Proof.
  induction line as [|a t IH]; cbn.
  - exists []. repeat split; cbn; auto. now left.
  - destruct (N.eqb_spec a 35) as [->|n].
    + exists (35 :: t). repeat split; cbn; auto. right; eauto.
    + destruct IH as (c & E & C & N). exists c. cbn. repeat split; auto.
      * now f_equal.
      * intros [H|H]; auto.
Qed.
Lemma comments_app s c : ~ In 35 s -> comment c -> getRidOfComments (s ++ c) = s.
Proof.
  intros N [->|(t & ->)].
  - rewrite app_nil_r. induction s as [|a s IH]; cbn; auto.
    destruct (N.eqb_spec a 35); [subst; exfalso; apply N; now left|]. f_equal. apply IH.
    intros H; apply N; now right.
  - induction s as [|a s IH]; cbn; auto.
    destruct (N.eqb_spec a 35); [subst; exfalso; apply N; now left|]. f_equal. apply IH.
    intros H; apply N; now right.
Qed.

Definition hd_not (P : N -> Prop) (s : list N) : Prop := match s with [] => True | c :: _ => ~ P c end.

Lemma deleteWhitespace_app w r : blanks w -> hd_not (fun c => c = 32 \/ c = 9) r ->
  deleteWhitespace (w ++ r) = (List.length w, r).
Proof.
  induction w as [|a w IH]; intros B H; cbn [app].
  - destruct r as [|b r]; auto. cbn [deleteWhitespace hd_not] in *.
    destruct (member b whitespace) eqn:E; auto. apply member_ws in E. tauto.
  - inversion B; subst. cbn [deleteWhitespace]. assert (E : member a whitespace = true) by (now apply member_ws).
    rewrite E, IH; auto.
Qed.
Lemma deleteWhitespace_inv s n r : deleteWhitespace s = (n, r) ->
  exists w, s = w ++ r /\ blanks w /\ List.length w = n /\ hd_not (fun c => c = 32 \/ c = 9) r.
Proof.
  revert n r; induction s as [|a s IH]; intros n r; cbn [deleteWhitespace].
  - intros H; inversion H; subst. exists []. cbn. repeat split; auto. constructor.
  - destruct (member a whitespace) eqn:E.
    + destruct (deleteWhitespace s) as (n', r') eqn:D. intros H; inversion H; subst.
      destruct (IH n' r eq_refl) as (w & -> & B & L & h). exists (a :: w). cbn. repeat split; auto.
      constructor; auto. now apply member_ws.
    + intros H; inversion H; subst. exists []. cbn. repeat split; auto. constructor.
      intros C. apply member_ws in C. congruence.
Qed.

Lemma popToken_app k r : Forall tokchar k -> hd_not tokchar r -> popToken (k ++ r) = (k, r).
Proof.
  induction k as [|a k IH]; intros B H; cbn [app].
  - destruct r as [|b r]; auto. cbn [popToken hd_not] in *.
    destruct (member b allowableChar) eqn:E; auto. apply member_tok in E. tauto.
  - inversion B; subst. cbn [popToken]. assert (E : member a allowableChar = true) by (now apply member_tok).
    rewrite E, IH; auto.
Qed.
Lemma popToken_inv s k r : popToken s = (k, r) -> s = k ++ r /\ Forall tokchar k /\ hd_not tokchar r.
Proof.
  revert k r; induction s as [|a s IH]; intros k r; cbn [popToken].
  - intros H; inversion H; subst. cbn. auto.
  - destruct (member a allowableChar) eqn:E.
    + destruct (popToken s) as (k', r') eqn:D. intros H; inversion H; subst.
      destruct (IH k' r eq_refl) as (-> & B & h). cbn. repeat split; auto.
      constructor; auto. now apply member_tok.
    + intros H; inversion H; subst. cbn. repeat split; auto.
      intros C. apply member_tok in C. congruence.
Qed.

Lemma tok_not_ws c : tokchar c -> ~ (c = 32 \/ c = 9).
Proof. unfold tokchar. lia. Qed.
Lemma tok_not_hash c : tokchar c -> c <> 35.
Proof. unfold tokchar. lia. Qed.
Lemma blanks_no_hash w : blanks w -> ~ In 35 w.
Proof. intros B I. unfold blanks in B. rewrite Forall_forall in B. apply B in I. lia. Qed.
Lemma toks_no_hash w : Forall tokchar w -> ~ In 35 w.
Proof. intros B I. rewrite Forall_forall in B. apply B in I. apply tok_not_hash in I. congruence. Qed.

Lemma hd_not_tok_app k r : token k -> hd_not (fun c => c = 32 \/ c = 9) (k ++ r).
Proof. intros (n & F). destruct k; [congruence|]. cbn. inversion F. now apply tok_not_ws. Qed.
Lemma hd_not_ws_app w r : blanks w -> w <> [] -> hd_not tokchar (w ++ r).
Proof.
  intros B n. destruct w; [congruence|]. cbn. inversion B; subst. intros T; apply tok_not_ws in T. tauto.
Qed.

Lemma parseLine_kv line k v : line_kv line k v -> parseLine line = Some (k, v).
Proof.
  intros (w1 & w2 & w3 & c & -> & B1 & T1 & B2 & n2 & T2 & B3 & C).
  unfold parseLine.
  replace (w1 ++ k ++ w2 ++ v ++ w3 ++ c)%list with ((w1 ++ k ++ w2 ++ v ++ w3) ++ c)%list by (now rewrite <- !app_assoc).
  rewrite comments_app; auto.
  2:{ rewrite !in_app_iff. intros [H|[H|[H|[H|H]]]].
      - exact (blanks_no_hash _ B1 H).
      - exact (toks_no_hash _ (proj2 T1) H).
      - exact (blanks_no_hash _ B2 H).
      - exact (toks_no_hash _ (proj2 T2) H).
      - exact (blanks_no_hash _ B3 H). }
  rewrite deleteWhitespace_app; auto using hd_not_tok_app.
  destruct T1 as (nk & F1), T2 as (nv & F2).
  replace (isEmpty (k ++ w2 ++ v ++ w3)) with false by (destruct k; [congruence|auto]).
  rewrite popToken_app; auto using hd_not_ws_app.
  replace (isEmpty k) with false by (destruct k; [congruence|auto]).
  rewrite deleteWhitespace_app; auto. 2:{ apply hd_not_tok_app; now split. }
  replace (Nat.eqb (List.length w2) 0) with false by (destruct w2; [congruence|auto]).
  rewrite popToken_app; auto. 2:{ destruct w3; [exact I|]. apply (hd_not_ws_app (n :: w3) []) in B3; [now rewrite app_nil_r in B3|congruence]. }
  replace (isEmpty v) with false by (destruct v; [congruence|auto]).
  rewrite <- (app_nil_r w3). rewrite deleteWhitespace_app; auto. exact I.
Qed.

Lemma parseLine_blank line : line_blank line -> parseLine line = Some ([], []).
Proof.
  intros (w & c & -> & B & C). unfold parseLine. rewrite comments_app; auto using blanks_no_hash.
  rewrite <- (app_nil_r w). rewrite deleteWhitespace_app; auto. exact I.
Qed.

Lemma isEmpty_true s : isEmpty s = true -> s = [].
Proof. destruct s; auto; discriminate. Qed.
Lemma isEmpty_false s : isEmpty s = false -> s <> [].
Proof. destruct s; auto; discriminate. Qed.

Lemma parseLine_inv line k v : parseLine line = Some (k, v) ->
  (k = [] /\ v = [] /\ line_blank line) \/ (k <> [] /\ line_kv line k v).
Proof.
  unfold parseLine. destruct (comments_split line) as (c & E & C & _).
  set (s := getRidOfComments line) in *. clearbody s.
  destruct (deleteWhitespace s) as (n1, s1) eqn:D1.
  apply deleteWhitespace_inv in D1 as (w1 & -> & B1 & _ & _).
  destruct (isEmpty s1) eqn:I1.
  { intros H; inversion H; subst. left. repeat split; auto. apply isEmpty_true in I1. subst.
    rewrite app_nil_r. exists w1, c. auto. }
  destruct (popToken s1) as (key, s2) eqn:P1. apply popToken_inv in P1 as (-> & F1 & _).
  destruct (isEmpty key) eqn:I2; try discriminate.
  destruct (deleteWhitespace s2) as (n2, s3) eqn:D2.
  apply deleteWhitespace_inv in D2 as (w2 & -> & B2 & L2 & _).
  destruct (Nat.eqb n2 0) eqn:I3; try discriminate.
  destruct (popToken s3) as (val, s4) eqn:P2. apply popToken_inv in P2 as (-> & F2 & _).
  destruct (isEmpty val) eqn:I4; try discriminate.
  destruct (deleteWhitespace s4) as (n3, s5) eqn:D3.
  apply deleteWhitespace_inv in D3 as (w3 & -> & B3 & _ & _).
  destruct (isEmpty s5) eqn:I5; cbn [negb]; try discriminate.
  intros H; inversion H; subst. right. apply isEmpty_false in I2, I4. apply isEmpty_true in I5. subst.
  split; auto. exists w1, w2, w3, c. rewrite app_nil_r, <- !app_assoc.
  repeat split; auto. apply Nat.eqb_neq in I3. destruct w2; cbn in *; congruence.
Qed.

(** keys up to case *)
Lemma upper_lower a b : toupper a = toupper b <-> lower a = lower b.
Proof.
  unfold toupper, lower.
  destruct ((97 <=? a) && (a <=? 122)) eqn:A1, ((97 <=? b) && (b <=? 122)) eqn:B1,
    ((65 <=? a) && (a <=? 90)) eqn:A2, ((65 <=? b) && (b <=? 90)) eqn:B2; lia.
Qed.

Lemma areStringsEqual_spec a b : areStringsEqual a b = true <-> same_key a b.
Proof.
  unfold areStringsEqual, same_key. split.
  - destruct (Nat.eqb_spec (List.length a) (List.length b)) as [L|L]; cbn [negb]; try discriminate.
    revert b L; induction a as [|x a IH]; intros [|y b] L; cbn in *; try discriminate; auto.
    destruct (N.eqb_spec (toupper x) (toupper y)) as [E|E]; try discriminate.
    intros H. f_equal; [now apply upper_lower|]. apply IH; auto.
  - intros H. assert (L : List.length a = List.length b).
    { rewrite <- (map_length lower a), H, map_length. auto. }
    rewrite L, Nat.eqb_refl. cbn [negb]. revert b H L; induction a as [|x a IH]; intros [|y b] H L; cbn in *; try discriminate; auto.
    inversion H. destruct (N.eqb_spec (toupper x) (toupper y)) as [E|E]; [auto|].
    exfalso; apply E; now apply upper_lower.
Qed.
Lemma areStringsEqual_false a b : areStringsEqual a b = false <-> ~ same_key a b.
Proof. rewrite <- areStringsEqual_spec. destruct (areStringsEqual a b); intuition congruence. Qed.
Lemma same_key_sym a b : same_key a b -> same_key b a.
Proof. unfold same_key. congruence. Qed.

(** lines of a file *)
Lemma getlines_aux_line cur l t : ~ In 10 l -> getlines_aux cur (l ++ 10 :: t) = (rev cur ++ l) :: getlines_aux [] t.
Proof.
  revert cur; induction l as [|a l IH]; intros cur H; cbn.
  - now rewrite app_nil_r.
  - destruct (N.eqb_spec a 10); [subst; exfalso; apply H; now left|].
    rewrite IH; [|intros I; apply H; now right]. cbn. now rewrite <- app_assoc.
Qed.
Lemma getlines_aux_last cur l : ~ In 10 l -> rev cur ++ l <> [] -> getlines_aux cur l = [(rev cur ++ l)%list].
Proof.
  revert cur; induction l as [|a l IH]; intros cur H n; cbn.
  - rewrite app_nil_r in *. destruct cur; [cbn in n; congruence|auto].
  - destruct (N.eqb_spec a 10); [subst; exfalso; apply H; now left|].
    rewrite IH; [|intros I; apply H; now right|]; cbn; rewrite <- app_assoc; auto.
Qed.
Lemma getlines_join ls tl : Forall (fun l => ~ In 10 l) ls ->
  getlines (join_lines ls ++ tl) = (ls ++ getlines tl)%list.
Proof.
  unfold getlines. induction ls as [|l ls IH]; intros F; cbn; auto. inversion F; subst.
  rewrite <- app_assoc. cbn. rewrite getlines_aux_line; auto. cbn. f_equal. auto.
Qed.
Lemma getlines_content txt ls : content_of txt ls -> getlines txt = ls.
Proof.
  intros (F & [->|(ls' & l & -> & n & ->)]).
  - rewrite <- (app_nil_r (join_lines ls)), getlines_join; auto. cbn. apply app_nil_r.
  - apply Forall_app in F as (F1 & F2). rewrite getlines_join; auto. f_equal.
    unfold getlines. rewrite getlines_aux_last; auto. now inversion F2.
Qed.

Lemma line_decomp (txt : list N) : (~ In 10 txt) \/ exists l t, txt = (l ++ 10 :: t)%list /\ ~ In 10 l.
Proof.
  induction txt as [|a t IH]. { left; auto. }
  destruct (N.eq_dec a 10) as [->|n]. { right. exists [], t. split; auto. }
  destruct IH as [H|(l & t' & -> & H)].
  - left. intros [E|E]; auto.
  - right. exists (a :: l), t'. split; auto. intros [E|E]; auto.
Qed.
Lemma content_exists txt : content_of txt (getlines txt).
Proof.
  remember (List.length txt) as n eqn:En. revert txt En.
  induction n as [n IH] using lt_wf_ind. intros txt ->.
  destruct (line_decomp txt) as [H|(l & t & -> & H)].
  - destruct txt as [|a t]. { split; cbn; auto. }
    unfold getlines. rewrite getlines_aux_last; auto; try (cbn; congruence).
    cbn [rev app]. split. { constructor; auto. }
    right. exists [], (a :: t). repeat split; auto. congruence.
  - unfold getlines. rewrite getlines_aux_line; auto. cbn [rev app]. fold (getlines t).
    assert (L : (List.length t < List.length (l ++ 10%N :: t))%nat) by (rewrite app_length; cbn; lia).
    destruct (IH _ L t eq_refl) as (F & [E|(ls' & l' & E & n & E2)]).
    + split. { constructor; auto. } left. cbn. now rewrite <- E.
    + split. { constructor; auto. } right. exists (l :: ls'), l'. rewrite E. repeat split; auto.
      cbn. rewrite <- app_assoc. cbn. now rewrite <- E2.
Qed.
Lemma getlines_iff txt ls : content_of txt ls <-> getlines txt = ls.
Proof. split; [apply getlines_content|]. intros <-. apply content_exists. Qed.

(** findKey and the assignments *)
Notation keysOf kvs := (@map (list N * list N) (list N) fst kvs).
Notation valsOf kvs := (@map (list N * list N) (list N) snd kvs).

Lemma findKey_some kvs k i : findKey (keysOf kvs) k = Some i -> binds kvs k (nth i (valsOf kvs) []).
Proof.
  revert i; induction kvs as [|(k', v') t IH]; cbn; intros i.
  { intros Q. discriminate Q. }
  destruct (areStringsEqual k k') eqn:A.
  - intros H; inversion H; subst. cbn. constructor. now apply areStringsEqual_spec.
  - destruct (findKey (keysOf t) k) eqn:F; cbn; [|intros Q; discriminate]. intros H; inversion H; subst. cbn.
    constructor 2; auto. now apply areStringsEqual_false.
Qed.
Lemma binds_mentions kvs k v : binds kvs k v -> mentions kvs k.
Proof.
  induction 1. { exists k', v. split; [now left|auto]. }
  destruct IHbinds as (a & b & I & S). exists a, b. split; auto. now right.
Qed.
Lemma findKey_none kvs k : findKey (keysOf kvs) k = None <-> ~ mentions kvs k.
Proof.
  split.
  - induction kvs as [|(k', v') t IH]; cbn; intros H (a & b & I & S). { destruct I. }
    destruct (areStringsEqual k k') eqn:E; [discriminate|].
    destruct (findKey (keysOf t) k) eqn:F; [discriminate|].
    destruct I as [I|I].
    + inversion I; subst. apply areStringsEqual_false in E. auto.
    + apply IH; auto. exists a, b; auto.
  - intros H. destruct (findKey (keysOf kvs) k) eqn:F; auto.
    exfalso. apply H. eapply binds_mentions, findKey_some; eauto.
Qed.
Lemma binds_fun kvs k v v' : binds kvs k v -> binds kvs k v' -> v = v'.
Proof. intros H; revert v'; induction H; intros w W; inversion W; subst; auto; tauto. Qed.

(** reading all lines *)
Definition nonempty_keys (kvs : list (list N * list N)) := Forall (fun kv => fst kv <> []) kvs.

Lemma findKey_empty kvs : nonempty_keys kvs -> findKey (keysOf kvs) [] = None.
Proof.
  intros F. apply findKey_none. intros (k & v & I & S). unfold nonempty_keys in F. rewrite Forall_forall in F.
  apply F in I. cbn in I. unfold same_key in S. cbn in S. destruct k; [congruence|discriminate].
Qed.

Lemma readLine_scan ls : forall kvs ok, nonempty_keys kvs ->
  exists r okl, fold_left readLine ls (keysOf kvs, valsOf kvs, ok) = (keysOf r, valsOf r, ok && okl) /\
    scan kvs ls r okl.
Proof.
  induction ls as [|line ls IH]; intros kvs ok NE; cbn [fold_left].
  - exists kvs, true. rewrite andb_true_r. split; auto. constructor.
  - unfold readLine at 2. destruct (parseLine line) as [(k, v)|] eqn:P.
    + apply parseLine_inv in P as [(-> & -> & B)|(n & KV)].
      * rewrite findKey_empty by auto. cbn [isEmpty].
        destruct (IH kvs ok NE) as (r & okl & E & S). exists r, okl. split; auto. now constructor.
      * destruct (findKey (keysOf kvs) k) eqn:F.
        -- destruct (IH kvs false NE) as (r & okl & E & S). exists r, false. split.
           ++ rewrite E. now destruct ok.
           ++ eapply sc_dup; eauto. eapply binds_mentions, findKey_some; eauto.
        -- replace (isEmpty k) with false by (destruct k; [congruence|auto]).
           destruct (IH (kvs ++ [(k, v)]) ok) as (r & okl & E & S).
           { apply Forall_app. split; auto. }
           exists r, okl. split.
           ++ rewrite <- E. now rewrite !map_app.
           ++ eapply sc_kv; eauto. now apply findKey_none.
    + destruct (IH kvs false NE) as (r & okl & E & S). exists r, false. split.
      * rewrite E. now destruct ok.
      * eapply sc_bad; eauto.
        -- intros B. apply parseLine_blank in B. congruence.
        -- intros k v KV. apply parseLine_kv in KV. congruence.
Qed.

Lemma line_kv_fun line k v k' v' : line_kv line k v -> line_kv line k' v' -> k = k' /\ v = v'.
Proof. intros A B. apply parseLine_kv in A, B. rewrite A in B. inversion B; auto. Qed.
Lemma line_kv_not_blank line k v : line_kv line k v -> ~ line_blank line.
Proof.
  intros A B. assert (n : k <> []) by (destruct A as (? & ? & ? & ? & _ & _ & (n & _) & _); auto).
  apply parseLine_kv in A. apply parseLine_blank in B. rewrite A in B. inversion B; congruence.
Qed.

Lemma scan_fun acc ls r ok r' ok' : scan acc ls r ok -> scan acc ls r' ok' -> r = r' /\ ok = ok'.
Proof.
  intros S; revert r' ok'; induction S; intros r' ok' S'; inversion S'; subst; auto;
    repeat match goal with
    | A : line_kv ?l _ _, B : line_kv ?l _ _ |- _ =>
        destruct (line_kv_fun _ _ _ _ _ A B); subst; clear B
    | A : line_kv ?l _ _, B : line_blank ?l |- _ => exfalso; eapply line_kv_not_blank; eassumption
    | A : line_kv ?l ?k ?v, B : forall k v, ~ line_kv ?l k v |- _ => exfalso; eapply B; eassumption
    | A : line_blank ?l, B : ~ line_blank ?l |- _ => exfalso; eapply B; eassumption
    | A : mentions ?l ?k, B : ~ mentions ?l ?k |- _ => exfalso; eapply B; eassumption
    end; auto.
  all: match goal with IH : forall r' ok', scan ?a ?l r' ok' -> _, H : scan ?a ?l _ _ |- _ => destruct (IH _ _ H); subst end; auto.
Qed.

(** the reader follows the abstract machine *)
Definition agrees (s : kvr) (a : option (list (list N * list N))) : Prop :=
  match a with
  | None => s = mkKvr [] [] false (filename s)
  | Some kvs => keyVector s = keysOf kvs /\ valueVector s = valsOf kvs /\ isFileRead s = true
  end.

Lemma kstep_agrees s a o : agrees s a ->
  exists a', astep a o a' (snd (kstep s o)) /\ agrees (fst (kstep s o)) a'.
Proof.
  intros A. destruct o as [f c| |k]; cbn [kstep].
  - unfold readFile. destruct a as [kvs|].
    + destruct A as (A1 & A2 & A3). rewrite A3. cbn. exists (Some kvs). split; [constructor|]. now repeat split.
    + cbn in A. rewrite A. cbn [isFileRead keyVector valueVector].
      destruct c as [txt|].
      * destruct (readLine_scan (getlines txt) [] true) as (r & okl & E & S). { constructor. }
        cbn [map] in E. rewrite E. cbn [andb fst snd]. exists (Some r). split.
        -- assert (Q := as_read f txt (getlines txt) r okl (content_exists txt) S).
           destruct okl; exact Q.
        -- repeat split.
      * exists None. split; [constructor|reflexivity].
  - exists None. split; [constructor|reflexivity].
  - exists a. cbn [fst snd]. split; auto. unfold getString. destruct a as [kvs|].
    + destruct A as (A1 & A2 & A3). rewrite A3. cbn [negb]. rewrite A1, A2.
      destruct (findKey (keysOf kvs) k) eqn:F.
      * constructor. now apply findKey_some.
      * constructor. now apply findKey_none.
    + cbn in A. rewrite A. cbn. constructor.
Qed.

Lemma krun_sound ops : forall s a, agrees s a -> arun a ops (snd (krun s ops)).
Proof.
  induction ops as [|o ops IH]; intros s a A; cbn.
  - constructor.
  - destruct (kstep_agrees s a o A) as (a' & S & A'). destruct (kstep s o) as (s', r) eqn:E.
    specialize (IH s' a' A'). destruct (krun s' ops) as (s'', rs) eqn:E2. cbn in *. econstructor; eauto.
Qed.

Lemma astep_fun a o a1 r1 a2 r2 : astep a o a1 r1 -> astep a o a2 r2 -> a1 = a2 /\ r1 = r2.
Proof.
  intros S T; inversion S; subst; inversion T; subst; auto.
  - match goal with A : content_of ?t _, B : content_of ?t _ |- _ =>
      apply getlines_iff in A; apply getlines_iff in B; subst end.
    match goal with A : scan _ _ _ _, B : scan _ _ _ _ |- _ => destruct (scan_fun _ _ _ _ _ _ A B); subst end; auto.
  - match goal with A : binds _ _ _, B : binds _ _ _ |- _ => rewrite (binds_fun _ _ _ _ A B) end; auto.
  - exfalso. eauto using binds_mentions.
  - exfalso. eauto using binds_mentions.
Qed.
Lemma arun_fun a ops r1 r2 : arun a ops r1 -> arun a ops r2 -> r1 = r2.
Proof.
  intros R; revert r2; induction R; intros r2 Q; inversion Q; subst; auto.
  match goal with A : astep ?a ?o _ _, B : astep ?a ?o _ _ |- _ => destruct (astep_fun _ _ _ _ _ _ A B); subst end.
  f_equal; auto.
Qed.
Lemma krun_iff ops outs : snd (krun kvr_reset ops) = outs <-> arun None ops outs.
Proof.
  assert (A : arun None ops (snd (krun kvr_reset ops))) by (apply krun_sound; reflexivity).
  split; intros H; [now subst|]. eapply arun_fun; eauto.
Qed.

(** well-formed decks *)
Lemma deck_scan ls kvs : deck_lines ls kvs -> forall acc,
  (forall k v, In (k, v) kvs -> ~ mentions acc k) -> distinct_keys kvs -> scan acc ls (acc ++ kvs) true.
Proof.
  induction 1; intros acc HA HD.
  - rewrite app_nil_r. constructor.
  - constructor; auto.
  - destruct HD as (HD1 & HD2). eapply sc_kv; eauto. { eapply HA; now left. }
    replace (acc ++ (k, v) :: kvs)%list with ((acc ++ [(k, v)]) ++ kvs)%list by (now rewrite <- app_assoc).
    apply IHdeck_lines; auto. intros k' v' I (k'' & v'' & I2 & S).
    apply in_app_iff in I2 as [I2|[I2|[]]].
    + eapply HA; [right; eauto|]. exists k'', v''; auto.
    + inversion I2; subst. eapply HD1; eauto. now apply same_key_sym.
Qed.
Lemma distinct_binds kvs k k' v : distinct_keys kvs -> In (k, v) kvs -> same_key k' k -> binds kvs k' v.
Proof.
  induction kvs as [|(a, b) t IH]; intros D I S; [destruct I|]. destruct D as (D1 & D2). destruct I as [I|I].
  - inversion I; subst. now constructor.
  - constructor 2; auto. intros C. eapply D1; eauto. unfold same_key in *. congruence.
Qed.

Lemma readFile_fresh txt : exists kvs ok, scan [] (getlines txt) kvs ok /\
  forall fname, readFile kvr_reset fname (Some txt) =
    (mkKvr (keysOf kvs) (valsOf kvs) true fname, if ok then None else Some ParseFileError).
Proof.
  destruct (readLine_scan (getlines txt) [] true) as (r & okl & E & S). { constructor. }
  exists r, okl. split; auto. intros. unfold readFile. cbn [isFileRead kvr_reset keyVector valueVector].
  cbn [map] in E. rewrite E. destruct okl; auto.
Qed.
Lemma getString_read kvs f k : match getString (mkKvr (keysOf kvs) (valsOf kvs) true f) k with
  | inl v => binds kvs k v | inr e => e = KeyNotFound /\ ~ mentions kvs k end.
Proof.
  unfold getString. cbn. destruct (findKey (keysOf kvs) k) eqn:F; [now apply findKey_some|].
  split; auto. now apply findKey_none.
Qed.

Lemma deck_lookup txt ls kvs fname : content_of txt ls -> deck_lines ls kvs -> distinct_keys kvs ->
  exists s, readFile kvr_reset fname (Some txt) = (s, None) /\
    (forall k v k', In (k, v) kvs -> same_key k' k -> getString s k' = inl v) /\
    (forall k', (forall k v, In (k, v) kvs -> ~ same_key k' k) -> getString s k' = inr KeyNotFound).
Proof.
  intros C L D. apply getlines_iff in C. subst ls.
  destruct (readFile_fresh txt) as (r & ok & S & E).
  pose proof (deck_scan _ _ L [] ltac:(intros ? ? ? (? & ? & [] & _)) D) as S'. cbn in S'.
  destruct (scan_fun _ _ _ _ _ _ S S'); subst.
  exists (mkKvr (keysOf kvs) (valsOf kvs) true fname). split; [apply E|]. split.
  - intros k v k' I SK. pose proof (getString_read kvs fname k') as G.
    pose proof (distinct_binds _ _ _ _ D I SK) as B.
    destruct (getString _ k').
    + f_equal. eapply binds_fun; eauto.
    + destruct G as (_ & G). exfalso. apply G. eapply binds_mentions; eauto.
  - intros k' H. pose proof (getString_read kvs fname k') as G.
    destruct (getString _ k').
    + apply binds_mentions in G as (k & v & I & SK). exfalso. eapply H; eauto.
    + destruct G; subst; auto.
Qed.

Lemma scan_keeps acc ls r ok : scan acc ls r ok -> exists t, r = (acc ++ t)%list.
Proof.
  induction 1; eauto. { exists []. now rewrite app_nil_r. }
  destruct IHscan as (t & ->). exists ((k, v) :: t). now rewrite <- app_assoc.
Qed.
Lemma mentions_app acc t k : mentions acc k -> mentions (acc ++ t) k.
Proof. intros (a & b & I & S). exists a, b. split; auto. apply in_app_iff; auto. Qed.
Lemma mentions_same acc k k' : same_key k k' -> mentions acc k -> mentions acc k'.
Proof. intros S (a & b & I & T). exists a, b. split; auto. unfold same_key in *. congruence. Qed.

Lemma scan_mono_fail acc ls r ok q : scan acc ls r ok -> mentions acc q ->
  (exists line k' v, In line ls /\ line_kv line k' v /\ same_key q k') -> ok = false.
Proof.
  induction 1 as [acc|acc line ls r ok B S IH|acc line k v ls r ok KV1 NM S IH
                 |acc line k v ls r ok KV1 NM S IH|acc line ls r ok NB NK S IH];
    intros M (l0 & kk & vv & I & KV & SK); auto.
  - destruct I.
  - destruct I as [->|I]; [exfalso; eapply line_kv_not_blank; eauto|]. apply IH; auto. exists l0, kk, vv; auto.
  - destruct I as [->|I].
    + destruct (line_kv_fun _ _ _ _ _ KV1 KV); subst. exfalso. apply NM. eapply mentions_same; eauto.
    + apply IH; auto using mentions_app. exists l0, kk, vv; auto.
Qed.
Lemma scan_dup acc ls r ok ls1 ls2 line k v : scan acc ls r ok -> ls = (ls1 ++ line :: ls2)%list ->
  line_kv line k v -> (exists line' k' v', In line' ls2 /\ line_kv line' k' v' /\ same_key k k') -> ok = false.
Proof.
  intros S; revert ls1; induction S; intros ls1 E KV D; destruct ls1 as [|x ls1]; cbn in E; inversion E; subst; auto.
  - exfalso; eapply line_kv_not_blank; eauto.
  - eapply IHS; eauto.
  - destruct (line_kv_fun _ _ _ _ _ H KV); subst. eapply scan_mono_fail; eauto.
    exists k, v. split; [|reflexivity]. apply in_app_iff. right. now left.
  - eapply IHS; eauto.
Qed.
Lemma scan_malformed acc ls r ok line : scan acc ls r ok -> In line ls ->
  ~ line_blank line -> (forall k v, ~ line_kv line k v) -> ok = false.
Proof.
  induction 1; intros I NB NK; auto; try (destruct I; fail); destruct I as [->|I]; auto; try tauto.
  exfalso; eapply NK; eauto.
Qed.

Lemma deck_duplicate txt fname ls1 ls2 ls3 l1 l2 k1 v1 k2 v2 :
  content_of txt (ls1 ++ l1 :: ls2 ++ l2 :: ls3) -> line_kv l1 k1 v1 -> line_kv l2 k2 v2 -> same_key k1 k2 ->
  snd (readFile kvr_reset fname (Some txt)) = Some ParseFileError.
Proof.
  intros C K1 K2 SK. apply getlines_iff in C. destruct (readFile_fresh txt) as (r & ok & S & E).
  rewrite C in S. rewrite E. assert (H : ok = false). 2:{ now subst. }
  eapply scan_dup; eauto. exists l2, k2, v2. split; auto. apply in_app_iff. right. now left.
Qed.
Lemma deck_malformed txt fname ls line : content_of txt ls -> In line ls ->
  ~ line_blank line -> (forall k v, ~ line_kv line k v) ->
  snd (readFile kvr_reset fname (Some txt)) = Some ParseFileError.
Proof.
  intros C I NB NK. apply getlines_iff in C. destruct (readFile_fresh txt) as (r & ok & S & E).
  rewrite C in S. rewrite E. assert (H : ok = false). 2:{ now subst. }
  eapply scan_malformed; eauto.
Qed.

(** a failed read leaves the assignments readable *)
Lemma scan_first acc ls r ok line k v : scan acc ls r ok -> In line ls -> line_kv line k v -> mentions r k.
Proof.
  induction 1; intros I KV; try (destruct I; fail); destruct I as [->|I]; auto.
  - exfalso; eapply line_kv_not_blank; eauto.
  - destruct (line_kv_fun _ _ _ _ _ H KV); subst. apply scan_keeps in H1 as (t & ->).
    apply mentions_app. exists k, v. split; [|reflexivity]. apply in_app_iff. right; now left.
  - destruct (line_kv_fun _ _ _ _ _ H KV); subst. apply scan_keeps in H1 as (t & ->). now apply mentions_app.
  - exfalso. eapply H0; eauto.
Qed.
Lemma failed_read_exposes txt fname ls line k v s :
  content_of txt ls -> In line ls -> line_kv line k v ->
  readFile kvr_reset fname (Some txt) = (s, Some ParseFileError) -> exists v', getString s k = inl v'.
Proof.
  intros C I KV R. apply getlines_iff in C. destruct (readFile_fresh txt) as (r & ok & S & E).
  rewrite E in R. inversion R; subst. pose proof (getString_read r fname k) as G.
  destruct (getString _ k) as [v'|e]; eauto. destruct G as (_ & G). exfalso. apply G.
  eapply scan_first; eauto.
Qed.
