From Verif Require Import Prelude Bytes PacketModel.

Lemma createPacket_length gs a ds d p : createPacket gs a ds d = Some p -> length p = 16 + ds.
Proof.
  unfold createPacket. destruct (Nat.leb_spec ds (length d)); [|discriminate].
  intros H'; apply Some_inj in H'; subst p. rewrite !app_length, !u64_length, firstn_length_le; lia.
Qed.

Lemma splitPacket_create gs a ds d p t : (gs < two64)%N -> (a < two64)%N ->
  createPacket gs a ds d = Some p ->
  splitPacket (p ++ t) = Some (gs, a, firstn ds d ++ t).
Proof.
  intros Hg Ha H. pose proof (createPacket_length _ _ _ _ _ H) as L.
  unfold createPacket in H. destruct (Nat.leb_spec ds (length d)); [|discriminate].
  apply Some_inj in H; subst p. unfold splitPacket.
  rewrite !app_length, !u64_length.
  destruct (Nat.leb_spec 16 (8 + (8 + length (firstn ds d)) + length t)); [|lia].
  rewrite <- !app_assoc. change 16 with (8 + 8). rewrite skipn_add.
  rewrite !(skipn_app_exact 8) by apply u64_length.
  rewrite !(firstn_app_exact 8) by apply u64_length.
  now rewrite !u64_roundtrip by auto.
Qed.

Lemma packAll_app ds ps buf r : packAll ds buf ps = Some r ->
  exists l, mapM (fun p => createPacket (fst (fst p)) (snd (fst p)) ds (snd p)) ps = Some l /\
            r = buf ++ concat l.
Proof.
  revert buf; induction ps as [|[[gs a] d] ps IH]; intros buf H; cbn in *.
  - exists []. injection H as <-. now rewrite app_nil_r.
  - destruct (createPacket gs a ds d) as [p|]; [|discriminate].
    destruct (IH _ H) as (l & E & ->). rewrite E.
    exists (p :: l). split; auto. cbn. now rewrite app_assoc.
Qed.

Lemma skipn_concat_fixed {A} w (ll : list (list A)) i :
  (forall x, In x ll -> length x = w) -> skipn (i * w) (concat ll) = concat (skipn i ll).
Proof.
  revert i; induction ll; intros i H; cbn.
  - rewrite skipn_nil. destruct i; reflexivity.
  - destruct i; cbn; auto.
    rewrite skipn_app, (H a) by now left.
    rewrite skipn_all2 by (rewrite (H a) by (now left); lia).
    replace (w + i * w - w) with (i * w) by lia. cbn. apply IHll. intros; apply H; now right.
Qed.

(** Round trip of a whole message. *)
Lemma pack_unpack ds ps : 
  Forall (fun p => (fst (fst p) < two64)%N /\ (snd (fst p) < two64)%N /\ length (snd p) = ds) ps ->
  exists msg, packAll ds [] ps = Some msg /\ length msg = length ps * (16 + ds) /\
    exists out, unpackAll ds msg = Some out /\
      map (fun p => (fst (fst p), snd (fst p), firstn ds (snd p))) out = ps.
Proof.
  intros HF.
  assert (T : forall ps, Forall (fun p => length (snd p) = ds) ps -> forall buf, exists r, packAll ds buf ps = Some r).
  { induction ps0 as [|[[gs a] d] ps0 IH]; intros F buf; cbn; eauto.
    inversion F; subst. cbn in *. unfold createPacket.
    destruct (Nat.leb_spec (length d) (length d)); [|lia]. auto. }
  destruct (T ps) with (buf := @nil N) as (msg & Em).
  { eapply Forall_impl; [|exact HF]. cbn; tauto. }
  exists msg. split; auto.
  destruct (packAll_app _ _ _ _ Em) as (l & El & ->). cbn [app].
  assert (W : forall x, In x l -> length x = 16 + ds).
  { intros x Hx. destruct (In_nth_error _ _ Hx) as (i & Hi).
    destruct (mapM_nth _ _ _ _ _ El Hi) as (p & _ & Hp). eapply createPacket_length; eauto. }
  assert (LL : length l = length ps) by (eapply mapM_length; eauto).
  assert (Len : length (concat l) = length ps * (16 + ds)).
  { rewrite (concat_length_fixed (16 + ds)) by auto. f_equal. exact LL. }
  split; auto.
  unfold unpackAll. rewrite Len.
  assert (Dv : length ps * (16 + ds) / (16 + ds) = length ps) by (apply Nat.div_mul; lia).
  assert (Md : length ps * (16 + ds) mod (16 + ds) = 0) by (apply Nat.mod_mul; lia).
  rewrite Dv, Md. cbn [Nat.eqb].
  set (f := fun i => splitPacket (skipn (i * (16 + ds)) (concat l))).
  assert (F : forall i p, nth_error ps i = Some p ->
     f i = Some (fst (fst p), snd (fst p), snd p ++ concat (skipn (S i) l))).
  { intros i p Hp. unfold f. rewrite (skipn_concat_fixed (16 + ds)) by auto.
    rewrite Forall_forall in HF. pose proof (HF p (nth_error_In _ _ Hp)) as (Hg & Ha & Hd).
    assert (Hi : i < length l) by (rewrite LL; apply nth_error_Some; congruence).
    destruct (nth_error l i) as [q|] eqn:Eq; [|apply nth_error_None in Eq; lia].
    destruct (mapM_nth _ _ _ _ _ El Eq) as (p' & Hp' & Hc). rewrite Hp in Hp'. injection Hp' as <-.
    assert (Sk : skipn i l = q :: skipn (S i) l).
    { clear -Eq. revert i Eq; induction l; intros [|i] H; cbn in *; try discriminate.
      - now injection H as <-.
      - now apply IHl. }
    rewrite Sk. cbn [concat]. rewrite (splitPacket_create _ _ _ _ _ _ Hg Ha Hc).
    rewrite <- Hd at 1. now rewrite firstn_all. }
  assert (G : exists out, mapM f (seq 0 (length ps)) = Some out /\
      map (fun p => (fst (fst p), snd (fst p), firstn ds (snd p))) out = ps).
  2:{ exact G. }
  clear -F HF.
  enough (K : forall k ps, 
     Forall (fun p => (fst (fst p) < two64)%N /\ (snd (fst p) < two64)%N /\ length (snd p) = ds) ps ->
     (forall i p, nth_error ps i = Some p -> exists t, f (k + i) = Some (fst (fst p), snd (fst p), snd p ++ t)) ->
     exists out, mapM f (seq k (length ps)) = Some out /\
      map (fun p => (fst (fst p), snd (fst p), firstn ds (snd p))) out = ps).
  { apply (K 0); auto. intros i p Hp. cbn [Nat.add]. rewrite (F i p Hp). eauto. }
  clear. intros k ps. revert k; induction ps as [|p ps IH]; intros k HF F; cbn.
  - exists []; auto.
  - destruct (F 0 p eq_refl) as (t & E). rewrite Nat.add_0_r in E. rewrite E.
    inversion HF; subst.
    destruct (IH (S k)) as (out & -> & Eo); auto.
    { intros i q Hq. destruct (F (S i) q Hq) as (t' & Et). exists t'. now rewrite Nat.add_succ_r in Et. }
    exists ((fst (fst p), snd (fst p), snd p ++ t) :: out). split; auto. cbn. rewrite Eo.
    destruct H1 as (_ & _ & L). destruct p as [[gs a] d]; cbn in *. subst ds.
    now rewrite firstn_app, Nat.sub_diag, firstn_all, app_nil_r.
Qed.

(** Payload. *)
Lemma fold_fupd_notin {A} (l : list A) (ix : A -> nat) (v : A -> N) b i :
  (forall x, In x l -> ix x <> i) ->
  fold_left (fun b x => fupd b (ix x) (v x)) l b i = b i.
Proof.
  revert b; induction l; intros b H; cbn; auto.
  rewrite IHl by (intros; apply H; now right). apply fupd_other.
  apply not_eq_sym, H. now left.
Qed.

Lemma fold_fupd_in {A} (l : list A) (ix : A -> nat) (v : A -> N) b x :
  In x l -> (forall y, In y l -> ix y = ix x -> v y = v x) ->
  fold_left (fun b x => fupd b (ix x) (v x)) l b (ix x) = v x.
Proof.
  revert b x; induction l; intros b x Hin H; [easy|]. cbn.
  destruct (in_dec Nat.eq_dec (ix x) (map ix l)) as [I|I].
  - apply in_map_iff in I. destruct I as (y & Ey & Hy). rewrite <- Ey.
    rewrite IHl; auto.
    + apply H; cbn; auto.
    + intros z Hz Ez. rewrite (H z), (H y); cbn; auto. congruence.
  - rewrite fold_fupd_notin.
    + destruct Hin as [->|Hx].
      * apply fupd_same.
      * exfalso. apply I, in_map, Hx.
    + intros y Hy E. apply I. rewrite <- E. now apply in_map.
Qed.

Lemma lfd_inj f g f' g' : f < 3 -> f' < 3 -> lfd f g = lfd f' g' -> f = f' /\ g = g'.
Proof. unfold lfd. lia. Qed.

Lemma filled_spec ng old faceVal f g : g < ng -> f < 3 ->
  fold_left (fun (b : nat -> N) (gf : nat * nat) => fupd b (lfd (snd gf) (fst gf)) (faceVal (fst gf) (snd gf)))
            (list_prod (seq 0 ng) (seq 0 3)) old (lfd f g) = faceVal g f.
Proof.
  intros Hg Hf.
  pose proof (fold_fupd_in (list_prod (seq 0 ng) (seq 0 3)) (fun gf : nat * nat => lfd (snd gf) (fst gf))
             (fun gf : nat * nat => faceVal (fst gf) (snd gf)) old (g, f)) as E0.
  cbn [fst snd] in E0. apply E0; clear E0.
  - apply in_prod; apply in_seq; lia.
  - intros [g' f'] Hy E. apply in_prod_iff in Hy. destruct Hy as (H1 & H2).
    apply in_seq in H1, H2. cbn in *. apply lfd_inj in E; try lia. destruct E; now subst.
Qed.

Lemma setSide_fold l (b : bound4) a s (ws : list N) g f a' s' :
  fold_left (fun (b : bound4) (fg : nat * nat) => bound_set b (snd fg) (fst fg) a s (nth (lfd (fst fg) (snd fg)) ws 0%N)) l b g f a' s' =
  if (existsb (fun fg => (f =? fst fg) && (g =? snd fg)) l && ((a' =? a)%N && (s' =? s)%N))%bool
   then nth (lfd f g) ws 0%N else b g f a' s'.
Proof.
  revert b; induction l as [|[f0 g0] l IH]; intros b; cbn; auto.
  rewrite IH. unfold bound_set at 1. cbn.
  destruct (Nat.eqb_spec f f0), (Nat.eqb_spec g g0), (N.eqb_spec a' a), (N.eqb_spec s' s), 
    (existsb (fun fg => (f =? fst fg) && (g =? snd fg)) l); cbn; subst; auto.
Qed.

Lemma payload_roundtrip ng old faceVal b side angle t :
  (forall g f, g < ng -> f < 3 -> (faceVal g f < two64)%N) ->
  length (getData ng old faceVal) = getDataSizeInBytes ng /\
  exists b', setSideData ng b side angle (getData ng old faceVal ++ t) = Some b' /\
    (forall g f, g < ng -> f < 3 -> b' g f angle side = faceVal g f) /\
    (forall g f a s, (a, s) <> (angle, side) -> b' g f a s = b g f a s).
Proof.
  intros Hv. unfold getData.
  set (filled := fold_left _ _ _).
  assert (Hfill : forall k, k < ng * 3 -> (filled k < two64)%N /\ filled k = faceVal (k / 3) (k mod 3)).
  { intros k Hk.
    assert (E : k = lfd (k mod 3) (k / 3)) by (unfold lfd; lia).
    assert (filled k = faceVal (k / 3) (k mod 3)).
    { rewrite E at 1. apply filled_spec; lia. }
    split; auto. rewrite H. apply Hv; lia. }
  split. { rewrite words_bytes_length, map_length, seq_length. unfold getDataSizeInBytes. lia. }
  unfold setSideData. rewrite fread_words_ok.
  2:{ apply Forall_forall. intros w Hw. apply in_map_iff in Hw. destruct Hw as (k & <- & Hk).
      apply in_seq in Hk. apply Hfill. lia. }
  2:{ now rewrite map_length, seq_length. }
  eexists. split; [reflexivity|]. split.
  - intros g f Hg Hf. rewrite setSide_fold.
    assert (X : existsb (fun fg => (f =? fst fg) && (g =? snd fg)) (list_prod (seq 0 3) (seq 0 ng)) = true).
    { apply existsb_exists. exists (f, g). split; [apply in_prod; apply in_seq; lia|].
      cbn. now rewrite !Nat.eqb_refl. }
    rewrite X, !N.eqb_refl. cbn [andb].
    rewrite nth_indep with (d' := filled 0) by (rewrite map_length, seq_length; unfold lfd; lia).
    rewrite map_nth, seq_nth by (unfold lfd; lia).
    destruct (Hfill (lfd f g)) as (_ & E). { unfold lfd; lia. }
    cbn [Nat.add]. rewrite E. f_equal; unfold lfd; lia.
  - intros g f a s Hne. rewrite setSide_fold.
    destruct (N.eqb_spec a angle), (N.eqb_spec s side); subst; rewrite ?andb_false_r; auto.
    now contradict Hne.
Qed.

(** A face's data travels through createPacket, a message, splitPacket and setSideData. *)
Lemma end_to_end ng old faceVal b gs angle side before after :
  (gs < two64)%N -> (angle < two64)%N ->
  (forall g f, g < ng -> f < 3 -> (faceVal g f < two64)%N) ->
  Forall (fun p => (fst (fst p) < two64)%N /\ (snd (fst p) < two64)%N /\
                   length (snd p) = getDataSizeInBytes ng) (before ++ after) ->
  exists msg out d b',
    packAll (getDataSizeInBytes ng) [] (before ++ (gs, angle, getData ng old faceVal) :: after) = Some msg /\
    unpackAll (getDataSizeInBytes ng) msg = Some out /\
    nth_error out (length before) = Some (gs, angle, d) /\
    setSideData ng b side angle d = Some b' /\
    (forall g f, g < ng -> f < 3 -> b' g f angle side = faceVal g f) /\
    (forall g f a s, (a, s) <> (angle, side) -> b' g f a s = b g f a s).
Proof.
  intros Hgs Ha Hv HF.
  set (ds := getDataSizeInBytes ng) in *.
  set (dat := getData ng old faceVal).
  assert (Ld : length dat = ds). { exact (proj1 (payload_roundtrip ng old faceVal b side angle [] Hv)). }
  destruct (pack_unpack ds (before ++ (gs, angle, dat) :: after)) as (msg & Em & _ & out & Eo & Emap).
  { apply Forall_app in HF. destruct HF. apply Forall_app. split; auto. }
  pose proof (f_equal (fun l => nth_error l (length before)) Emap) as En.
  cbn in En. rewrite nth_error_map in En.
  rewrite nth_error_app2, Nat.sub_diag in En by lia. cbn in En.
  destruct (nth_error out (length before)) as [[[g0 a0] d]|] eqn:Eout; [|discriminate].
  cbn in En. injection En as -> -> Ed.
  destruct (payload_roundtrip ng old faceVal b side angle (skipn ds d) Hv) as (_ & b' & Eb & P & Q).
  exists msg, out, d, b'. repeat (split; auto).
  rewrite <- Eb. f_equal. fold dat. rewrite <- Ed. now rewrite firstn_skipn.
Qed.
