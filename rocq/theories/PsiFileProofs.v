From Verif Require Import Prelude Bytes LayoutModel LayoutProofs PsiFileModel PsiFileSpec.
From Coq Require Import Permutation.
Local Open Scope N_scope.

Lemma flat_map_concat {A B} (f : A -> list B) l : flat_map f l = concat (map f l).
Proof. apply flat_map_concat_map. Qed.

Local Open Scope nat_scope.

Lemma nth_error_flat_map_seq {B} (f : nat -> list B) w n i k :
  (forall j, j < n -> length (f j) = w) -> i < n -> k < w ->
  nth_error (flat_map f (seq 0 n)) (i * w + k) = nth_error (f i) k.
Proof.
  intros Hw Hi Hk. rewrite flat_map_concat.
  apply nth_error_concat_fixed; auto.
  - intros x Hx. apply in_map_iff in Hx. destruct Hx as (j & <- & Hj). apply in_seq in Hj.
    apply Hw; lia.
  - rewrite nth_error_map, nth_error_seq0; auto.
Qed.

Lemma flat_map_seq_length {B} (f : nat -> list B) w n :
  (forall j, j < n -> length (f j) = w) -> length (flat_map f (seq 0 n)) = n * w.
Proof.
  intros Hw. rewrite flat_map_concat, (concat_length_fixed w).
  - now rewrite map_length, seq_length.
  - intros x Hx. apply in_map_iff in Hx. destruct Hx as (j & <- & Hj). apply in_seq in Hj.
    apply Hw; lia.
Qed.

Lemma seq_split n c : c < n -> seq 0 n = seq 0 c ++ c :: seq (S c) (n - S c).
Proof.
  intros. replace n with (c + S (n - S c)) at 1 by lia. rewrite seq_app. cbn. reflexivity.
Qed.

Section Slab.
Variables ng nv na : nat.
Variable Psi : nat -> nat -> nat -> nat -> N.

Definition slab (c : nat) : list N :=
  flat_map (fun a => flat_map (fun v => flat_map (fun g => [Psi g v a c]) (seq 0 ng)) (seq 0 nv)) (seq 0 na).

Lemma slab_length c : length (slab c) = na * (nv * ng).
Proof.
  unfold slab. apply flat_map_seq_length. intros. apply flat_map_seq_length. intros.
  rewrite (flat_map_seq_length _ 1); auto. lia.
Qed.

Lemma slab_nth c g v a : g < ng -> v < nv -> a < na ->
  nth_error (slab c) (a * (nv * ng) + (v * ng + g)) = Some (Psi g v a c).
Proof.
  intros Hg Hv Ha. unfold slab.
  assert (L1 : forall a v, length (flat_map (fun g => [Psi g v a c]) (seq 0 ng)) = ng).
  { intros. rewrite (flat_map_seq_length _ 1); auto. lia. }
  assert (L2 : forall a, length (flat_map (fun v => flat_map (fun g => [Psi g v a c]) (seq 0 ng)) (seq 0 nv)) = nv * ng).
  { intros. apply flat_map_seq_length. auto. }
  rewrite nth_error_flat_map_seq; auto; [|nia].
  rewrite nth_error_flat_map_seq; auto.
  replace g with (g * 1 + 0) at 1 by lia.
  rewrite nth_error_flat_map_seq; auto.
Qed.

Lemma slab_bytes c : words_bytes (slab c) =
  flat_map (fun a => flat_map (fun v => flat_map (fun g =>
       u64_bytes (Psi g v a c)) (seq 0 ng)) (seq 0 nv)) (seq 0 na).
Proof.
  unfold slab.
  assert (W : forall {A} (f : A -> list N) l, words_bytes (flat_map f l) = flat_map (fun x => words_bytes (f x)) l).
  { induction l; [reflexivity|]. cbn [flat_map]. now rewrite words_bytes_app, IHl. }
  rewrite W. apply flat_map_ext. intros a. rewrite W. apply flat_map_ext. intros v.
  rewrite W. apply flat_map_ext. intros g. unfold words_bytes. cbn. reflexivity.
Qed.

Definition hdr (nc : nat) : list N := bytes_words psiName ++ [1%N; N.of_nat nc; N.of_nat na; N.of_nat ng].

Lemma image_words nc : psiImage ng nv na nc Psi = words_bytes (hdr nc ++ flat_map slab (seq 0 nc)).
Proof.
  unfold psiImage, hdr. rewrite !words_bytes_app.
  assert (E : words_bytes (bytes_words psiName) = psiName) by (vm_compute; reflexivity).
  rewrite E. unfold psiName. rewrite <- app_assoc. f_equal.
  rewrite !words_bytes_cons. cbn [words_bytes map concat]. rewrite <- !app_assoc. cbn [app].
  do 4 f_equal. 
  induction (seq 0 nc); [reflexivity|]. cbn [flat_map]. rewrite words_bytes_app, slab_bytes. now f_equal.
Qed.

Lemma hdr_length nc : length (hdr nc) = 8.
Proof. reflexivity. Qed.

Definition D := na * (nv * ng).

Lemma image_length nc : length (psiImage ng nv na nc Psi) = 8 * (8 + nc * D).
Proof.
  rewrite image_words, words_bytes_length, app_length, hdr_length.
  rewrite (flat_map_seq_length _ D); auto. intros; apply slab_length.
Qed.

(** Every write agrees with the image. *)
Definition goodWrite (nc : nat) (w : fwrite) : Prop :=
  forall p, covers w p = true ->
    nth_error (words_bytes (snd w)) (N.to_nat (p - fst w)) = nth_error (psiImage ng nv na nc Psi) (N.to_nat p).

Lemma nth_error_words_app a b k : 
  nth_error (words_bytes (a ++ b)) (8 * length a + k) = nth_error (words_bytes b) k.
Proof.
  rewrite words_bytes_app, nth_error_app2; rewrite words_bytes_length; [f_equal; lia|lia].
Qed.

Definition slabWrite (c : nat) : fwrite := (8 * (8 + N.of_nat c * N.of_nat D), slab c)%N.

Lemma slabWrite_good nc c : c < nc -> goodWrite nc (slabWrite c).
Proof.
  intros Hc p Hp. unfold covers, slabWrite in *. cbn [fst snd] in *.
  rewrite slab_length in Hp. fold D in Hp. apply andb_true_iff in Hp. destruct Hp as (P1 & P2).
  apply N.leb_le in P1. apply N.ltb_lt in P2.
  rewrite image_words, (seq_split nc c Hc), flat_map_app. cbn [flat_map].
  rewrite app_assoc.
  assert (LL : length (hdr nc ++ flat_map slab (seq 0 c)) = 8 + c * D).
  { rewrite app_length, hdr_length, (flat_map_seq_length _ D); auto. intros; apply slab_length. }
  replace (N.to_nat p) with (8 * length (hdr nc ++ flat_map slab (seq 0 c)) +
     N.to_nat (p - 8 * (8 + N.of_nat c * N.of_nat D))%N) by (rewrite LL; lia).
  rewrite nth_error_words_app, words_bytes_app, nth_error_app1; auto.
  rewrite words_bytes_length, slab_length. fold D. lia.
Qed.

Lemma headerWrite_good nc : goodWrite nc (headerWrite (N.of_nat nc) (N.of_nat na) (N.of_nat ng)).
Proof.
  intros p Hp. unfold covers, headerWrite in *. cbn [fst snd] in *. fold (hdr nc) in *.
  rewrite N.sub_0_r. rewrite image_words, words_bytes_app, nth_error_app1; auto.
  rewrite words_bytes_length. apply andb_true_iff in Hp. destruct Hp as (P1 & P2).
  apply N.ltb_lt in P2. lia.
Qed.

Lemma apply_good nc l f : Forall (goodWrite nc) l ->
  forall p, applyWrites f l p =
    if existsb (fun w => covers w p) l then nth_error (psiImage ng nv na nc Psi) (N.to_nat p) else f p.
Proof.
  intros HF p. revert f; induction l as [|w l IH]; intros f; cbn; auto.
  inversion HF; subst. unfold applyWrites in *. rewrite IH by auto.
  destruct (existsb (fun w => covers w p) l); [now rewrite orb_true_r|].
  rewrite orb_false_r. unfold applyWrite.
  rewrite words_bytes_length. replace (N.of_nat (8 * length (snd w))) with (8 * N.of_nat (length (snd w)))%N by lia.
  fold (covers w p). destruct (covers w p) eqn:E; auto.
Qed.

End Slab.

(** Coverage. *)
Lemma cover_unique ng nv na Psi nc (cells : list nat) p :
  Permutation cells (seq 0 nc) -> (p < N.of_nat (8 * (8 + nc * D ng nv na)))%N ->
  length (filter (fun w => covers w p)
     (headerWrite (N.of_nat nc) (N.of_nat na) (N.of_nat ng) :: map (slabWrite ng nv na Psi) cells)) = 1.
Proof.
  intros HP Hp.
  set (d := D ng nv na) in *.
  assert (CV : forall c, covers (slabWrite ng nv na Psi c) p =
     ((8 * (8 + N.of_nat c * N.of_nat d) <=? p)%N && (p <? 8 * (8 + N.of_nat c * N.of_nat d) + 8 * N.of_nat d)%N)).
  { intros c. unfold covers, slabWrite. cbn [fst snd]. rewrite slab_length. reflexivity. }
  assert (CH : covers (headerWrite (N.of_nat nc) (N.of_nat na) (N.of_nat ng)) p = (p <? 64)%N).
  { unfold covers, headerWrite. cbn [fst snd]. 
    rewrite app_length. cbn [length]. change (length (bytes_words psiName)) with 4%nat.
    destruct (N.leb_spec 0 p); [|lia]. reflexivity. }
  assert (FL : forall l : list nat, length (filter (fun w => covers w p) (map (slabWrite ng nv na Psi) l)) =
     length (filter (fun c => covers (slabWrite ng nv na Psi c) p) l)).
  { induction l; auto. cbn [map filter]. destruct (covers (slabWrite ng nv na Psi a) p); cbn [length]; auto. }
  assert (PF : forall l l' (f : nat -> bool), Permutation l l' -> length (filter f l) = length (filter f l')).
  { intros l l' f HPl. induction HPl; auto.
    - cbn. destruct (f x); cbn; auto.
    - cbn. destruct (f x), (f y); cbn; auto.
    - congruence. }
  assert (UN : forall (f : nat -> bool) n c0, c0 < n -> f c0 = true -> (forall c, f c = true -> c = c0) ->
      length (filter f (seq 0 n)) = 1).
  { intros f n c0 Hc Hf HU. rewrite (seq_split n c0 Hc), filter_app. cbn [filter]. rewrite Hf.
    assert (Z : forall l, ~ In c0 l -> filter f l = []).
    { induction l; intros Hn; auto. cbn. destruct (f a) eqn:E.
      - exfalso; apply Hn. left. now apply HU.
      - apply IHl. intros X. apply Hn. now right. }
    rewrite !Z; auto.
    - intros X; apply in_seq in X; lia.
    - intros X; apply in_seq in X; lia. }
  cbn [filter]. rewrite CH. destruct (N.ltb_spec p 64).
  - cbn [length]. f_equal. rewrite FL.
    assert (Z : forall l, filter (fun c => covers (slabWrite ng nv na Psi c) p) l = []).
    { induction l; auto. cbn [filter]. rewrite CV. destruct (N.leb_spec (8 * (8 + N.of_nat a * N.of_nat d)) p); auto. lia. }
    now rewrite Z.
  - rewrite FL, (PF _ _ _ HP).
    assert (d > 0). { destruct d; [|lia]. rewrite Nat.mul_0_r in Hp. lia. }
    assert (exists q r, (p - 64)%N = N.of_nat (q * (8 * d) + r) /\ r < 8 * d /\ q < nc) as (q & r & E & Hr & Hq).
    { exists (N.to_nat (p - 64) / (8 * d)), (N.to_nat (p - 64) mod (8 * d)).
      pose proof (Nat.div_mod (N.to_nat (p - 64)) (8 * d)).
      pose proof (Nat.mod_upper_bound (N.to_nat (p - 64)) (8 * d)).
      split; [|split].
      - rewrite (Nat.mul_comm _ (8 * d)), <- H1 by lia. lia.
      - apply H2; lia.
      - apply Nat.div_lt_upper_bound; [lia|]. nia. }
    apply (UN _ nc q); auto.
    + rewrite CV. apply andb_true_iff; split; [apply N.leb_le|apply N.ltb_lt]; nia.
    + intros c Hc. rewrite CV in Hc. apply andb_true_iff in Hc. destruct Hc as (A & B).
      apply N.leb_le in A. apply N.ltb_lt in B. nia.
Qed.

Lemma to_i32_small x : (x < 2147483648)%N -> to_i32 x = Z.of_N x.
Proof.
  intros H. unfold to_i32. rewrite N.mod_small by lia.
  destruct (Z.ltb_spec (Z.of_N x) 2147483648); lia.
Qed.

Lemma i32_to_u64_small z : (0 <= z < 2147483648)%Z -> i32_to_u64 z = Z.to_N z.
Proof. intros. unfold i32_to_u64. now rewrite Z.mod_small by lia. Qed.

Lemma cellWrite_ok ng nv na Psi r cell gc nc :
  (N.of_nat (D ng nv na) < 2147483648)%N -> (8 * (8 + N.of_nat nc * N.of_nat (D ng nv na)) < two64)%N ->
  length (lgCell r) <= nc ->
  nth_error (lgCell r) cell = Some gc -> (gc < N.of_nat nc)%N ->
  0 < ng -> 0 < nv -> 0 < na ->
  agrees ng nv na Psi r ->
  cellWrite (N.of_nat ng) (N.of_nat nv) (N.of_nat na) r cell = Some (slabWrite ng nv na Psi (N.to_nat gc)).
Proof.
  intros HD Hsz Hle Hn Hgc Pg Pv Pa Hag.
  assert (Hcell : cell < length (lgCell r)) by (apply nth_error_Some; congruence).
  set (d := D ng nv na) in *.
  assert (Ed : (N.of_nat na * N.of_nat ng * N.of_nat nv = N.of_nat d)%N).
  { unfold d, D. rewrite !Nat2N.inj_mul. lia. }
  assert (Hna : (N.of_nat na * N.of_nat ng <= N.of_nat d)%N). { rewrite <- Ed. nia. }
  assert (B0 : (N.of_nat (length (lgCell r)) * N.of_nat d < two64)%N) by nia.
  unfold two64 in *.
  unfold cellWrite. rewrite Hn.
  (* index of the first element *)
  assert (Hidx : forall g v a, g < ng -> v < nv -> a < na ->
    index4 (N.of_nat ng) (N.of_nat nv) (N.of_nat na) (N.of_nat (length (lgCell r)))
      (N.of_nat g) (N.of_nat v) (N.of_nat a) (N.of_nat cell)
    = Some (N.of_nat (cell * d + (a * (nv * ng) + (v * ng + g))))).
  { intros g v a Hg Hv Ha. unfold index4.
    destruct (N.ltb_spec (N.of_nat g) (N.of_nat ng)); [|lia].
    destruct (N.ltb_spec (N.of_nat v) (N.of_nat nv)); [|lia].
    destruct (N.ltb_spec (N.of_nat a) (N.of_nat na)); [|lia].
    destruct (N.ltb_spec (N.of_nat cell) (N.of_nat (length (lgCell r)))); [|lia].
    cbn [andb]. f_equal.
    assert (K : ((((cell * na + a) * nv + v) * ng + g) = cell * d + (a * (nv * ng) + (v * ng + g)))%nat).
    { unfold d, D. nia. }
    assert (KB : (cell * d + (a * (nv * ng) + (v * ng + g)) < length (lgCell r) * d)%nat).
    { assert (a * (nv * ng) + (v * ng + g) < d)%nat. { unfold d, D. nia. } nia. }
    rewrite <- K in *.
    assert (MM : forall x y z, 0 < y -> x * y <= z -> x <= z) by (clear; intros; nia).
    set (LD := length (lgCell r) * d) in *.
    assert (BLD : (N.of_nat LD < 18446744073709551616)%N) by (unfold LD; rewrite Nat2N.inj_mul; exact B0).
    assert (B3 : ((cell * na + a) * nv + v) * ng <= LD) by lia.
    assert (B2 : (cell * na + a) * nv + v <= LD) by (apply (MM _ ng); auto).
    assert (B2' : (cell * na + a) * nv <= LD) by lia.
    assert (B1 : cell * na + a <= LD) by (apply (MM _ nv); auto).
    assert (B1' : cell * na <= LD) by lia.
    clearbody LD.
    rewrite <- Nat2N.inj_mul.
    rewrite (w64_small (N.of_nat (cell * na))) by (unfold two64; lia).
    rewrite <- !Nat2N.inj_add.
    rewrite (w64_small (N.of_nat (cell * na + a))) by (unfold two64; lia).
    rewrite <- !Nat2N.inj_mul.
    rewrite (w64_small (N.of_nat ((cell * na + a) * nv))) by (unfold two64; lia).
    rewrite <- !Nat2N.inj_add.
    rewrite (w64_small (N.of_nat ((cell * na + a) * nv + v))) by (unfold two64; lia).
    rewrite <- !Nat2N.inj_mul.
    rewrite (w64_small (N.of_nat (((cell * na + a) * nv + v) * ng))) by (unfold two64; lia).
    rewrite <- !Nat2N.inj_add.
    rewrite (w64_small _) by (unfold two64; lia). reflexivity. }
  pose proof (Hidx 0 0 0 Pg Pv Pa) as I0. cbn [Nat.mul Nat.add] in I0.
  change (N.of_nat 0) with 0%N in I0. rewrite I0.
  rewrite (w64_small (N.of_nat na * N.of_nat ng)) by (unfold two64; lia).
  rewrite Ed. rewrite (w64_small (N.of_nat d)) by (unfold two64; lia).
  rewrite to_i32_small by auto.
  destruct (Z.ltb_spec (Z.of_N (N.of_nat d)) 0); [lia|].
  rewrite i32_to_u64_small by lia. rewrite N2Z.id.
  replace (Z.to_nat (Z.of_N (N.of_nat d))) with d by lia.
  assert (M : mapM (fun j => buf_read (psibuf r) (N.of_nat (cell * d + 0) + N.of_nat j)) (seq 0 d) =
              Some (slab ng nv na Psi (N.to_nat gc))).
  { assert (L : length (slab ng nv na Psi (N.to_nat gc)) = d) by apply slab_length.
    rewrite <- L at 1. rewrite (mapM_seq_nth _ _ (fun x => x)).
    - now rewrite map_id.
    - intros i x Hx.
      assert (Hi : i < d) by (rewrite <- L; apply nth_error_Some; congruence).
      set (g := (i mod ng)%nat). set (v := ((i / ng) mod nv)%nat). set (a := (i / (ng * nv))%nat).
      assert (Hg : g < ng) by (apply Nat.mod_upper_bound; lia).
      assert (Hv : v < nv) by (apply Nat.mod_upper_bound; lia).
      assert (Ha : a < na). { apply Nat.div_lt_upper_bound; [nia|]. unfold d, D in Hi. nia. }
      assert (Ei : (a * (nv * ng) + (v * ng + g) = i)%nat).
      { unfold a, v, g. clear - Pg Pv. rewrite <- Nat.div_div by lia.
        pose proof (Nat.div_mod i ng ltac:(lia)) as E1.
        pose proof (Nat.div_mod (i / ng) nv ltac:(lia)) as E2.
        transitivity (ng * (nv * (i / ng / nv) + (i / ng) mod nv) + i mod ng)%nat; [ring|].
        rewrite <- E2. now rewrite <- E1. }
      rewrite <- Ei, slab_nth in Hx by auto. apply Some_inj in Hx. subst x.
      pose proof (Hag cell gc g v a Hn Hg Hv Ha) as R. unfold read4 in R.
      rewrite Hidx in R by auto. rewrite <- R. f_equal. rewrite Ei. lia. }
  rewrite M. unfold slabWrite. fold d. f_equal. f_equal.
  assert (GB : (gc * N.of_nat d <= N.of_nat nc * N.of_nat d)%N) by nia.
  rewrite (w64_small (gc * N.of_nat d)) by (unfold two64; nia).
  rewrite (w64_small (8 + gc * N.of_nat d)) by (unfold two64; nia).
  rewrite (w64_small _) by (unfold two64; nia). rewrite N2Nat.id. lia.
Qed.

Definition goodRank ng nv na Psi nc r : Prop :=
  agrees ng nv na Psi r /\ length (lgCell r) <= nc /\ Forall (fun gc => (gc < N.of_nat nc)%N) (lgCell r).

Section Whole.
Variables (ng nv na nc : nat) (Psi : nat -> nat -> nat -> nat -> N).
Hypothesis HD : (N.of_nat (D ng nv na) < 2147483648)%N.
Hypothesis Hsz : (8 * (8 + N.of_nat nc * N.of_nat (D ng nv na)) < two64)%N.
Hypotheses (Pg : 0 < ng) (Pv : 0 < nv) (Pa : 0 < na).

Lemma rankWrites_ok h r : goodRank ng nv na Psi nc r ->
  rankWrites (N.of_nat ng) (N.of_nat nv) (N.of_nat na) h r =
  Some (h ++ map (fun gc => slabWrite ng nv na Psi (N.to_nat gc)) (lgCell r)).
Proof.
  intros (Ha & Hl & Hf). unfold rankWrites.
  rewrite (mapM_seq_nth _ _ (fun gc => slabWrite ng nv na Psi (N.to_nat gc))); auto.
  intros i gc Hi. eapply cellWrite_ok; eauto.
  rewrite Forall_forall in Hf. apply Hf. eapply nth_error_In; eauto.
Qed.

Lemma allWrites_ok ranks :
  ranks <> [] -> Permutation (concat (map lgCell ranks)) (map N.of_nat (seq 0 nc)) ->
  (forall r, In r ranks -> agrees ng nv na Psi r) ->
  exists ws, allWrites (N.of_nat ng) (N.of_nat nv) (N.of_nat na) ranks = Some ws /\
    concat ws = headerWrite (N.of_nat nc) (N.of_nat na) (N.of_nat ng) ::
                map (slabWrite ng nv na Psi) (map N.to_nat (concat (map lgCell ranks))).
Proof.
  intros Hne HP Hag.
  assert (HG : forall r, In r ranks -> goodRank ng nv na Psi nc r).
  { intros r Hr. split; auto.
    assert (Inc : forall x, In x (lgCell r) -> In x (concat (map lgCell ranks))).
    { intros x Hx. apply in_concat. exists (lgCell r). split; auto. now apply in_map. }
    assert (Lt : Forall (fun gc => (gc < N.of_nat nc)%N) (lgCell r)).
    { apply Forall_forall. intros x Hx. apply Inc in Hx.
      eapply Permutation_in in Hx; [|exact HP]. apply in_map_iff in Hx. destruct Hx as (k & <- & Hk).
      apply in_seq in Hk. lia. }
    split; auto.
    assert (LC : length (concat (map lgCell ranks)) = nc).
    { rewrite (Permutation_length HP), map_length, seq_length. reflexivity. }
    rewrite <- LC. apply in_split in Hr. destruct Hr as (l1 & l2 & ->).
    rewrite map_app, concat_app. cbn [map concat]. rewrite !app_length. lia. }
  assert (TC : totalCells ranks = N.of_nat nc).
  { transitivity (N.of_nat (length (concat (map lgCell ranks)))).
    - clear. unfold totalCells. induction ranks; auto. cbn [fold_right map concat].
      rewrite app_length, Nat2N.inj_add, IHranks. reflexivity.
    - rewrite (Permutation_length HP), map_length, seq_length. reflexivity. }
  destruct ranks as [|r0 rest]; [congruence|].
  unfold allWrites. rewrite TC. cbn [mapM fst snd].
  rewrite rankWrites_ok by (apply HG; now left).
  assert (R : mapM (fun hr => rankWrites (N.of_nat ng) (N.of_nat nv) (N.of_nat na) (fst hr) (snd hr))
      (map (fun r => ([], r)) rest) =
      Some (map (fun r => map (fun gc => slabWrite ng nv na Psi (N.to_nat gc)) (lgCell r)) rest)).
  { assert (HG' : forall r, In r rest -> goodRank ng nv na Psi nc r) by (intros; apply HG; now right).
    clear - HG' HD Hsz Pg Pv Pa. induction rest; auto. cbn [map mapM fst snd].
    rewrite rankWrites_ok by (apply HG'; now left). rewrite IHrest by (intros; apply HG'; now right).
    reflexivity. }
  rewrite R. eexists. split; [reflexivity|].
  cbn [concat map app]. f_equal. rewrite !map_app, map_map. f_equal.
  clear. induction rest; auto. cbn [map concat]. rewrite !map_app, map_map, IHrest. reflexivity.
Qed.

Lemma file_correct ranks :
  ranks <> [] -> Permutation (concat (map lgCell ranks)) (map N.of_nat (seq 0 nc)) ->
  (forall r, In r ranks -> agrees ng nv na Psi r) ->
  exists ws, allWrites (N.of_nat ng) (N.of_nat nv) (N.of_nat na) ranks = Some ws /\
    forall l, Permutation l (concat ws) ->
      (forall p, applyWrites emptyFile l p = nth_error (psiImage ng nv na nc Psi) (N.to_nat p)) /\
      (forall p, (p < N.of_nat (length (psiImage ng nv na nc Psi)))%N ->
         length (filter (fun w => covers w p) l) = 1).
Proof.
  intros Hne HP Hag. destruct (allWrites_ok ranks Hne HP Hag) as (ws & Ew & Ec).
  exists ws. split; auto. intros l Hl. rewrite Ec in Hl.
  set (cells := map N.to_nat (concat (map lgCell ranks))) in *.
  assert (PC : Permutation cells (seq 0 nc)).
  { unfold cells. eapply Permutation_trans; [apply Permutation_map, HP|].
    rewrite map_map. erewrite map_ext; [now rewrite map_id|]. intros; apply Nat2N.id. }
  assert (PF : forall (f : fwrite -> bool) a b, Permutation a b -> length (filter f a) = length (filter f b)).
  { intros f a b Hab. induction Hab; auto; cbn.
    - destruct (f x); cbn; auto.
    - destruct (f x), (f y); cbn; auto.
    - congruence. }
  assert (Cov : forall p, (p < N.of_nat (length (psiImage ng nv na nc Psi)))%N ->
         length (filter (fun w => covers w p) l) = 1).
  { intros p Hp. rewrite (PF _ _ _ Hl). apply cover_unique; auto. now rewrite image_length in Hp. }
  split; auto.
  assert (GW : Forall (goodWrite ng nv na Psi nc) l).
  { apply Forall_forall. intros w Hw. eapply Permutation_in in Hw; [|exact Hl].
    destruct Hw as [<-|Hw]; [apply headerWrite_good|].
    apply in_map_iff in Hw. destruct Hw as (c & <- & Hc). apply slabWrite_good.
    eapply Permutation_in in Hc; [|exact PC]. apply in_seq in Hc. lia. }
  intros p. rewrite (apply_good ng nv na Psi nc) by exact GW.
  destruct (existsb (fun w => covers w p) l) eqn:E; auto.
  destruct (N.lt_ge_cases p (N.of_nat (length (psiImage ng nv na nc Psi)))) as [Hp|Hp].
  - specialize (Cov p Hp). exfalso.
    assert (Z : filter (fun w => covers w p) l = []).
    { clear - E. induction l; auto. cbn in *. apply orb_false_iff in E. destruct E as (-> & E). auto. }
    rewrite Z in Cov. discriminate.
  - unfold emptyFile. symmetry. apply nth_error_None. lia.
Qed.
End Whole.

(** Two distributions of the same flux give the same file. *)
Lemma file_same ng nv na nc Psi ranks ranks' ws ws' l l' :
  (N.of_nat (D ng nv na) < 2147483648)%N -> (8 * (8 + N.of_nat nc * N.of_nat (D ng nv na)) < two64)%N ->
  0 < ng -> 0 < nv -> 0 < na -> ranks <> [] -> ranks' <> [] ->
  Permutation (concat (map lgCell ranks)) (map N.of_nat (seq 0 nc)) ->
  Permutation (concat (map lgCell ranks')) (map N.of_nat (seq 0 nc)) ->
  (forall r, In r ranks -> agrees ng nv na Psi r) -> (forall r, In r ranks' -> agrees ng nv na Psi r) ->
  allWrites (N.of_nat ng) (N.of_nat nv) (N.of_nat na) ranks = Some ws ->
  allWrites (N.of_nat ng) (N.of_nat nv) (N.of_nat na) ranks' = Some ws' ->
  Permutation l (concat ws) -> Permutation l' (concat ws') ->
  forall p, applyWrites emptyFile l p = applyWrites emptyFile l' p.
Proof.
  intros HD Hsz Pg Pv Pa N1 N2 P1 P2 A1 A2 E1 E2 L1 L2 p.
  destruct (file_correct ng nv na nc Psi HD Hsz Pg Pv Pa ranks N1 P1 A1) as (w & Ew & F).
  destruct (file_correct ng nv na nc Psi HD Hsz Pg Pv Pa ranks' N2 P2 A2) as (w' & Ew' & F').
  rewrite E1 in Ew. apply Some_inj in Ew. subst w. rewrite E2 in Ew'. apply Some_inj in Ew'. subst w'.
  rewrite (proj1 (F l L1)), (proj1 (F' l' L2)). reflexivity.
Qed.

(** The conversion of the slab size to int loses data: with exactly 2^32 values per cell
    nothing is written for the cell. *)
Lemma dataSize_truncated :
  exists ng nv na r ws, (na * ng * nv = 4294967296)%N /\ length (lgCell r) = 1 /\
    (blen (psibuf r) = size4 ng nv na 1)%N /\
    rankWrites ng nv na [] r = Some ws /\ ws = [(64%N, [])].
Proof.
  exists 1048576%N, 4%N, 1024%N, (mkPsiRank [0%N] (mkBuf (size4 1048576 4 1024 1) (fun _ => 7%N))).
  eexists. repeat split; vm_compute; reflexivity.
Qed.
