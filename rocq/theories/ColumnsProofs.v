(** Proofs for the column partitioner. *)
From Coq Require Import Permutation.
From Verif Require Import Prelude MeshModel ColumnsModel ColumnsSpec.

(** ---- chunks ---- *)
Fixpoint offsets {A} (b : nat) (blocks : list (list A)) : list nat :=
  b :: match blocks with [] => [] | x :: t => offsets (b + length x) t end.

Lemma offsets_nth {A} (blocks : list (list A)) : forall b i, i <= length blocks ->
  nth_error (offsets b blocks) i = Some (b + length (concat (firstn i blocks))).
Proof.
  induction blocks as [|x t IH]; intros b i H; cbn [length] in H.
  - replace i with 0 by lia. cbn. f_equal. lia.
  - destruct i as [|i]; cbn [offsets nth_error firstn concat]; [cbn; f_equal; lia|].
    rewrite IH by lia. rewrite app_length. f_equal. lia.
Qed.

Fixpoint sumshare (size n i k : nat) : nat :=
  match k with 0 => 0 | S k' => share size n i + sumshare size n (S i) k' end.
Lemma sumshare_eq size n k : forall i, sumshare size n i k =
  k * (size / n) + (Nat.min (i + k) (size mod n) - Nat.min i (size mod n)).
Proof.
  induction k as [|k IH]; intros i; cbn [sumshare]; [lia|].
  rewrite IH. unfold share. generalize (size / n) (size mod n). intros q r.
  destruct (Nat.ltb_spec i r); lia.
Qed.
Lemma sumshare_total size n : 0 < n -> sumshare size n 0 n = size.
Proof.
  intros H. rewrite sumshare_eq. pose proof (Nat.mod_upper_bound size n). pose proof (Nat.div_mod size n).
  generalize dependent (size mod n). generalize (size / n). intros. lia.
Qed.

Lemma blocks_exist {A} size n k : forall i cur (l : list A), length l = sumshare size n i k ->
  exists blocks, concat blocks = l /\ length blocks = k /\ chunkLoop size n i k cur = offsets cur blocks /\
    forall j B, nth_error blocks j = Some B -> length B = share size n (i + j).
Proof.
  induction k as [|k IH]; intros i cur l H; cbn [sumshare] in H.
  - exists []. destruct l; [|discriminate]. repeat split. intros [|j] B E; discriminate.
  - destruct (IH (S i) (cur + share size n i) (skipn (share size n i) l)) as (bs & E1 & E2 & E3 & E4).
    { rewrite skipn_length. lia. }
    assert (L : length (firstn (share size n i) l) = share size n i) by (rewrite firstn_length; lia).
    exists (firstn (share size n i) l :: bs). cbn [concat length chunkLoop offsets]. repeat split.
    + rewrite E1. apply firstn_skipn.
    + lia.
    + rewrite L. rewrite <- E3. unfold share. now rewrite <- Nat.add_assoc.
    + intros [|j] B E; cbn in E.
      * inversion E; subst. rewrite L. f_equal. lia.
      * rewrite (E4 j B E). f_equal. lia.
Qed.
Lemma split_blocks {A} (l : list A) n : 0 < n ->
  exists blocks, concat blocks = l /\ length blocks = n /\ splitIntoChunks (length l) n = offsets 0 blocks /\
    forall j B, nth_error blocks j = Some B -> length B = share (length l) n j.
Proof.
  intros H. destruct (@blocks_exist A (length l) n n 0 0 l) as (bs & E1 & E2 & E3 & E4).
  { now rewrite sumshare_total. }
  exists bs. repeat split; auto.
Qed.

(** ---- assignment ---- *)
Definition setAt (pv : list nat) (c part : nat) : list nat := firstn c pv ++ part :: skipn (S c) pv.
Lemma setAt_length pv c part : c < length pv -> length (setAt pv c part) = length pv.
Proof. intros H. unfold setAt. rewrite app_length, firstn_length. cbn [length]. rewrite skipn_length. lia. Qed.
Lemma setAt_nth pv c part d : c < length pv -> nth_error (setAt pv c part) d = if d =? c then Some part else nth_error pv d.
Proof.
  intros H. unfold setAt. assert (F : length (firstn c pv) = c) by (rewrite firstn_length; lia).
  destruct (Nat.eqb_spec d c) as [->|NE].
  - rewrite nth_error_app2 by lia. now rewrite F, Nat.sub_diag.
  - destruct (Nat.lt_ge_cases d c).
    + rewrite nth_error_app1 by lia. now apply nth_error_firstn_lt.
    + rewrite nth_error_app2 by lia. rewrite F. replace (d - c) with (S (d - S c)) by lia. cbn [nth_error].
      rewrite nth_error_skipn_add. f_equal. lia.
Qed.
(** A list of (part, cells) assignments carried out in order. *)
Definition assignCells (pv : list nat) (pc : nat * list nat) : list nat :=
  fold_left (fun pv c => setAt pv c (fst pc)) (snd pc) pv.

Lemma assignCells_length cells part : forall pv, Forall (fun c => c < length pv) cells ->
  length (assignCells pv (part, cells)) = length pv.
Proof.
  unfold assignCells; cbn [fst snd]. induction cells as [|c t IH]; intros pv H; cbn [fold_left]; auto.
  inversion H; subst. rewrite IH; rewrite setAt_length; auto.
Qed.
Lemma assignCells_nth cells part : forall pv d, Forall (fun c => c < length pv) cells ->
  nth_error (assignCells pv (part, cells)) d = if existsb (Nat.eqb d) cells then Some part else nth_error pv d.
Proof.
  unfold assignCells; cbn [fst snd]. induction cells as [|c t IH]; intros pv d H; cbn [fold_left existsb]; auto.
  inversion H; subst. rewrite IH by (rewrite setAt_length; auto). rewrite setAt_nth by auto.
  destruct (existsb (Nat.eqb d) t); rewrite ?orb_true_r, ?orb_false_r; auto.
Qed.
Lemma assignAll_ok kbs : forall pv, Forall (fun c => c < length pv) (concat (map snd kbs)) ->
  NoDup (concat (map snd kbs)) ->
  let pv' := fold_left assignCells kbs pv in
  length pv' = length pv /\
  (forall k b c, In (k, b) kbs -> In c b -> nth_error pv' c = Some k) /\
  (forall c, ~ In c (concat (map snd kbs)) -> nth_error pv' c = nth_error pv c).
Proof.
  induction kbs as [|(k0, b0) kbs IH]; intros pv F ND; cbn [fold_left map snd concat] in *.
  - repeat split; auto. intros k b c [].
  - apply Forall_app in F as (F0 & F1).
    assert (L : length (assignCells pv (k0, b0)) = length pv) by (now apply assignCells_length).
    assert (ND1 : NoDup (concat (map snd kbs))).
    { clear - ND. induction b0; cbn in ND; auto. inversion ND; auto. }
    assert (DJ : forall c, In c b0 -> ~ In c (concat (map snd kbs))).
    { clear - ND. induction b0 as [|a b0 IHb]; cbn in ND; intros c; [intros []|]. inversion ND as [|? ? H1 H2]; subst.
      intros [->|H] C; [apply H1; apply in_app_iff; now right|]. now apply (IHb H2 c). }
    destruct (IH (assignCells pv (k0, b0))) as (I1 & I2 & I3); [now rewrite L|auto|].
    split; [congruence|]. split.
    + intros k b c [E|H] Hc; [|now apply (I2 k b)]. inversion E; subst. rewrite I3 by auto.
      rewrite assignCells_nth by auto. assert (X : existsb (Nat.eqb c) b = true) by (apply existsb_exists; exists c; split; auto; apply Nat.eqb_refl).
      now rewrite X.
    + intros c Hc. rewrite in_app_iff in Hc. rewrite I3 by tauto. rewrite assignCells_nth by auto.
      destruct (existsb (Nat.eqb c) b0) eqn:X; auto. apply existsb_exists in X as (d & Hd & E). apply Nat.eqb_eq in E. subst. tauto.
Qed.

Section Proofs.
  Context {T : Type} (zero : T) (add : T -> T -> T) (quarter : T -> T) (ltb : T -> T -> bool).
  Notation centroid := (centroid T).
  Context (sortX sortY : list centroid -> list centroid).
  Hypothesis HX : is_sort (compareX ltb) sortX.
  Hypothesis HY : is_sort (compareY ltb) sortY.

  Lemma sortY_length l : length (sortY l) = length l.
  Proof. destruct (HY l) as (P & _). now apply Permutation_length in P. Qed.

  Lemma sortColumns_blocks blocks : forall b A, length A = b ->
    sortColumns sortY (offsets b blocks) (A ++ concat blocks) = A ++ concat (map sortY blocks).
  Proof.
    induction blocks as [|x t IH]; intros b A L; cbn [offsets sortColumns concat map]; [reflexivity|].
    assert (S : sortRange sortY b (b + length x) (A ++ x ++ concat t) = (A ++ sortY x) ++ concat t).
    { unfold sortRange. rewrite firstn_app_exact by auto. rewrite skipn_app_exact by auto.
      replace (b + length x - b) with (length x) by lia. rewrite firstn_app_exact by auto.
      rewrite (app_assoc A x). rewrite skipn_app_exact by (rewrite app_length; lia). now rewrite <- app_assoc. }
    specialize (IH (b + length x) (A ++ sortY x)). rewrite app_length, sortY_length in IH.
    rewrite <- S in IH. rewrite <- app_assoc in IH. destruct t; cbn [offsets] in *; apply IH; lia.
  Qed.

  Lemma assignBlock_ok (cs : list centroid) part A B C pv : cs = A ++ B ++ C -> Forall (fun c => ct_cell c < length pv) B ->
    assignBlock cs part (length A) (length B) (Some pv) = Some (assignCells pv (part, map ct_cell B)).
  Proof.
    intros -> F. unfold assignBlock, assignCells; cbn [fst snd].
    enough (K : forall B1 B2 pv, B1 ++ B2 = B -> length pv = length pv -> Forall (fun c => ct_cell c < length pv) B2 ->
      fold_left (fun pv k => assignOne (A ++ B ++ C) part pv (length A + k)) (seq (length B1) (length B2)) (Some pv) =
      Some (fold_left (fun pv c => setAt pv c part) (map ct_cell B2) pv)).
    { apply (K [] B); auto. }
    clear F. intros B1 B2; revert B1; induction B2 as [|c B2 IH]; intros B1 pv0 E _ F; cbn [length seq fold_left map]; auto.
    inversion F; subst. unfold assignOne at 2. cbn [obind].
    rewrite nth_error_app2 by lia. replace (length A + length B1 - length A) with (length B1) by lia.
    rewrite <- !app_assoc. rewrite nth_error_app2 by lia. rewrite Nat.sub_diag. cbn [nth_error app obind].
    destruct (Nat.ltb_spec (ct_cell c) (length pv0)); [|lia]. fold (setAt pv0 (ct_cell c) part).
    specialize (IH (B1 ++ [c]) (setAt pv0 (ct_cell c) part)). rewrite app_length in IH. cbn [length] in IH.
    replace (length B1 + 1) with (S (length B1)) in IH by lia. rewrite <- !app_assoc in IH. cbn [app] in IH. apply IH; auto.
    now rewrite setAt_length.
  Qed.

  (** blocks with their part numbers *)
  Fixpoint number {A} (k : nat) (bs : list A) : list (nat * A) :=
    match bs with [] => [] | b :: t => (k, b) :: number (S k) t end.
  Lemma number_snd {A} (bs : list A) : forall k, map snd (number k bs) = bs.
  Proof. induction bs; intros; cbn; f_equal; auto. Qed.
  Lemma number_in {A} (bs : list A) : forall k i b, nth_error bs i = Some b -> In (k + i, b) (number k bs).
  Proof.
    induction bs; intros k [|i] b H; cbn in *; try discriminate.
    - inversion H; subst. left. f_equal. lia.
    - right. replace (k + S i) with (S k + i) by lia. auto.
  Qed.
  Lemma number_app {A} (a b : list A) k : number k (a ++ b) = number k a ++ number (k + length a) b.
  Proof. revert k; induction a as [|x a IH]; intros k; cbn; [now rewrite Nat.add_0_r|]. rewrite IH. replace (k + S (length a)) with (S k + length a) by lia. reflexivity. Qed.
  Definition cellsOf (kb : nat * list centroid) : nat * list nat := (fst kb, map ct_cell (snd kb)).

  Lemma assignColumn_ok (cs : list centroid) cx numX numY i b A col C blocks pv : 0 < numY ->
    cs = A ++ col ++ C -> length A = b -> nth_error cx i = Some b -> nth_error cx (S i) = Some (b + length col) ->
    concat blocks = col -> length blocks = numY -> splitIntoChunks (length col) numY = offsets 0 blocks ->
    Forall (fun c => ct_cell c < length pv) col ->
    assignColumn cs cx numX numY i (Some pv) =
    Some (fold_left assignCells (map cellsOf (number (i * numY) blocks)) pv).
  Proof.
    intros NY -> LA E1 E2 CB LB SP F. unfold assignColumn. rewrite E1, E2. cbn [obind].
    replace (b + length col - b) with (length col) by lia. rewrite SP.
    enough (K : forall b1 b2 pv, b1 ++ b2 = blocks -> Forall (fun c => ct_cell c < length pv) (concat b2) ->
      fold_left (fun pv j => let* c0 := nth_error (offsets 0 blocks) j in
        let* c1 := nth_error (offsets 0 blocks) (S j) in
        assignBlock (A ++ col ++ C) (i * numY + j) (b + c0) (c1 - c0) pv) (seq (length b1) (length b2)) (Some pv) =
      Some (fold_left assignCells (map cellsOf (number (i * numY + length b1) b2)) pv)).
    { specialize (K [] blocks pv eq_refl). rewrite LB in K. cbn [length] in K. rewrite Nat.add_0_r in K.
      apply K. now rewrite CB. }
    clear F. intros b1 b2; revert b1; induction b2 as [|B b2 IH]; intros b1 pv0 E F; cbn [length seq fold_left number map]; auto.
    cbn [concat] in F. apply Forall_app in F as (F1 & F2).
    assert (LE : length blocks = length b1 + S (length b2)) by (rewrite <- E, app_length; cbn; lia).
    rewrite !offsets_nth by lia. cbn [obind]. rewrite !Nat.add_0_l.
    assert (S1 : firstn (length b1) blocks = b1) by (rewrite <- E; now apply firstn_app_exact).
    assert (S2 : firstn (S (length b1)) blocks = b1 ++ [B]).
    { rewrite <- E. replace (b1 ++ B :: b2) with ((b1 ++ [B]) ++ b2) by (now rewrite <- app_assoc).
      apply firstn_app_exact. rewrite app_length. cbn. lia. }
    rewrite S1, S2, concat_app, app_length. cbn [concat length]. rewrite app_nil_r.
    replace (length (concat b1) + length B - length (concat b1)) with (length B) by lia.
    replace (b + length (concat b1)) with (length (A ++ concat b1)) by (rewrite app_length; lia).
    rewrite (assignBlock_ok _ _ (A ++ concat b1) B (concat b2 ++ C)); auto.
    2:{ rewrite <- CB, <- E, concat_app. cbn [concat]. now rewrite <- !app_assoc. }
    specialize (IH (b1 ++ [B]) (assignCells pv0 (i * numY + length b1, map ct_cell B))).
    rewrite app_length in IH. cbn [length] in IH. replace (length b1 + 1) with (S (length b1)) in IH by lia.
    rewrite <- app_assoc in IH. cbn [app] in IH. cbn [cellsOf fst snd].
    replace (S (i * numY + length b1)) with (i * numY + S (length b1)) by lia.
    apply IH; auto. rewrite assignCells_length; auto. rewrite Forall_map. exact F1.
  Qed.

  (** ---- everything ---- *)
  Variables (nodeX nodeY : N -> option T) (cells : list (q4 N)) (numX numY : nat) (cts : list centroid).
  Hypothesis NX : 0 < numX.
  Hypothesis NY : 0 < numY.
  Hypothesis HC : mapM (centroidOf zero add quarter nodeX nodeY cells) (seq 0 (length cells)) = Some cts.

  Lemma cts_cells : map ct_cell cts = seq 0 (length cells).
  Proof.
    clear - HC. revert HC. generalize (seq 0 (length cells)). intros l; revert cts. induction l as [|c l IH]; intros cts H; cbn in H.
    - inversion H; auto.
    - unfold centroidOf in H at 1. destruct (nth_error cells c); [|discriminate]. cbn [obind] in H.
      destruct (mean4 zero add quarter nodeX q); [|discriminate]. cbn [obind] in H.
      destruct (mean4 zero add quarter nodeY q); [|discriminate]. cbn [obind] in H.
      destruct (mapM _ l) eqn:E; [|discriminate]. inversion H; subst. cbn. f_equal; auto.
  Qed.

  (** The final arrangement: columns of blocks. *)
  Definition arranged (cols : list (list (list centroid))) (pv : list nat) : Prop :=
    length cols = numX /\ Permutation cts (concat (concat cols)) /\
    (forall i col, nth_error cols i = Some col -> length col = numY /\
       length (concat col) = share (length cells) numX i /\
       no_inversion (compareY ltb) (concat col) /\
       forall j B, nth_error col j = Some B -> length B = share (length (concat col)) numY j) /\
    (forall i i' col col' a b, i < i' -> nth_error cols i = Some col -> nth_error cols i' = Some col' ->
       In a (concat col) -> In b (concat col') -> compareX ltb b a = false) /\
    length pv = length cells /\
    (forall i j col B c, nth_error cols i = Some col -> nth_error col j = Some B -> In c B ->
       nth_error pv (ct_cell c) = Some (i * numY + j)).

  Lemma no_inversion_app {A} (lt : A -> A -> bool) l1 l2 a b : no_inversion lt (l1 ++ l2) -> In a l1 -> In b l2 -> lt b a = false.
  Proof.
    intros H Ha Hb. apply In_nth_error in Ha as (i & Hi). apply In_nth_error in Hb as (j & Hj).
    assert (i < length l1) by (apply nth_error_Some; congruence).
    apply (H i (length l1 + j)); [lia|now rewrite nth_error_app1|].
    rewrite nth_error_app2 by lia. replace (length l1 + j - length l1) with j by lia. auto.
  Qed.
  Lemma concat_split_two {A} (bs : list (list A)) : forall i i' x y, i < i' -> nth_error bs i = Some x -> nth_error bs i' = Some y ->
    exists l1 l2, concat bs = l1 ++ l2 /\ incl x l1 /\ incl y l2.
  Proof.
    intros i i' x y L Hx Hy. exists (concat (firstn i' bs)), (concat (skipn i' bs)).
    split; [rewrite <- concat_app; now rewrite firstn_skipn|]. split.
    - intros a Ha. apply in_concat. exists x. split; auto. apply (nth_error_In _ i). now rewrite nth_error_firstn_lt.
    - intros a Ha. apply in_concat. exists y. split; auto. apply (nth_error_In _ 0). rewrite nth_error_skipn_add. now rewrite Nat.add_0_r.
  Qed.

  Lemma columns_exist (xb : list (list centroid)) : exists cols : list (list (list centroid)),
    map (@concat _) cols = map sortY xb /\
    Forall (fun col => length col = numY /\ splitIntoChunks (length (concat col)) numY = offsets 0 col /\
       forall j B, nth_error col j = Some B -> length B = share (length (concat col)) numY j) cols.
  Proof.
    clear - NY. induction xb as [|x xb (cols & IH1 & IH2)]; [exists []; auto|].
    destruct (split_blocks (sortY x) numY NY) as (bs & E1 & E2 & E3 & E4).
    exists (bs :: cols). cbn. rewrite E1, IH1. split; auto. constructor; auto. rewrite E1. auto.
  Qed.

  Lemma assign_columns (cols : list (list (list centroid))) cs cx :
    cs = concat (map (@concat _) cols) -> cx = offsets 0 (map (@concat _) cols) ->
    Forall (fun col => length col = numY /\ splitIntoChunks (length (concat col)) numY = offsets 0 col) cols ->
    forall c1 c2 pv, c1 ++ c2 = cols -> Forall (fun c => ct_cell c < length pv) (concat (map (@concat _) c2)) ->
    NoDup (map ct_cell (concat (map (@concat _) c2))) ->
    fold_left (fun pv i => assignColumn cs cx numX numY i pv) (seq (length c1) (length c2)) (Some pv) =
    Some (fold_left assignCells (map cellsOf (number (length c1 * numY) (concat c2))) pv).
  Proof.
    intros Ecs Ecx FC c1 c2; revert c1. induction c2 as [|col c2 IH]; intros c1 pv E F ND; cbn [length seq fold_left concat map number]; auto.
    cbn [map concat] in F, ND. apply Forall_app in F as (F1 & F2).
    pose proof FC as FC'. rewrite <- E in FC'. apply Forall_app in FC' as (_ & FC'). inversion FC' as [|? ? (L1 & L2) FC2]; subst x l.
    assert (LE : length cols = length c1 + S (length c2)) by (rewrite <- E, app_length; cbn; lia).
    assert (S1 : firstn (length c1) (map (@concat _) cols) = map (@concat _) c1).
    { rewrite <- E, map_app. apply firstn_app_exact. now rewrite map_length. }
    assert (S2 : firstn (S (length c1)) (map (@concat _) cols) = map (@concat _) c1 ++ [concat col]).
    { rewrite <- E, map_app. cbn [map]. replace (map (@concat centroid) c1 ++ concat col :: map (@concat _) c2) with ((map (@concat _) c1 ++ [concat col]) ++ map (@concat _) c2) by (now rewrite <- app_assoc).
      apply firstn_app_exact. rewrite app_length, map_length. cbn. lia. }
    rewrite (assignColumn_ok cs cx numX numY (length c1) (length (concat (map (@concat _) c1)))
       (concat (map (@concat _) c1)) (concat col) (concat (map (@concat _) c2)) col pv NY); auto.
    - rewrite number_app, map_app, fold_left_app. rewrite L1.
      specialize (IH (c1 ++ [col]) (fold_left assignCells (map cellsOf (number (length c1 * numY) col)) pv)).
      rewrite app_length in IH. cbn [length] in IH. replace (length c1 + 1) with (S (length c1)) in IH by lia.
      rewrite <- app_assoc in IH. cbn [app] in IH. replace (length c1 * numY + numY) with (S (length c1) * numY) by lia.
      apply IH; auto.
      + assert (LL : length (fold_left assignCells (map cellsOf (number (length c1 * numY) col)) pv) = length pv).
        { apply assignAll_ok.
          - rewrite map_map. cbn [cellsOf snd]. rewrite <- (map_map snd (map ct_cell)), number_snd, <- concat_map. rewrite Forall_map. exact F1.
          - rewrite map_map. cbn [cellsOf snd]. rewrite <- (map_map snd (map ct_cell)), number_snd, <- concat_map.
            rewrite map_app in ND. clear - ND. induction (map ct_cell (concat col)) as [|x l IHl]; [constructor|]. cbn in ND. inversion ND; subst.
            constructor; auto. intros C. apply H1. apply in_app_iff; auto. }
        rewrite LL. exact F2.
      + rewrite map_app in ND. clear - ND. induction (map ct_cell (concat col)); cbn in ND; auto. inversion ND; auto.
    - rewrite Ecs, <- E, map_app, concat_app. cbn [map concat]. reflexivity.
    - rewrite Ecx, offsets_nth by (rewrite map_length; lia). now rewrite S1.
    - rewrite Ecx, offsets_nth by (rewrite map_length; lia). rewrite S2, concat_app, app_length. cbn [concat]. rewrite app_nil_r. f_equal.
  Qed.

  Lemma partition_arranged : exists cols pv,
    partitionColumns zero add quarter sortX sortY nodeX nodeY cells numX numY = Some pv /\ arranged cols pv.
  Proof.
    unfold partitionColumns. rewrite HC. cbn [obind].
    pose proof cts_cells as CC. assert (LC : length cts = length cells) by (rewrite <- (map_length ct_cell), CC; apply seq_length).
    destruct (HX cts) as (PX & SX). pose proof (Permutation_length PX) as LX.
    destruct (split_blocks (sortX cts) numX NX) as (xb & E1 & E2 & E3 & E4).
    destruct (columns_exist xb) as (cols & K1 & K2).
    rewrite LX, E3. 
    assert (EC : sortColumns sortY (offsets 0 xb) (sortX cts) = concat (map (@concat _) cols)).
    { rewrite <- E1, K1. apply (sortColumns_blocks xb 0 []). auto. }
    rewrite EC.
    assert (PXB : Permutation (concat xb) (concat (map sortY xb))).
    { clear - HY. induction xb; cbn; auto. apply Permutation_app; auto. apply HY. }
    assert (PC : Permutation cts (concat (map (@concat _) cols))) by (rewrite K1; eapply perm_trans; [exact PX|]; rewrite <- E1; exact PXB).
    assert (PCells : Permutation (seq 0 (length cells)) (map ct_cell (concat (map (@concat _) cols)))) by (rewrite <- CC; now apply Permutation_map).
    assert (OFF : offsets 0 xb = offsets 0 (map (@concat _) cols)).
    { rewrite K1. clear - HY. generalize 0. induction xb; intros k; cbn; auto. f_equal. rewrite sortY_length. auto. }
    assert (LCOL : length cols = numX) by (rewrite <- E2, <- (map_length sortY xb), <- K1; now rewrite map_length).
    rewrite OFF. replace (seq 0 numX) with (seq (length (@nil (list (list centroid)))) (length cols)) by (now rewrite LCOL).
    assert (F0 : Forall (fun c => ct_cell c < length (repeat 0 (length cells))) (concat (map (@concat _) cols))).
    { rewrite repeat_length. apply Forall_forall. intros c Hc.
      assert (In (ct_cell c) (seq 0 (length cells))) by (eapply Permutation_in; [symmetry; exact PCells|now apply in_map]).
      apply in_seq in H. lia. }
    assert (ND : NoDup (map ct_cell (concat (map (@concat _) cols)))) by (eapply Permutation_NoDup; [exact PCells|apply seq_NoDup]).
    rewrite (assign_columns cols _ _ eq_refl eq_refl) with (c1 := []) (pv := repeat 0 (length cells)); auto.
    2:{ eapply Forall_impl; [|exact K2]. cbn. intros a (A1 & A2 & _); auto. }
    eexists cols, _. split; [reflexivity|]. cbn [length Nat.mul].
    assert (CCN : map snd (map cellsOf (number 0 (concat cols))) = map (map ct_cell) (concat cols)).
    { rewrite map_map. cbn [cellsOf snd]. now rewrite <- (map_map snd (map ct_cell)), number_snd. }
    assert (CONC : concat (map (@concat centroid) cols) = concat (concat cols)).
    { clear. induction cols; cbn; auto. now rewrite IHcols, concat_app. }
    destruct (assignAll_ok (map cellsOf (number 0 (concat cols))) (repeat 0 (length cells))) as (I1 & I2 & _).
    { rewrite CCN, <- concat_map, <- CONC, Forall_map. exact F0. }
    { now rewrite CCN, <- concat_map, <- CONC. }
    assert (COLX : forall i col, nth_error cols i = Some col -> exists x, nth_error xb i = Some x /\ concat col = sortY x).
    { intros i col Hi. assert (H : nth_error (map (@concat _) cols) i = Some (concat col)) by (now apply map_nth_error).
      rewrite K1 in H. rewrite nth_error_map in H. destruct (nth_error xb i) as [x|]; [|discriminate]. exists x. inversion H; auto. }
    split; [exact LCOL|]. split; [now rewrite <- CONC|]. split; [|split; [|split]].
    - intros i col Hi. rewrite Forall_forall in K2. destruct (K2 col (nth_error_In _ _ Hi)) as (A1 & A2 & A3).
      destruct (COLX i col Hi) as (x & Hx & Ex). split; auto. split; [|split; auto].
      + rewrite Ex, sortY_length, (E4 i x Hx). f_equal. lia.
      + rewrite Ex. apply HY.
    - intros i i' col col' a b L Hi Hi' Ha Hb. destruct (COLX i col Hi) as (x & Hx & Ex). destruct (COLX i' col' Hi') as (y & Hy & Ey).
      rewrite Ex in Ha. rewrite Ey in Hb.
      apply (Permutation_in a (Permutation_sym (proj1 (HY x)))) in Ha. apply (Permutation_in b (Permutation_sym (proj1 (HY y)))) in Hb.
      destruct (concat_split_two xb i i' x y L Hx Hy) as (l1 & l2 & S & J1 & J2). rewrite <- E1, S in SX.
      eapply no_inversion_app; eauto.
    - now rewrite I1, repeat_length.
    - intros i j col B c Hi Hj Hc.
      apply (I2 (i * numY + j) (map ct_cell B)); [|now apply in_map].
      apply in_map_iff. exists (i * numY + j, B). split; auto.
      apply (number_in (concat cols) 0 (i * numY + j)).
      rewrite (nth_error_concat_fixed numY _ _ _ col); auto.
      + intros x Hx. rewrite Forall_forall in K2. now apply K2.
      + rewrite Forall_forall in K2. destruct (K2 col (nth_error_In _ _ Hi)) as (<- & _). apply nth_error_Some. congruence.
  Qed.

  (** ---- counts ---- *)
  Lemma count_block {A} (p : A -> bool) (bs : list (list A)) : forall i m, nth_error bs i = Some m ->
    (forall i' m' x, nth_error bs i' = Some m' -> In x m' -> p x = (i' =? i)) ->
    length (filter p (concat bs)) = length m.
  Proof.
    induction bs as [|b bs IH]; intros i m Hi H; [destruct i; discriminate|]. cbn [concat]. rewrite filter_app, app_length.
    destruct i as [|i]; cbn in Hi.
    - inversion Hi; subst. 
      assert (F1 : filter p m = m). { rewrite <- (map_id m) at 2. clear - H. pose proof (H 0 m) as K. cbn in K.
        assert (forall x, In x m -> p x = true) by (intros; now apply K). clear H K. induction m; cbn; auto.
        rewrite H0 by (now left). f_equal. apply IHm. intros; apply H0; now right. }
      assert (F2 : filter p (concat bs) = []).
      { assert (K : forall x, In x (concat bs) -> p x = false).
        { intros x Hx. apply in_concat in Hx as (b & Hb & Hx). apply In_nth_error in Hb as (k & Hk). apply (H (S k) b x); auto. }
        clear - K. induction (concat bs); cbn; auto. rewrite K by (now left). apply IHl. intros; apply K; now right. }
      rewrite F1, F2. cbn. lia.
    - assert (F1 : filter p b = []).
      { assert (K : forall x, In x b -> p x = false) by (intros x Hx; now apply (H 0 b x)).
        clear - K. induction b; cbn; auto. rewrite K by (now left). apply IHb. intros; apply K; now right. }
      rewrite F1. cbn [length Nat.add]. apply (IH i m Hi). intros i' m' x Hi' Hx. apply (H (S i') m' x); auto.
  Qed.
  Lemma filter_perm_length {A} (p : A -> bool) l l' : Permutation l l' -> length (filter p l) = length (filter p l').
  Proof.
    induction 1; cbn; auto; try congruence.
    - destruct (p x); cbn; congruence.
    - destruct (p x), (p y); cbn; congruence.
  Qed.

  Section Counts.
    Variables (cols : list (list (list centroid))) (pv : list nat).
    Hypothesis AR : arranged cols pv.

    Lemma perm_cells : Permutation (seq 0 (length cells)) (map ct_cell (concat (concat cols))).
    Proof. rewrite <- cts_cells. apply Permutation_map. apply AR. Qed.

    Lemma locate c : c < length cells -> exists i j col B a, nth_error cols i = Some col /\ nth_error col j = Some B /\
      In a B /\ ct_cell a = c /\ i < numX /\ j < numY /\ nth_error pv c = Some (i * numY + j).
    Proof.
      intros Hc. assert (In c (map ct_cell (concat (concat cols)))).
      { eapply Permutation_in; [apply perm_cells|]. apply in_seq. lia. }
      apply in_map_iff in H as (a & Ea & H). apply in_concat in H as (B & HB & Ha). apply in_concat in HB as (col & Hcol & HB).
      apply In_nth_error in Hcol as (i & Hi). apply In_nth_error in HB as (j & Hj).
      destruct AR as (A1 & A2 & A3 & A4 & A5 & A6). exists i, j, col, B, a. repeat split; auto.
      - rewrite <- A1. apply nth_error_Some. congruence.
      - destruct (A3 i col Hi) as (<- & _). apply nth_error_Some. congruence.
      - rewrite <- Ea. now apply (A6 i j col B a).
    Qed.

    Lemma div_part i j : j < numY -> (i * numY + j) / numY = i.
    Proof. clear - NY. intros. rewrite Nat.add_comm, Nat.div_add, Nat.div_small by lia. lia. Qed.
    Lemma mod_part i j : j < numY -> (i * numY + j) mod numY = j.
    Proof. clear - NY. intros. rewrite Nat.add_comm, Nat.mod_add, Nat.mod_small by lia. lia. Qed.

    Lemma pv_range : forall c, c < length cells -> exists p, nth_error pv c = Some p /\ p < numX * numY.
    Proof.
      intros c Hc. destruct (locate c Hc) as (i & j & _ & _ & _ & _ & _ & _ & _ & Li & Lj & E). exists (i * numY + j). split; auto. clear - Li Lj. nia.
    Qed.

    Lemma count_column i : i < numX -> count_cells (length cells) (fun c => nth c pv 0 / numY =? i) = share (length cells) numX i.
    Proof.
      intros Li. unfold count_cells. rewrite (filter_perm_length _ _ _ perm_cells).
      pose proof AR as (A1 & A2 & A3 & A4 & A5 & A6).
      destruct (nth_error cols i) as [col|] eqn:Hi; [|apply nth_error_None in Hi; lia].
      destruct (A3 i col Hi) as (B1 & B2 & _). rewrite <- B2.
      assert (CONC : map ct_cell (concat (concat cols)) = concat (map (fun col => map ct_cell (concat col)) cols)).
      { clear. induction cols; cbn; auto. now rewrite concat_app, map_app, IHl. }
      rewrite CONC. rewrite (count_block _ _ i (map ct_cell (concat col))); [apply map_length|exact (map_nth_error (fun col => map ct_cell (concat col)) i cols Hi)|].
      intros i' m' x Hm Hx. rewrite nth_error_map in Hm. destruct (nth_error cols i') as [col'|] eqn:Hi'; [|discriminate].
      inversion Hm; subst. apply in_map_iff in Hx as (a & <- & Ha). apply in_concat in Ha as (B & HB & Ha). apply In_nth_error in HB as (j & Hj).
      assert (E : nth_error pv (ct_cell a) = Some (i' * numY + j)) by (now apply (A6 i' j col' B a)).
      apply (nth_error_nth _ _ 0) in E. rewrite E. rewrite div_part; auto. destruct (A3 i' col' Hi') as (<- & _). apply nth_error_Some. congruence.
    Qed.

    Lemma count_part i j : i < numX -> j < numY ->
      count_cells (length cells) (fun c => nth c pv 0 =? i * numY + j) = share (share (length cells) numX i) numY j.
    Proof.
      intros Li Lj. unfold count_cells. rewrite (filter_perm_length _ _ _ perm_cells).
      pose proof AR as (A1 & A2 & A3 & A4 & A5 & A6).
      destruct (nth_error cols i) as [col|] eqn:Hi; [|apply nth_error_None in Hi; lia].
      destruct (A3 i col Hi) as (B1 & B2 & _ & B4). 
      destruct (nth_error col j) as [B|] eqn:Hj; [|apply nth_error_None in Hj; lia].
      rewrite <- B2, <- (B4 j B Hj).
      rewrite concat_map. rewrite (count_block _ _ (i * numY + j) (map ct_cell B)); [apply map_length| |].
      - apply map_nth_error. rewrite (nth_error_concat_fixed numY _ _ _ col); auto.
        intros x Hx. apply In_nth_error in Hx as (k & Hk). now apply (A3 k).
      - intros t m' x Hm Hx. rewrite nth_error_map in Hm. destruct (nth_error (concat cols) t) as [B'|] eqn:Ht; [|discriminate].
        inversion Hm; subst. apply in_map_iff in Hx as (a & <- & Ha).
        assert (LW : forall x, In x cols -> length x = numY). { intros x Hx. apply In_nth_error in Hx as (k & Hk). now apply (A3 k). }
        assert (Lt : t < length cols * numY). { rewrite <- (concat_length_fixed numY) by auto. apply nth_error_Some. congruence. }
        assert (DM : t = (t / numY) * numY + t mod numY) by (rewrite Nat.mul_comm; apply Nat.div_mod; lia).
        pose proof (Nat.mod_upper_bound t numY) as MB.
        assert (DL : t / numY < length cols) by (apply Nat.div_lt_upper_bound; lia).
        destruct (nth_error cols (t / numY)) as [col'|] eqn:Hi'; [|apply nth_error_None in Hi'; lia].
        rewrite DM in Ht. rewrite (nth_error_concat_fixed numY _ _ _ col') in Ht by (auto; lia).
        assert (E : nth_error pv (ct_cell a) = Some ((t / numY) * numY + t mod numY)) by (now apply (A6 _ _ col' B' a)).
        apply (nth_error_nth _ _ 0) in E. rewrite E, <- DM. reflexivity.
    Qed.

    Lemma ct_of c a : In a cts -> ct_cell a = c -> centroidOf zero add quarter nodeX nodeY cells c = Some a.
    Proof.
      intros Ha Ec. apply In_nth_error in Ha as (k & Hk). destruct (mapM_nth _ _ _ _ _ HC Hk) as (d & Hd & Ed).
      enough (d = c) by congruence. unfold centroidOf in Ed.
      destruct (nth_error cells d); [|discriminate]. cbn [obind] in Ed.
      destruct (mean4 zero add quarter nodeX q); [|discriminate]. cbn [obind] in Ed.
      destruct (mean4 zero add quarter nodeY q); [|discriminate]. cbn [obind] in Ed.
      apply Some_inj in Ed. subst a. exact Ec.
    Qed.
    Lemma locate_ct c a : c < length cells -> centroidOf zero add quarter nodeX nodeY cells c = Some a ->
      exists i j col B, nth_error cols i = Some col /\ nth_error col j = Some B /\ In a B /\ j < numY /\ nth_error pv c = Some (i * numY + j).
    Proof.
      intros Hc Ea. destruct (locate c Hc) as (i & j & col & B & a' & H1 & H2 & H3 & H4 & H5 & H6 & H7).
      exists i, j, col, B. repeat split; auto. replace a with a'; auto.
      assert (In a' cts). { destruct AR as (_ & P & _). eapply Permutation_in; [symmetry; exact P|].
        apply in_concat. exists B. split; auto. apply in_concat. exists col. split; eapply nth_error_In; eauto. }
      apply (ct_of c) in H; auto. congruence.
    Qed.

    Lemma order_x c1 c2 a1 a2 : c1 < length cells -> c2 < length cells ->
      centroidOf zero add quarter nodeX nodeY cells c1 = Some a1 -> centroidOf zero add quarter nodeX nodeY cells c2 = Some a2 ->
      nth c1 pv 0 / numY < nth c2 pv 0 / numY -> ltb (ct_x a2) (ct_x a1) = false.
    Proof.
      intros L1 L2 E1 E2 H. destruct (locate_ct c1 a1 L1 E1) as (i & j & col & B & H1 & H2 & H3 & H4 & H5).
      destruct (locate_ct c2 a2 L2 E2) as (i' & j' & col' & B' & H1' & H2' & H3' & H4' & H5').
      apply (nth_error_nth _ _ 0) in H5, H5'. rewrite H5, H5', !div_part in H by auto.
      destruct AR as (_ & _ & _ & A4 & _). apply (A4 i i' col col' a1 a2); auto; apply in_concat; [exists B|exists B']; split; auto; eapply nth_error_In; eauto.
    Qed.
    Lemma order_y c1 c2 a1 a2 : c1 < length cells -> c2 < length cells ->
      centroidOf zero add quarter nodeX nodeY cells c1 = Some a1 -> centroidOf zero add quarter nodeX nodeY cells c2 = Some a2 ->
      nth c1 pv 0 / numY = nth c2 pv 0 / numY -> nth c1 pv 0 < nth c2 pv 0 -> ltb (ct_y a2) (ct_y a1) = false.
    Proof.
      intros L1 L2 E1 E2 H HL. destruct (locate_ct c1 a1 L1 E1) as (i & j & col & B & H1 & H2 & H3 & H4 & H5).
      destruct (locate_ct c2 a2 L2 E2) as (i' & j' & col' & B' & H1' & H2' & H3' & H4' & H5').
      apply (nth_error_nth _ _ 0) in H5, H5'. rewrite H5, H5' in *. rewrite !div_part in H by auto. subst i'.
      rewrite H1 in H1'. apply Some_inj in H1'. subst col'.
      destruct AR as (_ & _ & A3 & _). destruct (A3 i col H1) as (_ & _ & A & _).
      destruct (concat_split_two col j j' B B' ltac:(lia) H2 H2') as (l1 & l2 & S & J1 & J2). rewrite S in A.
      apply (no_inversion_app (compareY ltb) l1 l2 a1 a2); auto.
    Qed.
  End Counts.
End Proofs.
