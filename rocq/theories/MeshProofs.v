From Coq Require Import String.
From Verif Require Import Prelude Bytes PsiFileModel DeckModel MeshModel MeshSpec.
Local Open Scope N_scope.

(** ---- generic table codec ---- *)
Section Table.
  Context {A : Type} (w : nat) (words : A -> list N) (of_ : (nat -> option N) -> option A).
  Hypothesis words_len : forall a, length (words a) = w.
  Hypothesis of_local : forall g g', (forall k, (k < w)%nat -> g k = g' k) -> of_ g = of_ g'.
  Hypothesis of_words : forall a, of_ (fun k => nth_error (words a) k) = Some a.
  Hypothesis of_inv : forall g a, of_ g = Some a -> forall k, (k < w)%nat -> g k = nth_error (words a) k.

  Lemma flat_map_concat_ (l : list A) : flat_map words l = concat (map words l).
  Proof. apply flat_map_concat_map. Qed.
  Lemma table_len (l : list A) : length (flat_map words l) = (length l * w)%nat.
  Proof using words_len. rewrite flat_map_concat_. rewrite (concat_length_fixed w). { now rewrite map_length. }
    intros x H. apply in_map_iff in H as (a & <- & _). auto. Qed.

  Lemma bufferLoop_ok (l : list A) : bufferLoop words l (lenN l) = Some (flat_map words l).
  Proof using.
    unfold bufferLoop, lenN. rewrite Nat2N.id.
    rewrite (mapM_seq_nth l _ words). { cbn. now rewrite flat_map_concat_. }
    intros i a H. now rewrite H.
  Qed.

  Lemma decodeLoop_ok (l : list A) t : decodeLoop w of_ (flat_map words l ++ t) (lenN l) = Some l.
  Proof using words_len of_local of_words.
    clear of_inv.
    unfold decodeLoop, lenN. rewrite Nat2N.id.
    rewrite (mapM_seq_nth l _ (fun x => x)). { now rewrite map_id. }
    intros i a H. rewrite <- of_words. apply of_local. intros k Hk.
    rewrite nth_error_app1.
    2:{ rewrite table_len. assert (i < length l)%nat by (apply nth_error_Some; congruence).
        pose proof (Nat.mul_le_mono_r (S i) (length l) w). lia. }
    rewrite flat_map_concat_. apply nth_error_concat_fixed; auto.
    - intros x Hx. apply in_map_iff in Hx as (b & <- & _). auto.
    - now apply map_nth_error.
  Qed.

  Lemma nth_error_ext {B} (l l' : list B) : length l = length l' ->
    (forall k, (k < length l)%nat -> nth_error l k = nth_error l' k) -> l = l'.
  Proof.
    revert l'; induction l; intros [|b l'] L H; cbn in *; try discriminate; auto.
    f_equal.
    - specialize (H 0%nat ltac:(lia)). cbn in H. congruence.
    - apply IHl; auto. intros k Hk. apply (H (S k)). lia.
  Qed.

  Lemma decodeLoop_inv buf n l : (0 < w)%nat -> length buf = (N.to_nat n * w)%nat ->
    decodeLoop w of_ buf n = Some l -> buf = flat_map words l /\ lenN l = n.
  Proof using words_len of_inv.
    clear of_local of_words.
    intros W L H. unfold decodeLoop in H. pose proof (mapM_length _ _ _ H) as Ll.
    rewrite seq_length in Ll.
    split; [|unfold lenN; lia].
    apply nth_error_ext. { rewrite table_len. lia. }
    intros j Hj. 
    assert (Hd : j = (j / w * w + j mod w)%nat) by (rewrite Nat.mul_comm; apply Nat.div_mod; lia).
    assert (Hm : (j mod w < w)%nat) by (apply Nat.mod_upper_bound; lia).
    assert (Hi : (j / w < length l)%nat).
    { apply Nat.div_lt_upper_bound; [lia|]. rewrite L in Hj. rewrite Ll, Nat.mul_comm. exact Hj. }
    generalize dependent (j mod w)%nat. generalize dependent (j / w)%nat. intros i Hi k Hd Hk. subst j.
    destruct (nth_error l i) as [a|] eqn:E. 2:{ apply nth_error_None in E. lia. }
    destruct (mapM_nth _ _ _ _ _ H E) as (i' & E1 & E2).
    rewrite nth_error_seq0 in E1 by lia. apply Some_inj in E1. subst i'.
    rewrite (of_inv _ _ E2 k Hk). rewrite flat_map_concat_.
    symmetry. apply nth_error_concat_fixed; auto.
    - intros x Hx. apply in_map_iff in Hx as (b & <- & _). auto.
    - now apply map_nth_error.
  Qed.

  Lemma readTable_ok (l : list A) t : u64 (N.of_nat w * lenN l) -> Forall (fun a => Forall u64 (words a)) l ->
    readTable w of_ (lenN l) (words_bytes (flat_map words l) ++ t) = Some (l, t).
  Proof using words_len of_local of_words.
    clear of_inv.
    intros B F. unfold readTable. rewrite w64_small by (unfold u64, two64 in *; lia).
    rewrite fread_words_ok.
    - cbn [obind]. rewrite <- (app_nil_r (flat_map words l)), decodeLoop_ok. reflexivity.
    - apply Forall_flat_map. eapply Forall_impl; [|exact F]. auto.
    - rewrite table_len. unfold lenN. lia.
  Qed.

  Lemma readTable_inv n rest l t : (0 < w < 100)%nat -> Forall is_byte rest -> n < 18446744073709551616 ->
    readTable w of_ n rest = Some (l, t) ->
    rest = words_bytes (flat_map words l) ++ t /\ lenN l = n /\ u64 (N.of_nat w * n) /\
    Forall (fun a => Forall u64 (words a)) l /\ Forall is_byte t.
  Proof using words_len of_inv.
    clear of_local of_words.
    intros W Hb Hn H. unfold readTable in H.
    destruct (fread_words (w64 (n * N.of_nat w)) rest) as [(buf, r)|] eqn:E; cbn [obind] in H; [|discriminate].
    apply fread_words_inv in E as (-> & L & F & Hb'); auto.
    destruct (decodeLoop w of_ buf n) as [l'|] eqn:D; cbn [obind] in H; [|discriminate].
    inversion H; subst l' r. clear H.
    (* the product cannot have wrapped: the last record would be read past the end *)
    assert (NW : n * N.of_nat w < two64).
    { destruct (N.ltb_spec (n * N.of_nat w) two64) as [|C]; auto. exfalso.
      assert (H0 : n <> 0) by (intros ->; unfold two64 in C; lia).
      unfold decodeLoop in D.
      assert (I : In (N.to_nat n - 1)%nat (seq 0 (N.to_nat n))) by (apply in_seq; lia).
      destruct (mapM_in _ _ _ _ D I) as (a & Ha & _).
      pose proof (of_inv _ _ Ha 0%nat ltac:(lia)) as Z.
      assert (Q : nth_error buf ((N.to_nat n - 1) * w + 0) <> None).
      { rewrite Z. apply nth_error_Some. rewrite words_len. lia. }
      apply nth_error_Some in Q. clear - Q L C Hn H0 W.
      assert (Lb : N.of_nat (length buf) <= n * N.of_nat w - two64).
      { rewrite L. unfold w64, two64 in *.
        pose proof (N.div_mod (n * N.of_nat w) 18446744073709551616 ltac:(lia)) as DM.
        assert (1 <= n * N.of_nat w / 18446744073709551616).
        { apply N.div_le_lower_bound; lia. }
        set (q := n * N.of_nat w / 18446744073709551616) in *.
        set (r := (n * N.of_nat w) mod 18446744073709551616) in *. clearbody q r. lia. }
      assert (E1 : N.of_nat ((N.to_nat n - 1) * w + 0) = n * N.of_nat w - N.of_nat w).
      { rewrite Nat.add_0_r, Nat.mul_sub_distr_r, Nat.mul_1_l, Nat2N.inj_sub, Nat2N.inj_mul, N2Nat.id. lia. }
      assert (E2 : n * N.of_nat w - N.of_nat w < n * N.of_nat w - two64).
      { rewrite <- E1. eapply N.lt_le_trans; [|exact Lb]. lia. }
      generalize dependent (n * N.of_nat w). unfold two64. intros; lia. }
    rewrite w64_small in L by auto.
    destruct (decodeLoop_inv buf n l) as (-> & Ll); auto; try lia.
    repeat split; auto.
    - unfold u64, two64 in *. lia.
    - apply Forall_flat_map in F. eapply Forall_impl; [|exact F]. auto.
  Qed.
End Table.

Ltac of_local_tac := intros g g' H; repeat (rewrite H by lia); reflexivity.
Ltac of_inv_tac :=
  intros g a H k Hk;
  repeat match type of H with
  | obind (g ?i) _ = _ => let E := fresh "E" in destruct (g i) eqn:E; cbn [obind] in H; [|discriminate]
  end;
  apply Some_inj in H; subst a; cbn [length] in Hk;
  repeat (destruct k as [|k]; [cbn; assumption|]); lia.

Lemma scell_len a : length (scell_fmt a) = 9%nat. Proof. destruct a as [[] [] ]; reflexivity. Qed.
Lemma scell_local : forall g g', (forall k, (k < 9)%nat -> g k = g' k) -> scellOf g = scellOf g'.
Proof. unfold scellOf; of_local_tac. Qed.
Lemma scell_ok a : scellOf (fun k => nth_error (scell_fmt a) k) = Some a. Proof. destruct a as [[] [] ]; reflexivity. Qed.
Lemma scell_inv : forall g a, scellOf g = Some a -> forall k, (k < 9)%nat -> g k = nth_error (scell_fmt a) k.
Proof. unfold scellOf; of_inv_tac. Qed.
Lemma sface_len a : length (sface_fmt a) = 5%nat. Proof. destruct a as [[] [] ]; reflexivity. Qed.
Lemma sface_local : forall g g', (forall k, (k < 5)%nat -> g k = g' k) -> sfaceOf g = sfaceOf g'.
Proof. unfold sfaceOf; of_local_tac. Qed.
Lemma sface_ok a : sfaceOf (fun k => nth_error (sface_fmt a) k) = Some a. Proof. destruct a as [[] [] ]; reflexivity. Qed.
Lemma sface_inv : forall g a, sfaceOf g = Some a -> forall k, (k < 5)%nat -> g k = nth_error (sface_fmt a) k.
Proof. unfold sfaceOf; of_inv_tac. Qed.
Lemma snode_len a : length (snode_fmt a) = 3%nat. Proof. destruct a as [[]]; reflexivity. Qed.
Lemma snode_local : forall g g', (forall k, (k < 3)%nat -> g k = g' k) -> snodeOf g = snodeOf g'.
Proof. unfold snodeOf; of_local_tac. Qed.
Lemma snode_ok a : snodeOf (fun k => nth_error (snode_fmt a) k) = Some a. Proof. destruct a as [[]]; reflexivity. Qed.
Lemma snode_inv : forall g a, snodeOf g = Some a -> forall k, (k < 3)%nat -> g k = nth_error (snode_fmt a) k.
Proof. unfold snodeOf; of_inv_tac. Qed.

Lemma pcell_len a : length (pcell_fmt a) = 10%nat. Proof. destruct a as [[] [] ]; reflexivity. Qed.
Lemma pcell_local : forall g g', (forall k, (k < 10)%nat -> g k = g' k) -> pcellOf g = pcellOf g'.
Proof. unfold pcellOf; of_local_tac. Qed.
Lemma pcell_ok a : pcellOf (fun k => nth_error (pcell_fmt a) k) = Some a. Proof. destruct a as [[] [] ]; reflexivity. Qed.
Lemma pcell_inv : forall g a, pcellOf g = Some a -> forall k, (k < 10)%nat -> g k = nth_error (pcell_fmt a) k.
Proof. unfold pcellOf; of_inv_tac. Qed.
Lemma pface_len a : length (pface_fmt a) = 9%nat. Proof. destruct a as [[] [] ? [] ]; reflexivity. Qed.
Lemma pface_local : forall g g', (forall k, (k < 9)%nat -> g k = g' k) -> pfaceOf g = pfaceOf g'.
Proof. unfold pfaceOf; of_local_tac. Qed.
Lemma pface_ok a : pfaceOf (fun k => nth_error (pface_fmt a) k) = Some a. Proof. destruct a as [[] [] ? [] ]; reflexivity. Qed.
Lemma pface_inv : forall g a, pfaceOf g = Some a -> forall k, (k < 9)%nat -> g k = nth_error (pface_fmt a) k.
Proof. unfold pfaceOf; of_inv_tac. Qed.
Lemma pnode_len a : length (pnode_fmt a) = 4%nat. Proof. destruct a as [[]]; reflexivity. Qed.
Lemma pnode_local : forall g g', (forall k, (k < 4)%nat -> g k = g' k) -> pnodeOf g = pnodeOf g'.
Proof. unfold pnodeOf; of_local_tac. Qed.
Lemma pnode_ok a : pnodeOf (fun k => nth_error (pnode_fmt a) k) = Some a. Proof. destruct a as [[]]; reflexivity. Qed.
Lemma pnode_inv : forall g a, pnodeOf g = Some a -> forall k, (k < 4)%nat -> g k = nth_error (pnode_fmt a) k.
Proof. unfold pnodeOf; of_inv_tac. Qed.

Lemma scellWords_fmt c : scellWords c = scell_fmt c. Proof. destruct c as [[] [] ]; reflexivity. Qed.
Lemma sfaceWords_fmt c : sfaceWords c = sface_fmt c. Proof. destruct c as [[] [] ]; reflexivity. Qed.
Lemma snodeWords_fmt c : snodeWords c = snode_fmt c. Proof. destruct c as [[]]; reflexivity. Qed.
Lemma pcellWords_fmt c : pcellWords c = pcell_fmt c. Proof. destruct c as [[] [] ]; reflexivity. Qed.
Lemma pfaceWords_fmt c : pfaceWords c = pface_fmt c. Proof. destruct c as [[] [] ? [] ]; reflexivity. Qed.
Lemma pnodeWords_fmt c : pnodeWords c = pnode_fmt c. Proof. destruct c as [[]]; reflexivity. Qed.
Lemma bufferLoop_ext {A} (w w' : A -> list N) l n : (forall a, w a = w' a) -> bufferLoop w l n = bufferLoop w' l n.
Proof.
  intros H. unfold bufferLoop. f_equal. apply mapM_ext. intros i _. destruct (nth_error l i); cbn; auto. now rewrite H.
Qed.

(** ---- serial mesh ---- *)
Definition with_serial_header (m : smesh) : smesh :=
  mkSmesh (magic32 "Tycho 2 Serial Mesh") 2 (sm_numCells m) (sm_numFaces m) (sm_numNodes m)
    (sm_cells m) (sm_faces m) (sm_nodes m).

Lemma serialWrite_ok m : serial_wf m ->
  serialWrite m = Some (serial_file (sm_cells m) (sm_faces m) (sm_nodes m), with_serial_header m).
Proof.
  intros (E1 & E2 & E3 & _). unfold serialWrite, serial_file, with_serial_header.
  cbn [sm_name sm_version sm_numCells sm_numFaces sm_numNodes sm_cells sm_faces sm_nodes].
  rewrite E1, E2, E3.
  rewrite (bufferLoop_ext _ scell_fmt) by apply scellWords_fmt.
  rewrite (bufferLoop_ext _ sface_fmt) by apply sfaceWords_fmt.
  rewrite (bufferLoop_ext _ snode_fmt) by apply snodeWords_fmt.
  rewrite !bufferLoop_ok. cbn [obind].
  rewrite <- words_bytes_app, <- !app_assoc. reflexivity.
Qed.

Lemma magic_len s : length (magic32 s) = 32%nat.
Proof. unfold magic32. rewrite firstn_length, app_length, repeat_length. lia. Qed.
Lemma bytes_eqb_refl b : bytes_eqb b b = true.
Proof. unfold bytes_eqb. destruct (list_eq_dec _ _ _); congruence. Qed.
Lemma bytes_eqb_eq a b : bytes_eqb a b = true -> a = b.
Proof. unfold bytes_eqb. destruct (list_eq_dec _ _ _); congruence. Qed.

Lemma lenN_u64 {A} (l : list A) k : 0 < k -> u64 (k * lenN l) -> u64 (lenN l).
Proof. unfold u64. intros. nia. Qed.

Lemma serialRead_ok cells faces nodes t :
  u64 (9 * lenN cells) -> u64 (5 * lenN faces) -> u64 (3 * lenN nodes) ->
  Forall (fun c => Forall u64 (scell_fmt c)) cells -> Forall (fun f => Forall u64 (sface_fmt f)) faces ->
  Forall (fun n => Forall u64 (snode_fmt n)) nodes ->
  serialRead (serial_file cells faces nodes ++ t) =
  Some (mkSmesh (magic32 "Tycho 2 Serial Mesh") 2 (lenN cells) (lenN faces) (lenN nodes) cells faces nodes).
Proof.
  intros B1 B2 B3 F1 F2 F3. unfold serialRead, serial_file.
  rewrite <- app_assoc, fread_bytes_ok by (now rewrite magic_len). cbn [obind].
  replace (bytes_eqb (magic32 "Tycho 2 Serial Mesh") serialName) with true by (vm_compute; reflexivity). cbn [negb].
  rewrite words_bytes_app, <- app_assoc, fread_words_ok.
  2:{ assert (u64 (lenN cells)) by (eapply lenN_u64; [|exact B1]; lia).
      assert (u64 (lenN faces)) by (eapply lenN_u64; [|exact B2]; lia).
      assert (u64 (lenN nodes)) by (eapply lenN_u64; [|exact B3]; lia).
      unfold u64, two64 in *. repeat constructor; auto. }
  2:{ reflexivity. }
  cbn [obind N.eqb Pos.eqb negb].
  rewrite !words_bytes_app, <- !app_assoc.
  rewrite (readTable_ok 9 scell_fmt scellOf scell_len scell_local scell_ok) by first [exact B1|exact F1]. cbn [obind].
  rewrite (readTable_ok 5 sface_fmt sfaceOf sface_len sface_local sface_ok) by first [exact B2|exact F2]. cbn [obind].
  rewrite (readTable_ok 3 snode_fmt snodeOf snode_len snode_local snode_ok) by first [exact B3|exact F3]. cbn [obind]. reflexivity.
Qed.

Lemma serialRead_inv file m : Forall is_byte file -> serialRead file = Some m ->
  exists t, file = serial_file (sm_cells m) (sm_faces m) (sm_nodes m) ++ t /\ serial_wf m /\
    sm_name m = magic32 "Tycho 2 Serial Mesh" /\ sm_version m = 2.
Proof.
  intros Hb. unfold serialRead.
  destruct (fread_bytes 32 file) as [(name, r1)|] eqn:E1; cbn [obind]; [|discriminate].
  apply fread_bytes_inv in E1 as (-> & L1).
  destruct (bytes_eqb name serialName) eqn:EN; cbn [negb]; [|discriminate].
  apply bytes_eqb_eq in EN. apply Forall_app in Hb as (_ & Hb).
  destruct (fread_words 4 r1) as [(hdr, r2)|] eqn:E2; cbn [obind]; [|discriminate].
  apply fread_words_inv in E2 as (-> & L2 & F2 & Hb2); auto.
  destruct hdr as [|v [|nc [|nf [|nn [|? ?]]]]]; try discriminate.
  destruct (N.eqb_spec v 2) as [->|]; cbn [negb]; [|discriminate].
  inversion F2 as [|? ? _ F3]; subst. inversion F3 as [|? ? H1 F4]; subst. inversion F4 as [|? ? H2 F5]; subst.
  inversion F5 as [|? ? H3 _]; subst. unfold two64 in *.
  destruct (readTable 9 scellOf nc r2) as [(cells, r3)|] eqn:T1; cbn [obind]; [|discriminate].
  apply (readTable_inv 9 scell_fmt scellOf scell_len scell_inv) in T1 as (-> & <- & B1 & G1 & Hb3); auto; [|lia].
  destruct (readTable 5 sfaceOf nf r3) as [(faces, r4)|] eqn:T2; cbn [obind]; [|discriminate].
  apply (readTable_inv 5 sface_fmt sfaceOf sface_len sface_inv) in T2 as (-> & <- & B2 & G2 & Hb4); auto; [|lia].
  destruct (readTable 3 snodeOf nn r4) as [(nodes, r5)|] eqn:T3; cbn [obind]; [|discriminate].
  apply (readTable_inv 3 snode_fmt snodeOf snode_len snode_inv) in T3 as (-> & <- & B3 & G3 & Hb5); auto; [|lia].
  intros H. apply Some_inj in H. subst m. exists r5.
  cbn [sm_name sm_version sm_numCells sm_numFaces sm_numNodes sm_cells sm_faces sm_nodes].
  split.
  - unfold serial_file. rewrite !words_bytes_app, <- !app_assoc. f_equal.
  - split; [|split; [reflexivity|reflexivity]].
    unfold serial_wf. cbn [sm_name sm_version sm_numCells sm_numFaces sm_numNodes sm_cells sm_faces sm_nodes].
    repeat (split; [auto; fail|]). auto.
Qed.

Lemma serial_file_length cells faces nodes : length (serial_file cells faces nodes) =
  (32 + 8 * (4 + 9 * length cells + 5 * length faces + 3 * length nodes))%nat.
Proof.
  unfold serial_file. rewrite app_length, magic_len, words_bytes_length, !app_length.
  rewrite (table_len 9 scell_fmt scell_len), (table_len 5 sface_fmt sface_len), (table_len 3 snode_fmt snode_len).
  cbn [length]. lia.
Qed.

Lemma serial_file_bytes cells faces nodes : Forall is_byte (serial_file cells faces nodes).
Proof.
  unfold serial_file. apply Forall_app. split; [|apply words_bytes_byte].
  unfold is_byte. apply Forall_forall. intros x H. vm_compute in H.
  repeat (destruct H as [<-|H]; [reflexivity|]). destruct H.
Qed.

Lemma serial_truncated m file m' p q : serial_wf m -> serialWrite m = Some (file, m') ->
  file = p ++ q -> q <> [] -> serialRead p = None.
Proof.
  intros W E SP NQ. rewrite serialWrite_ok in E by auto.
  assert (S : serial_file (sm_cells m) (sm_faces m) (sm_nodes m) = p ++ q) by congruence. clear E SP.
  destruct (serialRead p) as [m2|] eqn:R; auto. exfalso.
  assert (Hb : Forall is_byte p).
  { pose proof (serial_file_bytes (sm_cells m) (sm_faces m) (sm_nodes m)) as B. rewrite S in B.
    now apply Forall_app in B. }
  destruct (serialRead_inv p m2 Hb R) as (t & Ep & W2 & _).
  destruct W as (_ & _ & _ & B1 & B2 & B3 & F1 & F2 & F3).
  destruct W2 as (_ & _ & _ & C1 & C2 & C3 & G1 & G2 & G3).
  pose proof (serialRead_ok _ _ _ [] B1 B2 B3 F1 F2 F3) as R1. rewrite app_nil_r, S, Ep, <- app_assoc in R1.
  rewrite serialRead_ok in R1 by auto. apply Some_inj in R1.
  pose proof (f_equal sm_cells R1) as K4. pose proof (f_equal sm_faces R1) as K5. pose proof (f_equal sm_nodes R1) as K6.
  cbn [sm_cells sm_faces sm_nodes] in K4, K5, K6.
  rewrite <- K4, <- K5, <- K6 in S. rewrite Ep in S.
  assert (L : length (serial_file (sm_cells m2) (sm_faces m2) (sm_nodes m2)) =
              length ((serial_file (sm_cells m2) (sm_faces m2) (sm_nodes m2) ++ t) ++ q)) by (now rewrite <- S).
  rewrite !app_length in L. destruct q; [congruence|cbn in L; lia].
Qed.

(** ---- parallel mesh ---- *)
Definition with_parallel_header (m : pmesh) : pmesh :=
  mkPmesh (magic32 "Tycho 2 Parallel Mesh") 2 (pm_numPartitions m) (pm_bytesOffset m) (pm_parts m).

Lemma partitionWords_ok p : partition_wf p -> partitionWords p = Some (partition_fmt p).
Proof.
  intros (E1 & E2 & E3 & _). unfold partitionWords, partition_fmt. rewrite E1, E2, E3.
  rewrite (bufferLoop_ext _ pcell_fmt) by apply pcellWords_fmt.
  rewrite (bufferLoop_ext _ pface_fmt) by apply pfaceWords_fmt.
  rewrite (bufferLoop_ext _ pnode_fmt) by apply pnodeWords_fmt.
  rewrite !bufferLoop_ok. reflexivity.
Qed.

Lemma parallelWrite_ok m : parallel_wf m ->
  parallelWrite m = Some (parallel_file (pm_bytesOffset m) (pm_parts m), with_parallel_header m).
Proof.
  intros (E1 & E2 & B & F1 & F2). unfold parallelWrite, with_parallel_header, parallel_file.
  cbn [pm_name pm_version pm_numPartitions pm_bytesOffset pm_parts].
  rewrite w64_small by (rewrite E1; exact B).
  replace (N.to_nat (pm_numPartitions m + 1)) with (length (pm_bytesOffset m)) by (unfold lenN in *; lia).
  rewrite (mapM_seq_nth (pm_bytesOffset m) _ (fun x => x)) by auto.
  rewrite map_id. cbn [obind].
  replace (N.to_nat (pm_numPartitions m)) with (length (pm_parts m)) by (unfold lenN in *; lia).
  rewrite (mapM_seq_nth (pm_parts m) _ partition_fmt).
  2:{ intros i a H. rewrite H. cbn [obind]. apply partitionWords_ok.
      rewrite Forall_forall in F2. apply F2. eapply nth_error_In; eauto. }
  cbn [obind]. rewrite <- flat_map_concat_map, E1. reflexivity.
Qed.

Lemma readPartition_ok p t : partition_wf p -> readPartition (words_bytes (partition_fmt p) ++ t) = Some (p, t).
Proof.
  intros (E1 & E2 & E3 & B1 & B2 & B3 & F1 & F2 & F3). unfold readPartition, partition_fmt.
  rewrite words_bytes_app, <- app_assoc, fread_words_ok.
  2:{ assert (u64 (lenN (pt_cells p))) by (eapply lenN_u64; [|exact B1]; lia).
      assert (u64 (lenN (pt_faces p))) by (eapply lenN_u64; [|exact B2]; lia).
      assert (u64 (lenN (pt_nodes p))) by (eapply lenN_u64; [|exact B3]; lia).
      unfold u64, two64 in *. repeat constructor; auto. }
  2:{ reflexivity. }
  cbn [obind]. rewrite !words_bytes_app, <- !app_assoc.
  rewrite (readTable_ok 10 pcell_fmt pcellOf pcell_len pcell_local pcell_ok) by first [exact B1|exact F1]. cbn [obind].
  rewrite (readTable_ok 9 pface_fmt pfaceOf pface_len pface_local pface_ok) by first [exact B2|exact F2]. cbn [obind].
  rewrite (readTable_ok 4 pnode_fmt pnodeOf pnode_len pnode_local pnode_ok) by first [exact B3|exact F3]. cbn [obind].
  rewrite <- E1, <- E2, <- E3. now destruct p.
Qed.

Lemma readPartitions_ok ps t : Forall partition_wf ps ->
  readPartitions (length ps) (words_bytes (flat_map partition_fmt ps) ++ t) = Some (ps, t).
Proof.
  induction 1 as [|p ps W F IH]; cbn [length readPartitions flat_map]; auto.
  rewrite words_bytes_app, <- app_assoc, readPartition_ok by auto. cbn [obind]. now rewrite IH.
Qed.

Lemma parallelRead_ok offs parts t : lenN offs = lenN parts + 1 -> u64 (lenN parts + 1) ->
  Forall u64 offs -> Forall partition_wf parts ->
  parallelRead (parallel_file offs parts ++ t) =
  Some (mkPmesh (magic32 "Tycho 2 Parallel Mesh") 2 (lenN parts) offs parts).
Proof.
  intros E B F1 F2. unfold parallelRead, parallel_file.
  rewrite <- app_assoc, fread_bytes_ok by (now rewrite magic_len). cbn [obind].
  replace (bytes_eqb (magic32 "Tycho 2 Parallel Mesh") parallelName) with true by (vm_compute; reflexivity). cbn [negb].
  rewrite words_bytes_app, <- app_assoc, fread_words_ok.
  2:{ unfold u64, two64 in *. repeat constructor; lia. }
  2:{ reflexivity. }
  cbn [obind N.eqb Pos.eqb negb]. rewrite words_bytes_app, <- app_assoc.
  rewrite w64_small by exact B. rewrite fread_words_ok by auto. cbn [obind].
  unfold lenN at 1. rewrite Nat2N.id, readPartitions_ok by auto. reflexivity.
Qed.

Lemma readPartition_inv rest p t : Forall is_byte rest -> readPartition rest = Some (p, t) ->
  rest = words_bytes (partition_fmt p) ++ t /\ partition_wf p /\ Forall is_byte t.
Proof.
  intros Hb. unfold readPartition.
  destruct (fread_words 3 rest) as [(hdr, r2)|] eqn:E2; cbn [obind]; [|discriminate].
  apply fread_words_inv in E2 as (-> & L2 & F2 & Hb2); auto.
  destruct hdr as [|nc [|nf [|nn [|? ?]]]]; try discriminate.
  inversion F2 as [|? ? H1 F4]; subst. inversion F4 as [|? ? H2 F5]; subst.
  inversion F5 as [|? ? H3 _]; subst. unfold two64 in *.
  destruct (readTable 10 pcellOf nc r2) as [(cells, r3)|] eqn:T1; cbn [obind]; [|discriminate].
  apply (readTable_inv 10 pcell_fmt pcellOf pcell_len pcell_inv) in T1 as (-> & <- & B1 & G1 & Hb3); auto; [|lia].
  destruct (readTable 9 pfaceOf nf r3) as [(faces, r4)|] eqn:T2; cbn [obind]; [|discriminate].
  apply (readTable_inv 9 pface_fmt pfaceOf pface_len pface_inv) in T2 as (-> & <- & B2 & G2 & Hb4); auto; [|lia].
  destruct (readTable 4 pnodeOf nn r4) as [(nodes, r5)|] eqn:T3; cbn [obind]; [|discriminate].
  apply (readTable_inv 4 pnode_fmt pnodeOf pnode_len pnode_inv) in T3 as (-> & <- & B3 & G3 & Hb5); auto; [|lia].
  intros H. apply Some_inj in H. apply pair_equal_spec in H as (<- & <-). split; [|split; auto].
  - unfold partition_fmt. cbn [pt_cells pt_faces pt_nodes]. rewrite !words_bytes_app, <- !app_assoc. reflexivity.
  - unfold partition_wf. cbn [pt_cells pt_faces pt_nodes pt_numCells pt_numFaces pt_numNodes].
    repeat (split; [auto; fail|]). auto.
Qed.

Lemma readPartitions_inv n : forall rest ps t, Forall is_byte rest -> readPartitions n rest = Some (ps, t) ->
  rest = words_bytes (flat_map partition_fmt ps) ++ t /\ length ps = n /\ Forall partition_wf ps.
Proof.
  induction n as [|n IH]; intros rest ps t Hb; cbn [readPartitions].
  - intros H. apply Some_inj in H. inversion H; subst. repeat split; auto.
  - destruct (readPartition rest) as [(p, r)|] eqn:E; cbn [obind]; [|discriminate].
    apply readPartition_inv in E as (-> & W & Hb2); auto.
    destruct (readPartitions n r) as [(ps', r2)|] eqn:E2; cbn [obind]; [|discriminate].
    apply IH in E2 as (-> & L & F); auto.
    intros H. apply Some_inj in H. apply pair_equal_spec in H as (<- & <-).
    cbn [flat_map length]. rewrite words_bytes_app, <- app_assoc. repeat split; auto.
Qed.

Lemma words_bytes_min ps : (24 * length ps <= length (words_bytes (flat_map partition_fmt ps)))%nat.
Proof.
  rewrite words_bytes_length. induction ps as [|p ps IH]; cbn [length flat_map]; [lia|].
  rewrite app_length. unfold partition_fmt at 1. rewrite app_length. cbn [length]. lia.
Qed.

Lemma parallelRead_inv file m : Forall is_byte file -> u64 (lenN file) -> parallelRead file = Some m ->
  exists t, file = parallel_file (pm_bytesOffset m) (pm_parts m) ++ t /\ parallel_wf m /\
    pm_name m = magic32 "Tycho 2 Parallel Mesh" /\ pm_version m = 2.
Proof.
  intros Hb Hu. unfold parallelRead.
  destruct (fread_bytes 32 file) as [(name, r1)|] eqn:E1; cbn [obind]; [|discriminate].
  apply fread_bytes_inv in E1 as (-> & L1).
  destruct (bytes_eqb name parallelName) eqn:EN; cbn [negb]; [|discriminate].
  apply bytes_eqb_eq in EN. apply Forall_app in Hb as (_ & Hb).
  destruct (fread_words 2 r1) as [(hdr, r2)|] eqn:E2; cbn [obind]; [|discriminate].
  apply fread_words_inv in E2 as (-> & L2 & F2 & Hb2); auto.
  destruct hdr as [|v [|np [|? ?]]]; try discriminate.
  destruct (N.eqb_spec v 2) as [->|]; cbn [negb]; [|discriminate].
  inversion F2 as [|? ? _ F3]; subst. inversion F3 as [|? ? H1 _]; subst. unfold two64 in *.
  destruct (fread_words (w64 (np + 1)) r2) as [(offs, r3)|] eqn:E3; cbn [obind]; [|discriminate].
  apply fread_words_inv in E3 as (-> & L3 & F4 & Hb3); auto.
  destruct (readPartitions (N.to_nat np) r3) as [(parts, r4)|] eqn:E4; cbn [obind]; [|discriminate].
  pose proof E4 as E4'. apply readPartitions_inv in E4 as (-> & L4 & F5); auto.
  intros H. apply Some_inj in H. subst m. exists r4.
  cbn [pm_name pm_version pm_numPartitions pm_bytesOffset pm_parts].
  assert (NP : np = lenN parts) by (unfold lenN; lia).
  split.
  - unfold parallel_file. rewrite !words_bytes_app, <- !app_assoc, NP. reflexivity.
  - split; [|split; reflexivity]. unfold parallel_wf.
    cbn [pm_name pm_version pm_numPartitions pm_bytesOffset pm_parts].
    assert (B : np + 1 < 18446744073709551616).
    { pose proof (words_bytes_min parts) as M. clear - M Hu NP. unfold u64, lenN in *.
      rewrite !app_length in Hu. lia. }
    rewrite w64_small in L3 by (unfold two64; lia).
    unfold u64, lenN in *. repeat split; auto; lia.
Qed.

Lemma parallel_file_length offs parts : length (parallel_file offs parts) =
  (32 + 8 * (2 + length offs + length (flat_map partition_fmt parts)))%nat.
Proof.
  unfold parallel_file. rewrite app_length, magic_len, words_bytes_length, !app_length. cbn [length]. lia.
Qed.
Lemma parallel_file_bytes offs parts : Forall is_byte (parallel_file offs parts).
Proof.
  unfold parallel_file. apply Forall_app. split; [|apply words_bytes_byte].
  unfold is_byte. apply Forall_forall. intros x H. vm_compute in H.
  repeat (destruct H as [<-|H]; [reflexivity|]). destruct H.
Qed.
Lemma parallel_truncated m file m' p q : parallel_wf m -> parallelWrite m = Some (file, m') -> u64 (lenN file) ->
  file = p ++ q -> q <> [] -> parallelRead p = None.
Proof.
  intros W E U SP NQ. rewrite parallelWrite_ok in E by auto.
  assert (S : parallel_file (pm_bytesOffset m) (pm_parts m) = p ++ q) by congruence. clear E.
  destruct (parallelRead p) as [m2|] eqn:R; auto. exfalso.
  assert (Hb : Forall is_byte p).
  { pose proof (parallel_file_bytes (pm_bytesOffset m) (pm_parts m)) as B. rewrite S in B.
    now apply Forall_app in B. }
  assert (Up : u64 (lenN p)). { unfold u64, lenN in *. subst file. rewrite app_length in U. lia. }
  destruct (parallelRead_inv p m2 Hb Up R) as (t & Ep & W2 & _).
  destruct W as (_ & A1 & A2 & A3 & A4). destruct W2 as (_ & C1 & C2 & C3 & C4).
  pose proof (parallelRead_ok _ _ [] A1 A2 A3 A4) as R1. rewrite app_nil_r, S, Ep, <- app_assoc in R1.
  rewrite parallelRead_ok in R1 by auto. apply Some_inj in R1.
  pose proof (f_equal pm_bytesOffset R1) as K4. pose proof (f_equal pm_parts R1) as K5.
  cbn [pm_bytesOffset pm_parts] in K4, K5.
  rewrite <- K4, <- K5 in S. rewrite Ep in S.
  assert (L : length (parallel_file (pm_bytesOffset m2) (pm_parts m2)) =
              length ((parallel_file (pm_bytesOffset m2) (pm_parts m2) ++ t) ++ q)) by (now rewrite <- S).
  rewrite !app_length in L. destruct q; [congruence|cbn in L; lia].
Qed.

(** ---- MPI reads ---- *)
Lemma to_i32_small x : x < 2147483648 -> to_i32 x = Z.of_N x.
Proof.
  intros H. unfold to_i32. rewrite N.mod_small by lia.
  destruct (Z.ltb_spec (Z.of_N x) 2147483648); lia.
Qed.
Lemma i32_to_u64_pos x : x < 2147483648 -> i32_to_u64 (Z.of_N x) = x.
Proof. intros H. unfold i32_to_u64. rewrite Z.mod_small by lia. lia. Qed.

Lemma mpiReadUint64_ok ws data n t : Forall u64 ws -> length data = length ws -> n = lenN ws ->
  8 * n < 2147483648 -> mpiReadUint64 (words_bytes ws ++ t) data n = Some (ws, t).
Proof.
  intros F L -> B. unfold mpiReadUint64.
  rewrite (to_i32_small (lenN ws)) by lia. rewrite i32_to_u64_pos by lia.
  rewrite w64_small by (unfold two64; lia). rewrite to_i32_small by lia.
  destruct (Z.ltb_spec (Z.of_N (8 * lenN ws)) 0); [lia|].
  replace (Z.to_nat (Z.of_N (8 * lenN ws))) with (length (words_bytes ws)).
  2:{ rewrite words_bytes_length. unfold lenN. lia. }
  rewrite firstn_app_exact, skipn_app_exact by auto.
  rewrite bytes_words_bytes by exact F. rewrite L, Nat.ltb_irrefl.
  rewrite <- L, skipn_all, app_nil_r. reflexivity.
Qed.

Lemma resize_length n b : length (resize n b) = N.to_nat n.
Proof. unfold resize. rewrite app_length, firstn_length, repeat_length. lia. Qed.

Section MpiTable.
  Context {A : Type} (w : nat) (words : A -> list N) (of_ : (nat -> option N) -> option A).
  Hypothesis words_len : forall a, length (words a) = w.
  Hypothesis of_local : forall g g', (forall k, (k < w)%nat -> g k = g' k) -> of_ g = of_ g'.
  Hypothesis of_words : forall a, of_ (fun k => nth_error (words a) k) = Some a.
  Lemma mpiReadTable_ok (l : list A) buf t : 8 * (N.of_nat w * lenN l) < 2147483648 ->
    Forall (fun a => Forall u64 (words a)) l ->
    exists buf', mpiReadTable w of_ (lenN l) buf (words_bytes (flat_map words l) ++ t) = Some (l, buf', t).
  Proof.
    intros B F. unfold mpiReadTable. rewrite w64_small by (unfold two64; lia).
    pose proof (table_len w words words_len l) as TL.
    rewrite mpiReadUint64_ok.
    - cbn [obind]. rewrite <- (app_nil_r (flat_map words l)), (decodeLoop_ok w words of_); auto.
      cbn [obind]. eexists. reflexivity.
    - apply Forall_flat_map. eapply Forall_impl; [|exact F]. auto.
    - rewrite resize_length, TL. unfold lenN. lia.
    - unfold lenN. rewrite TL. lia.
    - lia.
  Qed.
End MpiTable.

Lemma headerCheck_ok offs parts t : u64 (lenN parts) ->
  headerCheck (parallel_file offs parts ++ t) (lenN parts) = true.
Proof.
  intros B. unfold headerCheck, parallel_file. rewrite <- app_assoc, fread_bytes_ok by (now rewrite magic_len).
  rewrite words_bytes_app, <- app_assoc, fread_words_ok.
  2:{ unfold u64, two64 in *. repeat constructor; lia. }
  2:{ reflexivity. }
  rewrite (N.eqb_refl (lenN parts)). vm_compute. reflexivity.
Qed.

Lemma nth_error_split_ {A} (l : list A) i a : nth_error l i = Some a -> exists r, l = firstn i l ++ a :: r.
Proof.
  revert i; induction l as [|b l IH]; intros [|i] H; cbn in *; try discriminate.
  - exists l. congruence.
  - destruct (IH i H) as (r & E). exists r. now rewrite <- E.
Qed.

Lemma Forall_words_part p : partition_wf p -> Forall u64 [lenN (pt_cells p); lenN (pt_faces p); lenN (pt_nodes p)].
Proof.
  intros (_ & _ & _ & B1 & B2 & B3 & _).
  assert (u64 (lenN (pt_cells p))) by (eapply lenN_u64; [|exact B1]; lia).
  assert (u64 (lenN (pt_faces p))) by (eapply lenN_u64; [|exact B2]; lia).
  assert (u64 (lenN (pt_nodes p))) by (eapply lenN_u64; [|exact B3]; lia).
  repeat constructor; auto.
Qed.

Lemma skip_words n s ws1 ws2 t : n = (32 + 8 * length ws1)%nat -> length (magic32 s) = 32%nat ->
  skipn n ((magic32 s ++ words_bytes (ws1 ++ ws2)) ++ t) = words_bytes ws2 ++ t.
Proof.
  intros -> L. rewrite words_bytes_app, <- app_assoc, <- app_assoc, app_assoc.
  rewrite skipn_app_exact; auto. rewrite app_length, L, words_bytes_length. lia.
Qed.

Lemma readInParallel_prefix m t rank p : parallel_wf m -> offsets_ok m ->
  lenN (parallel_file (pm_bytesOffset m) (pm_parts m)) < 9223372036854775808 ->
  nth_error (pm_parts m) rank = Some p ->
  exists buf rest, length buf = 3%nat /\
  readInParallel (parallel_file (pm_bytesOffset m) (pm_parts m) ++ t) (lenN (pm_parts m)) (N.of_nat rank) =
  (let* (buf, rest) := mpiReadUint64 (words_bytes (partition_fmt p) ++ rest) buf 3 in
  match buf with
  | [numCells; numFaces; numNodes] =>
      let* (cells, buf, rest) := mpiReadTable 10 pcellOf numCells buf rest in
      let* (faces, buf, rest) := mpiReadTable 9 pfaceOf numFaces buf rest in
      if negb (forallb (fun f => pf_bdry f <? 3) faces) then None else
      let* (nodes, buf, rest) := mpiReadTable 4 pnodeOf numNodes buf rest in
      Some (mkPartition numCells numFaces numNodes cells faces nodes)
  | _ => None
  end).
Proof.
  intros (E1 & E2 & B & F1 & F2) O FL HP. 
  assert (HR : (rank < length (pm_parts m))%nat) by (apply nth_error_Some; congruence).
  pose proof (O rank HR) as Off. 
  set (off := N.of_nat _) in Off.
  destruct (nth_error_split_ _ _ _ HP) as (psr & EP).
  destruct (nth_error_split_ _ _ _ Off) as (ofr & EO).
  exists (if N.of_nat rank =? 0 then resize 3 [2; lenN (pm_parts m)] else resize 3 []).
  exists (words_bytes (flat_map partition_fmt psr) ++ t).
  split. { destruct (N.of_nat rank =? 0); now rewrite resize_length. }
  unfold readInParallel. rewrite headerCheck_ok by (unfold u64 in *; lia). cbn [negb].
  pose proof (parallel_file_length (pm_bytesOffset m) (pm_parts m)) as PL.
  assert (Loff : (length (pm_bytesOffset m) = length (pm_parts m) + 1)%nat) by (unfold lenN in *; lia).
  unfold mpiSeek at 1.
  destruct (N.ltb_spec (32 + (2 + N.of_nat rank) * 8) 9223372036854775808); [|unfold lenN in *; lia].
  cbn [obind].
  (* the word at the offset position *)
  assert (S1 : skipn (N.to_nat (32 + (2 + N.of_nat rank) * 8)) (parallel_file (pm_bytesOffset m) (pm_parts m) ++ t)
    = words_bytes [off] ++ (words_bytes (ofr ++ flat_map partition_fmt (pm_parts m)) ++ t)).
  { unfold parallel_file.
    replace ([2; lenN (pm_parts m)] ++ pm_bytesOffset m ++ flat_map partition_fmt (pm_parts m))
      with (([2; lenN (pm_parts m)] ++ firstn rank (pm_bytesOffset m)) ++ ([off] ++ (ofr ++ flat_map partition_fmt (pm_parts m)))).
    2:{ rewrite EO at 2. now rewrite <- !app_assoc. }
    rewrite skip_words; [| |reflexivity].
    2:{ rewrite app_length, firstn_length. cbn [length]. lia. }
    now rewrite words_bytes_app, <- app_assoc. }
  rewrite S1.
  assert (Uoff : u64 off).
  { rewrite Forall_forall in F1. apply F1. eapply nth_error_In; eauto. }
  rewrite (mpiReadUint64_ok [off] [0] 1); [|repeat constructor; auto|reflexivity|reflexivity|lia].
  cbn [obind nth].
  assert (LP : (length (flat_map partition_fmt (pm_parts m)) =
    length (flat_map partition_fmt (firstn rank (pm_parts m))) + length (flat_map partition_fmt (p :: psr)))%nat).
  { rewrite EP at 1. now rewrite flat_map_app, app_length. }
  unfold mpiSeek at 1.
  destruct (N.ltb_spec off 9223372036854775808) as [_|C]; [|exfalso; subst off; unfold lenN in *; lia].
  cbn [obind].
  assert (S2 : skipn (N.to_nat off) (parallel_file (pm_bytesOffset m) (pm_parts m) ++ t)
    = words_bytes (partition_fmt p) ++ (words_bytes (flat_map partition_fmt psr) ++ t)).
  { unfold parallel_file.
    replace ([2; lenN (pm_parts m)] ++ pm_bytesOffset m ++ flat_map partition_fmt (pm_parts m))
      with (([2; lenN (pm_parts m)] ++ pm_bytesOffset m ++ flat_map partition_fmt (firstn rank (pm_parts m)))
        ++ (partition_fmt p ++ flat_map partition_fmt psr)).
    2:{ rewrite EP at 4. rewrite flat_map_app. cbn [flat_map]. now rewrite <- !app_assoc. }
    rewrite skip_words; [| |reflexivity].
    2:{ subst off. rewrite !app_length. cbn [length]. lia. }
    now rewrite words_bytes_app, <- app_assoc. }
  rewrite S2. reflexivity.
Qed.

Lemma readInParallel_ok m file m' t rank p : parallel_wf m -> offsets_ok m ->
  parallelWrite m = Some (file, m') -> lenN file < 9223372036854775808 ->
  nth_error (pm_parts m) rank = Some p -> fits_int_reads p -> boundary_types_ok p ->
  readInParallel (file ++ t) (lenN (pm_parts m)) (N.of_nat rank) = Some p.
Proof.
  intros W O E FL HP (I1 & I2 & I3) BT. rewrite parallelWrite_ok in E by auto.
  assert (EF : file = parallel_file (pm_bytesOffset m) (pm_parts m)) by congruence. subst file. clear E.
  destruct (readInParallel_prefix m t rank p W O FL HP) as (buf & rest & LB & ->).
  destruct W as (_ & _ & _ & _ & F2).
  assert (WP : partition_wf p) by (rewrite Forall_forall in F2; apply F2; eapply nth_error_In; eauto).
  unfold partition_fmt. rewrite words_bytes_app, <- app_assoc.
  rewrite mpiReadUint64_ok; [|now apply Forall_words_part|auto|reflexivity|lia].
  cbn [obind]. rewrite !words_bytes_app, <- !app_assoc.
  destruct WP as (E1 & E2 & E3 & B1 & B2 & B3 & G1 & G2 & G3).
  destruct (mpiReadTable_ok 10 pcell_fmt pcellOf pcell_len pcell_local pcell_ok (pt_cells p)
     [lenN (pt_cells p); lenN (pt_faces p); lenN (pt_nodes p)]
     (words_bytes (flat_map pface_fmt (pt_faces p)) ++ words_bytes (flat_map pnode_fmt (pt_nodes p)) ++ rest))
     as (b1 & T1); [lia|auto|]. rewrite T1. cbn [obind].
  destruct (mpiReadTable_ok 9 pface_fmt pfaceOf pface_len pface_local pface_ok (pt_faces p)
     b1 (words_bytes (flat_map pnode_fmt (pt_nodes p)) ++ rest)) as (b2 & T2); [lia|auto|].
  rewrite T2. cbn [obind].
  replace (forallb (fun f => pf_bdry f <? 3) (pt_faces p)) with true.
  2:{ symmetry. apply forallb_forall. intros f Hf. unfold boundary_types_ok in BT. rewrite Forall_forall in BT.
      apply N.ltb_lt. auto. }
  cbn [negb].
  destruct (mpiReadTable_ok 4 pnode_fmt pnodeOf pnode_len pnode_local pnode_ok (pt_nodes p) b2 rest) as (b3 & T3); [lia|auto|].
  rewrite T3. cbn [obind]. rewrite <- E1, <- E2, <- E3. now destruct p.
Qed.

(** Above the int range the read aborts: 80 * cells in [2^31, 2^32). *)
Lemma readInParallel_large m file m' t rank p : parallel_wf m -> offsets_ok m ->
  parallelWrite m = Some (file, m') -> lenN file < 9223372036854775808 ->
  nth_error (pm_parts m) rank = Some p ->
  2147483648 <= 80 * lenN (pt_cells p) < 4294967296 ->
  readInParallel (file ++ t) (lenN (pm_parts m)) (N.of_nat rank) = None.
Proof.
  intros W O E FL HP I1. rewrite parallelWrite_ok in E by auto.
  assert (EF : file = parallel_file (pm_bytesOffset m) (pm_parts m)) by congruence. subst file. clear E.
  destruct (readInParallel_prefix m t rank p W O FL HP) as (buf & rest & LB & ->).
  destruct W as (_ & _ & _ & _ & F2).
  assert (WP : partition_wf p) by (rewrite Forall_forall in F2; apply F2; eapply nth_error_In; eauto).
  unfold partition_fmt. rewrite words_bytes_app, <- app_assoc.
  rewrite mpiReadUint64_ok; [|now apply Forall_words_part|auto|reflexivity|lia].
  cbn [obind]. unfold mpiReadTable at 1. unfold mpiReadUint64 at 1.
  rewrite (w64_small (lenN (pt_cells p) * N.of_nat 10)) by (unfold two64; lia). 
  rewrite (to_i32_small (lenN (pt_cells p) * N.of_nat 10)) by lia. rewrite i32_to_u64_pos by lia.
  rewrite (w64_small (8 * _)) by (unfold two64; lia).
  replace (to_i32 (8 * (lenN (pt_cells p) * N.of_nat 10)) <? 0)%Z with true; [reflexivity|].
  symmetry. unfold to_i32. rewrite N.mod_small by lia.
  destruct (Z.ltb_spec (Z.of_N (8 * (lenN (pt_cells p) * N.of_nat 10))) 2147483648); [lia|]. lia.
Qed.
