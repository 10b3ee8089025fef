(** Listings tell meshes apart. *)
From Coq Require Import String.
From Verif Require Import Prelude Bytes DeckModel MeshModel MeshSpec CreateModel CommandModel InfoModel InfoSpec.
Local Open Scope N_scope.

(** * Numerals *)
Lemma place_app s s' : place_value (s ++ s') = place_value s * 10 ^ N.of_nat (List.length s') + place_value s'.
Proof.
  induction s as [|c s IH]; cbn [app place_value]; [lia|]. rewrite IH, app_length, Nat2N.inj_add, N.pow_add_r. lia.
Qed.
Lemma put_value f : forall n acc, n < 2 ^ N.of_nat f -> place_value (putDigits f n acc) = n * 10 ^ N.of_nat (List.length acc) + place_value acc.
Proof.
  induction f as [|f IH]; intros n acc H; cbn [putDigits].
  - change (2 ^ N.of_nat 0) with 1 in H. replace n with 0 by lia. lia.
  - pose proof (N.div_mod' n 10) as D. pose proof (N.mod_lt n 10 ltac:(lia)) as M. destruct (N.eqb_spec (n / 10) 0) as [Z|NZ].
    + cbn [place_value]. replace (48 + n mod 10 - 48) with n by lia. reflexivity.
    + rewrite IH.
      * cbn [place_value List.length]. rewrite Nat2N.inj_succ, N.pow_succ_r'. set (t := 10 ^ N.of_nat (List.length acc)). clearbody t. replace (48 + n mod 10 - 48) with (n mod 10) by lia. rewrite D at 3. lia.
      * rewrite Nat2N.inj_succ, N.pow_succ_r' in H. apply N.div_lt_upper_bound; lia.
Qed.
Lemma put_digits f : forall n acc, Forall (fun c => 48 <= c <= 57) acc -> Forall (fun c => 48 <= c <= 57) (putDigits f n acc).
Proof.
  induction f as [|f IH]; intros n acc H; cbn [putDigits]; auto. pose proof (N.mod_lt n 10 ltac:(lia)) as M. assert (H' : Forall (fun c => 48 <= c <= 57) ((48 + n mod 10) :: acc)) by (constructor; auto; lia).
  destruct (n / 10 =? 0); auto.
Qed.
Lemma put_head f : forall n acc, 0 < n < 2 ^ N.of_nat f -> hd 0 (putDigits f n acc) <> 48.
Proof.
  induction f as [|f IH]; intros n acc H; cbn [putDigits]; [change (2 ^ N.of_nat 0) with 1 in H; lia|].
  pose proof (N.div_mod' n 10) as D. destruct (N.eqb_spec (n / 10) 0) as [Z|NZ]; [cbn [hd]; lia|]. apply IH. rewrite Nat2N.inj_succ, N.pow_succ_r' in H. split; [lia|]. apply N.div_lt_upper_bound; lia.
Qed.
Lemma put_nonempty f n acc : putDigits (S f) n acc <> [].
Proof.
  cbn [putDigits]. destruct (n / 10 =? 0); [discriminate|]. assert (K : forall f n acc, acc <> [] -> putDigits f n acc <> []) by (clear; induction f as [|f IH]; intros n acc H; cbn [putDigits]; auto; destruct (n / 10 =? 0); [discriminate|apply IH; discriminate]).
  apply K. discriminate.
Qed.
Lemma log_fuel n : n < 2 ^ N.of_nat (S (N.to_nat (N.log2 n))).
Proof. rewrite Nat2N.inj_succ, N2Nat.id. destruct (N.eq_dec n 0) as [->|NZ]; [reflexivity|]. apply N.log2_spec. lia. Qed.
Lemma num_numeral n : numeral (num n) n.
Proof.
  split; [apply put_nonempty|]. split; [apply put_digits; constructor|]. split; [unfold num; rewrite put_value by apply log_fuel; cbn; lia|].
  intros H. destruct (N.eq_dec n 0) as [->|NZ]; [reflexivity|]. exfalso. apply (put_head (S (N.to_nat (N.log2 n))) n []); [split; [lia|apply log_fuel]|exact H].
Qed.
Lemma num_inj n n' : num n = num n' -> n = n'.
Proof. intros E. destruct (num_numeral n) as (_ & _ & A & _), (num_numeral n') as (_ & _ & A' & _). congruence. Qed.
Lemma num_digits n : Forall (fun c => 48 <= c <= 57) (num n).
Proof. apply num_numeral. Qed.

(** * Texts read from the left *)
(** A text without the character [c], up to [c]. *)
Lemma upto c (w w' r r' : chars) : ~ In c w -> ~ In c w' -> w ++ c :: r = w' ++ c :: r' -> w = w' /\ r = r'.
Proof.
  revert w'. induction w as [|x w IH]; intros [|x' w'] H H' E; cbn in E.
  - injection E as E. auto.
  - injection E as -> _. destruct H'. now left.
  - injection E as -> _. destruct H. now left.
  - injection E as -> E. destruct (IH w') as (-> & ->); cbn in H, H'; auto.
Qed.
Lemma not_in_num c n : (c < 48 \/ 57 < c) -> ~ In c (num n).
Proof. intros H I. pose proof (proj1 (Forall_forall _ _) (num_digits n) _ I) as B. cbv beta in B. lia. Qed.
Lemma num_nl n n' r r' : num n ++ nl ++ r = num n' ++ nl ++ r' -> n = n' /\ r = r'.
Proof. intros E. apply upto in E as (E & ->); try (apply not_in_num; lia). apply num_inj in E. auto. Qed.
Lemma num_sp n n' r r' : num n ++ sp ++ r = num n' ++ sp ++ r' -> n = n' /\ r = r'.
Proof. intros E. apply upto in E as (E & ->); try (apply not_in_num; lia). apply num_inj in E. auto. Qed.
Lemma num4_nl q q' r r' : num4 q ++ nl ++ r = num4 q' ++ nl ++ r' -> q = q' /\ r = r'.
Proof.
  unfold num4. destruct q as [a b c d], q' as [a' b' c' d']. cbn [r0 r1 r2 r3]. rewrite <- !app_assoc. intros E. apply num_sp in E as (-> & E). apply num_sp in E as (-> & E). apply num_sp in E as (-> & E). apply num_nl in E as (-> & ->). auto.
Qed.
Lemma num3_nl q q' r r' : num3 q ++ nl ++ r = num3 q' ++ nl ++ r' -> q = q' /\ r = r'.
Proof. unfold num3. destruct q as [a b c], q' as [a' b' c']. cbn [t0 t1 t2]. rewrite <- !app_assoc. intros E. apply num_sp in E as (-> & E). apply num_sp in E as (-> & E). apply num_nl in E as (-> & ->). auto. Qed.
Lemma num2_nl q q' r r' : num2 q ++ nl ++ r = num2 q' ++ nl ++ r' -> q = q' /\ r = r'.
Proof. unfold num2. destruct q as [a b], q' as [a' b']. cbn [p0 p1]. rewrite <- !app_assoc. intros E. apply num_sp in E as (-> & E). apply num_nl in E as (-> & ->). auto. Qed.
Lemma bdry_nl b b' s s' r r' : boundaryName b = Some s -> boundaryName b' = Some s' -> s ++ nl ++ r = s' ++ nl ++ r' -> b = b' /\ r = r'.
Proof.
  intros H H' E. assert (K : forall x t, boundaryName x = Some t -> ~ In 10 t /\ ((x = 0 /\ t = str "MeshBoundary") \/ (x = 1 /\ t = str "PartitionBoundary") \/ (x = 2 /\ t = str "NotBoundary"))).
  { intros x t X. unfold boundaryName, MeshBoundary, PartitionBoundary, NotBoundary in X. destruct (N.eqb_spec x 0) as [->|_]; [|destruct (N.eqb_spec x 1) as [->|_]; [|destruct (N.eqb_spec x 2) as [->|_]; [|discriminate]]];
      apply Some_inj in X; subst t; (split; [cbn; repeat (intros [X|X]; [discriminate|revert X]); auto|tauto]). }
  destruct (K _ _ H) as (A & B), (K _ _ H') as (A' & B'). apply upto in E as (E & ->); auto. split; auto.
  destruct B as [(-> & ->)|[(-> & ->)|(-> & ->)]], B' as [(-> & ->)|[(-> & ->)|(-> & ->)]]; reflexivity || discriminate E.
Qed.
Section Coords.
  Context (showf : N -> chars) (PL : plain showf).
  Lemma coords_nl p q r r' : coords showf p ++ r = coords showf q ++ r' -> same_point showf p q /\ r = r'.
  Proof.
    unfold coords. rewrite <- !app_assoc. intros E. apply app_inv_head in E.
    assert (P1 : forall x, ~ In 44 (showf x)) by (intros x I; destruct (PL x _ I) as (K & _); congruence). assert (P2 : forall x, ~ In 41 (showf x)) by (intros x I; destruct (PL x _ I) as (_ & K & _); congruence).
    change (str ", ") with (44 :: [32]) in E. cbn [app] in E. apply upto in E as (E0 & E); auto. apply (f_equal (@tl N)) in E. cbn [tl] in E. apply upto in E as (E1 & E); auto. apply (f_equal (@tl N)) in E. cbn [tl] in E.
    change (str ")") with [41] in E. cbn [app] in E. apply upto in E as (E2 & E); auto. split; [repeat split; auto|auto].
  Qed.
End Coords.

(** * Loops *)
Definition mapi {X Y} (f : nat -> X -> Y) := fix go (i : nat) (l : list X) : list Y := match l with [] => [] | x :: l' => f i x :: go (S i) l' end.
Lemma loop_list {X} (l : list X) (body : nat -> option chars) (f : nat -> X -> option chars) : (forall i, body i = (let* x := nth_error l i in f i x)) ->
  forall pre l', l = pre ++ l' -> printLoop body (List.length pre) (List.length l') = fold_right (fun x r => let* a := x in let* b := r in Some (a ++ b)) (Some []) (mapi f (List.length pre) l').
Proof.
  intros B pre l'. revert pre. induction l' as [|x l' IH]; intros pre E; [reflexivity|]. cbn [List.length printLoop mapi fold_right]. rewrite B. replace (nth_error l (List.length pre)) with (Some x) by (rewrite E, nth_error_app2, Nat.sub_diag by lia; reflexivity). cbn [obind].
  specialize (IH (pre ++ [x]) ltac:(rewrite <- app_assoc; exact E)). rewrite app_length, Nat.add_comm in IH. cbn [List.length Nat.add] in IH. rewrite IH. reflexivity.
Qed.
Definition joined (l : list (option chars)) : option chars := fold_right (fun x r => let* a := x in let* b := r in Some (a ++ b)) (Some []) l.
Lemma loop_all {X} (l : list X) body f : (forall i, body i = (let* x := nth_error l i in f i x)) -> printLoop body 0 (List.length l) = joined (mapi f 0 l).
Proof. intros B. exact (loop_list l body f B [] l eq_refl). Qed.
(** Blocks that can be told apart. *)
Lemma joined_inj {X} (Rel : X -> X -> Prop) (f : nat -> X -> option chars) : (forall i x y s t r r', f i x = Some s -> f i y = Some t -> s ++ r = t ++ r' -> Rel x y /\ r = r') ->
  forall l l' i s s' r r', List.length l = List.length l' -> joined (mapi f i l) = Some s -> joined (mapi f i l') = Some s' -> s ++ r = s' ++ r' -> Forall2 Rel l l' /\ r = r'.
Proof.
  intros F. induction l as [|x l IH]; intros [|y l'] i s s' r r' L H H' E; try discriminate L.
  - cbn in H, H'. apply Some_inj in H, H'. subst s s'. split; [constructor|exact E].
  - cbn [mapi joined fold_right] in H, H'. destruct (f i x) as [a|] eqn:A; [|discriminate H]. destruct (f i y) as [a'|] eqn:A'; [|discriminate H']. cbn [obind] in H, H'. fold (joined (mapi f (S i) l)) in H. fold (joined (mapi f (S i) l')) in H'.
    destruct (joined (mapi f (S i) l)) as [b|] eqn:B; [|discriminate H]. destruct (joined (mapi f (S i) l')) as [b'|] eqn:B'; [|discriminate H']. cbn [obind] in H, H'. apply Some_inj in H, H'. subst s s'. rewrite <- !app_assoc in E.
    destruct (F i x y a a' _ _ A A' E) as (RX & E'). destruct (IH l' (S i) b b' r r' ltac:(now injection L) B B' E') as (RL & ->). split; [now constructor|reflexivity].
Qed.
Lemma joined_same {X} (Rel : X -> X -> Prop) (f : nat -> X -> option chars) : (forall i x y, Rel x y -> f i x = f i y) -> forall l l' i, Forall2 Rel l l' -> joined (mapi f i l) = joined (mapi f i l').
Proof. intros F l l' i H. revert i. induction H as [|x y l l' R H IH]; intros i; [reflexivity|]. cbn [mapi joined fold_right]. rewrite (F i x y R). fold (joined (mapi f (S i) l)) (joined (mapi f (S i) l')). now rewrite IH. Qed.
Lemma joined_total {X} (f : nat -> X -> option chars) l : (forall i x, In x l -> f i x <> None) -> forall i, exists s, joined (mapi f i l) = Some s.
Proof.
  induction l as [|x l IH]; intros F i; [exists []; reflexivity|]. cbn [mapi joined fold_right]. destruct (f i x) as [a|] eqn:A; [|destruct (F i x (or_introl eq_refl) A)].
  destruct (IH (fun i y Hy => F i y (or_intror Hy)) (S i)) as (b & B). unfold joined in B. rewrite B. cbn. eauto.
Qed.
Lemma forall2_eq {X} (l l' : list X) : Forall2 eq l l' -> l = l'.
Proof. induction 1; congruence. Qed.
Lemma eq_forall2 {X} (l : list X) : Forall2 eq l l.
Proof. induction l; constructor; auto. Qed.

(** * The blocks *)
  Lemma bdry_known b : b < 3 <-> boundaryName b <> None.
  Proof.
    unfold boundaryName, MeshBoundary, PartitionBoundary, NotBoundary. destruct (N.eqb_spec b 0) as [->|A]; [split; [discriminate|lia]|]. destruct (N.eqb_spec b 1) as [->|B]; [split; [discriminate|lia]|]. destruct (N.eqb_spec b 2) as [->|C]; [split; [discriminate|lia]|].
    split; [lia|congruence].
  Qed.
  Lemma joined_none {X} (f : nat -> X -> option chars) l : forall i, joined (mapi f i l) <> None -> forall k x, nth_error l k = Some x -> f (i + k)%nat x <> None.
  Proof.
    induction l as [|y l IH]; intros i H [|k] x E; try discriminate E; cbn [mapi joined fold_right] in H; fold (joined (mapi f (S i) l)) in H.
    - apply Some_inj in E. subst y. rewrite Nat.add_0_r. intros Z. rewrite Z in H. cbn in H. congruence.
    - replace (i + S k)%nat with (S i + k)%nat by lia. apply IH; auto. intros Z. rewrite Z in H. destruct (f i y); cbn in H; congruence.
  Qed.
Section Blocks.
  Context (showf : N -> chars).
  Definition cellText i c := Some (str "Cell " ++ num (N.of_nat i) ++ nl ++ str "   Faces " ++ num4 (sc_faces c) ++ nl ++ str "   Nodes " ++ num4 (sc_nodes c) ++ nl ++ str "   Material Index " ++ num (sc_mat c) ++ nl).
  Definition faceText i f := Some (str "Face " ++ num (N.of_nat i) ++ nl ++ str "   Cells " ++ num2 (sf_cells f) ++ nl ++ str "   Nodes " ++ num3 (sf_nodes f) ++ nl).
  Definition nodeText i n := Some (str "Node " ++ num (N.of_nat i) ++ str ": " ++ coords showf (sn_coords n) ++ nl).
  Definition pcellText i c := Some (str "   Cell " ++ num (N.of_nat i) ++ nl ++ str "      Faces " ++ num4 (pc_faces c) ++ nl ++ str "      Nodes " ++ num4 (pc_nodes c) ++ nl ++
      str "      globalID: " ++ num (pc_gid c) ++ nl ++ str "      materialIndex: " ++ num (pc_mat c) ++ nl).
  Definition pfaceText i f := let* b := boundaryName (pf_bdry f) in
    Some (str "   Face " ++ num (N.of_nat i) ++ nl ++ str "      Cells " ++ num2 (pf_cells f) ++ nl ++ str "      Nodes " ++ num3 (pf_nodes f) ++ nl ++
      str "      globalID: " ++ num (pf_gid f) ++ nl ++ str "      partition: " ++ num2 (pf_part f) ++ nl ++ str "      boundaryType: " ++ b ++ nl).
  Definition pnodeText i n := Some (str "   Node " ++ num (N.of_nat i) ++ nl ++ str "      coords: " ++ coords showf (pn_coords n) ++ nl ++ str "      globalID: " ++ num (pn_gid n) ++ nl).

  Lemma cell_inj i x y s t r r' : cellText i x = Some s -> cellText i y = Some t -> s ++ r = t ++ r' -> x = y /\ r = r'.
  Proof.
    unfold cellText. intros A B E. apply Some_inj in A, B. subst s t. rewrite <- !app_assoc in E. apply app_inv_head in E. apply app_inv_head in E. apply app_inv_head in E. apply app_inv_head in E.
    apply num4_nl in E as (E1 & E). apply app_inv_head in E. apply num4_nl in E as (E2 & E). apply app_inv_head in E. apply num_nl in E as (E3 & E). destruct x, y; cbn in *; subst; auto.
  Qed.
  Lemma face_inj i x y s t r r' : faceText i x = Some s -> faceText i y = Some t -> s ++ r = t ++ r' -> x = y /\ r = r'.
  Proof.
    unfold faceText. intros A B E. apply Some_inj in A, B. subst s t. rewrite <- !app_assoc in E. apply app_inv_head in E. apply app_inv_head in E. apply app_inv_head in E. apply app_inv_head in E.
    apply num2_nl in E as (E1 & E). apply app_inv_head in E. apply num3_nl in E as (E2 & E). destruct x, y; cbn in *; subst; auto.
  Qed.
  Lemma node_inj (PL : plain showf) i x y s t r r' : nodeText i x = Some s -> nodeText i y = Some t -> s ++ r = t ++ r' -> same_point showf (sn_coords x) (sn_coords y) /\ r = r'.
  Proof.
    unfold nodeText. intros A B E. apply Some_inj in A, B. subst s t. rewrite <- !app_assoc in E. apply app_inv_head in E. apply app_inv_head in E. apply app_inv_head in E.
    apply (coords_nl showf PL) in E as (E1 & E). apply app_inv_head in E. auto.
  Qed.
  Lemma node_same i x y : same_point showf (sn_coords x) (sn_coords y) -> nodeText i x = nodeText i y.
  Proof. intros (A & B & C). unfold nodeText, coords. now rewrite A, B, C. Qed.
  Lemma pcell_inj i x y s t r r' : pcellText i x = Some s -> pcellText i y = Some t -> s ++ r = t ++ r' -> x = y /\ r = r'.
  Proof.
    unfold pcellText. intros A B E. apply Some_inj in A, B. subst s t. rewrite <- !app_assoc in E. apply app_inv_head in E. apply app_inv_head in E. apply app_inv_head in E. apply app_inv_head in E.
    apply num4_nl in E as (E1 & E). apply app_inv_head in E. apply num4_nl in E as (E2 & E). apply app_inv_head in E. apply num_nl in E as (E3 & E). apply app_inv_head in E. apply num_nl in E as (E4 & E). destruct x, y; cbn in *; subst; auto.
  Qed.
  Lemma pface_inj i x y s t r r' : pfaceText i x = Some s -> pfaceText i y = Some t -> s ++ r = t ++ r' -> x = y /\ r = r'.
  Proof.
    unfold pfaceText. intros A B E. destruct (boundaryName (pf_bdry x)) as [b|] eqn:BX; [|discriminate A]. destruct (boundaryName (pf_bdry y)) as [b'|] eqn:BY; [|discriminate B]. cbn [obind] in A, B. apply Some_inj in A, B. subst s t. rewrite <- !app_assoc in E.
    apply app_inv_head in E. apply app_inv_head in E. apply app_inv_head in E. apply app_inv_head in E.
    apply num2_nl in E as (E1 & E). apply app_inv_head in E. apply num3_nl in E as (E2 & E). apply app_inv_head in E. apply num_nl in E as (E3 & E). apply app_inv_head in E. apply num2_nl in E as (E4 & E). apply app_inv_head in E.
    apply (bdry_nl _ _ _ _ _ _ BX BY) in E as (E5 & E). destruct x, y; cbn in *; subst; auto.
  Qed.
  Lemma pnode_inj (PL : plain showf) i x y s t r r' : pnodeText i x = Some s -> pnodeText i y = Some t -> s ++ r = t ++ r' -> (same_point showf (pn_coords x) (pn_coords y) /\ pn_gid x = pn_gid y) /\ r = r'.
  Proof.
    unfold pnodeText. intros A B E. apply Some_inj in A, B. subst s t. rewrite <- !app_assoc in E. apply app_inv_head in E. apply app_inv_head in E. apply app_inv_head in E. apply app_inv_head in E.
    apply (coords_nl showf PL) in E as (E1 & E). apply app_inv_head in E. apply app_inv_head in E. apply num_nl in E as (E2 & E). auto.
  Qed.
  Lemma pnode_same i x y : same_point showf (pn_coords x) (pn_coords y) /\ pn_gid x = pn_gid y -> pnodeText i x = pnodeText i y.
  Proof. intros ((A & B & C) & D). unfold pnodeText, coords. now rewrite A, B, C, D. Qed.
End Blocks.

(** * Serial meshes *)
Lemma forall2_length {X Y} (R : X -> Y -> Prop) l l' : Forall2 R l l' -> List.length l = List.length l'.
Proof. induction 1; cbn; congruence. Qed.
Lemma to_nat_lenN {X} (l : list X) : N.to_nat (lenN l) = List.length l.
Proof. unfold lenN. apply Nat2N.id. Qed.
Section Serial.
  Context (showf : N -> chars).
  Definition headText name v a b c := str "Mesh Format Name: " ++ name ++ nl ++ str "Mesh Version: " ++ num v ++ nl ++ str "Num Cells: " ++ num a ++ nl ++ str "Num Faces: " ++ num b ++ nl ++ str "Num Nodes: " ++ num c ++ nl.
  Definition serialName' : chars := str "Tycho 2 Serial Mesh".
  Definition readable (m : smesh) : Prop := serial_wf m /\ sm_name m = magic32 "Tycho 2 Serial Mesh" /\ sm_version m = 2.
  Lemma serial_brief m : readable m -> serialPrint showf false m = Some (headText serialName' 2 (lenN (sm_cells m)) (lenN (sm_faces m)) (lenN (sm_nodes m))).
  Proof. intros ((A & B & C & _) & N & V). unfold serialPrint. rewrite N, V, A, B, C. reflexivity. Qed.
  Lemma serial_verbose m : readable m -> serialPrint showf true m = (let* a := joined (mapi cellText 0 (sm_cells m)) in let* b := joined (mapi faceText 0 (sm_faces m)) in let* c := joined (mapi (nodeText showf) 0 (sm_nodes m)) in
    Some (headText serialName' 2 (lenN (sm_cells m)) (lenN (sm_faces m)) (lenN (sm_nodes m)) ++ a ++ b ++ c)).
  Proof.
    intros ((A & B & C & _) & N & V). unfold serialPrint. rewrite N, V, A, B, C. change (cstr (magic32 "Tycho 2 Serial Mesh")) with (Some serialName'). cbn [obind negb].
    rewrite !to_nat_lenN. rewrite (loop_all (sm_cells m) (serialCell m) cellText), (loop_all (sm_faces m) (serialFace m) faceText), (loop_all (sm_nodes m) (serialNode showf m) (nodeText showf)); try (intros i; reflexivity). reflexivity.
  Qed.
  Lemma head_inj nm v a b c a' b' c' r r' : headText nm v a b c ++ r = headText nm v a' b' c' ++ r' -> (a = a' /\ b = b' /\ c = c') /\ r = r'.
  Proof.
    unfold headText. rewrite <- !app_assoc. intros E. do 6 apply app_inv_head in E. apply app_inv_head in E. apply num_nl in E as (E1 & E). apply app_inv_head in E. apply num_nl in E as (E2 & E). apply app_inv_head in E. apply num_nl in E as (E3 & E). auto.
  Qed.
  Lemma lenN_len {X} (l l' : list X) : lenN l = lenN l' -> List.length l = List.length l'.
  Proof. unfold lenN. lia. Qed.
  Lemma serial_printed m : readable m -> exists s, serialPrint showf true m = Some s.
  Proof.
    intros R. rewrite (serial_verbose m R). destruct (joined_total cellText (sm_cells m) ltac:(discriminate) 0) as (a & ->). destruct (joined_total faceText (sm_faces m) ltac:(discriminate) 0) as (b & ->). destruct (joined_total (nodeText showf) (sm_nodes m) ltac:(discriminate) 0) as (c & ->). cbn. eauto.
  Qed.
  Lemma serial_iff (PL : plain showf) m m' : readable m -> readable m' -> (serialPrint showf true m = serialPrint showf true m' <-> same_serial showf m m').
  Proof.
    intros R R'. split.
    - intros E. rewrite (serial_verbose m R), (serial_verbose m' R') in E.
      destruct (joined_total cellText (sm_cells m) ltac:(discriminate) 0) as (a & A). destruct (joined_total faceText (sm_faces m) ltac:(discriminate) 0) as (b & B). destruct (joined_total (nodeText showf) (sm_nodes m) ltac:(discriminate) 0) as (c & C).
      destruct (joined_total cellText (sm_cells m') ltac:(discriminate) 0) as (a' & A'). destruct (joined_total faceText (sm_faces m') ltac:(discriminate) 0) as (b' & B'). destruct (joined_total (nodeText showf) (sm_nodes m') ltac:(discriminate) 0) as (c' & C').
      rewrite A, B, C, A', B', C' in E. cbn [obind] in E. apply Some_inj in E. apply head_inj in E as ((L1 & L2 & L3) & E). apply lenN_len in L1, L2, L3.
      destruct (joined_inj eq cellText cell_inj _ _ 0%nat _ _ _ _ L1 A A' E) as (Q1 & E1). destruct (joined_inj eq faceText face_inj _ _ 0%nat _ _ _ _ L2 B B' E1) as (Q2 & E2).
      rewrite <- (app_nil_r c), <- (app_nil_r c') in E2. destruct (joined_inj _ (nodeText showf) (node_inj showf PL) _ _ 0%nat _ _ _ _ L3 C C' E2) as (Q3 & _). split; [now apply forall2_eq|]. split; [now apply forall2_eq|exact Q3].
    - intros (E1 & E2 & E3). rewrite (serial_verbose m R), (serial_verbose m' R'), E1, E2. rewrite (joined_same _ (nodeText showf) (node_same showf) _ _ 0%nat E3). unfold lenN. now rewrite (forall2_length _ _ _ E3).
  Qed.
End Serial.

(** * Parallel meshes *)
Section Parallel.
  Context (showf : N -> chars).
  Definition partHead a b c := str "   Num Cells: " ++ num a ++ nl ++ str "   Num Faces: " ++ num b ++ nl ++ str "   Num Nodes: " ++ num c ++ nl.
  Lemma part_brief p : partition_wf p -> printPartitionData showf false p = Some (partHead (lenN (pt_cells p)) (lenN (pt_faces p)) (lenN (pt_nodes p))).
  Proof. intros (A & B & C & _). unfold printPartitionData. now rewrite A, B, C. Qed.
  Lemma part_verbose p : partition_wf p -> printPartitionData showf true p = (let* a := joined (mapi pcellText 0 (pt_cells p)) in let* b := joined (mapi pfaceText 0 (pt_faces p)) in let* c := joined (mapi (pnodeText showf) 0 (pt_nodes p)) in
    Some (partHead (lenN (pt_cells p)) (lenN (pt_faces p)) (lenN (pt_nodes p)) ++ a ++ b ++ c)).
  Proof.
    intros (A & B & C & _). unfold printPartitionData. rewrite A, B, C. cbn [obind negb]. rewrite !to_nat_lenN. rewrite (loop_all (pt_cells p) (partCell p) pcellText), (loop_all (pt_faces p) (partFace p) pfaceText), (loop_all (pt_nodes p) (partNode showf p) (pnodeText showf)); try (intros i; reflexivity). reflexivity.
  Qed.
  Lemma partHead_inj a b c a' b' c' r r' : partHead a b c ++ r = partHead a' b' c' ++ r' -> (a = a' /\ b = b' /\ c = c') /\ r = r'.
  Proof.
    unfold partHead. rewrite <- !app_assoc. intros E. apply app_inv_head in E. apply num_nl in E as (E1 & E). apply app_inv_head in E. apply num_nl in E as (E2 & E). apply app_inv_head in E. apply num_nl in E as (E3 & E). auto.
  Qed.
  Lemma part_printed p : partition_wf p -> boundary_types_ok p -> exists s, printPartitionData showf true p = Some s.
  Proof.
    intros W BT. rewrite (part_verbose p W). destruct (joined_total pcellText (pt_cells p) ltac:(discriminate) 0) as (a & ->). destruct (joined_total (pnodeText showf) (pt_nodes p) ltac:(discriminate) 0) as (c & ->).
    destruct (joined_total pfaceText (pt_faces p)) with (i := 0%nat) as (b & ->); [|cbn; eauto]. intros i x Hx. pose proof (proj1 (bdry_known _) (proj1 (Forall_forall _ _) BT x Hx)) as K. unfold pfaceText. destruct (boundaryName (pf_bdry x)); [discriminate|congruence].
  Qed.
  Lemma part_printed_only p : partition_wf p -> printPartitionData showf true p <> None -> boundary_types_ok p.
  Proof.
    intros W H. rewrite (part_verbose p W) in H. apply Forall_forall. intros f Hf. apply bdry_known. apply In_nth_error in Hf as (k & Hk). assert (J : joined (mapi pfaceText 0 (pt_faces p)) <> None) by (intros Z; rewrite Z in H; destruct (joined (mapi pcellText 0 (pt_cells p))); cbn in H; congruence).
    pose proof (joined_none pfaceText _ _ J k f Hk) as K. unfold pfaceText in K. intros Z. rewrite Z in K. now apply K.
  Qed.
  Lemma part_inj (PL : plain showf) p p' s s' r r' : partition_wf p -> partition_wf p' -> printPartitionData showf true p = Some s -> printPartitionData showf true p' = Some s' -> s ++ r = s' ++ r' -> same_part showf p p' /\ r = r'.
  Proof.
    intros W W' P P' E. rewrite (part_verbose p W) in P. rewrite (part_verbose p' W') in P'.
    destruct (joined (mapi pcellText 0 (pt_cells p))) as [a|] eqn:A; [|discriminate P]. destruct (joined (mapi pfaceText 0 (pt_faces p))) as [b|] eqn:B; [|discriminate P]. destruct (joined (mapi (pnodeText showf) 0 (pt_nodes p))) as [c|] eqn:C; [|discriminate P].
    destruct (joined (mapi pcellText 0 (pt_cells p'))) as [a'|] eqn:A'; [|discriminate P']. destruct (joined (mapi pfaceText 0 (pt_faces p'))) as [b'|] eqn:B'; [|discriminate P']. destruct (joined (mapi (pnodeText showf) 0 (pt_nodes p'))) as [c'|] eqn:C'; [|discriminate P'].
    cbn [obind] in P, P'. apply Some_inj in P, P'. subst s s'. rewrite <- !app_assoc in E. apply partHead_inj in E as ((L1 & L2 & L3) & E). apply lenN_len in L1, L2, L3.
    destruct (joined_inj eq pcellText pcell_inj _ _ 0%nat _ _ _ _ L1 A A' E) as (Q1 & E1). destruct (joined_inj eq pfaceText pface_inj _ _ 0%nat _ _ _ _ L2 B B' E1) as (Q2 & E2).
    destruct (joined_inj _ (pnodeText showf) (pnode_inj showf PL) _ _ 0%nat _ _ _ _ L3 C C' E2) as (Q3 & E3). split; [|exact E3]. split; [now apply forall2_eq|]. split; [now apply forall2_eq|exact Q3].
  Qed.
  Lemma part_same p p' : partition_wf p -> partition_wf p' -> same_part showf p p' -> printPartitionData showf true p = printPartitionData showf true p'.
  Proof. intros W W' (E1 & E2 & E3). rewrite (part_verbose p W), (part_verbose p' W'), E1, E2. rewrite (joined_same _ (pnodeText showf) (pnode_same showf) _ _ 0%nat E3). unfold lenN. now rewrite (forall2_length _ _ _ E3). Qed.

  Definition offText (i : nat) (o : N) : option chars := Some (str "   " ++ num o ++ nl).
  Definition partText (v : bool) (i : nat) (p : partition) : option chars := let* t := printPartitionData showf v p in Some (str "Partition " ++ num (N.of_nat i) ++ nl ++ t).
  Definition readableP (m : pmesh) : Prop := parallel_wf m /\ pm_name m = magic32 "Tycho 2 Parallel Mesh" /\ pm_version m = 2.
  Definition topText n : chars := str "Mesh Format Name: " ++ str "Tycho 2 Parallel Mesh" ++ nl ++ str "Mesh Version: " ++ num 2 ++ nl ++ str "Num partitions " ++ num n ++ nl ++ str "Bytes Offset" ++ nl.
  Lemma parallel_text v m : readableP m -> parallelPrint showf v m = (let* o := joined (mapi offText 0 (pm_bytesOffset m)) in let* t := joined (mapi (partText v) 0 (pm_parts m)) in Some (topText (lenN (pm_parts m)) ++ o ++ t)).
  Proof.
    intros ((A & B & C & _) & N & V). unfold parallelPrint. rewrite N, V, A. change (cstr (magic32 "Tycho 2 Parallel Mesh")) with (Some (str "Tycho 2 Parallel Mesh")). cbn [obind].
    assert (LO : N.to_nat (w64 (lenN (pm_parts m) + 1)) = List.length (pm_bytesOffset m)) by (unfold w64; rewrite N.mod_small by exact C; rewrite <- B; unfold lenN; apply Nat2N.id). rewrite LO.
    rewrite !to_nat_lenN. rewrite (loop_all (pm_bytesOffset m) _ offText) by (intros i; reflexivity). rewrite (loop_all (pm_parts m) _ (partText v)) by (intros i; reflexivity).
    destruct (joined (mapi offText 0 (pm_bytesOffset m))) as [o|]; [|reflexivity]. cbn [obind]. destruct (joined (mapi (partText v) 0 (pm_parts m))) as [t|]; [|reflexivity]. cbn [obind]. unfold topText. rewrite <- !app_assoc. reflexivity.
  Qed.
  Lemma top_inj n n' r r' : topText n ++ r = topText n' ++ r' -> n = n' /\ r = r'.
  Proof. unfold topText. rewrite <- !app_assoc. intros E. do 7 apply app_inv_head in E. apply num_nl in E as (E1 & E). do 2 apply app_inv_head in E. auto. Qed.
  Lemma off_inj i x y s t r r' : offText i x = Some s -> offText i y = Some t -> s ++ r = t ++ r' -> x = y /\ r = r'.
  Proof. unfold offText. intros A B E. apply Some_inj in A, B. subst s t. rewrite <- !app_assoc in E. apply app_inv_head in E. apply num_nl in E as (-> & ->). auto. Qed.
  Lemma parallel_printed v m : readableP m -> Forall boundary_types_ok (pm_parts m) -> exists s, parallelPrint showf v m = Some s.
  Proof.
    intros R BT. rewrite (parallel_text v m R). destruct R as ((_ & _ & _ & _ & W) & _). destruct (joined_total offText (pm_bytesOffset m) ltac:(discriminate) 0) as (o & ->). destruct (joined_total (partText v) (pm_parts m)) with (i := 0%nat) as (t & ->); [|cbn; eauto].
    intros i x Hx. rewrite Forall_forall in BT, W. unfold partText. destruct v; [destruct (part_printed x (W x Hx) (BT x Hx)) as (s & ->)|rewrite (part_brief x (W x Hx))]; discriminate.
  Qed.
  Lemma parts_inj (PL : plain showf) ps : Forall partition_wf ps -> forall ps', Forall partition_wf ps' -> List.length ps = List.length ps' -> forall i r r' t t', joined (mapi (partText true) i ps) = Some t -> joined (mapi (partText true) i ps') = Some t' -> t ++ r = t' ++ r' ->
    Forall2 (same_part showf) ps ps'.
  Proof.
    induction 1 as [|p ps Wp W IH]; intros [|p' ps'] W' L i r r' t t' T T' E; try discriminate L; [constructor|].
    cbn [mapi joined fold_right] in T, T'. fold (joined (mapi (partText true) (S i) ps)) in T. fold (joined (mapi (partText true) (S i) ps')) in T'. apply Forall_inv in W' as Wp'. apply Forall_inv_tail in W'. unfold partText at 1 in T. unfold partText at 1 in T'.
    destruct (printPartitionData showf true p) as [a|] eqn:A; [|discriminate T]. destruct (printPartitionData showf true p') as [a'|] eqn:A'; [|discriminate T']. cbn [obind] in T, T'.
    destruct (joined (mapi (partText true) (S i) ps)) as [b|] eqn:B; [|discriminate T]. destruct (joined (mapi (partText true) (S i) ps')) as [b'|] eqn:B'; [|discriminate T']. cbn [obind] in T, T'. apply Some_inj in T, T'. subst t t'. rewrite <- !app_assoc in E. do 3 apply app_inv_head in E.
    destruct (part_inj PL p p' a a' _ _ Wp Wp' A A' E) as (Q & E'). constructor; auto. eapply (IH ps' W' ltac:(now injection L) (S i)); eauto.
  Qed.
  Lemma parallel_inj (PL : plain showf) m m' s s' r r' : readableP m -> readableP m' -> parallelPrint showf true m = Some s -> parallelPrint showf true m' = Some s' -> s ++ r = s' ++ r' -> same_parallel showf m m'.
  Proof.
    intros R R' P P' E. assert (W : Forall partition_wf (pm_parts m)) by apply R. assert (W' : Forall partition_wf (pm_parts m')) by apply R'. rewrite (parallel_text true m R) in P. rewrite (parallel_text true m' R') in P'.
    destruct (joined (mapi offText 0 (pm_bytesOffset m))) as [o|] eqn:O; [|discriminate P]. destruct (joined (mapi (partText true) 0 (pm_parts m))) as [t|] eqn:T; [|discriminate P].
    destruct (joined (mapi offText 0 (pm_bytesOffset m'))) as [o'|] eqn:O'; [|discriminate P']. destruct (joined (mapi (partText true) 0 (pm_parts m'))) as [t'|] eqn:T'; [|discriminate P'].
    cbn [obind] in P, P'. apply Some_inj in P, P'. rewrite <- P, <- P', <- !app_assoc in E. apply top_inj in E as (L & E). assert (LO : List.length (pm_bytesOffset m) = List.length (pm_bytesOffset m')).
    { apply lenN_len. destruct R as ((_ & B & _) & _), R' as ((_ & B' & _) & _). rewrite B, B', L. reflexivity. }
    apply lenN_len in L. destruct (joined_inj eq offText off_inj _ _ 0%nat _ _ _ _ LO O O' E) as (Q & E1). split; [now apply forall2_eq|]. exact (parts_inj PL _ W _ W' L 0%nat _ _ _ _ T T' E1).
  Qed.
  Lemma parts_same v ps ps' : Forall partition_wf ps -> Forall partition_wf ps' -> Forall2 (fun p p' => printPartitionData showf v p = printPartitionData showf v p') ps ps' -> joined (mapi (partText v) 0 ps) = joined (mapi (partText v) 0 ps').
  Proof. intros _ _ E. apply (joined_same _ (partText v) (fun i x y (H : printPartitionData showf v x = printPartitionData showf v y) => f_equal (fun o => obind o (fun t => Some (str "Partition " ++ num (N.of_nat i) ++ nl ++ t))) H) _ _ 0%nat E). Qed.
  Lemma parallel_same m m' : readableP m -> readableP m' -> same_parallel showf m m' -> parallelPrint showf true m = parallelPrint showf true m' /\ joined (mapi (partText true) 0 (pm_parts m)) = joined (mapi (partText true) 0 (pm_parts m')).
  Proof.
    intros R R' (E1 & E2). assert (W : Forall partition_wf (pm_parts m)) by apply R. assert (W' : Forall partition_wf (pm_parts m')) by apply R'.
    assert (J : joined (mapi (partText true) 0 (pm_parts m)) = joined (mapi (partText true) 0 (pm_parts m'))).
    { apply parts_same; auto. clear - W W' E2. induction E2 as [|p p' ps ps' Q E2 IH]; constructor; [apply part_same; auto; [now apply Forall_inv in W|now apply Forall_inv in W']|apply IH; [now apply Forall_inv_tail in W|now apply Forall_inv_tail in W']]. }
    split; [|exact J]. rewrite (parallel_text true m R), (parallel_text true m' R'), E1, J. unfold lenN. now rewrite (forall2_length _ _ _ E2).
  Qed.
  Lemma parallel_needs m : readableP m -> parallelPrint showf true m <> None -> Forall boundary_types_ok (pm_parts m).
  Proof.
    intros R H. rewrite (parallel_text true m R) in H. assert (W : Forall partition_wf (pm_parts m)) by apply R. apply Forall_forall. intros p Hp. apply part_printed_only; [now apply (proj1 (Forall_forall _ _) W)|].
    assert (J : joined (mapi (partText true) 0 (pm_parts m)) <> None) by (intros Z; rewrite Z in H; destruct (joined (mapi offText 0 (pm_bytesOffset m))); cbn in H; congruence).
    apply In_nth_error in Hp as (k & Hk). pose proof (joined_none _ _ _ J k p Hk) as K. unfold partText in K. intros Z. rewrite Z in K. now apply K.
  Qed.
  (** The parts, read one by one. *)
  Lemma ranks_text v (part : nat -> option partition) ps : (forall i p, nth_error ps i = Some p -> part i = Some p) ->
    printLoop (printPart showf v part) 0 (List.length ps) = printLoop (printPart showf v (nth_error ps)) 0 (List.length ps).
  Proof.
    intros H. assert (K : forall n i, (i + n <= List.length ps)%nat -> printLoop (printPart showf v part) i n = printLoop (printPart showf v (nth_error ps)) i n); [|now apply K].
    induction n as [|n IH]; intros i L; [reflexivity|]. cbn [printLoop]. rewrite IH by lia. unfold printPart. destruct (nth_error ps i) as [p|] eqn:E; [|apply nth_error_None in E; lia]. now rewrite (H i p E).
  Qed.
End Parallel.
