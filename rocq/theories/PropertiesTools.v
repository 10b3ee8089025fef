(** C74: numbers on the command line, and what the column partitioner writes. *)
From Coq Require Import Reals Lra Lia Permutation ZArith.
From Verif Require Import Prelude Bytes DeckModel MeshModel MeshSpec CreateModel CreateSpec CreateProofs TychoSpec GeometryModel GeometryProofs ViewSpec ColumnsModel ColumnsSpec PropertiesColumns MetisModel CommandModel PropertiesCommand.

(** A decimal numeral: digits, most significant first. *)
Fixpoint worth (ds : list Z) : Z := match ds with [] => 0 | d :: ds' => d * 10 ^ Z.of_nat (length ds') + worth ds' end%Z.
Definition written_digits (ds : list Z) : chars := map (fun d => Z.to_N (48 + d)) ds.
Definition digits_ok (ds : list Z) : Prop := Forall (fun d => 0 <= d < 10)%Z ds.
Definition blank (c : N) : Prop := c = 32%N \/ (9 <= c <= 13)%N.
Definition not_digit_first (s : chars) : Prop := match s with [] => True | c :: _ => (c < 48 \/ 57 < c)%N end.
(** The C integers. *)
Definition fits_int (z : Z) : Prop := (- 2147483648 <= z <= 2147483647)%Z.

Lemma digits_worth ds : forall acc rest, digits_ok ds -> not_digit_first rest -> digits acc (written_digits ds ++ rest) = (acc * 10 ^ Z.of_nat (length ds) + worth ds)%Z.
Proof.
  induction ds as [|d ds IH]; intros acc rest OK NR; cbn [written_digits map app digits worth length].
  - destruct rest as [|c rest]; cbn [digits]; [lia|]. cbn in NR. unfold isDigit. destruct (N.leb_spec 48 c), (N.leb_spec c 57); cbn [andb]; try lia.
  - inversion OK as [|? ? D OK']; subst. assert (E : isDigit (Z.to_N (48 + d)) = true) by (unfold isDigit; apply andb_true_intro; split; apply N.leb_le; lia). rewrite E.
    rewrite (IH _ _ OK' NR). replace (Z.of_N (Z.to_N (48 + d) - 48)) with d by lia. rewrite Nat2Z.inj_succ, Z.pow_succ_r by lia. ring.
Qed.
Lemma skip_blanks sp s : Forall blank sp -> skipSpace (sp ++ s) = skipSpace s.
Proof. induction 1 as [|c sp B _ IH]; [reflexivity|]. cbn [app skipSpace]. assert (E : isSpace c = true) by (unfold isSpace; destruct B as [->|B]; [reflexivity|]; apply orb_true_intro; right; apply andb_true_intro; split; apply N.leb_le; lia). rewrite E. exact IH. Qed.
Lemma int_range z : ((- 2 ^ 31 <=? z) && (z <? 2 ^ 31))%Z = true <-> fits_int z.
Proof. unfold fits_int. change (2 ^ 31)%Z with 2147483648%Z. rewrite Bool.andb_true_iff, Z.leb_le, Z.ltb_lt. lia. Qed.
(** Blanks, a sign or none, digits, and anything that is not a digit: the number, if it is an int. *)
Theorem C74_number : forall sp sign ds rest z, Forall blank sp -> digits_ok ds -> ds <> [] -> not_digit_first rest ->
  (sign = [] /\ z = worth ds \/ sign = [43]%N /\ z = worth ds \/ sign = [45]%N /\ z = (- worth ds)%Z) ->
  (fits_int z -> atoi (sp ++ sign ++ written_digits ds ++ rest) = Some z) /\ (~ fits_int z -> atoi (sp ++ sign ++ written_digits ds ++ rest) = None).
Proof.
  intros sp sign ds rest z SP OK NE NR SG. assert (E : match skipSpace (sp ++ sign ++ written_digits ds ++ rest) with c :: s' => if (c =? 45)%N then (- digits 0 s')%Z else if (c =? 43)%N then digits 0 s' else digits 0 (c :: s') | [] => 0%Z end = z).
  { rewrite (skip_blanks sp _ SP). assert (W : digits 0 (written_digits ds ++ rest) = worth ds) by (rewrite (digits_worth ds 0 rest OK NR); lia).
    destruct SG as [(-> & ->)|[(-> & ->)|(-> & ->)]]; cbn [app].
    - destruct ds as [|d ds]; [contradiction|]. inversion OK as [|? ? D OK']; subst. cbn [written_digits map app] in *. set (c := Z.to_N (48 + d)) in *. assert (C : (48 <= c <= 57)%N) by (unfold c; lia). clearbody c.
      assert (S : isSpace c = false) by (unfold isSpace; apply Bool.orb_false_intro; [apply N.eqb_neq; lia|apply Bool.andb_false_intro2; apply N.leb_gt; lia]). cbn [skipSpace]. rewrite S.
      destruct (N.eqb_spec c 45); [lia|]. destruct (N.eqb_spec c 43); [lia|]. exact W.
    - cbn. rewrite W. reflexivity.
    - cbn. rewrite W. reflexivity. }
  unfold atoi. cbv zeta. rewrite E. split; intros F.
  - rewrite (proj2 (int_range z) F). reflexivity.
  - destruct ((- 2 ^ 31 <=? z) && (z <? 2 ^ 31))%Z eqn:R; [|reflexivity]. exfalso. apply F. now apply int_range.
Qed.
(** A number of columns, rows or parts below one stops both partitioners before they write anything. *)
Theorem C74_no_parts : forall T (A : arith T) dec sortX sortY w metis prog x y inF outF fs z, (atoi x = Some z \/ atoi y = Some z) -> (z <= 0)%Z ->
  columnsMain A dec sortX sortY [prog; x; y; inF; outF] fs = None /\ (atoi x = Some z -> metisMain w metis [prog; x; inF; outF] fs = None).
Proof.
  intros T A dec sortX sortY w metis prog x y inF outF fs z H Z0. split.
  - unfold columnsMain. destruct H as [-> | ->]; cbn [obind].
    + destruct (atoi y); cbn [obind]; [|reflexivity]. destruct (Z.leb_spec z 0); [reflexivity|lia].
    + destruct (atoi x); cbn [obind]; [|reflexivity]. destruct (Z.leb_spec z 0); [now rewrite Bool.orb_true_r|lia].
  - intros E. unfold metisMain. rewrite E. cbn [obind]. destruct (Z.leb_spec z 0); [reflexivity|lia].
Qed.

(** Centroid of a cell. *)
Definition middle (k : q3 R -> R) (p : q4 (q3 R)) : R := ((k (r0 p) + k (r1 p) + k (r2 p) + k (r3 p)) / 4)%R.
(** In exact arithmetic: the file is that of a partition into nx columns by x, each cut into ny parts by y, as evenly as possible. *)
Theorem C74_columns : forall dec sortX sortY prog x y inF outF fs fs' file sm nx ny,
  is_sort (compareX (less Rops)) sortX -> is_sort (compareY (less Rops)) sortY ->
  fs inF = Some file -> serialRead file = Some sm -> serial_mesh_ok sm -> atoi x = Some (Z.of_nat nx) -> atoi y = Some (Z.of_nat ny) ->
  columnsMain Rops dec sortX sortY [prog; x; y; inF; outF] fs = Some fs' ->
  exists pv m mesh m', partition_vector_ok sm (map N.of_nat pv) (nx * ny) /\ createFromSerialMesh sm (map N.of_nat pv) (nx * ny) = Some m /\ parallelWrite m = Some (mesh, m') /\
    (forall name, fs' name = if list_eq_dec N.eq_dec name outF then Some mesh else fs name) /\
    let n := length (sm_cells sm) in
    (forall i, i < nx -> count_cells n (fun c => nth c pv 0 / ny =? i) = share n nx i) /\
    (forall i j, i < nx -> j < ny -> count_cells n (fun c => nth c pv 0 =? i * ny + j) = share (share n nx i) ny j) /\
    forall c d p q, s_cell sm dec (N.of_nat c) p -> s_cell sm dec (N.of_nat d) q ->
      (nth c pv 0 / ny < nth d pv 0 / ny -> (middle (@t0 R) p <= middle (@t0 R) q)%R) /\
      (nth c pv 0 / ny = nth d pv 0 / ny -> nth c pv 0 < nth d pv 0 -> (middle (@t1 R) p <= middle (@t1 R) q)%R).
Proof.
  intros dec sortX sortY prog x y inF outF fs fs' file sm nx ny SX SY F RD OK EX EY P. unfold columnsMain in P. rewrite EX, EY in P. cbn [obind] in P.
  destruct (Z.leb_spec (Z.of_nat nx) 0) as [|HX]; [discriminate|]. destruct (Z.leb_spec (Z.of_nat ny) 0) as [|HY]; [discriminate|]. cbn [orb] in P. rewrite <- Nat2Z.inj_mul in P. destruct (Z.leb_spec (2 ^ 31) (Z.of_nat (nx * ny))) as [|SZ]; [discriminate|].
  rewrite F in P. cbn [obind] in P. rewrite RD in P. cbn [obind] in P. rewrite !Nat2Z.id in P.
  assert (ND : forall c q v, nth_error (map sc_nodes (sm_cells sm)) c = Some q -> In v (q4l q) -> nodeX dec sm v <> None /\ nodeY dec sm v <> None).
  { intros c q v Hc Hv. rewrite nth_error_map in Hc. destruct (nth_error (sm_cells sm) c) as [sc|] eqn:Ec; [|discriminate]. cbn [option_map] in Hc. apply Some_inj in Hc. subst q.
    destruct (smo_cn sm OK (N.of_nat c) sc v) as (sn & Hn); [unfold SM_cell; now rewrite Nat2N.id|exact Hv|]. unfold nodeX, nodeY. rewrite nthN_nth. unfold SM_node in Hn. rewrite Hn. split; discriminate. }
  destruct (C13_columns R (azero Rops) (aadd Rops) (fun s => adiv Rops s (alit Rops 4)) (less Rops) sortX sortY (nodeX dec sm) (nodeY dec sm) (map sc_nodes (sm_cells sm)) nx ny SX SY ltac:(lia) ltac:(lia) ND) as (pv & E & L & R & C1 & C2 & O1 & O2).
  rewrite E in P. cbn [obind] in P. rewrite map_length in *.
  destruct (createFromSerialMesh sm (map N.of_nat pv) (nx * ny)) as [m|] eqn:CR; [|discriminate]. cbn [obind] in P. destruct (parallelWrite m) as [(mesh, m')|] eqn:WR; [|discriminate]. cbn [obind fst] in P. apply Some_inj in P. subst fs'.
  exists pv, m, mesh, m'. split; [apply C13_valid_partition_vector; auto; change (2 ^ 31)%N with (2 * 2 ^ 30)%N; lia|]. split; [exact CR|]. split; [exact WR|]. split; [reflexivity|]. cbv zeta. split; [exact C1|]. split; [exact C2|].
  assert (CT : forall c p, s_cell sm dec (N.of_nat c) p -> c < length (sm_cells sm) /\
    centroidOf (azero Rops) (aadd Rops) (fun s => adiv Rops s (alit Rops 4)) (nodeX dec sm) (nodeY dec sm) (map sc_nodes (sm_cells sm)) c = Some (mkCentroid c (middle (@t0 Rdefinitions.R) p) (middle (@t1 Rdefinitions.R) p))).
  { intros c p (sc & H & K). unfold SM_cell in H. rewrite Nat2N.id in H. split; [apply nth_error_Some; congruence|]. unfold centroidOf. rewrite nth_error_map, H. cbn [option_map obind].
    assert (PX : forall v q, s_point sm dec v = Some q -> nodeX dec sm v = Some (t0 q) /\ nodeY dec sm v = Some (t1 q)).
    { intros v q Q. unfold s_point, SM_node in Q. unfold nodeX, nodeY. rewrite nthN_nth. destruct (nth_error (sm_nodes sm) (N.to_nat v)) as [n|]; [|discriminate]. apply Some_inj in Q. subst q. cbn. auto. }
    destruct (sc_nodes sc) as [a b c0 d], p as [pa pb pc pd]. cbn [q4l map r0 r1 r2 r3] in K. injection K as K0 K1 K2 K3. unfold mean4. cbn [r0 r1 r2 r3].
    destruct (PX _ _ K0) as (-> & ->). destruct (PX _ _ K1) as (-> & ->). destruct (PX _ _ K2) as (-> & ->). destruct (PX _ _ K3) as (-> & ->). cbn [obind]. unfold middle. cbn [r0 r1 r2 r3 azero aadd adiv alit Rops]. rewrite !Rplus_0_l. reflexivity. }
  assert (LE : forall u v, less Rops u v = false -> (v <= u)%R). { intros u v H. unfold less in H. cbn in H. destruct (Rgt_dec v u); [discriminate|lra]. }
  intros c d p q Hp Hq. destruct (CT c p Hp) as (Lc & Ec). destruct (CT d q Hq) as (Ld & Ed). split.
  - intros H. exact (LE _ _ (O1 c d _ _ Lc Ld Ec Ed H)).
  - intros H H'. exact (LE _ _ (O2 c d _ _ Lc Ld Ec Ed H H')).
Qed.
Print Assumptions C74_number. Print Assumptions C74_no_parts. Print Assumptions C74_columns.

(** Numerals. *)
Example C74_number_ex : atoi [32; 45; 49; 50; 120]%N = Some (-12)%Z /\ atoi [51; 46; 57]%N = Some 3%Z /\ atoi [45; 50; 49; 52; 55; 52; 56; 51; 54; 52; 56]%N = Some (-2147483648)%Z /\ atoi [50; 49; 52; 55; 52; 56; 51; 54; 52; 56]%N = None.
Proof.
  split; [exact (proj1 (C74_number [32]%N [45]%N [1; 2]%Z [120]%N (-12) ltac:(repeat constructor) ltac:(repeat constructor; lia) ltac:(discriminate) ltac:(cbn; lia) ltac:(auto)) ltac:(unfold fits_int; lia))|].
  split; [exact (proj1 (C74_number [] [] [3]%Z [46; 57]%N 3 ltac:(repeat constructor) ltac:(repeat constructor; lia) ltac:(discriminate) ltac:(cbn; lia) ltac:(auto)) ltac:(unfold fits_int; lia))|].
  split; [exact (proj1 (C74_number [] [45]%N [2; 1; 4; 7; 4; 8; 3; 6; 4; 8]%Z [] (-2147483648) ltac:(repeat constructor) ltac:(repeat constructor; lia) ltac:(discriminate) ltac:(cbn; lia) ltac:(auto)) ltac:(unfold fits_int; lia))|].
  exact (proj2 (C74_number [] [] [2; 1; 4; 7; 4; 8; 3; 6; 4; 8]%Z [] 2147483648 ltac:(repeat constructor) ltac:(repeat constructor; lia) ltac:(discriminate) ltac:(cbn; lia) ltac:(auto)) ltac:(unfold fits_int; lia)).
Qed.
