(** C78: the comparison of output files by test/diff.py. *)
From Coq Require Import ZArith Reals Lra Lia Permutation.
From Flocq Require Import Core IEEE754.BinarySingleNaN IEEE754.Binary IEEE754.Bits.
From Verif Require Import Prelude Bytes DeckModel MeshModel MeshSpec CreateModel CreateSpec GeometryModel DoubleModel DoubleProofs RoundProofs ViewSpec PropertiesView BitsModel BitsSpec PropertiesBits ColumnsModel MetisModel LayoutModel PsiFileModel PsiFileSpec MainModel MainSpec PropertiesMain CommandModel PropertiesCommand DiffModel DiffSpec DiffProofs DiffDoubles.

(** Status 0 needs four arguments, both files and a positive tolerance. *)
Theorem C78_arguments : forall T (A : arith T) dec nsum pyfloat argv fs, agt A (aneg A (aone A)) (azero A) = false -> diffMain A dec nsum pyfloat argv fs = 0%N ->
  exists prog a b t f1 f2 tol, argv = [prog; a; b; t] /\ fs a = Some f1 /\ fs b = Some f2 /\ pyfloat t = Some tol /\ agt A tol (azero A) = true /\ compareFiles A dec nsum tol f1 f2 = true.
Proof.
  intros T A dec nsum pyfloat argv fs NEG H. unfold diffMain in H. destruct argv as [|prog [|a [|b rest]]]; try discriminate. destruct (fs a) as [f1|] eqn:F1; [|discriminate]. destruct (fs b) as [f2|] eqn:F2; [|discriminate].
  assert (K : forall tol, compareFiles A dec nsum tol f1 f2 = true -> agt A tol (azero A) = true).
  { intros tol C. unfold compareFiles in C. destruct (negb _); [discriminate|]. destruct (largest A _); [|discriminate]. destruct (largest A _); [|discriminate]. destruct (agt A tol (adiv A _ _)); [|discriminate]. destruct (agt A tol (adiv A _ _)); [exact C|discriminate]. }
  destruct rest as [|t [|u rest]].
  - destruct (compareFiles A dec nsum (aneg A (aone A)) f1 f2) eqn:C; [|discriminate]. rewrite (K _ C) in NEG. discriminate.
  - destruct (pyfloat t) as [tol|] eqn:PF; [|discriminate]. destruct (compareFiles A dec nsum tol f1 f2) eqn:C; [|discriminate]. exists prog, a, b, t, f1, f2, tol. repeat split; auto.
  - destruct (compareFiles A dec nsum (aneg A (aone A)) f1 f2) eqn:C; [|discriminate]. rewrite (K _ C) in NEG. discriminate.
Qed.
(** In exact arithmetic it is 0 exactly if the files are as close as asked for, if the reference is not zero. *)
Theorem C78_exact : forall dec nsum pyfloat prog a b t fs f1 f2 tol, adds Rops nsum -> fs a = Some f1 -> fs b = Some f2 -> pyfloat t = Some tol ->
  (exists i, i < number_of f2 /\ number_at dec f2 i <> 0%R) ->
  (diffMain Rops dec nsum pyfloat [prog; a; b; t] fs = 0%N <-> close tol f1 f2 (number_at dec f1) (number_at dec f2)).
Proof.
  intros dec nsum pyfloat prog a b t fs f1 f2 tol AD F1 F2 PF NZ. unfold diffMain. rewrite F1, F2, PF. rewrite <- (compare_exact dec nsum tol f1 f2 AD NZ). destruct (compareFiles Rops dec nsum tol f1 f2); split; auto; discriminate.
Qed.

Lemma largest_double (g : nat -> binary64) n : 0 < n -> (forall i, i < n -> fin (g i) = true) ->
  exists m j, largest Dops (map g (seq 0 n)) = Some m /\ j < n /\ m = aabs Dops (g j) /\ forall i, i < n -> (Rabs (val (g i)) <= val m)%R.
Proof.
  intros H FI. unfold largest. rewrite map_map. destruct n as [|n]; [lia|]. set (l := map (fun x => aabs Dops (g x)) (seq 1 n)).
  change (map (fun x => aabs Dops (g x)) (seq 0 (S n))) with (aabs Dops (g 0) :: l).
  assert (ML : forall l x, fin x = true -> (forall y, In y l -> fin y = true) -> forall y, In y (x :: l) -> (val y <= val (fold_left (fun m z => if agt Dops z m then z else m) l x))%R).
  { clear. induction l as [|z l IH]; intros x Fx FL y I; cbn [fold_left]; [destruct I as [->|[]]; lra|]. pose proof (FL z ltac:(now left)) as Fz. pose proof (dgt_ok z x Fz Fx) as G.
    assert (FM : fin (if agt Dops z x then z else x) = true) by (destruct (agt Dops z x); auto). assert (LE : (val x <= val (if agt Dops z x then z else x) /\ val z <= val (if agt Dops z x then z else x))%R).
    { destruct (agt Dops z x); [pose proof (proj1 G eq_refl); lra|]. destruct (Rlt_le_dec (val x) (val z)) as [L|L]; [|lra]. pose proof (proj2 G L). discriminate. }
    specialize (IH _ FM (fun w J => FL w (or_intror J))). destruct I as [->|[->|I]]; [eapply Rle_trans; [exact (proj1 LE)|]|eapply Rle_trans; [exact (proj2 LE)|]|]; apply IH; [now left|now left|now right]. }
  assert (FA : forall y, In y (aabs Dops (g 0) :: l) -> fin y = true).
  { intros y I. change (aabs Dops (g 0) :: l) with (map (fun x => aabs Dops (g x)) (seq 0 (S n))) in I. apply in_map_iff in I as (i & <- & I). apply in_seq in I. rewrite (proj1 (abs_ok (g i))). apply FI. lia. }
  pose proof (fold_pick (agt Dops) l (aabs Dops (g 0))) as P. pose proof (ML l (aabs Dops (g 0)) (FA _ (or_introl eq_refl)) (fun y I => FA y (or_intror I))) as M. clear ML.
  set (m := fold_left _ _ _) in *. change (aabs Dops (g 0) :: l) with (map (fun x => aabs Dops (g x)) (seq 0 (S n))) in P, M. apply in_map_iff in P as (j & E & J). apply in_seq in J. exists m, j. split; [reflexivity|]. split; [lia|]. split; [auto|].
  intros i Hi. destruct (abs_ok (g i)) as (_ & _ & <- & _). apply M. apply in_map_iff. exists i. split; [reflexivity|]. apply in_seq. lia.
Qed.
(** In double precision status 0 means: all numbers of both files are finite, and they differ by less than the tolerance, relative to the largest number of the second file. *)
Theorem C78_sound : forall nsum tol f1 f2, adds Dops nsum -> fin tol = true -> compareFiles Dops ddec nsum tol f1 f2 = true ->
  let v1 i := val (number_at ddec f1 i) in let v2 i := val (number_at ddec f2 i) in let n := number_of f2 in
  number_of f1 = n /\ (forall i, i < n -> fin (number_at ddec f1 i) = true /\ fin (number_at ddec f2 i) = true) /\
  exists j, j < n /\ v2 j <> 0%R /\ forall i, i < n -> (Rabs (v2 i) <= Rabs (v2 j) /\ Rabs (v1 i - v2 i) < (1 + / 2 ^ 53) * val tol * Rabs (v2 j))%R.
Proof.
  intros nsum tol f1 f2 AD FT C v1 v2 n. unfold compareFiles in C. rewrite !payload_eq, !map_length, !seq_length in C. fold n in C. cbv zeta in C.
  destruct (Nat.eqb_spec (number_of f1) n) as [E|E]; cbn [negb] in C; [|discriminate]. rewrite E, minus_map in C. split; [exact E|].
  set (g := number_at ddec f1) in *. set (h := number_at ddec f2) in *. set (d := fun i => asub Dops (g i) (h i)) in *.
  destruct (largest Dops (map d (seq 0 n))) as [m1|] eqn:L1; [|discriminate]. destruct (largest Dops (map h (seq 0 n))) as [m2|] eqn:L2; [|discriminate].
  destruct (agt Dops tol (adiv Dops (norm1 Dops nsum (map d (seq 0 n))) (norm1 Dops nsum (map h (seq 0 n))))) eqn:G1; [|discriminate]. destruct (agt Dops tol (adiv Dops m1 m2)) eqn:G2; [|discriminate].
  assert (PN : 0 < n) by (destruct n; [discriminate|lia]).
  assert (NN : forall u x, In x (map (aabs Dops) u) -> isnan x = true \/ nn x). { intros u x I. apply in_map_iff in I as (y & <- & _). destruct (abs_ok y) as (_ & <- & _ & K). exact K. }
  destruct (added_ok _ _ (AD (map (aabs Dops) (map d (seq 0 n)))) (NN _)) as (A1 & A2). destruct (added_ok _ _ (AD (map (aabs Dops) (map h (seq 0 n)))) (NN _)) as (B1 & _).
  destruct (quotient_ok _ _ _ A1 B1 G1) as (FS & _ & _). specialize (A2 FS).
  assert (FD : forall i, i < n -> fin (d i) = true). { intros i Hi. rewrite <- (proj1 (abs_ok (d i))). apply A2. rewrite map_map. apply in_map_iff. exists i. split; [reflexivity|]. apply in_seq. lia. }
  assert (FF : forall i, i < n -> fin (g i) = true /\ fin (h i) = true) by (intros i Hi; apply minus_fin; exact (FD i Hi)). split; [exact FF|].
  destruct (largest_double d n PN FD) as (m1' & j1 & E1 & J1 & M1 & B). rewrite L1 in E1. apply Some_inj in E1. subst m1'. destruct (largest_double h n PN (fun i Hi => proj2 (FF i Hi))) as (m2' & j2 & E2 & J2 & M2 & B2). rewrite L2 in E2. apply Some_inj in E2. subst m2'.
  destruct (abs_ok (d j1)) as (X1 & X2 & X3 & X4). destruct (abs_ok (h j2)) as (Y1 & Y2 & Y3 & Y4). rewrite <- M1 in *. rewrite <- M2 in *. rewrite <- X2 in X4. rewrite <- Y2 in Y4.
  destruct (quotient_ok _ _ _ X4 Y4 G2) as (F1 & N1 & (N2 & P2)). assert (F2 : fin m2 = true) by (rewrite Y1; exact (proj2 (FF j2 J2))). specialize (P2 F2).
  pose proof (quotient_lt _ _ _ FT F1 N1 F2 P2 N2 G2) as Q. exists j2. split; [exact J2|]. unfold v2. split; [intros Z; fold h in Z; rewrite Z, Rabs_R0 in Y3; lra|].
  intros i Hi. fold h. rewrite <- Y3. split; [exact (B2 i Hi)|]. pose proof (minus_close (g i) (h i) (FD i Hi)) as MC. pose proof (B i Hi) as BI. unfold d in BI. change (val (asub Dops (g i) (h i))) with (val (d i)) in *.
  assert (U : unitR = (/ 2 ^ 53)%R). { unfold unitR. change (bpow radix2 (-53)) with (/ IZR 9007199254740992)%R. f_equal. lra. }
  rewrite U in MC. unfold v1. fold g. assert (I0 : (0 < / 2 ^ 53)%R) by (apply Rinv_0_lt_compat; lra). eapply Rle_lt_trans; [exact MC|]. rewrite Rmult_assoc. apply Rmult_lt_compat_l; [lra|]. eapply Rle_lt_trans; [exact BI|exact Q].
Qed.
(** Two equal files of finite numbers, not all zero, are accepted with any positive tolerance. *)
Theorem C78_same : forall nsum tol f, adds Dops nsum -> agt Dops tol (azero Dops) = true -> (forall i, i < number_of f -> fin (number_at ddec f i) = true) ->
  (exists i, i < number_of f /\ val (number_at ddec f i) <> 0%R) -> compareFiles Dops ddec nsum tol f f = true.
Proof.
  intros nsum tol f AD TP FI (k & K & NZ). unfold compareFiles. rewrite !payload_eq, !map_length, !seq_length, Nat.eqb_refl. cbn [negb]. cbv zeta. rewrite minus_map. set (n := number_of f) in *. set (h := number_at ddec f) in *.
  assert (D : map (fun x => asub Dops (h x) (h x)) (seq 0 n) = map (fun _ => pzero) (seq 0 n)). { apply map_ext_in. intros i I. apply in_seq in I. apply minus_self. apply FI. lia. }
  rewrite D. destruct (largest_double (fun _ => pzero) n ltac:(lia) ltac:(reflexivity)) as (m1 & j1 & -> & _ & M1 & _). destruct (largest_double h n ltac:(lia) FI) as (m2 & j2 & -> & J2 & M2 & B2).
  assert (S1 : norm1 Dops nsum (map (fun _ => pzero) (seq 0 n)) = pzero). { unfold norm1. apply (added_zero _ _ (AD _)). intros x I. apply in_map_iff in I as (y & <- & I). apply in_map_iff in I as (? & <- & _). reflexivity. }
  assert (AN : forall i, i < n -> nn (aabs Dops (h i)) /\ val (aabs Dops (h i)) = Rabs (val (h i))).
  { intros i Hi. destruct (abs_ok (h i)) as (_ & _ & V & [X|X]); [|auto]. pose proof (FI i Hi) as F. destruct (h i); discriminate. }
  assert (P2 : positive (norm1 Dops nsum (map h (seq 0 n)))).
  { unfold norm1. apply (added_pos _ _ (AD _)). - intros x I. rewrite map_map in I. apply in_map_iff in I as (i & <- & I). apply in_seq in I. apply AN. lia.
    - exists (aabs Dops (h k)). split; [apply in_map, in_map, in_seq; lia|]. destruct (AN k K) as (N & V). split; [exact N|]. intros _. rewrite V. now apply Rabs_pos_lt. }
  assert (PM : positive m2). { destruct (AN j2 J2) as (N & V). rewrite <- M2 in N. split; [exact N|]. intros _. eapply Rlt_le_trans; [exact (Rabs_pos_lt _ NZ)|exact (B2 k K)]. }
  rewrite S1, (zero_quotient _ P2). rewrite M1. change (aabs Dops pzero) with pzero. rewrite (zero_quotient _ PM). change pzero with (azero Dops). now rewrite TP.
Qed.
(** Two runs of one deck with the same number of iterations pass, whatever the partitioners, ranks, threads and timing, exactly if the flux is finite and not zero. *)
Theorem C78_runs : forall nsum pyfloat enc sortX sortY w metis stod ltb quadrature pi etol inF deckName fs sm cfg q t1 parts1 np1 threads1 pr1 gsum1 a1 b1 pm1 rest1 fs1 t2 parts2 np2 threads2 pr2 gsum2 a2 b2 pm2 rest2 fs2 iters,
  prepared Dops ddec sortX sortY w metis stod ltb quadrature etol inF deckName fs sm cfg q ->
  asks t1 parts1 -> mesh_small sm parts1 -> 0 < np1 -> 0 < threads1 -> pm1 <> deckName -> asks t2 parts2 -> mesh_small sm parts2 -> 0 < np2 -> 0 < threads2 -> pm2 <> deckName ->
  pipeline Dops ddec sortX sortY w metis t1 (fun d deck mesh it out => mainRun Dops ddec enc stod ltb quadrature pi etol d deck mesh np1 threads1 pr1 gsum1 it out) a1 b1 inF pm1 deckName rest1 fs iters fs1 ->
  pipeline Dops ddec sortX sortY w metis t2 (fun d deck mesh it out => mainRun Dops ddec enc stod ltb quadrature pi etol d deck mesh np2 threads2 pr2 gsum2 it out) a2 b2 inF pm2 deckName rest2 fs iters fs2 ->
  cOutputFile cfg = true ->
  forall here prog gold mine tol x, adds Dops nsum -> here gold = fs1 (cOutputFilename cfg) -> here mine = fs2 (cOutputFilename cfg) -> pyfloat tol = Some x -> fin x = true -> (0 < val x)%R ->
  exists out, fs1 (cOutputFilename cfg) = Some out /\
    (diffMain Dops ddec nsum pyfloat [prog; gold; mine; tol] here = 0%N <->
     (forall i, i < number_of out -> fin (number_at ddec out i) = true) /\ exists i, i < number_of out /\ val (number_at ddec out i) <> 0%R).
Proof.
  intros nsum pyfloat enc sortX sortY w metis stod ltb quadrature pi etol inF deckName fs sm cfg q t1 parts1 np1 threads1 pr1 gsum1 a1 b1 pm1 rest1 fs1 t2 parts2 np2 threads2 pr2 gsum2 a2 b2 pm2 rest2 fs2 iters PR A1 S1 N1 T1 D1 A2 S2 N2 T2 D2 P1 P2 OF here prog gold mine tol x AD HG HM PF FX TP.
  destruct (C74_same _ _ _ _ _ _ _ _ _ _ _ _ _ _ _ _ _ _ _ _ _ _ _ _ _ _ _ _ _ _ _ _ _ _ _ _ _ _ _ _ _ _ PR A1 S1 N1 T1 D1 A2 S2 N2 T2 D2 P1 P2 OF) as (b & B1 & B2).
  exists b. split; [exact B1|]. unfold diffMain. rewrite HG, HM, B1, B2, PF. split.
  - intros H. destruct (compareFiles Dops ddec nsum x b b) eqn:C; [|discriminate]. destruct (C78_sound nsum x b b AD FX C) as (_ & FI & k & K & NZ & _). split; [intros i Hi; exact (proj1 (FI i Hi))|]. exists k. auto.
  - intros (FI & NZ). assert (TP' : agt Dops x (azero Dops) = true) by (apply dgt_ok; [exact FX|reflexivity|]; destruct zero_val as (-> & _); exact TP). now rewrite (C78_same nsum x b AD TP' FI NZ).
Qed.

(** Not met: an output file of zeros is not accepted as equal to itself (0/0). *)
Theorem C78_zero_refuted : exists f, number_of f = 1 /\ fin (number_at ddec f 0) = true /\ forall nsum tol, adds Dops nsum -> fin tol = true -> compareFiles Dops ddec nsum tol f f = false.
Proof.
  exists (repeat 0%N 72). split; [reflexivity|]. split; [reflexivity|]. intros nsum tol AD FT. destruct (compareFiles _ _ _ _ _ _) eqn:C; [|reflexivity]. exfalso.
  destruct (C78_sound nsum tol _ _ AD FT C) as (_ & _ & j & J & NZ & _). change (number_of (repeat 0%N 72)) with 1 in J. assert (j = 0) by lia. subst j. apply NZ. reflexivity.
Qed.
(** Not met: files of different problems can be accepted, the header is not compared. *)
Lemma compare_payload {T} (A : arith T) dec nsum tol f f' g : payload dec f = payload dec f' -> compareFiles A dec nsum tol f g = compareFiles A dec nsum tol f' g.
Proof. intros E. unfold compareFiles. now rewrite E. Qed.
Definition ones (_ _ _ _ : nat) : N := 0x3FF0000000000000.
Theorem C78_header_refuted : forall nsum tol, adds Dops nsum -> agt Dops tol (azero Dops) = true ->
  compareFiles Dops ddec nsum tol (psiImage 2 4 1 1 ones) (psiImage 1 4 1 2 ones) = true.
Proof.
  intros nsum tol AD TP. rewrite (compare_payload Dops ddec nsum tol _ (psiImage 1 4 1 2 ones)).
  - apply C78_same; auto.
    + assert (E : number_of (psiImage 1 4 1 2 ones) = 8) by reflexivity. rewrite E. intros i Hi. assert (K : forallb (fun i => fin (number_at ddec (psiImage 1 4 1 2 ones) i)) (seq 0 8) = true) by (vm_compute; reflexivity).
      rewrite forallb_forall in K. apply K. apply in_seq. lia.
    + exists 0. split; [vm_compute; lia|]. assert (E : le_word (firstn 8 (skipn (64 + 8 * 0) (psiImage 1 4 1 2 ones))) = 0x3FF0000000000000%N) by (vm_compute; reflexivity).
      unfold number_at. rewrite E. change (ddec 0x3FF0000000000000) with (b64_of_bits 0x3FF0000000000000). assert (V : val (b64_of_bits 0x3FF0000000000000) = F2R (Float radix2 4503599627370496 (-52))) by reflexivity. rewrite V. unfold F2R. cbn [Fnum Fexp]. change (bpow radix2 (-52)) with (/ IZR 4503599627370496)%R. lra.
  - unfold payload. rewrite !skipn_map. apply f_equal. vm_compute. reflexivity.
Qed.
Print Assumptions C78_arguments. Print Assumptions C78_exact. Print Assumptions C78_sound. Print Assumptions C78_same. Print Assumptions C78_runs. Print Assumptions C78_zero_refuted. Print Assumptions C78_header_refuted.
