(** C66: signs of the flow in double precision at a face of a thin tetrahedron. *)
From Coq Require Import ZArith Reals Lra.
From Flocq Require Import Core IEEE754.BinarySingleNaN IEEE754.Binary IEEE754.Bits.
From Verif Require Import Prelude Bytes MeshModel MeshSpec CreateSpec PropertiesCreate TychoModel TychoSpec MeshCheck GeometryModel RefineSpec GeometrySpec
  ViewModel ViewSpec PropertiesView BitsModel BitsSpec DoubleModel DoubleSpec DoubleProofs PropertiesDouble.

(** Two tetrahedra at the triangle (1,-1,0), (0,0,0), (0,1,-1); apexes (1,2^-60,-1) and (-1,-1,-1). *)
Definition C66_tcoord (z : Z) : N := match z with 1%Z => 0x3FF0000000000000 | (-1)%Z => 0xBFF0000000000000 | 2%Z => 0x3C30000000000000 | _ => 0 end%N.
Definition C66_thin : smesh := mkSmesh [] 0 2 7 5 (sm_cells C12_mesh) (sm_faces C12_mesh)
  (map (fun p : Z * Z * Z => mkSnode (Q3 (C66_tcoord (fst (fst p))) (C66_tcoord (snd (fst p))) (C66_tcoord (snd p)))) [(1, 2, -1); (1, -1, 0); (0, 0, 0); (0, 1, -1); (-1, -1, -1)]%Z).
Definition C66_tom (a : nat) : q3 binary64 := Q3 (D_of_Z (if (a =? 0)%nat then 1 else -1)) (D_of_Z 0) (D_of_Z 0).
Definition Dval (p : q3 binary64) : q3 R := Q3 (val (t0 p)) (val (t1 p)) (val (t2 p)).
Lemma val_of (x : binary64) s m e : B2SF 53 1024 x = SpecFloat.S754_finite s m e -> val x = F2R (Float radix2 (SpecFloat.cond_Zopp s (Zpos m)) e).
Proof. destruct x; cbn; intros E; try discriminate. injection E as -> -> ->. reflexivity. Qed.
Lemma val_one : val (ddec 0x3FF0000000000000) = 1%R.
Proof. rewrite (val_of _ false 4503599627370496 (-52)) by (vm_compute; reflexivity). unfold F2R. cbn. lra. Qed.
Lemma val_mone : val (ddec 0xBFF0000000000000) = (-1)%R.
Proof. rewrite (val_of _ true 4503599627370496 (-52)) by (vm_compute; reflexivity). unfold F2R. cbn. lra. Qed.
Lemma val_tiny : (0 < val (ddec 0x3C30000000000000) < 1)%R.
Proof. rewrite (val_of _ false 4503599627370496 (-112)) by (vm_compute; reflexivity). unfold F2R. cbn. lra. Qed.
Lemma val_zero : val (ddec 0) = 0%R.
Proof. reflexivity. Qed.
Notation C66_tdec := (fun n => val (ddec n)).
Definition C66_near (e : R) : q4 (q3 R) := (Q4 (Q3 1 e (-1)) (Q3 1 (-1) 0) (Q3 0 0 0) (Q3 0 1 (-1)))%R.
Definition C66_far : q4 (q3 R) := (Q4 (Q3 (-1) (-1) (-1)) (Q3 1 (-1) 0) (Q3 0 0 0) (Q3 0 1 (-1)))%R.
Definition C66_base : q3 (q3 R) := (Q3 (Q3 0 0 0) (Q3 1 (-1) 0) (Q3 0 1 (-1)))%R.
Lemma C66_points : exists e, (0 < e < 1)%R /\ s_point C66_thin C66_tdec 0 = Some (Q3 1 e (-1))%R /\ s_point C66_thin C66_tdec 1 = Some (Q3 1 (-1) 0)%R /\ s_point C66_thin C66_tdec 2 = Some (Q3 0 0 0)%R /\
  s_point C66_thin C66_tdec 3 = Some (Q3 0 1 (-1))%R /\ s_point C66_thin C66_tdec 4 = Some (Q3 (-1) (-1) (-1))%R.
Proof.
  exists (val (ddec 0x3C30000000000000)). split; [exact val_tiny|].
  assert (K : forall i a b c, SM_node C66_thin i = Some (mkSnode (Q3 a b c)) -> s_point C66_thin C66_tdec i = Some (Q3 (val (ddec a)) (val (ddec b)) (val (ddec c)))).
  { intros i a b c H. unfold s_point. rewrite H. reflexivity. }
  rewrite (K 0%N _ _ _ eq_refl), (K 1%N _ _ _ eq_refl), (K 2%N _ _ _ eq_refl), (K 3%N _ _ _ eq_refl), (K 4%N _ _ _ eq_refl). cbn [C66_tcoord fst snd].
  rewrite val_one, val_mone, val_zero. tauto.
Qed.
Lemma C66_tcell g p : s_cell C66_thin C66_tdec g p -> (g = 0%N /\ exists e, (0 < e < 1)%R /\ p = C66_near e) \/ (g = 1%N /\ p = C66_far).
Proof.
  destruct C66_points as (e & He & P0 & P1 & P2 & P3 & P4).
  intros (sc & H & E). apply at_index in H as (i & -> & H & Hi). destruct p as [a b c d]. destruct i as [|[|i]]; [left|right|cbn in Hi; lia]; apply Some_inj in H; subst sc; (split; [reflexivity|]);
    cbn [map q4l sc_nodes r0 r1 r2 r3] in E; rewrite ?P0, ?P1, ?P2, ?P3, ?P4 in E; injection E as <- <- <- <-; [exists e; split; auto|]; reflexivity.
Qed.
Lemma C66_tacross a g lf h x : s_next C66_thin g lf h -> s_signed C66_thin C66_tdec (Dval (C66_tom a)) g lf x ->
  exists s, (s = 1 \/ s = -1)%R /\ (s = if (a =? 0)%nat then 1 else -1)%R /\ ((g = 0%N /\ h = 1%N /\ (s * x < 0)%R) \/ (g = 1%N /\ h = 0%N /\ (0 < s * x)%R)).
Proof.
  intros NX (p & f' & sf' & F & n & CE & OP' & FA & (N1 & N2 & N3 & N4) & ->). destruct (C66_next g lf h NX) as (-> & GH).
  assert (f' = 0%N) as ->.
  { destruct OP' as (sc & H & IN & HF' & _ & V). destruct GH as [(-> & _)|(-> & _)]; apply Some_inj in H; subst sc; cbn in IN;
      repeat (destruct IN as [<-|IN]; [apply Some_inj in HF'; subst sf'; try reflexivity; exfalso; first [apply (V 0 0%N eq_refl); cbn; tauto|apply (V 0 4%N eq_refl); cbn; tauto]|]); try destruct IN. }
  assert (F = C66_base) as ->.
  { destruct C66_points as (e & He & P0 & P1 & P2 & P3 & P4). destruct FA as (s & HS & E). apply Some_inj in HS. subst s. destruct F as [u v w]. cbn [map q3l sf_nodes t0 t1 t2] in E. rewrite ?P1, ?P2, ?P3 in E. injection E as <- <- <-. reflexivity. }
  assert (HH : heron16 C66_base = 12%R) by (unfold heron16, C66_base, dist2; cbn; ring).
  assert (SQ : (0 < sqrt 12 / 4)%R) by (pose proof (sqrt_lt_R0 12 ltac:(lra)); lra). rewrite HH. set (k := (sqrt 12 / 4)%R) in *. clearbody k.
  exists (if (a =? 0)%nat then 1 else -1)%R. split; [destruct (a =? 0)%nat; auto|]. split; [reflexivity|].
  assert (VO : Dval (C66_tom a) = Q3 (if (a =? 0)%nat then 1 else -1)%R 0%R 0%R).
  { unfold C66_tom, Dval. cbn [t0 t1 t2]. change (val (D_of_Z 0)) with 0%R. f_equal. destruct (a =? 0)%nat; [rewrite (val_of _ false 4503599627370496 (-52)) by (vm_compute; reflexivity)|rewrite (val_of _ true 4503599627370496 (-52)) by (vm_compute; reflexivity)]; unfold F2R; cbn; lra. }
  rewrite VO. set (s := (if (a =? 0)%nat then 1 else -1)%R). assert (SS : (s * s = 1)%R) by (unfold s; destruct (a =? 0)%nat; lra). clearbody s. clear VO. destruct n as [nx ny nz]. 
  unfold dotR, subR, C66_base in *. cbn [t0 t1 t2] in *.
  replace (s * (k * (s * nx + 0 * ny + 0 * nz)))%R with ((s * s) * (k * nx))%R by ring. rewrite SS, Rmult_1_l.
  destruct GH as [(-> & ->)|(-> & ->)].
  - left. split; auto. split; auto. destruct (C66_tcell _ _ CE) as [(_ & e & He & ->)|(X & _)]; [|discriminate]. specialize (N4 _ eq_refl). unfold C66_near in N4. cbn in N2, N3, N4. 
    assert (nx < 0)%R by nra. nra.
  - right. split; auto. split; auto. destruct (C66_tcell _ _ CE) as [(X & _)|(_ & ->)]; [discriminate|]. specialize (N4 _ eq_refl). unfold C66_far in N4. cbn in N2, N3, N4.
    assert (0 < nx)%R by nra. nra.
Qed.
Lemma C66_tproblem : problem_ok C66_thin C66_tdec 2 (fun a => Dval (C66_tom a)) (fun _ => 1%R).
Proof.
  constructor.
  - apply crossb_ok; [apply serial_wfb_ok|]; vm_compute; reflexivity.
  - apply tetsb_ok. vm_compute. reflexivity.
  - constructor.
    + intros g p H. destruct (C66_tcell g p H) as [(_ & e & He & ->)|(_ & ->)]; unfold vol6, C66_near, C66_far; lra.
    + intros g h p q x NE H1 H2 (a & b & c & d & (A & _) & ->) (a' & b' & c' & d' & (A' & _) & E). apply (f_equal (fun x => t0 x + t1 x + t2 x)%R) in E.
      destruct (C66_tcell g p H1) as [(-> & e & He & ->)|(-> & ->)]; destruct (C66_tcell h q H2) as [(-> & e' & He' & ->)|(-> & ->)]; try congruence; cbn in E;
        [pose proof (Rmult_lt_0_compat _ _ A (proj1 He))|pose proof (Rmult_lt_0_compat _ _ A' (proj1 He'))]; lra.
  - intros a g lf h x _ NX SG. destruct (C66_tacross a g lf h x NX SG) as (s & S & _ & [(_ & _ & ?)|(_ & _ & ?)]); nra.
  - exists (fun a g => if (g =? 0)%N then if (a =? 0)%nat then 1 else 0 else if (a =? 0)%nat then 0 else 1). intros a g lf h x _ NX SG LT. destruct (C66_tacross a g lf h x NX SG) as (s & S & E & [(-> & -> & ?)|(-> & -> & ?)]); subst s; cbn; destruct (a =? 0)%nat; try lia; exfalso; lra.
  - intros. lra.
Qed.
(** C66: tetrahedra with volume, no overlap, finite coordinates, directions that are not tangent and have no cycles are not enough in double precision.
    At the face between the two cells both sides compute outflow for one direction (no data crosses) and both compute inflow
    for the opposite direction (the two cells wait for each other). *)
Theorem C66_signs_refuted : exists sm om sigma g lf h lf', coords_finite sm /\ problem_ok sm (fun n => val (ddec n)) 2 (fun a => Dval (om a)) sigma /\
  s_next sm g lf h /\ s_next sm h lf' g /\
  b_out Dops sm ddec om 0 g lf = true /\ b_out Dops sm ddec om 0 h lf' = true /\ b_out Dops sm ddec om 1 g lf = false /\ b_out Dops sm ddec om 1 h lf' = false /\
  ~ signs_ok Dops sm ddec om 2 /\ ~ b_acyclic Dops sm ddec om 2.
Proof.
  exists C66_thin, C66_tom, (fun _ => 1%R), 0%N, 0, 1%N, 0.
  assert (O0 : b_out Dops C66_thin ddec C66_tom 0 0 0 = true) by (vm_compute; reflexivity). assert (O1 : b_out Dops C66_thin ddec C66_tom 0 1 0 = true) by (vm_compute; reflexivity).
  assert (O2 : b_out Dops C66_thin ddec C66_tom 1 0 0 = false) by (vm_compute; reflexivity). assert (O3 : b_out Dops C66_thin ddec C66_tom 1 1 0 = false) by (vm_compute; reflexivity).
  assert (V : forall g sc, SM_cell C66_thin g = Some sc -> (g = 0%N \/ g = 1%N) -> s_opposite C66_thin g 0 0 (mkSface (Q2 0 1)%N (Q3 2 1 3)%N)).
  { clear. intros g sc H [->| ->]; apply Some_inj in H; subst sc; eexists; (split; [reflexivity|]); (split; [cbn; tauto|]); (split; [reflexivity|]); (split; [lia|]);
    intros v n; do 4 (destruct v as [|v]; [intros E; apply Some_inj in E; subst n; cbn; intuition (discriminate || lia)|]); destruct v; discriminate. }
  pose proof (V 0%N _ eq_refl (or_introl eq_refl)) as V0. pose proof (V 1%N _ eq_refl (or_intror eq_refl)) as V1.
  assert (N0 : s_next C66_thin 0 0 1) by (exists 0%N; eexists; split; [exact V0|split; [reflexivity|discriminate]]).
  assert (N1 : s_next C66_thin 1 0 0) by (exists 0%N; eexists; split; [exact V1|split; [reflexivity|discriminate]]).
  split; [|split; [exact C66_tproblem|]].
  - intros n s x H I. apply at_index in H as (i & -> & H & Hi).
    do 5 (destruct i as [|i]; [apply Some_inj in H; subst s; cbn in I; repeat (destruct I as [<-|I]; [vm_compute; reflexivity|]); destruct I|]). cbn in Hi. lia.
  - split; [exact N0|]. split; [exact N1|]. do 4 (split; [assumption|]). split.
    + intros S. specialize (S 0 0%N 0 1%N 0 0%N _ ltac:(lia) V0 V1 ltac:(discriminate)). rewrite O0, O1 in S. discriminate.
    + intros (lvl & L). pose proof (L 1 0%N 0 1%N ltac:(lia) N0 O2). pose proof (L 1 1%N 0 0%N ltac:(lia) N1 O3). lia.
Qed.
Print Assumptions C66_signs_refuted.
