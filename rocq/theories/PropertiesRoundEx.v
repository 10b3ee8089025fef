(** C77: a mesh that is resolved, and one that is not, on which the program never ends. *)
From Coq Require Import ZArith Reals Lra Lia Permutation String.
From Flocq Require Import Core IEEE754.BinarySingleNaN IEEE754.Binary IEEE754.Bits.
From Verif Require Import Prelude Bytes DeckModel MeshModel MeshSpec CreateModel CreateSpec PropertiesCreate TychoModel TychoSpec MeshCheck RefineSpec GeometryModel GeometrySpec TransportModel SweepModel ProblemModel ViewModel ViewSpec PropertiesView BitsSpec
  DoubleModel DoubleSpec DoubleProofs PropertiesDouble MainModel PropertiesMain PropertiesMainEx PropertiesHangMain RoundSpec PropertiesRound.
Local Open Scope R_scope.

(** Two tetrahedra above and below a horizontal triangle, in coordinates [dec]. *)
Definition pairMesh (n0 n1 n2 n3 n4 : q3 N) : smesh :=
  mkSmesh (sm_name C12_mesh) (sm_version C12_mesh) 2 7 5 (sm_cells C12_mesh) (sm_faces C12_mesh) [mkSnode n0; mkSnode n1; mkSnode n2; mkSnode n3; mkSnode n4].
Section Pair.
  Context (dec : N -> R) (n0 n1 n2 n3 n4 : q3 N).
  Notation sm := (pairMesh n0 n1 n2 n3 n4).
  Notation P n := (Q3 (dec (t0 n)) (dec (t1 n)) (dec (t2 n))).
  Context (h1 : dec (t2 n1) = dec (t2 n2)) (h3 : dec (t2 n3) = dec (t2 n2)) (up : dec (t2 n2) < dec (t2 n0)) (down : dec (t2 n4) < dec (t2 n2)).
  Notation det := ((dec (t0 n1) - dec (t0 n2)) * (dec (t1 n3) - dec (t1 n2)) - (dec (t1 n1) - dec (t1 n2)) * (dec (t0 n3) - dec (t0 n2))).
  Context (wide : det <> 0).
  Lemma pair_cell g p : s_cell sm dec g p -> (g = 0%N /\ p = Q4 (P n0) (P n1) (P n2) (P n3)) \/ (g = 1%N /\ p = Q4 (P n4) (P n1) (P n2) (P n3)).
  Proof.
    intros (sc & H & E). apply at_index in H as (i & -> & H & Hi). destruct p as [a b c d]. destruct i as [|[|i]]; [left|right|cbn in Hi; lia]; apply Some_inj in H; subst sc; (split; [reflexivity|]);
      cbn in E; injection E as E0 E1 E2 E3; subst; reflexivity.
  Qed.
  Lemma pair_next g lf h : s_next sm g lf h -> lf = 0%nat /\ ((g = 0%N /\ h = 1%N) \/ (g = 1%N /\ h = 0%N)).
  Proof.
    intros (f & sf & (sc & H & IN & HF & Hlf & V) & AC & NI). apply at_index in H as (i & -> & H & Hi). destruct i as [|[|i]]; [| |cbn in Hi; lia]; apply Some_inj in H; subst sc; cbn in IN;
      repeat (destruct IN as [<-|IN]; [apply Some_inj in HF; subst sf; cbn in AC; try congruence|]); try destruct IN.
    - split; [|left; split; auto]. destruct (Nat.eq_dec lf 0) as [|NE]; auto. destruct (proj2 (V 0%nat 0%N eq_refl) ltac:(auto)) as [X|[X|[X|[]]]]; discriminate.
    - split; [|right; split; auto]. destruct (Nat.eq_dec lf 0) as [|NE]; auto. destruct (proj2 (V 0%nat 4%N eq_refl) ltac:(auto)) as [X|[X|[X|[]]]]; discriminate.
  Qed.
  Lemma pair_face g f sf F : g = 0%N \/ g = 1%N -> s_opposite sm g 0 f sf -> s_face sm dec f F -> F = Q3 (P n2) (P n1) (P n3).
  Proof.
    intros G (sc & H & IN & HF' & _ & V) FA. assert (f = 0%N) as ->.
    { destruct G as [-> | ->]; apply Some_inj in H; subst sc; cbn in IN;
      repeat (destruct IN as [<-|IN]; [apply Some_inj in HF'; subst sf; try reflexivity; exfalso; first [apply (V 0%nat 0%N eq_refl); cbn; tauto|apply (V 0%nat 4%N eq_refl); cbn; tauto]|]); try destruct IN. }
    destruct FA as (s & HS & E). apply Some_inj in HS. subst s. destruct F as [a b c]. cbn in E. injection E as E0 E1 E2. subst. reflexivity.
  Qed.
  Lemma pair_across om g lf h x : t0 om = 0 -> t1 om = 0 -> 0 < t2 om -> s_next sm g lf h -> s_signed sm dec om g lf x -> (g = 0%N /\ h = 1%N /\ x < 0) \/ (g = 1%N /\ h = 0%N /\ 0 < x).
  Proof using h1 h3 up down wide.
    intros O0 O1 O2 NX (p & f & sf & F & n & CE & OP & FA & (N1 & N2 & N3 & N4) & ->). destruct (pair_next g lf h NX) as (-> & GH).
    assert (F = Q3 (P n2) (P n1) (P n3)) as -> by (apply (pair_face g f sf F); auto; destruct GH as [(-> & _)|(-> & _)]; auto).
    set (A := sqrt _ / 4). assert (AP : 0 < A).
    { apply (heron_pos (Q3 0 0 1)). unfold triple, subR. cbn. rewrite h1, h3. intros E. apply wide. rewrite <- E. ring. }
    unfold dotR, subR in N2, N3. cbn in N2, N3. rewrite h1 in N2. rewrite h3 in N3. destruct n as [nx ny nz]. cbn in N2, N3.
    assert (HX : nx = 0). { apply (Rmult_eq_reg_r det); [|exact wide]. replace (nx * det) with ((nx * (dec (t0 n1) - dec (t0 n2)) + ny * (dec (t1 n1) - dec (t1 n2)) + nz * (dec (t2 n2) - dec (t2 n2))) * (dec (t1 n3) - dec (t1 n2)) - (nx * (dec (t0 n3) - dec (t0 n2)) + ny * (dec (t1 n3) - dec (t1 n2)) + nz * (dec (t2 n2) - dec (t2 n2))) * (dec (t1 n1) - dec (t1 n2))) by ring. rewrite N2, N3. ring. }
    assert (HY : ny = 0). { apply (Rmult_eq_reg_r det); [|exact wide]. replace (ny * det) with ((nx * (dec (t0 n3) - dec (t0 n2)) + ny * (dec (t1 n3) - dec (t1 n2)) + nz * (dec (t2 n2) - dec (t2 n2))) * (dec (t0 n1) - dec (t0 n2)) - (nx * (dec (t0 n1) - dec (t0 n2)) + ny * (dec (t1 n1) - dec (t1 n2)) + nz * (dec (t2 n2) - dec (t2 n2))) * (dec (t0 n3) - dec (t0 n2))) by ring. rewrite N2, N3. ring. }
    subst nx ny. unfold dotR. cbn [t0 t1 t2]. rewrite O0, O1. replace (A * (0 * 0 + 0 * 0 + t2 om * nz)) with (A * t2 om * nz) by ring. assert (K : 0 < A * t2 om) by now apply Rmult_lt_0_compat.
    destruct GH as [(-> & ->)|(-> & ->)]; destruct (pair_cell _ _ CE) as [(X & ->)|(X & ->)]; try discriminate; specialize (N4 _ eq_refl); unfold dotR, subR in N4; cbn in N4; rewrite !Rmult_0_l, !Rplus_0_l in N4.
    - left. split; auto. split; auto. assert (nz < 0). { destruct (Rlt_or_le nz 0); auto. exfalso. assert (0 <= nz * (dec (t2 n0) - dec (t2 n2))) by (apply Rmult_le_pos; lra). lra. }
      assert (0 < (A * t2 om) * - nz) by (apply Rmult_lt_0_compat; lra). lra.
    - right. split; auto. split; auto. assert (0 < nz). { destruct (Rlt_or_le 0 nz); auto. exfalso. assert (0 <= (- nz) * (dec (t2 n2) - dec (t2 n4))) by (apply Rmult_le_pos; lra). lra. }
      now apply Rmult_lt_0_compat.
  Qed.
  Lemma pair_problem om nA sigma : serial_mesh_ok sm -> tets_ok sm -> (forall a, t0 (om a) = 0 /\ t1 (om a) = 0 /\ 0 < t2 (om a)) -> (forall g : N, 0 < sigma g) -> problem_ok sm dec nA om sigma.
  Proof using h1 h3 up down wide.
    intros OK TT OM SP. constructor; [exact OK|exact TT| | | |intros; apply SP].
    - constructor.
      + intros g p H E. destruct (pair_cell g p H) as [(_ & ->)|(_ & ->)]; unfold vol6 in E; rewrite h1, h3 in E; apply wide.
        * apply (Rmult_eq_reg_r (dec (t2 n0) - dec (t2 n2))); [|lra]. rewrite Rmult_0_l, <- E. ring.
        * apply (Rmult_eq_reg_r (dec (t2 n4) - dec (t2 n2))); [|lra]. rewrite Rmult_0_l, <- E. ring.
      + intros g h p q x NE H1 H2 (a & b & c & d & (A & _ & _ & _ & A1) & ->) (a' & b' & c' & d' & (A' & _ & _ & _ & A2) & E). apply (f_equal (@t2 R)) in E.
        assert (Z : forall k l z, 0 < k -> 0 < l -> ~ (k * (dec (t2 n0) - z) = l * (dec (t2 n4) - z)) \/ ~ (dec (t2 n4) < z < dec (t2 n0))).
        { intros k l z Hk Hl. destruct (Rlt_or_le (dec (t2 n4)) z) as [Z1|]; [|right; lra]. destruct (Rlt_or_le z (dec (t2 n0))) as [Z2|]; [|right; lra]. left. intros Q.
          assert (0 < k * (dec (t2 n0) - z)) by (apply Rmult_lt_0_compat; lra). assert (0 < l * (z - dec (t2 n4))) by (apply Rmult_lt_0_compat; lra). lra. }
        destruct (pair_cell g p H1) as [(-> & ->)|(-> & ->)]; destruct (pair_cell h q H2) as [(-> & ->)|(-> & ->)]; try congruence; cbn in E; rewrite h1, h3 in E.
        * destruct (Z a a' (dec (t2 n2)) A A') as [Q|Q]; apply Q; [|lra]. replace b with (1 - a - c - d) in E by lra. replace b' with (1 - a' - c' - d') in E by lra. lra.
        * destruct (Z a' a (dec (t2 n2)) A' A) as [Q|Q]; apply Q; [|lra]. replace b with (1 - a - c - d) in E by lra. replace b' with (1 - a' - c' - d') in E by lra. lra.
    - intros a g lf h x _ NX SG. destruct (OM a) as (U & V & W). destruct (pair_across (om a) g lf h x U V W NX SG) as [(_ & _ & ?)|(_ & _ & ?)]; lra.
    - exists (fun _ g => if (g =? 0)%N then 1%nat else 0%nat). intros a g lf h x _ NX SG LT. destruct (OM a) as (U & V & W). destruct (pair_across (om a) g lf h x U V W NX SG) as [(-> & -> & ?)|(_ & _ & ?)]; [cbn; lia|lra].
  Qed.
End Pair.

(** Values of doubles. *)
Definition shape (x : binary64) : option (Z * Z) := match x with Binary.B754_finite s m e _ => Some (cond_Zopp s (Zpos m), e) | Binary.B754_zero _ => Some (0%Z, 0%Z) | _ => None end.
Lemma shape_val x m e : shape x = Some (m, e) -> is_finite 53 1024 x = true /\ real x = IZR m * powerRZ 2 e.
Proof.
  destruct x as [b| | |b k z q]; cbn [shape]; try discriminate; intros E; injection E as <- <-; (split; [reflexivity|]); [cbn; ring|]. unfold real. cbn [B2R]. unfold F2R. cbn [Fnum Fexp]. rewrite bpow_powerRZ. reflexivity.
Qed.
Lemma moderate_shape x m e : shape x = Some (m, e) -> (m = 0%Z \/ / 2 ^ 100 <= Rabs (IZR m * powerRZ 2 e)) -> Rabs (IZR m * powerRZ 2 e) <= 2 ^ 100 -> moderate x.
Proof. intros S L U. destruct (shape_val x m e S) as (F & E). split; [exact F|]. rewrite E. split; [|exact U]. destruct L as [->|L]; [left; ring|right; exact L]. Qed.
Lemma two_p (e : positive) : powerRZ 2 (Zneg e) = / IZR (Z.pow_pos 2 e).
Proof. cbn [powerRZ]. rewrite pow_IZR, positive_nat_Z. reflexivity. Qed.
(** Doubles of value 0, 1, 48 and so on. *)
Lemma C66_values : (forall z, z = 1%Z \/ z = 0%Z \/ z = (-1)%Z -> rdec (C66_coord z) = IZR (49 + z) /\ moderate (ddec (C66_coord z))) /\
  (real (D_of_Z 0) = 0 /\ moderate (D_of_Z 0)) /\ (real (D_of_Z 1) = 1 /\ moderate (D_of_Z 1)).
Proof.
  assert (V : forall x m e v, shape x = Some (m, Zneg e) -> IZR m = IZR v * IZR (Z.pow_pos 2 e) -> real x = IZR v /\ ((v = 0 \/ 0 < v < 100)%Z -> moderate x)).
  { intros x m e v S E. destruct (shape_val _ _ _ S) as (F & R). assert (P : 0 < IZR (Z.pow_pos 2 e)) by (apply IZR_lt; rewrite Z.pow_pos_fold; apply Z.pow_pos_nonneg; lia).
    assert (RV : real x = IZR v) by (rewrite R, two_p, E; field; lra). split; [exact RV|]. intros B. split; [exact F|]. rewrite RV. split.
    - destruct B as [->|(B & _)]; [left; reflexivity|right]. apply Rle_trans with 1; [apply Rle_trans with (/ 1); [apply Rinv_le_contravar; [lra|apply pow_R1_Rle; lra]|lra]|]. rewrite Rabs_pos_eq; apply IZR_le; lia.
    - apply Rle_trans with 100; [rewrite Rabs_pos_eq; apply IZR_le; lia|]. apply Rle_trans with (2 ^ 7); [lra|apply Rle_pow; [lra|lia]]. }
  split; [|split].
  - intros z [->|[->| ->]].
    + destruct (V (ddec (C66_coord 1)) 7036874417766400%Z 47%positive 50%Z) as (A & B); [vm_compute; reflexivity|vm_compute Z.pow_pos; lra|]. split; [exact A|apply B; lia].
    + destruct (V (ddec (C66_coord 0)) 6896136929411072%Z 47%positive 49%Z) as (A & B); [vm_compute; reflexivity|vm_compute Z.pow_pos; lra|]. split; [exact A|apply B; lia].
    + destruct (V (ddec (C66_coord (-1))) 6755399441055744%Z 47%positive 48%Z) as (A & B); [vm_compute; reflexivity|vm_compute Z.pow_pos; lra|]. split; [exact A|apply B; lia].
  - assert (S : shape (D_of_Z 0) = Some (0%Z, 0%Z)) by (vm_compute; reflexivity). destruct (shape_val _ _ _ S) as (F & R). rewrite Rmult_0_l in R. split; [exact R|]. split; [exact F|]. rewrite R, Rabs_R0. split; [left; reflexivity|apply pow_le; lra].
  - destruct (V (D_of_Z 1) 4503599627370496%Z 52%positive 1%Z) as (A & B); [vm_compute; reflexivity|vm_compute Z.pow_pos; lra|]. split; [exact A|apply B; lia].
Qed.
Lemma C66_omega a : real3 (C66_om a) = Q3 0 0 1.
Proof. destruct C66_values as (_ & (Z & _) & (O & _)). unfold real3, C66_om. cbn [t0 t1 t2]. rewrite Z, O. reflexivity. Qed.
Lemma C66_omegas : omegas_moderate 1 C66_om.
Proof. destruct C66_values as (_ & (_ & Z) & (_ & O)). intros a x _ I. unfold C66_om in I. cbn [q3l t0 t1 t2 In] in I. destruct I as [<-|[<-|[<-|[]]]]; auto. Qed.
Notation pt x y z := (Q3 (C66_coord x) (C66_coord y) (C66_coord z)).
Lemma C66_pair : C66_mesh = pairMesh (pt 0 0 1)%Z (pt 0 0 0)%Z (pt 1 0 0)%Z (pt 0 1 0)%Z (pt 0 0 (-1))%Z.
Proof. reflexivity. Qed.
(** The hypotheses of the theorems hold: the mesh of C66 is a well posed problem and resolved. *)
Example C77_ex : problem_ok C66_mesh rdec 1 (fun a => real3 (C66_om a)) (fun _ => 1) /\ coords_moderate C66_mesh /\ omegas_moderate 1 C66_om /\ resolved C66_mesh 1 C66_om.
Proof.
  destruct C66_mesh_ok as (OK & TT & _). destruct C66_values as (V & _).
  destruct (V 1%Z ltac:(auto)) as (V1 & M1). destruct (V 0%Z ltac:(auto)) as (V0 & M0). destruct (V (-1)%Z ltac:(auto)) as (V2 & M2). clear V. cbn [Z.add Pos.add Pos.succ Z.pos_sub Pos.pred_double Pos.pred] in V0, V1, V2.
  split; [|split; [|split; [exact C66_omegas|]]].
  - rewrite C66_pair in *. apply pair_problem; cbn [t0 t1 t2]; rewrite ?V0, ?V1, ?V2; try lra; auto; [|intros; lra]. intros a. rewrite C66_omega. cbn. lra.
  - rewrite C66_pair. intros n s x H I. apply at_index in H as (i & -> & H & Hi).
    do 5 (destruct i as [|i]; [apply Some_inj in H; subst s; cbn [sn_coords q3l t0 t1 t2 In] in I; repeat (destruct I as [<-|I]; [assumption|]); destruct I|]). cbn in Hi. lia.
  - rewrite C66_pair. intros g lf h NX. destruct (pair_next _ _ _ _ _ g lf h NX) as (-> & GH). intros p f sf F v CE OP FA CV.
    assert (G01 : g = 0%N \/ g = 1%N) by tauto. pose proof (pair_face rdec _ _ _ _ _ g f sf F G01 OP FA) as ->. cbn [t0 t1 t2]. rewrite !V0, !V1. split.
    + destruct (pair_cell rdec _ _ _ _ _ _ _ CE) as [(_ & ->)|(_ & ->)]; apply Some_inj in CV; subst v; cbn [t0 t1 t2 q4l r0]; rewrite ?V0, ?V1, ?V2; apply C77_clear; cbv zeta; unfold triple, dotR, subR; cbn [t0 t1 t2]; lra.
    + intros a _. rewrite C66_omega. apply C77_clear. cbv zeta. unfold triple, dotR, subR. cbn [t0 t1 t2]. lra.
Qed.

(** A triangle with corners (0, 0), (1 + 2^-30, 1), (1, 1 - 2^-30): in double precision its computed normal is 0/0. *)
Definition needle (n : N) : N := match n with 0 => 0 | 1 => 0x3FF0000000000000 | 2 => 0x3FF0000000400000 | 3 => 0x3FEFFFFFFF800000 | _ => 0xBFF0000000000000 end%N.
Notation npt x y z := (Q3 (needle x) (needle y) (needle z)).
Definition needleMesh : smesh := pairMesh (npt 0 0 1)%N (npt 2 1 0)%N (npt 0 0 0)%N (npt 1 3 0)%N (npt 0 0 4)%N.
Lemma needle_values : rdec (needle 0) = 0 /\ rdec (needle 1) = 1 /\ rdec (needle 2) = 1 + / 1073741824 /\ rdec (needle 3) = 1 - / 1073741824 /\ rdec (needle 4) = -1.
Proof.
  assert (V : forall x m e r, shape x = Some (m, Zneg e) -> IZR m = r * IZR (Z.pow_pos 2 e) -> real x = r).
  { intros x m e v S E. destruct (shape_val _ _ _ S) as (F & R). assert (P : 0 < IZR (Z.pow_pos 2 e)) by (apply IZR_lt; rewrite Z.pow_pos_fold; apply Z.pow_pos_nonneg; lia). rewrite R, two_p, E. field. lra. }
  split; [|split; [|split; [|split]]].
  - assert (S : shape (ddec (needle 0)) = Some (0%Z, 0%Z)) by (vm_compute; reflexivity). destruct (shape_val _ _ _ S) as (F & R). rewrite Rmult_0_l in R. exact R.
  - apply (V _ 4503599627370496%Z 52%positive); [vm_compute; reflexivity|vm_compute Z.pow_pos; lra].
  - apply (V _ 4503599631564800%Z 52%positive); [vm_compute; reflexivity|vm_compute Z.pow_pos; lra].
  - apply (V _ 9007199246352384%Z 53%positive); [vm_compute; reflexivity|vm_compute Z.pow_pos; lra].
  - apply (V _ (-4503599627370496)%Z 52%positive); [vm_compute; reflexivity|vm_compute Z.pow_pos; lra].
Qed.
Lemma needle_out : b_out Dops needleMesh ddec C66_om 0 0 0 = false /\ b_out Dops needleMesh ddec C66_om 0 1 0 = false.
Proof. vm_compute. split; reflexivity. Qed.
Lemma needle_next : s_next needleMesh 0 0 1 /\ s_next needleMesh 1 0 0.
Proof.
  split.
  - exists 0%N, (mkSface (Q2 0 1) (Q3 2 1 3))%N. split; [|split; [reflexivity|discriminate]]. exists (mkScell (Q4 0 1 2 3) (Q4 0 1 2 3) 1)%N. split; [reflexivity|]. split; [now left|]. split; [reflexivity|]. split; [lia|].
    intros v n Hv. destruct v as [|[|[|[|v]]]]; [apply Some_inj in Hv; subst n; cbn [q3l t0 t1 t2 sf_nodes In]; (split; [intros [K|[K|[K|[]]]]; (discriminate K || lia)|intros K; ((exfalso; now apply K) || tauto)])..|destruct v; discriminate].
  - exists 0%N, (mkSface (Q2 0 1) (Q3 2 1 3))%N. split; [|split; [reflexivity|discriminate]]. exists (mkScell (Q4 6 4 5 0) (Q4 4 1 2 3) 2)%N. split; [reflexivity|]. split; [cbn; tauto|]. split; [reflexivity|]. split; [lia|].
    intros v n Hv. destruct v as [|[|[|[|v]]]]; [apply Some_inj in Hv; subst n; cbn [q3l t0 t1 t2 sf_nodes In]; (split; [intros [K|[K|[K|[]]]]; (discriminate K || lia)|intros K; ((exfalso; now apply K) || tauto)])..|destruct v; discriminate].
Qed.
Lemma needle_ok : serial_mesh_ok needleMesh /\ tets_ok needleMesh /\ coords_moderate needleMesh.
Proof.
  split; [|split].
  - apply crossb_ok; [apply serial_wfb_ok|]; vm_compute; reflexivity.
  - apply tetsb_ok. vm_compute. reflexivity.
  - destruct needle_values as (V0 & V1 & V2 & V3 & V4).
    assert (M : forall k, (k < 5)%N -> moderate (ddec (needle k))).
    { intros k Hk. assert (B : is_finite 53 1024 (ddec (needle k)) = true) by (assert (K : k = 0%N \/ k = 1%N \/ k = 2%N \/ k = 3%N \/ k = 4%N) by lia; destruct K as [->|[->|[->|[->| ->]]]]; vm_compute; reflexivity).
      assert (R : real (ddec (needle k)) = 0 \/ / 2 <= Rabs (real (ddec (needle k))) <= 2).
      { assert (K : k = 0%N \/ k = 1%N \/ k = 2%N \/ k = 3%N \/ k = 4%N) by lia. unfold rdec in *. destruct K as [->|[->|[->|[->| ->]]]]; rewrite ?V0, ?V1, ?V2, ?V3, ?V4; [now left|right..]; [rewrite Rabs_pos_eq; lra|rewrite Rabs_pos_eq; lra|rewrite Rabs_pos_eq; lra|rewrite Rabs_left; lra]. }
      split; [exact B|]. assert (P : 2 <= 2 ^ 100) by (replace 2 with (2 ^ 1) at 1 by lra; apply Rle_pow; [lra|lia]). split; [destruct R as [R|(R & _)]; [left; exact R|right]|destruct R as [R|(_ & R)]; [rewrite R, Rabs_R0; lra|lra]].
      eapply Rle_trans; [|exact R]. apply Rinv_le_contravar; lra. }
    intros n s x H I. apply at_index in H as (i & -> & H & Hi).
    do 5 (destruct i as [|i]; [apply Some_inj in H; subst s; cbn [sn_coords q3l t0 t1 t2 In] in I; repeat (destruct I as [<-|I]; [apply M; reflexivity|]); destruct I|]). cbn in Hi. lia.
Qed.
(** Without [resolved] it fails: a well posed problem with moderate coordinates and directions, on two tetrahedra; both cells wait for each
    other, and the program never ends, however it is run. *)
Theorem C77_needle_refuted : (problem_ok needleMesh rdec 1 (fun a => real3 (C66_om a)) (fun _ => 1) /\ coords_moderate needleMesh /\ omegas_moderate 1 C66_om) /\
  forall enc stod ltb quadrature wt pi tol fname deck cfg pv np threads mesh pr gsum iters out,
  readInput stod fname (Some deck) = Some cfg -> quadrature (cSnOrder cfg) = Some (mkAngles 1 C66_om wt) -> cSweep cfg = TraverseGraph ->
  (0 < cNGroups cfg < 100000)%N -> asks_iteration Dops cfg -> launch ltb needleMesh pv np threads mesh ->
  ~ mainRun Dops ddec enc stod ltb quadrature pi tol fname deck mesh np threads pr gsum iters out.
Proof.
  destruct needle_ok as (OK & TT & CM). destruct needle_out as (O0 & O1). split; [split; [|split; [exact CM|exact C66_omegas]]|].
  - destruct needle_values as (V0 & V1 & V2 & V3 & V4). apply pair_problem; cbn [t0 t1 t2]; rewrite ?V0, ?V1, ?V2, ?V3, ?V4; try lra; auto; [|intros; lra]. intros a. rewrite C66_omega. cbn. lra.
  - intros enc stod ltb quadrature wt pi tol fname deck cfg pv np threads mesh pr gsum iters out E1 E2 SW (G0 & G1) AI LA.
    assert (SF : signs_fit Dops needleMesh ddec C66_om 1).
    { intros a g lf h lf' f sf Ha O O' NE B. exfalso. assert (a = 0%nat) by lia. subst a.
      assert (NX : s_next needleMesh g lf h).
      { destruct (ViewProofs.opp_two needleMesh OK TT g lf h lf' f sf sf O O' (not_eq_sym NE)) as (_ & A). exists f, sf. split; [exact O|]. split; [exact A|]. destruct O' as (sc & E & _). intros ->. pose proof (cell_below _ _ _ E) as L. vm_compute in L. discriminate. }
      destruct (pair_next _ _ _ _ _ g lf h NX) as (-> & [(-> & _)|(-> & _)]); congruence. }
    assert (SE : traversal_setting Dops ddec stod quadrature fname deck needleMesh cfg (mkAngles 1 C66_om wt)).
    { constructor; [exact E1|exact E2|exact OK|exact TT|exact SF|exact SW|cbn; lia|cbn; lia|exact G0|].
      change (q_num (mkAngles 1 C66_om wt)) with 1%nat. change (List.length (sm_cells needleMesh)) with 2%nat. unfold TraverseModel.INT_MAX. clear -G1. change (N.of_nat (1 * 2 * 4)) with 8%N. lia. }
    apply (C76_program_hangs _ Dops ddec enc stod ltb quadrature pi tol fname deck needleMesh cfg (mkAngles 1 C66_om wt) pv np threads mesh pr gsum iters out 0 0%N 0 1%N 0 SE AI LA); [cbn; lia| | |exact O0|exact O1].
    + exact (proj1 needle_next).
    + exact (proj2 needle_next).
Qed.
Print Assumptions C77_needle_refuted.
(** Decks and launches of this kind exist. *)
Example C77_needle_ex : let cfg := C70_cfg TraverseGraph in
  readInput C70_stod [] (Some (C70_deck TraverseGraph)) = Some cfg /\ (exists wt, C70_quadrature (cSnOrder cfg) = Some (mkAngles 1 C66_om wt)) /\ cSweep cfg = TraverseGraph /\
  (0 < cNGroups cfg < 100000)%N /\ asks_iteration Dops cfg /\ forall threads, (0 < threads)%nat -> exists mesh, launch dltb needleMesh [1; 0]%N 2 threads mesh.
Proof.
  intros cfg. split.
  { apply (C70_reads TraverseGraph _ C70_stod D_of_Z); [now left|]. intros k n [E|[E|[E|[E|[E|[]]]]]]; inversion E; subst; reflexivity. }
  split; [eexists; reflexivity|]. split; [reflexivity|]. split; [split; reflexivity|]. split; [split; [reflexivity|vm_compute; reflexivity]|]. intros threads TH.
  destruct needle_ok as (OK & TT & CM). assert (CP : compares needleMesh (fun n => B2R 53 1024 (ddec n)) dltb) by (apply C66_double_compares; intros n s x H I; exact (proj1 (CM n s x H I))).
  assert (PV : partition_vector_ok needleMesh [1; 0]%N 2) by (split; [reflexivity|split; [repeat constructor|reflexivity]]).
  assert (SM : mesh_small needleMesh 2) by (repeat split; vm_compute; reflexivity).
  destruct (C65_reads needleMesh [1; 0]%N 2 dltb _ OK TT PV SM CP) as (t & m & f & m' & CR & WR & _). exists f.
  constructor; [exact PV|exact SM|eexists; exact CP|eauto|exact TH].
Qed.
