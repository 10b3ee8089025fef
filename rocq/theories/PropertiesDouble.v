(** C66 in double precision. *)
From Coq Require Import ZArith Reals Lra.
From Flocq Require Import Core IEEE754.BinarySingleNaN IEEE754.Binary IEEE754.Bits.
From Verif Require Import Prelude Bytes MeshModel MeshSpec CreateSpec PropertiesCreate TychoModel TychoSpec MeshCheck GeometryModel GaussModel TransportModel TraverseModel TraverseSpec TraverseRun SweepModel FluxModel
  ViewModel ViewSpec PropertiesView BitsModel BitsSpec PropertiesBits DoubleModel DoubleSpec DoubleProofs.

(** C66: in double precision the comparison of finite coordinates will do. *)
Theorem C66_double_compares : forall sm, coords_finite sm -> compares sm (fun n => B2R 53 1024 (ddec n)) dltb.
Proof. intros sm FI n n' s s' x y H H' I I'. apply dltb_ok; eauto. Qed.

Lemma omN_tri {T} (A : arith T) om F P v : vertIndex A F P = Some v ->
  omegaDotN A om F P = Some (vdot A om (if above A F v then let n := triNormal A F in Q3 (aneg A (t0 n)) (aneg A (t1 n)) (aneg A (t2 n)) else triNormal A F)).
Proof. intros E. unfold omegaDotN, getNormal. rewrite E. reflexivity. Qed.
Lemma omN_sign om F P v : vertIndex Dops F P = Some v -> is_finite 53 1024 (vdot Dops om (triNormal Dops F)) = true -> B2R 53 1024 (vdot Dops om (triNormal Dops F)) <> 0%R ->
  exists d, omegaDotN Dops om F P = Some d /\ agt Dops d (azero Dops) = xorb (above Dops F v) (if Rgt_dec (B2R 53 1024 (vdot Dops om (triNormal Dops F))) 0 then true else false).
Proof.
  intros E F1 NZ. rewrite (omN_tri Dops om F P v E). eexists. split; [reflexivity|]. destruct zero_val as (Z & ZF). destruct (above Dops F v).
  - destruct (dot_neg om (triNormal Dops F) F1) as (F2 & V2). pose proof (dgt_ok _ _ F2 ZF) as G. rewrite Z, V2 in G. destruct (Rgt_dec _ _) as [P1|P1]; cbn [xorb].
    + destruct (agt Dops _ _); auto. destruct G as (G & _). specialize (G eq_refl). lra.
    + apply G. lra.
  - pose proof (dgt_ok _ _ F1 ZF) as G. rewrite Z in G. cbn [xorb]. destruct (Rgt_dec _ _) as [P1|P1]; [now apply G|]. destruct (agt Dops _ _); auto. destruct G as (G & _). specialize (G eq_refl). lra.
Qed.
(** C66: in double precision the signs computed at the two sides of a face differ, provided the apexes are told apart and no direction is
    computed to be tangent. *)
Theorem C66_double_signs : forall sm nA om, decided sm nA om -> signs_ok Dops sm ddec om nA.
Proof.
  intros sm nA om D a g lf h lf' f sf Ha O O' NE. destruct (D g lf h lf' f sf O O' NE) as (F & v & w & (P & F1 & P1 & V) & (P' & F2 & P2 & W) & S & K). destruct (K a Ha) as (FI & NZ).
  unfold b_out, b_omN. rewrite F1, P1, F2, P2. cbn [obind]. destruct (omN_sign (om a) F P v V FI NZ) as (d & -> & E). destruct (omN_sign (om a) F P' w W FI NZ) as (d' & -> & E'). cbn [orZero]. rewrite E, E', S.
  destruct (above Dops F w); destruct (Rgt_dec _ _); reflexivity.
Qed.
(** Two tetrahedra above and below a triangle, one direction upwards, near the point (50, 50, 50). *)
Definition C66_coord (z : Z) : N := match z with 1%Z => 0x4049000000000000 | (-1)%Z => 0x4048000000000000 | _ => 0x4048800000000000 end%N.
Definition C66_mesh : smesh := mkSmesh (sm_name C12_mesh) (sm_version C12_mesh) 2 7 5 (sm_cells C12_mesh) (sm_faces C12_mesh)
  (map (fun p : Z * Z * Z => mkSnode (Q3 (C66_coord (fst (fst p))) (C66_coord (snd (fst p))) (C66_coord (snd p)))) [(0, 0, 1); (0, 0, 0); (1, 0, 0); (0, 1, 0); (0, 0, -1)]%Z).
Definition C66_om (a : nat) : q3 binary64 := Q3 (D_of_Z 0) (D_of_Z 0) (D_of_Z 1).
Lemma C66_faces g lf f sf : s_opposite C66_mesh g lf f sf -> (g = 0%N \/ g = 1%N) /\ (f = 0%N -> lf = 0) /\ (g = 0%N -> In f [0; 1; 2; 3]%N) /\ (g = 1%N -> In f [6; 4; 5; 0]%N).
Proof.
  intros (sc & H & IN & HF & Hlf & V). apply at_index in H as (i & -> & H & Hi). destruct i as [|[|i]]; [| |cbn in Hi; lia]; apply Some_inj in H; subst sc; cbn in IN.
  - split; [now left|]. split; [|split; [intros _; exact IN|discriminate]]. intros ->. apply Some_inj in HF. subst sf. destruct (Nat.eq_dec lf 0) as [|NE]; auto. destruct (proj2 (V 0 0%N eq_refl) ltac:(auto)) as [X|[X|[X|[]]]]; discriminate.
  - split; [now right|]. split; [|split; [discriminate|intros _; exact IN]]. intros ->. apply Some_inj in HF. subst sf. destruct (Nat.eq_dec lf 0) as [|NE]; auto. destruct (proj2 (V 0 4%N eq_refl) ltac:(auto)) as [X|[X|[X|[]]]]; discriminate.
Qed.
Lemma C66_next g lf h : s_next C66_mesh g lf h -> lf = 0 /\ ((g = 0%N /\ h = 1%N) \/ (g = 1%N /\ h = 0%N)).
Proof.
  intros (f & sf & O & AC & NI). destruct (C66_faces _ _ _ _ O) as (G & L & I0 & I1). destruct O as (_ & _ & _ & HF & _).
  assert (f = 0%N /\ sf = mkSface (Q2 0 1)%N (Q3 2 1 3)%N) as (-> & ->).
  { destruct G as [->| ->]; [destruct (I0 eq_refl) as [<-|[<-|[<-|[<-|[]]]]]|destruct (I1 eq_refl) as [<-|[<-|[<-|[<-|[]]]]]]; apply Some_inj in HF; subst sf; auto; exfalso; apply NI; rewrite <- AC; reflexivity. }
  split; auto. destruct G; subst; auto.
Qed.
Lemma C66_shared g lf h lf' f sf : s_opposite C66_mesh g lf f sf -> s_opposite C66_mesh h lf' f sf -> g <> h -> lf = 0 /\ lf' = 0 /\ ((g = 0%N /\ h = 1%N) \/ (g = 1%N /\ h = 0%N)).
Proof.
  intros O O' NE. destruct (C66_faces _ _ _ _ O) as (G & L & I0 & I1). destruct (C66_faces _ _ _ _ O') as (G' & L' & I0' & I1').
  assert (f = 0%N).
  { destruct G as [->| ->], G' as [->| ->]; try congruence; specialize (I0 eq_refl) || specialize (I1 eq_refl); specialize (I0' eq_refl) || specialize (I1' eq_refl); cbn in *; intuition congruence. }
  split; auto. split; auto. destruct G, G'; subst; auto; congruence.
Qed.
Lemma C66_out : b_out Dops C66_mesh ddec C66_om 0 0 0 = false /\ b_out Dops C66_mesh ddec C66_om 0 1 0 = true.
Proof. vm_compute. split; reflexivity. Qed.
Definition C66_p (i : nat) : q3 binary64 := decPoint ddec (sn_coords (nth i (sm_nodes C66_mesh) (mkSnode (Q3 0 0 0)%N))).
Lemma C66_mesh_ok : serial_mesh_ok C66_mesh /\ tets_ok C66_mesh /\ coords_finite C66_mesh.
Proof.
  split; [|split].
  - apply crossb_ok; [apply serial_wfb_ok|]; vm_compute; reflexivity.
  - apply tetsb_ok. vm_compute. reflexivity.
  - intros n s x H I. apply at_index in H as (i & -> & H & Hi).
    do 5 (destruct i as [|i]; [apply Some_inj in H; subst s; cbn in I; repeat (destruct I as [<-|I]; [vm_compute; reflexivity|]); destruct I|]). cbn in Hi. lia.
Qed.
Lemma C66_decided : decided C66_mesh 1 C66_om.
Proof.
  assert (A0 : apex C66_mesh 0 0 (Q3 (C66_p 2) (C66_p 1) (C66_p 3)) (C66_p 0)).
  { exists (Q4 (C66_p 0) (C66_p 1) (C66_p 2) (C66_p 3)). split; [reflexivity|]. split; [reflexivity|]. unfold vertIndex. cbn [q4l find]. replace (negb _) with true by (vm_compute; reflexivity). reflexivity. }
  assert (A1 : apex C66_mesh 1 0 (Q3 (C66_p 2) (C66_p 1) (C66_p 3)) (C66_p 4)).
  { exists (Q4 (C66_p 4) (C66_p 1) (C66_p 2) (C66_p 3)). split; [reflexivity|]. split; [reflexivity|]. unfold vertIndex. cbn [q4l find]. replace (negb _) with true by (vm_compute; reflexivity). reflexivity. }
  assert (U0 : above Dops (Q3 (C66_p 2) (C66_p 1) (C66_p 3)) (C66_p 0) = false) by (vm_compute; reflexivity).
  assert (U1 : above Dops (Q3 (C66_p 2) (C66_p 1) (C66_p 3)) (C66_p 4) = true) by (vm_compute; reflexivity).
  assert (D : let d := vdot Dops (C66_om 0) (triNormal Dops (Q3 (C66_p 2) (C66_p 1) (C66_p 3))) in is_finite 53 1024 d = true /\ B2R 53 1024 d <> 0%R).
  { cbv zeta. set (d := vdot _ _ _). assert (E : is_finite 53 1024 d = true) by (vm_compute; reflexivity). assert (G : agt Dops (azero Dops) d = true) by (vm_compute; reflexivity). clearbody d. split; [exact E|].
    destruct zero_val as (Z & ZF). intros Q. pose proof (proj1 (dgt_ok _ _ ZF E) G) as W. rewrite Z, Q in W. lra. }
  intros g lf h lf' f sf O O' NE. destruct (C66_shared g lf h lf' f sf O O' NE) as (-> & -> & [(-> & ->)|(-> & ->)]).
  - exists (Q3 (C66_p 2) (C66_p 1) (C66_p 3)), (C66_p 0), (C66_p 4). split; [exact A0|]. split; [exact A1|]. split; [rewrite U0, U1; reflexivity|]. intros a Ha. destruct a; [exact D|lia].
  - exists (Q3 (C66_p 2) (C66_p 1) (C66_p 3)), (C66_p 4), (C66_p 0). split; [exact A1|]. split; [exact A0|]. split; [rewrite U0, U1; reflexivity|]. intros a Ha. destruct a; [exact D|lia].
Qed.
Definition C66_run (np : nat) (t : nat -> tmesh) : run (value binary64) (block binary64) :=
  mkRun Forward true TychoTwoSided np 1 2 10 48 (fun r => viewMesh Dops ddec C66_om (t r))
    (mkTdata _ _ (fun _ _ _ _ => None) (fun _ _ _ _ _ _ _ => azero Dops) (fun _ _ _ _ _ _ _ => azero Dops) (fun _ _ _ => 0%N)) (mateOf C66_mesh np t).
(** The hypotheses hold: the problem, a run on two ranks, the same on one rank. *)
Example C66_ex : coords_finite C66_mesh /\ decided C66_mesh 1 C66_om /\ bits_ok Dops C66_mesh ddec C66_om 1 /\
  (exists t, configuredA Dops C66_mesh ddec C66_om 1 (fun _ => aone Dops) [1; 0]%N 2 dltb t (C66_run 2 t) (fun _ _ => aone Dops)) /\
  (exists t, configuredA Dops C66_mesh ddec C66_om 1 (fun _ => aone Dops) [0; 0]%N 1 dltb t (C66_run 1 t) (fun _ _ => aone Dops)).
Proof.
  destruct C66_mesh_ok as (OK & TT & FI). pose proof (C66_double_compares C66_mesh FI) as CMP. destruct C66_out as (O0 & O1).
  assert (CFG : forall pv np, partition_vector_ok C66_mesh pv np -> mesh_small C66_mesh np ->
    exists t, configuredA Dops C66_mesh ddec C66_om 1 (fun _ => aone Dops) pv np dltb t (C66_run np t) (fun _ _ => aone Dops)).
  { intros pv np P SM. destruct (C65_reads C66_mesh pv np dltb _ OK TT P SM CMP) as (t & RD). exists t. constructor; [exact P|exact SM|eexists; exact CMP|exact RD|reflexivity|reflexivity|reflexivity|cbn; lia|reflexivity|reflexivity|reflexivity|reflexivity|reflexivity|vm_compute; reflexivity]. }
  split; [exact FI|]. split; [exact C66_decided|]. split.
  { constructor; [constructor; [exact OK|exact TT|exact (C66_double_signs _ _ _ C66_decided)]|]. exists (fun _ g => if (g =? 0)%N then 1 else 0). intros a g lf h Ha NX B. destruct a; [|lia].
    destruct (C66_next g lf h NX) as (-> & [(-> & ->)|(-> & ->)]); [cbn; lia|]. rewrite O1 in B. discriminate. }
  split; apply CFG; try (repeat split; vm_compute; reflexivity); split; [reflexivity|split; [repeat constructor|reflexivity]|reflexivity|split; [repeat constructor|reflexivity]].
Qed.

(** The sum over ranks in the order of their numbers. *)
Definition rankSum (np : nat) (x : nat -> binary64) : binary64 := fold_left (fun s r => aadd Dops s (x r)) (seq 1 (np - 1)) (x 0).
(** C66: the error that ends source iteration is not independent of the partition in double precision: two cells on one rank and on two ranks,
    the same fluxes, the same threshold; the first run goes on and the second stops. *)
Theorem C66_error_refuted : exists (phiNew phiOld : nat -> nat -> nat -> binary64) (errMax : binary64),
  agt Dops (relError Dops 1 (fun _ => 2) (rankSum 1) (fun _ c => phiNew c) (fun _ c => phiOld c)) errMax = true /\
  agt Dops (relError Dops 1 (fun _ => 1) (rankSum 2) (fun r _ => phiNew r) (fun r _ => phiOld r)) errMax = false.
Proof.
  set (tiny := ddec 0x3CA0000000000000).
  exists (fun c v _ => match c, v with 0, 0 => aone Dops | 1, 0 => tiny | 1, 1 => tiny | _, _ => azero Dops end),
    (fun c v _ => match c, v with 0, 0 => asub Dops (aone Dops) (ddec 0x3EB0000000000000) | 1, 0 => tiny | 1, 1 => tiny | _, _ => azero Dops end),
    (amul Dops (ddec 0x3EB0000000000000) (asub Dops (aone Dops) tiny)).
  vm_compute. split; reflexivity.
Qed.
Print Assumptions C66_double_compares. Print Assumptions C66_double_signs. Print Assumptions C66_error_refuted. Print Assumptions C66_ex.
