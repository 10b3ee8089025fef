(** Cases in which the hypotheses of C78 hold. *)
From Coq Require Import Reals Lra Permutation String ZArith Lia.
From Flocq Require Import Core IEEE754.BinarySingleNaN IEEE754.Binary IEEE754.Bits.
From Verif Require Import Prelude Bytes LayoutModel PsiFileModel PsiFileSpec DeckModel MeshModel MeshSpec CreateModel CreateSpec TychoSpec GeometryModel ViewSpec PropertiesView BitsModel BitsSpec PropertiesBits ColumnsModel MetisModel DoubleModel DoubleSpec DoubleProofs PropertiesDouble
  MainModel MainSpec PropertiesMain PropertiesMainEx CommandModel PropertiesCommand PropertiesCommandEx DiffModel DiffSpec DiffProofs DiffDoubles PropertiesDiff.

(** Addition from the right. *)
Definition plainSum {T} (A : arith T) (l : list T) : T := fold_right (aadd A) (azero A) l.
Lemma plain_adds {T} (A : arith T) : adds A (plainSum A).
Proof. intros l. induction l as [|x l IH]; [constructor|]. exact (added_two A (x :: l) [x] l x (plainSum A l) (Permutation_refl _) (added_one A x) IH). Qed.

(** Reals: 100 and 200 against 101 and 200 pass at 1/50 but not at 1/500. *)
Definition C78_f (a b : N) : bytes := repeat 0%N 64 ++ words_bytes [a; b].
Definition C78_files (n : chars) : option bytes := if list_eq_dec N.eq_dec n (str "a") then Some (C78_f 100 200) else Some (C78_f 101 200).
Definition C78_dec (n : N) : R := IZR (Z.of_N n).
Example C78_exact_ex : diffMain Rops C78_dec (plainSum Rops) (fun _ => Some (1 / 50)%R) [str "diff.py"; str "a"; str "b"; str "0.02"] C78_files = 0%N /\
  diffMain Rops C78_dec (plainSum Rops) (fun _ => Some (1 / 500)%R) [str "diff.py"; str "a"; str "b"; str "0.002"] C78_files <> 0%N.
Proof.
  assert (V : number_at C78_dec (C78_f 100 200) 0 = 100%R /\ number_at C78_dec (C78_f 100 200) 1 = 200%R /\ number_at C78_dec (C78_f 101 200) 0 = 101%R /\ number_at C78_dec (C78_f 101 200) 1 = 200%R) by (repeat split; reflexivity).
  destruct V as (V1 & V2 & V3 & V4). assert (NZ : exists i, i < number_of (C78_f 101 200) /\ number_at C78_dec (C78_f 101 200) i <> 0%R) by (exists 0; split; [vm_compute; lia|rewrite V3; lra]).
  assert (N2 : number_of (C78_f 101 200) = 2) by reflexivity. assert (N1 : number_of (C78_f 100 200) = 2) by reflexivity.
  assert (R0 : Rabs (100 - 101) = 1%R) by (rewrite Rabs_left; lra). assert (R1 : Rabs (200 - 200) = 0%R) by (rewrite Rabs_right; lra). assert (R2 : Rabs 101 = 101%R) by (apply Rabs_right; lra). assert (R3 : Rabs 200 = 200%R) by (apply Rabs_right; lra).
  split.
  - apply (C78_exact C78_dec (plainSum Rops) (fun _ => Some (1 / 50)%R) _ (str "a") (str "b") (str "0.02") C78_files (C78_f 100 200) (C78_f 101 200) (1 / 50)%R (plain_adds Rops) eq_refl eq_refl eq_refl NZ).
    unfold close. rewrite N1, N2. split; [reflexivity|]. split; [lra|]. split; [cbn [upto]; rewrite V1, V2, V3, V4, R0, R1, R2, R3; lra|]. exists 1. split; [lia|]. rewrite V4, R3.
    intros [|[|i]] Hi; [rewrite V1, V3, R0; lra|rewrite V2, V4, R1; lra|lia].
  - intros H. apply (C78_exact C78_dec (plainSum Rops) (fun _ => Some (1 / 500)%R) _ (str "a") (str "b") (str "0.002") C78_files (C78_f 100 200) (C78_f 101 200) (1 / 500)%R (plain_adds Rops) eq_refl eq_refl eq_refl NZ) in H.
    unfold close in H. rewrite N1, N2 in H. destruct H as (_ & _ & H & _). cbn [upto] in H. rewrite V1, V2, V3, V4, R0, R1, R2, R3 in H. lra.
Qed.
(** Doubles: the runs of C74_ex. Whatever the partitioners, the outputs pass exactly if the flux is finite and not zero. *)
Example C78_runs_ex ty : In ty C70_types -> forall t1 np1 threads1 pr1 gsum1 t2 np2 threads2 pr2 gsum2 prog1 prog2 rest,
  In (t1, np1) C74_tools -> 0 < threads1 -> In (t2, np2) C74_tools -> 0 < threads2 ->
  let fs := C74_files C66_mesh (C70_deck ty) in
  exists i1 g1 i2 g2, pipeline Dops ddec C74_sortX C74_sortY 32 C74_metis t1 (fun d deck mesh it out => mainRun Dops ddec C70_enc C70_stod dltb C70_quadrature (ddec 0x400921FB54442D18) C70_tol d deck mesh np1 threads1 pr1 gsum1 it out) prog1 prog2 (str "cube.smesh") (str "a.pmesh") (str "input.deck") rest fs i1 g1 /\
    pipeline Dops ddec C74_sortX C74_sortY 32 C74_metis t2 (fun d deck mesh it out => mainRun Dops ddec C70_enc C70_stod dltb C70_quadrature (ddec 0x400921FB54442D18) C70_tol d deck mesh np2 threads2 pr2 gsum2 it out) prog1 prog2 (str "cube.smesh") (str "b.pmesh") (str "input.deck") rest fs i2 g2 /\
    (i1 = i2 -> forall here, here (str "gold.psi") = g1 (cOutputFilename (C70_cfg ty)) -> here (str "out.psi") = g2 (cOutputFilename (C70_cfg ty)) ->
     exists out, g1 (cOutputFilename (C70_cfg ty)) = Some out /\
       (diffMain Dops ddec (plainSum Dops) (fun _ => Some (ddec 0x3DDB7CDFD9D7BDBB)) [str "diff.py"; str "gold.psi"; str "out.psi"; str "1e-10"] here = 0%N <->
        (forall i, i < number_of out -> fin (number_at ddec out i) = true) /\ exists i, i < number_of out /\ val (number_at ddec out i) <> 0%R)).
Proof.
  intros ITY t1 np1 threads1 pr1 gsum1 t2 np2 threads2 pr2 gsum2 prog1 prog2 rest I1 T1 I2 T2 fs. destruct (C74_ex ty ITY) as (PR & EX).
  destruct (EX t1 np1 threads1 pr1 gsum1 prog1 prog2 (str "a.pmesh") rest I1 T1 ltac:(discriminate)) as (A1 & S1 & i1 & g1 & P1). destruct (EX t2 np2 threads2 pr2 gsum2 prog1 prog2 (str "b.pmesh") rest I2 T2 ltac:(discriminate)) as (A2 & S2 & i2 & g2 & P2).
  assert (N : forall t np, In (t, np) C74_tools -> 0 < np). { intros t np IN. destruct IN as [E|[E|[E|[E|[]]]]]; inversion E; subst; lia. }
  exists i1, g1, i2, g2. split; [exact P1|]. split; [exact P2|]. intros E here HG HM. subst i2.
  refine (C78_runs (plainSum Dops) (fun _ => Some (ddec 0x3DDB7CDFD9D7BDBB)) C70_enc C74_sortX C74_sortY 32 C74_metis C70_stod dltb C70_quadrature (ddec 0x400921FB54442D18) C70_tol _ _ fs C66_mesh (C70_cfg ty) _ t1 np1 np1 threads1 pr1 gsum1 prog1 prog2 (str "a.pmesh") rest g1 t2 np2 np2 threads2 pr2 gsum2 prog1 prog2 (str "b.pmesh") rest g2 i1 PR A1 S1 (N _ _ I1) T1 _ A2 S2 (N _ _ I2) T2 _ P1 P2 eq_refl here (str "diff.py") (str "gold.psi") (str "out.psi") (str "1e-10") _ (plain_adds Dops) HG HM eq_refl _ _); try discriminate; [vm_compute; reflexivity|].
  destruct zero_val as (Z1 & Z2). rewrite <- Z1. apply (dgt_ok (ddec 0x3DDB7CDFD9D7BDBB) (azero Dops)); [vm_compute; reflexivity|exact Z2|vm_compute; reflexivity].
Qed.
