(** Proofs for C70: where the run stops in exact arithmetic. *)
From Coq Require Import Reals Lra Permutation.
From Verif Require Import Prelude Bytes LayoutModel PsiFileModel PsiFileSpec DeckModel MeshModel MeshSpec CreateModel CreateSpec CreateProofs TychoModel TychoSpec GeometryModel GaussModel TransportModel TraverseModel TraverseRun SweepModel FluxModel FluxProofs PropertiesFlux ProblemModel
  ViewModel ViewSpec ViewProofs PropertiesView BitsModel BitsSpec BitsProofs PropertiesBits MainModel MainSpec MainProofs.

Notation rsum := (fold_right Rplus 0%R).
Lemma fold_rsum {X} (h : X -> R) l : forall x, fold_left (fun s k => s + h k)%R l x = (x + rsum (map h l))%R.
Proof. induction l as [|k l IH]; intros x; cbn; [lra|]. rewrite IH. lra. Qed.
Lemma rsum_app l l' : rsum (l ++ l') = (rsum l + rsum l')%R.
Proof. induction l as [|x l IH]; cbn; [lra|]. rewrite IH. lra. Qed.
Lemma rsum_prod {X Y} (h : X * Y -> R) l l' : rsum (map h (list_prod l l')) = rsum (map (fun a => rsum (map (fun b => h (a, b)) l')) l).
Proof. induction l as [|x l IH]; [reflexivity|]. cbn [list_prod map]. rewrite map_app, rsum_app, IH, map_map. reflexivity. Qed.
Lemma rsum_perm l l' : Permutation l l' -> rsum l = rsum l'.
Proof. induction 1; cbn; lra. Qed.
Lemma rsum_concat {X Y} (f : X -> list Y) (h : Y -> R) l : rsum (map (fun r => rsum (map h (f r))) l) = rsum (map h (concat (map f l))).
Proof. induction l as [|r l IH]; [reflexivity|]. cbn [map concat fold_right]. rewrite map_app, rsum_app, IH. reflexivity. Qed.
Lemma rsum_ext {X} (f h : X -> R) l : (forall x, In x l -> f x = h x) -> rsum (map f l) = rsum (map h l).
Proof. intros H. f_equal. now apply map_ext_in. Qed.

Section Exact.
  Context (dec : N -> R) (enc : R -> N) (ltb : N -> N -> bool) (pi : R) (sm : smesh) (pv : list N) (np : nat) (cfg : config R) (q : angles R) (threads : nat).
  Context (PB : bits_ok Rops sm dec (q_omega q) (q_num q)) (PV : partition_vector_ok sm pv np) (SM : mesh_small sm np) (CMP : exists decR, compares sm decR ltb).
  Context (TH : 0 < threads) (NP : 0 < np) (HG0 : 0 < N.to_nat (cNGroups cfg)) (HA0 : 0 < q_num q) (HC0 : 0 < length (sm_cells sm)).
  Context (SZ : (N.of_nat (q_num q * length (sm_cells sm) * 4) * (24 * cNGroups cfg) < INT_MAX)%N).
  Context (t : nat -> tmesh) (RD : program_reads sm pv np ltb t).
  Context (xs : nat -> list R * list R) (XS : forall r, r < np -> createCrossSections (tm_material (t r)) (cSigmaT1 cfg) (cSigmaS1 cfg) (cSigmaT2 cfg) (cSigmaS2 cfg) = Some (xs r)).
  Notation nG := (N.to_nat (cNGroups cfg)).
  Notation nA := (q_num q).
  Notation om := (q_omega q).
  Notation R0 := (traverser Rops dec cfg q t np threads).
  Notation nCells := (fun r => rm_nCells (u_mesh R0 r)).
  Notation sigT := (by_material Rops sm (cSigmaT1 cfg) (cSigmaT2 cfg)).
  Notation sigS := (by_material Rops sm (cSigmaS1 cfg) (cSigmaS2 cfg)).
  Notation hold := (holds Rops np cfg q t).
  Notation phi psi := (gPsiToPhi Rops nA nG (q_weight q) nCells psi).

  Lemma phi_ok psi Val r c g v G : hold psi Val -> r < np -> getLGCell (t r) c = Some g -> c < tm_nCells (t r) -> v < 4 -> G < nG -> phi psi r c v G = b_flux Rops nA (q_weight q) Val g v G.
  Proof.
    intros H Hr HG Hc Hv HGr. unfold gPsiToPhi. rewrite psiToPhi_eq. rewrite (proj2 (in_inside nG _ c v G)); [|cbn; auto]. unfold b_flux.
    assert (E : forall l x, (forall a, In a l -> a < nA) -> fold_left (fun s a => aadd Rops s (amul Rops (psi r c a v G) (q_weight q a))) l x = fold_left (fun s a => aadd Rops s (amul Rops (getBlock Rops (Val a g) v G) (q_weight q a))) l x).
    { induction l as [|b l IH]; intros x L; [reflexivity|]. cbn [fold_left]. rewrite (H r c g b v G) by (auto; apply L; now left). apply IH. intros b' Hb. apply L. now right. }
    apply E. intros b Hb. apply in_seq in Hb. lia.
  Qed.
  (** A sum over the cells of all ranks is the sum over the serial cells. *)
  Lemma sum_ranks (f : nat -> nat -> nat -> nat -> R) (h : N -> nat -> nat -> R) :
    (forall r c g v G, r < np -> getLGCell (t r) c = Some g -> c < tm_nCells (t r) -> v < 4 -> G < nG -> f r c v G = h g v G) ->
    rsum (map (fun r => fold_left (fun s k => let '(c, v, g) := k in (s + f r c v g)%R) (tri nG (tm_nCells (t r))) 0%R) (seq 0 np)) = s_total sm nG h.
  Proof.
    intros E. set (S' := fun g : N => rsum (map (fun v => rsum (map (h g v) (seq 0 nG))) (seq 0 4))).
    transitivity (rsum (map (fun r => rsum (map S' (tm_lGCells (t r)))) (seq 0 np))).
    { apply rsum_ext. intros r Hr. apply in_seq in Hr.
      replace (fold_left _ _ _) with (rsum (map (fun k : nat * nat * nat => f r (fst (fst k)) (snd (fst k)) (snd k)) (tri nG (tm_nCells (t r))))).
      2: { symmetry. etransitivity; [|etransitivity; [apply (fold_rsum (fun k : nat * nat * nat => f r (fst (fst k)) (snd (fst k)) (snd k)) (tri nG (tm_nCells (t r))) 0%R)|apply Rplus_0_l]].
        assert (FE : forall l x, fold_left (fun s k => let '(c, v, g) := k in (s + f r c v g)%R) l x = fold_left (fun s (k : nat * nat * nat) => (s + f r (fst (fst k)) (snd (fst k)) (snd k))%R) l x).
        { induction l as [|[[c v] g] l IH]; intros x; [reflexivity|]. cbn [fold_left fst snd]. apply IH. }
        apply FE. }
      unfold tri. rewrite rsum_prod, rsum_prod. cbn [fst snd].
      pose proof (lg_length Rops dec ltb sm pv np q PB PV SM CMP t RD r ltac:(lia)) as LL.
      transitivity (rsum (map (fun c => S' (nth c (tm_lGCells (t r)) 0%N)) (seq 0 (tm_nCells (t r))))).
      - apply rsum_ext. intros c Hc. apply in_seq in Hc. unfold S'. apply rsum_ext. intros v Hv. apply in_seq in Hv. apply rsum_ext. intros G HGr. apply in_seq in HGr. apply E; try lia. unfold getLGCell. apply nth_error_nth'. lia.
      - rewrite <- LL. clear. induction (tm_lGCells (t r)) as [|g l IH]; [reflexivity|]. cbn [length seq map nth fold_right]. rewrite <- seq_shift, map_map. f_equal. exact IH. }
    rewrite rsum_concat. rewrite (rsum_perm _ _ (Permutation_map S' (lg_perm Rops dec enc ltb pi sm pv np cfg q threads PB PV SM CMP TH NP HG0 HA0 HC0 SZ t RD))). rewrite map_map. reflexivity.
  Qed.
  Context (gsum : (nat -> R) -> R) (GS : forall x, gsum x = rsum (map x (seq 0 np))).
  Lemma change_ok psi psi' V V' : hold psi V -> hold psi' V' -> relError Rops nG nCells gsum (phi psi') (phi psi) = s_change sm nA (q_weight q) nG V V'.
  Proof.
    intros H H'. unfold relError, s_change. rewrite !GS. cbn [adiv Rops]. f_equal; [|f_equal].
    - apply (sum_ranks (fun r c v G => Rabs (phi psi' r c v G - phi psi r c v G))). intros r c g v G Hr HG Hc Hv HGr. now rewrite (phi_ok psi V r c g v G), (phi_ok psi' V' r c g v G).
    - apply (sum_ranks (fun r c v G => Rabs (phi psi' r c v G))). intros r c g v G Hr HG Hc Hv HGr. now rewrite (phi_ok psi' V' r c g v G).
  Qed.
  Notation sr := (s_run sm dec om nA (q_weight q) pi (gaussOf (cGauss cfg)) nG sigT sigS (N.to_nat (cIterMax cfg)) (cErrMax cfg)).
  Notation sends := (s_ends sm dec om nA (q_weight q) pi (gaussOf (cGauss cfg)) nG sigT sigS (N.to_nat (cIterMax cfg)) (cErrMax cfg)).
  Lemma solve_exact tol pr iters psi : (cSweep cfg = OriginalTycho1 \/ cSweep cfg = OriginalTycho2 -> beyond_tol Rops sm dec om nA tol) -> sweeperSolve Rops dec pi tol cfg q t np threads xs pr gsum iters psi -> exists Val, hold psi Val /\ sends (N.to_nat iters) Val.
  Proof.
    intros CL (sweep & pn & po & e & SWP & L). unfold fixedPoint in L.
    assert (K : forall i e psi tot n o i' psi' n' o' e', fixedPointLoop Rops pi nA nG (q_weight q) nCells (fun r c => nth c (snd (xs r)) 0%R) gsum sweep (cIterMax cfg) (cErrMax cfg)
        (fun r => hatSourceA Rops dec om (t r) (xs r)) i e psi tot n o i' psi' n' o' e' -> n = phi psi -> (i <= cIterMax cfg)%N -> forall Val, hold psi Val -> sr (N.to_nat i) e Val -> exists Val', hold psi' Val' /\ sends (N.to_nat i') Val').
    { clear e L. intros i e psi0 tot n o i' psi' n' o' e' L. induction L as [i e psi0 tot n o B|i e psi0 tot n o psi1 i' psi' n' o' e' B total1 SW phi1 L IH]; intros En Hi Val HV IT.
      - exists Val. split; auto. exists e. split; auto. cbn in B. destruct (N.ltb_spec i (cIterMax cfg)); cbn in B; [right|left; lia]. destruct (Rgt_dec e (cErrMax cfg)); [discriminate|lra].
      - subst n. destruct (sweep_ok Rops dec enc ltb pi sm pv np cfg q threads PB PV SM CMP TH NP HG0 HA0 HC0 SZ t RD xs XS tol CL pr sweep psi0 Val tot psi1 SWP HV SW) as (Val1 & H1 & B1 & N1).
        apply Bool.andb_true_iff in B. destruct B as (B & B'). apply N.ltb_lt in B. cbn in B'. destruct (Rgt_dec e (cErrMax cfg)); [|discriminate].
        apply (IH eq_refl) with (Val := Val1); auto; [lia|]. rewrite N2Nat.inj_succ. unfold phi1. rewrite (change_ok psi0 psi1 Val Val1 HV H1). econstructor; eauto; lia. }
    eapply K; [exact L|reflexivity|lia| |apply sr_zero]. intros r c g a v G _ _ _ _ _. reflexivity.
  Qed.
  Lemma run_iterate n e V : sr n e V -> b_iterate Rops sm dec om nA (q_weight q) pi (gaussOf (cGauss cfg)) nG sigT sigS n V.
  Proof. induction 1; econstructor; eauto. Qed.
  Lemma flux_same V V' : (forall a g sc, a < nA -> SM_cell sm g = Some sc -> vsame nG (V a g) (V' a g)) -> forall g sc v G, SM_cell sm g = Some sc -> v < 4 -> G < nG ->
    b_flux Rops nA (q_weight q) V g v G = b_flux Rops nA (q_weight q) V' g v G.
  Proof.
    intros U g sc v G HS Hv HGr. unfold b_flux.
    assert (E : forall l x, (forall a, In a l -> a < nA) -> fold_left (fun s a => aadd Rops s (amul Rops (getBlock Rops (V a g) v G) (q_weight q a))) l x = fold_left (fun s a => aadd Rops s (amul Rops (getBlock Rops (V' a g) v G) (q_weight q a))) l x).
    { induction l as [|b l IHl]; intros x L; [reflexivity|]. cbn [fold_left]. rewrite (vsame_get Rops nG _ _ v G (U b g sc (L b (or_introl eq_refl)) HS) Hv HGr). apply IHl. intros b' Hb. apply L. now right. }
    apply E. intros b Hb. apply in_seq in Hb. lia.
  Qed.
  Lemma change_same V V' W W' : (forall a g sc, a < nA -> SM_cell sm g = Some sc -> vsame nG (V a g) (V' a g)) -> (forall a g sc, a < nA -> SM_cell sm g = Some sc -> vsame nG (W a g) (W' a g)) ->
    s_change sm nA (q_weight q) nG V W = s_change sm nA (q_weight q) nG V' W'.
  Proof.
    intros U U'. unfold s_change. assert (T : forall f h : N -> nat -> nat -> R, (forall g sc v G, SM_cell sm g = Some sc -> v < 4 -> G < nG -> f g v G = h g v G) -> s_total sm nG f = s_total sm nG h).
    { intros f h E. unfold s_total. apply rsum_ext. intros g Hg. apply in_seq in Hg. apply rsum_ext. intros v Hv. apply in_seq in Hv. apply rsum_ext. intros G HGr. apply in_seq in HGr.
      destruct (SM_cell sm (N.of_nat g)) as [sc|] eqn:HS; [|unfold SM_cell in HS; rewrite Nat2N.id in HS; apply nth_error_None in HS; lia]. apply (E _ sc); auto; lia. }
    f_equal; apply T; intros g sc v G HS Hv HGr; now rewrite ?(flux_same V V' U g sc v G), ?(flux_same W W' U' g sc v G).
  Qed.
  Lemma run_error n e e' V V' : sr n e V -> sr n e' V' -> e = e'.
  Proof.
    intros H H'. pose proof (iterate_unique Rops dec enc ltb pi sm pv np cfg q threads PB PV SM CMP TH NP HG0 HA0 HC0 SZ t RD xs XS) as U.
    pose proof (U n V V' (run_iterate _ _ _ H) (run_iterate _ _ _ H')) as UV.
    inversion H as [|n1 e1 W V1 I1 L1 E1 B1 N1]; inversion H' as [|n2 e2 W' V2 I2 L2 E2 B2 N2]; subst; try discriminate; auto.
    match goal with E : S _ = S _ |- _ => injection E as -> end. apply change_same; [|exact UV]. exact (U _ W W' (run_iterate _ _ _ I1) (run_iterate _ _ _ I2)).
  Qed.
  Lemma run_before n e V : sr n e V -> forall k, k < n -> exists e' V', sr k e' V' /\ k < N.to_nat (cIterMax cfg) /\ (e' > cErrMax cfg)%R.
  Proof.
    induction 1 as [|n e V V' H IH L E B NN]; intros k Hk; [lia|]. destruct (Nat.eq_dec k n) as [->|NE]; [eauto 6|apply IH; lia].
  Qed.
  Lemma ends_unique n n' V V' : sends n V -> sends n' V' -> n = n'.
  Proof.
    assert (K : forall n n' V V', sends n V -> sends n' V' -> ~ n < n').
    { clear n n' V V'. intros n n' V V' (e & H & S) (e' & H' & _) LT. destruct (run_before _ _ _ H' n LT) as (e1 & V1 & H1 & L1 & G1).
      pose proof (run_error n e e1 V V1 H H1). subst e1. destruct S; [lia|lra]. }
    intros H H'. pose proof (K _ _ _ _ H H'). pose proof (K _ _ _ _ H' H). lia.
  Qed.
End Exact.

(** Over the reals hatSourceA is hatSource of ProblemModel.v wherever that has a value. *)
Lemma hat_exact pos omega sT sS c a v x : hatValue pos omega sT sS c a v = Some x -> hatValueA Rops (sT c) (sS c) (pos c v) (omega a) = x.
Proof.
  unfold hatValue, hatValueA, ale, rdiv, cubeSize. cbn [aadd asub amul adiv aneg asqrt agt aeq azero aone alit Rops]. set (d := sqrt _). intros H.
  destruct (Rle_dec d 30) as [L|L].
  - replace ((if Rgt_dec (IZR 30) d then true else false) || (if Req_EM_T d (IZR 30) then true else false))%bool with true.
    2: { destruct (Rgt_dec 30 d); [reflexivity|]. destruct (Req_EM_T d 30); [reflexivity|]. lra. }
    destruct (Req_EM_T (30 * d) 0); cbn [obind] in H; [discriminate|]. apply Some_inj in H. exact H.
  - replace ((if Rgt_dec (IZR 30) d then true else false) || (if Req_EM_T d (IZR 30) then true else false))%bool with false.
    2: { destruct (Rgt_dec 30 d); [lra|]. destruct (Req_EM_T d 30); [lra|reflexivity]. }
    apply Some_inj in H. exact H.
Qed.
