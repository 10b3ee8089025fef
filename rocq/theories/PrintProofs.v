(** Proofs for C73. *)
From Coq Require Import Reals Lra Permutation.
From Verif Require Import Prelude Bytes LayoutModel PsiFileModel DeckModel MeshModel MeshSpec CreateModel CreateSpec CreateProofs TychoModel TychoSpec GeometryModel GaussModel TransportModel TransportSpec TransportProofs TraverseModel TraverseRun SweepModel FluxModel ProblemModel
  ViewModel ViewSpec ViewProofs PropertiesView BitsModel BitsSpec BitsProofs PropertiesBits MainModel MainSpec MainProofs MainExact MainAllModel PrintModel PrintSpec.

(** ** Groups *)
(** The same flux in all groups: that of the first. *)
Definition firstGroup {T} (v : value T) : value T := option_map (fun p (j _ : nat) => p j 0) v.
Section Groups.
  Context {T : Type} (A : arith T) (sm : smesh) (dec : N -> T) (om : nat -> q3 T) (nA : nat) (wt : nat -> T) (pi : T) (gs : gaussElim) (nG : nat).
  Context (sigmaT sigmaS : N -> T) (HG0 : 0 < nG).
  Lemma first_block (v : value T) j G : getBlock A (firstGroup v) j G = getBlock A v j 0.
  Proof. now destruct v. Qed.
  Lemma first_emission (Val : nat -> N -> value T) a g v G :
    b_emission A sm dec om nA wt pi sigmaT sigmaS (fun a g => firstGroup (Val a g)) a g v G = b_emission A sm dec om nA wt pi sigmaT sigmaS Val a g v 0.
  Proof.
    unfold b_emission. f_equal. f_equal. unfold b_flux. generalize (azero A). generalize (seq 0 nA). induction l as [|b l IH]; intros x; [reflexivity|].
    cbn [fold_left]. rewrite first_block. apply IH.
  Qed.
  Lemma first_sweep (Q Q' : nat -> N -> block T) Val : (forall a g v G, Q' a g v G = Q a g v 0) -> b_sweep A sm dec om gs nG sigmaT nA Q Val ->
    (forall a g sc, a < nA -> SM_cell sm g = Some sc -> Val a g <> None) -> b_sweep A sm dec om gs nG sigmaT nA Q' (fun a g => firstGroup (Val a g)).
  Proof using HG0.
    intros HQ B N a g sc Ha HS. destruct (B a g sc Ha HS) as (psiB & c2f & IN & CF & E). exists (fun fv lf _ => psiB fv lf 0), c2f.
    split; [|split; [exact CF|]].
    - intros lf fv G Hlf Hfv HGr. destruct (IN lf fv 0 Hlf Hfv HG0) as (Z & I). split; [exact Z|]. intros h f sf n sh k EO NX O Hn HS' Hk. rewrite first_block. exact (I h f sf n sh k EO NX O Hn HS' Hk).
    - specialize (N a g sc Ha HS). destruct (Val a g) as [p|]; [|congruence]. cbn [firstGroup option_map].
      destruct (solve A gs nG (b_volume A sm dec g) (four (b_area A sm dec g)) (four (b_omN A sm dec om a g)) (sigmaT g) c2f psiB (Q a g) (fun _ _ => azero A)) as [p1|] eqn:E1; [|contradiction E].
      destruct (TransportProofs.solve_ok _ _ _ _ _ _ _ _ _ _ _ _ E1) as (K & _). destruct (K 0 HG0) as (x & Ex & Hx).
      assert (SG : forall G, solveGroup A gs (b_volume A sm dec g) (signedAreas A (four (b_area A sm dec g)) (four (b_omN A sm dec om a g))) (sigmaT g) c2f (fun fv f => psiB fv f 0) (fun v => Q' a g v G) = Some x).
      { intros G. rewrite <- Ex. apply SweepProofs.solveGroup_ext; auto. }
      destruct (TransportProofs.solve_total A gs (b_volume A sm dec g) (four (b_area A sm dec g)) (four (b_omN A sm dec om a g)) (sigmaT g) c2f nG (fun fv lf _ => psiB fv lf 0) (Q' a g) (fun _ _ => azero A)) as (p2 & E2).
      { intros G _. cbv beta. rewrite SG. discriminate. }
      rewrite E2. destruct (TransportProofs.solve_ok _ _ _ _ _ _ _ _ _ _ _ _ E2) as (K2 & _). intros v G Hv HGr. destruct (K2 G HGr) as (y & Ey & Hy). rewrite SG in Ey. apply Some_inj in Ey. subst y.
      rewrite (E v 0 Hv HG0), Hx, Hy by auto. reflexivity.
  Qed.
  Lemma first_iterate n Val : b_iterate A sm dec om nA wt pi gs nG sigmaT sigmaS n Val -> b_iterate A sm dec om nA wt pi gs nG sigmaT sigmaS n (fun a g => firstGroup (Val a g)).
  Proof using HG0.
    induction 1 as [|n Val Val' H IH B N]; [exact (bi_zero _ _ _ _ _ _ _ _ _ _ _)|]. apply bi_next with (Val := fun a g => firstGroup (Val a g)); [exact IH| |].
    - apply (first_sweep _ _ _ (first_emission Val) B N).
    - intros a g sc Ha HS. specialize (N a g sc Ha HS). destruct (Val' a g); [discriminate|congruence].
  Qed.
End Groups.

(** The loops of diffBetweenGroups when all groups are the same. *)
Definition exact_minus {T} (A : arith T) : Prop := forall x, agt A (aabs A (asub A x x)) (azero A) = false.
Section Diff.
  Context {T : Type} (A : arith T) (EM : exact_minus A) (nG nA nC : nat) (psi : nat -> nat -> nat -> nat -> T).
  Context (SAME : forall c a v G, c < nC -> a < nA -> v < 4 -> G < nG -> psi G v a c = psi 0 v a c).
  (** The largest size of an entry: zero if none compares greater, or else that of an entry which compares greater than zero or some other size. *)
  Definition sizeOf (e : T) : Prop := (e = azero A /\ forall c a v, c < nC -> a < nA -> v < 4 -> agt A (aabs A (psi 0 v a c)) (azero A) = false) \/
    exists c a v e', c < nC /\ a < nA /\ v < 4 /\ e = aabs A (psi 0 v a c) /\ agt A e e' = true /\ (e' = azero A \/ exists x, e' = aabs A x).
  Lemma diff_same : fst (diffLoops A nG nA nC psi) = azero A /\ sizeOf (snd (diffLoops A nG nA nC psi)).
  Proof using EM SAME.
    unfold diffLoops. set (l := list_prod _ _).
    assert (L : forall k, In k l -> let '(c, a, v) := k in c < nC /\ a < nA /\ v < 4).
    { intros [[c a] v] Hk. unfold l in Hk. rewrite !in_prod_iff, !in_seq in Hk. lia. }
    assert (C : forall c a v, c < nC -> a < nA -> v < 4 -> In (c, a, v) l). { intros c a v ? ? ?. unfold l. rewrite !in_prod_iff, !in_seq. lia. }
    assert (F : forall m s, (forall k, In k m -> In k l) -> fst s = azero A -> fst (fold_left (diffEntry A nG psi) m s) = azero A).
    { induction m as [|[[c a] v] m IH]; intros [d e] Hm Hd; [exact Hd|]. cbn [fold_left]. apply IH; [intros k Hk; apply Hm; now right|]. cbn [diffEntry fst] in *. subst d.
      destruct (L _ (Hm _ (or_introl eq_refl))) as (Hc & Ha & Hv).
      assert (G : forall gs, (forall G, In G gs -> G < nG) -> fold_left (diffGroup A psi v a c) gs (azero A) = azero A).
      { induction gs as [|G gs IHg]; intros Hg; [reflexivity|]. cbn [fold_left]. unfold diffGroup at 2. rewrite (SAME c a v G) by (auto; apply Hg; now left). rewrite EM. apply IHg. intros G' HG'. apply Hg. now right. }
      apply G. intros G' HG'. apply in_seq in HG'. lia. }
    split; [apply F; auto|].
    assert (E : forall m s, (forall k, In k m -> In k l) ->
      ((snd s = azero A /\ forall c a v, In (c, a, v) l -> ~ In (c, a, v) m -> agt A (aabs A (psi 0 v a c)) (azero A) = false) \/ exists c a v e', c < nC /\ a < nA /\ v < 4 /\ snd s = aabs A (psi 0 v a c) /\ agt A (snd s) e' = true /\ (e' = azero A \/ exists x, e' = aabs A x)) ->
      sizeOf (snd (fold_left (diffEntry A nG psi) m s))).
    { induction m as [|[[c a] v] m IH]; intros [d e] Hm Hs.
      - destruct Hs as [(Z & Q)|Hs]; [left|right; exact Hs]. split; [exact Z|]. intros c a v Hc Ha Hv. apply Q; auto.
      - cbn [fold_left]. apply IH; [intros k Hk; apply Hm; now right|]. cbn [diffEntry snd] in *. destruct (L _ (Hm _ (or_introl eq_refl))) as (Hc & Ha & Hv).
        destruct (agt A (aabs A (psi 0 v a c)) e) eqn:EA; [right; exists c, a, v, e; repeat split; auto; destruct Hs as [(Z & _)|(c1 & a1 & v1 & e1 & _ & _ & _ & Z & _)]; eauto|]. destruct Hs as [(Z & Q)|Hs]; [|right; exact Hs]. left. split; [exact Z|]. intros c' a' v' I N.
        destruct (Nat.eq_dec c' c) as [->|NE]; [|apply Q; auto; intros [X|X]; [inversion X; congruence|contradiction]].
        destruct (Nat.eq_dec a' a) as [->|NE]; [|apply Q; auto; intros [X|X]; [inversion X; congruence|contradiction]].
        destruct (Nat.eq_dec v' v) as [->|NE]; [|apply Q; auto; intros [X|X]; [inversion X; congruence|contradiction]]. subst e. exact EA. }
    apply E; auto. left. split; [reflexivity|]. intros c a v I N. contradiction.
  Qed.
End Diff.

(** ** The error *)
Section Ranks.
  Context (dec : N -> R) (enc : R -> N) (ltb : N -> N -> bool) (pi : R) (sm : smesh) (pv : list N) (np : nat) (cfg : config R) (q : angles R) (threads : nat).
  Context (PB : bits_ok Rops sm dec (q_omega q) (q_num q)) (PV : partition_vector_ok sm pv np) (SM : mesh_small sm np) (CMP : exists decR, compares sm decR ltb).
  Context (TH : 0 < threads) (NP : 0 < np) (HG0 : 0 < N.to_nat (cNGroups cfg)) (HA0 : 0 < q_num q) (HC0 : 0 < length (sm_cells sm)).
  Context (SZ : (N.of_nat (q_num q * length (sm_cells sm) * 4) * (24 * cNGroups cfg) < INT_MAX)%N).
  Context (t : nat -> tmesh) (RD : program_reads sm pv np ltb t).
  Notation nG := (N.to_nat (cNGroups cfg)).
  Notation nA := (q_num q).
  (** A sum over the cells of all ranks is the sum over the serial cells. *)
  Lemma sum_cells (f : nat -> nat -> R) (h : N -> R) : (forall r c g, r < np -> getLGCell (t r) c = Some g -> c < tm_nCells (t r) -> f r c = h g) ->
    rsum (map (fun r => rsum (map (f r) (seq 0 (tm_nCells (t r))))) (seq 0 np)) = rsum (map (fun g => h (N.of_nat g)) (seq 0 (length (sm_cells sm)))).
  Proof.
    intros E. transitivity (rsum (map (fun r => rsum (map h (tm_lGCells (t r)))) (seq 0 np))).
    { apply rsum_ext. intros r Hr. apply in_seq in Hr. pose proof (lg_length Rops dec ltb sm pv np q PB PV SM CMP t RD r ltac:(lia)) as LL.
      transitivity (rsum (map (fun c => h (nth c (tm_lGCells (t r)) 0%N)) (seq 0 (tm_nCells (t r))))).
      - apply rsum_ext. intros c Hc. apply in_seq in Hc. apply E; try lia. unfold getLGCell. apply nth_error_nth'. lia.
      - rewrite <- LL. clear. induction (tm_lGCells (t r)) as [|g l IH]; [reflexivity|]. cbn [length seq map nth fold_right]. rewrite <- seq_shift, map_map. f_equal. exact IH. }
    rewrite rsum_concat. rewrite (rsum_perm _ _ (Permutation_map h (lg_perm Rops dec enc ltb pi sm pv np cfg q threads PB PV SM CMP TH NP HG0 HA0 HC0 SZ t RD))). rewrite map_map. reflexivity.
  Qed.
  Lemma point_all r c g : r < np -> getLGCell (t r) c = Some g -> exists P, b_cell sm dec g = Some P /\ forall v, v < 4 -> pointA Rops dec (t r) c v = get4 P v.
  Proof.
    intros Hr HG. destruct (reads_parts sm pv np ltb t (bo_mesh _ _ _ _ _ PB) PV SM RD) as (m & CR & R1). destruct CMP as (d & CP). destruct PB as [[OK TT _] _].
    destruct (gid_cell sm pv np m ltb d t OK TT PV CR CP R1 r c g Hr HG) as (_ & _ & sc & _ & _ & _ & HS & _).
    pose proof (bcell sm pv np m ltb d t OK TT PV CR CP R1 dec r c g Hr HG) as BC.
    destruct (b_cell_ex Rops dec sm q PB g sc HS) as (P & EP). rewrite EP in BC. exists P. split; [exact EP|]. unfold getCellVrtxCoords in BC.
    destruct (cellPoint dec (t r) c 0) as [p0|] eqn:E0; [|discriminate]. destruct (cellPoint dec (t r) c 1) as [p1|] eqn:E1; [|discriminate]. destruct (cellPoint dec (t r) c 2) as [p2|] eqn:E2; [|discriminate]. destruct (cellPoint dec (t r) c 3) as [p3|] eqn:E3; [|discriminate].
    cbn [obind] in BC. apply Some_inj in BC. subst P. intros v Hv. unfold pointA. destruct v as [|[|[|[|v]]]]; [rewrite E0|rewrite E1|rewrite E2|rewrite E3|lia]; reflexivity.
  Qed.
  Definition hatOf (g : N) : R := match b_cell sm dec g with
    | Some P => s_hat (Q3 ((t0 (r0 P) + t0 (r1 P) + t0 (r2 P) + t0 (r3 P)) / 4)%R ((t1 (r0 P) + t1 (r1 P) + t1 (r2 P) + t1 (r3 P)) / 4)%R ((t2 (r0 P) + t2 (r1 P) + t2 (r2 P) + t2 (r3 P)) / 4)%R)
    | None => 0%R end.
  Lemma actual_ok r c g : r < np -> getLGCell (t r) c = Some g -> psiActualA Rops dec (t r) c = hatOf g.
  Proof.
    intros Hr HG. destruct (point_all r c g Hr HG) as (P & EP & PT). unfold hatOf. rewrite EP. unfold psiActualA, averageA, sumA. cbn [seq fold_left]. rewrite !PT by lia. cbn [get4 aadd asub amul adiv asqrt azero aone alit Rops].
    unfold s_hat. cbn [t0 t1 t2]. 
    match goal with |- context [sqrt ?a] => match goal with |- context [Rmax 0 (1 - sqrt ?b / 30)] => replace b with a end end.
    2: { field. }
    set (d := sqrt _). unfold ale. cbn [agt aeq Rops].
    destruct (Rgt_dec 30 d); [|destruct (Req_EM_T d 30)]; cbn [orb]; [rewrite Rmax_right; lra|rewrite Rmax_right; lra|rewrite Rmax_left; lra].
  Qed.
  Lemma sums_eq nC0 (tm : tmesh) psi : hatSumsA Rops dec nG nA nC0 tm psi =
    (rsum (map (fun c => rsum (map (fun a => rsum (map (fun G => (averageA Rops (fun v => psi c a v G)) ^ 2) (seq 0 nG))) (seq 0 nA))) (seq 0 nC0)),
     rsum (map (fun c => rsum (map (fun a => rsum (map (fun G => (averageA Rops (fun v => psi c a v G) - psiActualA Rops dec tm c) ^ 2) (seq 0 nG))) (seq 0 nA))) (seq 0 nC0)))%R.
  Proof.
    unfold hatSumsA. set (f := fun (k : nat * nat * nat) => ((averageA Rops (fun v => psi (fst (fst k)) (snd (fst k)) v (snd k))) ^ 2)%R).
    set (h := fun (k : nat * nat * nat) => ((averageA Rops (fun v => psi (fst (fst k)) (snd (fst k)) v (snd k)) - psiActualA Rops dec tm (fst (fst k))) ^ 2)%R).
    match goal with |- fold_left ?st ?l ?z = _ => assert (F : forall m s, fold_left st m s = (fst s + rsum (map f m), snd s + rsum (map h m))%R) end.
    { induction m as [|[[c a] G] m IH]; intros [x y]; cbn [fold_left map fold_right fst snd]; [now rewrite !Rplus_0_r|]. rewrite IH. unfold f at 2, h at 2. cbn [fst snd aadd amul asub Rops]. f_equal; ring. }
    rewrite F. cbn [fst snd azero Rops]. rewrite !Rplus_0_l, !rsum_prod. reflexivity.
  Qed.
  Lemma error_ok gsum psi Psi : (forall x, gsum x = rsum (map x (seq 0 np))) ->
    (forall r c g a v G, r < np -> getLGCell (t r) c = Some g -> a < nA -> v < 4 -> G < nG -> psi r c a v G = Psi a G g v) ->
    s_error sm dec nA nG Psi (hatL2ErrorA Rops dec gsum nG nA t psi).
  Proof.
    intros GS AG. exists hatOf. split.
    { intros g sc HS. destruct (b_cell_ex Rops dec sm q PB g sc HS) as (P & EP). unfold hatOf. rewrite EP. eexists. split; [exists P; split; [exact EP|reflexivity]|reflexivity]. }
    unfold hatL2ErrorA. cbn [asqrt adiv Rops]. do 2 f_equal.
    all: assert (AV : forall r c g a G, r < np -> getLGCell (t r) c = Some g -> a < nA -> G < nG -> averageA Rops (fun v => psi r c a v G) = s_average Psi a G g)
      by (intros r c g a G Hr HG Ha HGr; unfold averageA, sumA, s_average; cbn [seq fold_left]; rewrite !(AG r c g a _ G) by (auto; lia); cbn [aadd adiv azero alit Rops]; now rewrite Rplus_0_l).
    - rewrite GS. unfold s_sum. erewrite rsum_ext; [|intros r Hr; rewrite sums_eq; cbn [snd]; reflexivity].
      apply (sum_cells _ (fun g => rsum (map (fun a => rsum (map (fun G => (s_average Psi a G g - hatOf g) ^ 2)%R (seq 0 nG))) (seq 0 nA)))).
      intros r c g Hr HG Hc. apply rsum_ext. intros a Ha. apply in_seq in Ha. apply rsum_ext. intros G HGr. apply in_seq in HGr. rewrite (AV r c g), (actual_ok r c g) by (auto; lia). reflexivity.
    - rewrite GS. f_equal. unfold s_sum. erewrite rsum_ext; [|intros r Hr; rewrite sums_eq; cbn [fst]; reflexivity].
      apply (sum_cells _ (fun g => rsum (map (fun a => rsum (map (fun G => (s_average Psi a G g) ^ 2)%R (seq 0 nG))) (seq 0 nA)))).
      intros r c g Hr HG Hc. apply rsum_ext. intros a Ha. apply in_seq in Ha. apply rsum_ext. intros G HGr. apply in_seq in HGr. rewrite (AV r c g) by (auto; lia). reflexivity.
  Qed.
End Ranks.
