(** Proofs for C79. *)
From Coq Require Import Reals Permutation.
From Verif Require Import Prelude Bytes LayoutModel PsiFileModel PsiFileSpec DeckModel MeshModel MeshSpec CreateModel CreateSpec CreateProofs TychoModel TychoSpec TychoProofs TychoMeshProofs TychoCreatedProofs GeometryModel GaussModel TransportModel.
From Verif Require Import TraverseModel TraverseSpec TraverseRun PropertiesTraverse SweepModel CommModel CommProofs BlockModel BlockProofs FluxModel FluxProofs PropertiesFlux ProblemModel ViewModel ViewSpec ViewProofs ViewSysProofs PropertiesView BitsModel BitsSpec BitsProofs PropertiesBits MainModel MainSpec MainProofs.
From Verif Require Import JacobiModel JacobiSpec.

Section World.
  Context (sm : smesh) (pv : list N) (np : nat) (m : pmesh) (ltb : N -> N -> bool) (dec : N -> R) (t : nat -> tmesh).
  Context (OK : serial_mesh_ok sm) (TT : tets_ok sm) (PV : partition_vector_ok sm pv np) (CR : createFromSerialMesh sm pv np = Some m)
    (CMP : compares sm dec ltb) (RD : forall r, r < np -> exists P, PM_part m (N.of_nat r) = Some P /\ readTychoMesh ltb P (N.of_nat r) = Some (t r)).
  Context {T : Type} (A : arith T) (decT : N -> T) (om : nat -> q3 T) (nA : nat) (SIZE : (N.of_nat nA * lenN (sm_cells sm) < two64)%N).
  Context (gs : gaussElim) (nG : nat) (sigmaT : nat -> nat -> T) (sigma : N -> T) (src : nat -> nat -> nat -> block T) (pr : nat -> nat -> nat -> N).
  Context (SGM : forall r c g, r < np -> getLGCell (t r) c = Some g -> sigmaT r c = sigma g).
  Notation M := (fun r => viewMesh A decT om (t r)).
  Notation geo := (fun r => viewGeo A decT om (t r)).
  Notation D := (sweepData A gs nG geo sigmaT src pr).
  Notation mt := (mateOf sm np t).
  Lemma together_ok r c g q d h : r < np -> q < np -> getLGCell (t r) c = Some g -> getLGCell (t q) d = Some h -> same_part pv g h = (q =? r).
  Proof.
    intros Hr Hq HG HH. destruct (gid_cell sm pv np m ltb dec t OK TT PV CR CMP RD r c g Hr HG) as (_ & _ & _ & _ & _ & _ & _ & OG & _).
    destruct (gid_cell sm pv np m ltb dec t OK TT PV CR CMP RD q d h Hq HH) as (_ & _ & _ & _ & _ & _ & _ & OH & _). unfold same_part. rewrite OG, OH.
    destruct (Nat.eqb_spec q r) as [->|NE]; [apply N.eqb_refl|]. apply N.eqb_neq. clear -NE. lia.
  Qed.
  Lemma gat (val : nat -> nat -> nat -> value T) r c g a : r < np -> getLGCell (t r) c = Some g -> gather np t val a g = val r c a.
  Proof. intros Hr HG. eapply (gather_ok sm pv np m ltb dec t); eauto. Qed.
  Lemma j_solution (Q : nat -> N -> block T) (lag val : nat -> nat -> nat -> value T) bnd (Lag : nat -> N -> value T) :
    (forall r c g a v G, r < np -> a < nA -> getLGCell (t r) c = Some g -> v < 4 -> G < nG -> src r c a v G = Q a g v G) ->
    (forall r c f q c' f' a, mt (r, c, f) = Some (q, c', f') -> q <> r -> a < nA -> rm_out (M r) a c f = false -> bnd r (rm_side (M r) c f) a = td_getData D q c' f' a (lag q c' a)) ->
    (forall r c g a, r < np -> a < nA -> getLGCell (t r) c = Some g -> vsame nG (lag r c a) (Lag a g)) ->
    solution Forward false np nA M D mt bnd val -> j_sweep A sm decT om nA gs nG sigma (same_part pv) Q Lag (gather np t val).
  Proof.
    intros SR BN LV SO a g sc Ha HS. destruct (gid_onto sm pv np m ltb dec t OK TT PV CR CMP RD g sc HS) as (r & c & Hr & HG).
    destruct (gid_cell sm pv np m ltb dec t OK TT PV CR CMP RD r c g Hr HG) as (_ & _ & _ & _ & _ & _ & _ & _ & Hc & _).
    set (mx := fun (q d b : nat) => if q =? r then val q d b else lag q d b).
    exists (localPsiBound A (map (seen Forward true M D mt mx bnd r c a) (seq 0 4))), (rg_c2f (geo r) c). split; [|split].
    - apply (bseen sm pv np m ltb dec t OK TT PV CR CMP RD A decT om nA SIZE gs nG sigmaT sigma src pr SGM mx bnd (fun b h => mixed (same_part pv) Lag (gather np t val) b g h) r c g a); auto.
      intros r1 c1 g1 a1 H1 A1 K1. unfold mixed, mx. rewrite (together_ok r c g r1 c1 g1 Hr H1 HG K1). destruct (r1 =? r); [|now apply LV].
      rewrite (gat val r1 c1 g1 a1 H1 K1). apply vsame_refl.
    - exact (bc2f sm pv np m ltb dec t OK TT PV CR CMP RD A decT om r c g Hr HG).
    - rewrite (gat val r c g a Hr HG), (SO r c a (conj Hr (conj Hc Ha))). cbn [td_update sweepData]. unfold sweepUpdate.
      rewrite (bvolume_ok sm pv np m ltb dec t OK TT PV CR CMP RD A decT om r c g Hr HG), (barea_ok sm pv np m ltb dec t OK TT PV CR CMP RD A decT om r c g Hr HG), (bomN_ok sm pv np m ltb dec t OK TT PV CR CMP RD A decT om r a c g Hr HG), (SGM r c g Hr HG).
      assert (E : map (seen Forward false M D mt val bnd r c a) (seq 0 4) = map (seen Forward true M D mt mx bnd r c a) (seq 0 4)).
      { apply map_ext. intros f. unfold seen, mx. destruct (isIncoming Forward (M r) a c f) eqn:EI; [|reflexivity]. destruct (mt (r, c, f)) as [[[q c'] f']|] eqn:Em; [|reflexivity].
        rewrite Nat.eqb_refl. destruct (Nat.eqb_spec q r) as [->|NE]; [reflexivity|]. f_equal. apply (BN r c f q c' f' a Em NE Ha). unfold isIncoming in EI. now apply Bool.negb_true_iff in EI. }
      rewrite E. match goal with |- vsame _ ?x ?y => assert (E1 : x = y); [|rewrite E1; apply vsame_refl] end. apply solve_ext; [reflexivity|]. intros v G Lv LG. now apply SR.
  Qed.

  (** What the parts of the spec determine. *)
  Definition same_values (V V' : nat -> N -> value T) : Prop := forall a g sc, a < nA -> SM_cell sm g = Some sc -> vsame nG (V a g) (V' a g).
  Definition same_state (s s' : jstate) : Prop := same_values (j_val s) (j_val s') /\ same_values (j_lag s) (j_lag s') /\
    forall g sc v G, SM_cell sm g = Some sc -> v < 4 -> G < nG -> j_phi s g v G = j_phi s' g v G.
  Context (tg tg' : N -> N -> bool).
  Context (TG : forall g h sg sh, SM_cell sm g = Some sg -> SM_cell sm h = Some sh -> tg g h = tg' g h).
  Lemma j_unique Q Q' L L' V V' : parts_acyclic A sm decT om nA tg -> (forall a g sc v G, a < nA -> SM_cell sm g = Some sc -> v < 4 -> G < nG -> Q a g v G = Q' a g v G) -> same_values L L' ->
    j_sweep A sm decT om nA gs nG sigma tg Q L V -> j_sweep A sm decT om nA gs nG sigma tg' Q' L' V' -> same_values V V'.
  Proof.
    intros (lvl & LV) EQ EL SV SV' a g sc Ha. remember (lvl a g) as N eqn:EN. revert g sc EN. induction N as [N IH] using lt_wf_ind. intros g sc EN HS.
    destruct (SV a g sc Ha HS) as (pb & c2f & IN & CF & E). destruct (SV' a g sc Ha HS) as (pb' & c2f' & IN' & CF' & E').
    eapply vsame_trans; [exact E|]. apply vsame_sym. eapply vsame_trans; [exact E'|].
    match goal with |- vsame _ ?x ?y => assert (EE : x = y); [|rewrite EE; apply vsame_refl] end. apply solve_ext; [|intros v G Lv LG; symmetry; now apply (EQ a g sc)].
    intros lf j G L0 Lj Ne LG. symmetry. destruct (opp_ex sm pv np m ltb dec t OK TT PV CR CMP RD g sc lf HS L0) as (f & sf & O).
    destruct (nth4 (sc_nodes sc) j Lj) as (n & Hj). destruct (vertex_face sm g sc lf f sf j n HS O Ne Hj) as (k & Lk & Hk).
    rewrite (CF lf f sf sc j k n O HS Ne Hj Hk), (CF' lf f sf sc j k n O HS Ne Hj Hk).
    destruct (IN lf k G L0 Lk LG) as (Z & B), (IN' lf k G L0 Lk LG) as (Z' & B').
    destruct (b_out A sm decT om a g lf) eqn:EO; [rewrite Z, Z' by auto; reflexivity|].
    destruct (N.eq_dec (s_across sf g) INVALID) as [EI|NI].
    - assert (NN : forall h, ~ s_next sm g lf h).
      { intros h (f2 & sf2 & O2 & AC2 & NI). destruct (opp_fun sm pv np m ltb dec t OK TT PV CR CMP RD _ _ _ _ _ _ O2 O) as (-> & ->). congruence. }
      rewrite Z, Z' by auto. reflexivity.
    - set (h := s_across sf g) in *. assert (NX : s_next sm g lf h) by (exists f, sf; auto). destruct (opp_back sm OK TT g lf f sf O NI) as (lf' & O' & _). fold h in O'.
      assert (H : exists sh, SM_cell sm h = Some sh) by (destruct O' as (sh & ? & _); eauto). destruct H as (sh & HS').
      destruct (face_vertex sm OK h sh lf' f sf k n HS' O' Hk) as (v & Lv & _ & Hv).
      rewrite (B h f sf n sh v eq_refl NX O Hk HS' Hv), (B' h f sf n sh v eq_refl NX O Hk HS' Hv). apply (vsame_get A nG); auto.
      unfold mixed. rewrite <- (TG g h sc sh HS HS'). destruct (tg g h) eqn:ET.
      + apply (IH (lvl a h)) with (sc := sh); auto. subst N. now apply (LV a g lf h).
      + now apply (EL a h sh).
  Qed.
  Context (wt : nat -> T) (pi : T) (sigmaS : N -> T).
  Lemma flux_unique V V' g sc v G : same_values V V' -> SM_cell sm g = Some sc -> v < 4 -> G < nG -> b_flux A nA wt V g v G = b_flux A nA wt V' g v G.
  Proof.
    intros U HS Hv HGr. unfold b_flux.
    assert (E : forall l x, (forall a, In a l -> a < nA) -> fold_left (fun s a => aadd A s (amul A (getBlock A (V a g) v G) (wt a))) l x = fold_left (fun s a => aadd A s (amul A (getBlock A (V' a g) v G) (wt a))) l x).
    { induction l as [|b l IHl]; intros x L; [reflexivity|]. cbn [fold_left]. rewrite (vsame_get A nG _ _ v G (U b g sc (L b (or_introl eq_refl)) HS) Hv HGr). apply IHl. intros b' Hb. apply L. now right. }
    apply E. intros b Hb. apply in_seq in Hb. lia.
  Qed.
  Notation follows1 := (follows A sm decT om nA wt pi gs nG sigma sigmaS tg).
  Notation follows2 := (follows A sm decT om nA wt pi gs nG sigma sigmaS tg').
  Lemma follows_unique ops : (In OSweep ops -> parts_acyclic A sm decT om nA tg) -> forall s s' e e', same_state s s' -> follows1 ops s e -> follows2 ops s' e' -> same_state e e'.
  Proof.
    induction ops as [|o ops IH]; intros AC s s' e e' SS F F'.
    - inversion F; inversion F'; subst. exact SS.
    - specialize (IH (fun K => AC (or_intror K))). destruct SS as (S1 & S2 & S3). inversion F as [|V L Fl l x X|V L Fl W l x X1 X2 X3|V L Fl l x X]; subst; inversion F' as [|V' L' Fl' l' x' X'|V' L' Fl' W' l' x' X1' X2' X3'|V' L' Fl' l' x' X']; subst; cbn [j_val j_lag j_phi] in *.
      + eapply (IH _ _ e e'); [|exact X|exact X']. split; [exact S1|]. split; [exact S2|]. cbn [j_phi]. intros g sc v G HS Hv HGr. eapply flux_unique; eauto.
      + eapply (IH _ _ e e'); [|exact X3|exact X3']. split; [|split; [exact S2|exact S3]]. cbn [j_val].
        refine (j_unique _ _ _ _ _ _ (AC (or_introl eq_refl)) _ S2 X1 X1'). intros a g sc v G Ha HS Hv HGr. unfold j_emission. f_equal. f_equal. eapply S3; eauto.
      + eapply (IH _ _ e e'); [|exact X|exact X']. split; [exact S1|]. split; [exact S1|exact S3].
  Qed.
End World.

Lemma follows_app {T} (A : arith T) sm dec om nA wt pi gs nG sT sS tg l1 l2 : forall s s1 s2, follows A sm dec om nA wt pi gs nG sT sS tg l1 s s1 -> follows A sm dec om nA wt pi gs nG sT sS tg l2 s1 s2 ->
  follows A sm dec om nA wt pi gs nG sT sS tg (l1 ++ l2) s s2.
Proof. intros s s1 s2 F. induction F; intros G; cbn [app]; [exact G|constructor|econstructor|constructor]; eauto. Qed.
