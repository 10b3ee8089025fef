(** The meshes the ranks read, together. *)
From Coq Require Import Permutation Sorted Reals Lra.
From Verif Require Import Prelude Bytes MeshModel MeshSpec CreateModel CreateSpec CreateProofs PropertiesCreate TychoModel TychoSpec
  TychoProofs TychoVrtxProofs TychoMeshProofs TychoCreatedProofs PropertiesTycho ViewModel ViewSpec.

Section World.
  Context (sm : smesh) (pv : list N) (np : nat) (m : pmesh) (ltb : N -> N -> bool) (dec : N -> R) (t : nat -> tmesh).
  Context (OK : serial_mesh_ok sm) (TT : tets_ok sm) (PV : partition_vector_ok sm pv np) (CR : createFromSerialMesh sm pv np = Some m).
  Context (CMP : compares sm dec ltb).
  Context (RD : forall r, r < np -> exists P, PM_part m (N.of_nat r) = Some P /\ readTychoMesh ltb P (N.of_nat r) = Some (t r)).

  Lemma coords_ordered p P : PM_part m p = Some P -> ordered_nodes ltb P.
  Proof using CMP OK PV CR.
    intros HP. exists (fun x => exists n s, SM_node sm n = Some s /\ In x (q3l (sn_coords s))). split.
    - split; [|split].
      + intros a (n & s & A & B). destruct (ltb a a) eqn:E; auto. apply (CMP n n s s a a A A B B) in E. lra.
      + intros a b c (n & s & A & B) (n' & s' & A' & B') (n2 & s2 & A2 & B2) E E'. apply (CMP n n' s s' a b A A' B B') in E.
        apply (CMP n' n2 s' s2 b c A' A2 B' B2) in E'. apply (CMP n n2 s s2 a c A A2 B B2). lra.
      + intros a b c (n & s & A & B) (n' & s' & A' & B') (n2 & s2 & A2 & B2) E E'.
        destruct (ltb a c) eqn:E2; auto. apply (CMP n n2 s s2 a c A A2 B B2) in E2.
        destruct (Rlt_dec (dec a) (dec b)) as [H|H]; [apply (CMP n n' s s' a b A A' B B') in H; congruence|].
        destruct (Rlt_dec (dec b) (dec c)) as [K|K]; [apply (CMP n' n2 s' s2 b c A' A2 B' B2) in K; congruence|]. lra.
    - intros nd x Hn Hx. destruct (C12_references sm pv np m p P OK PV CR HP) as (_ & _ & K). destruct (K nd Hn) as (sn & A & B). exists (pn_gid nd), sn. rewrite <- B. auto.
  Qed.
  Lemma rank_view r : r < np -> exists P, PM_part m (N.of_nat r) = Some P /\ readTychoMesh ltb P (N.of_nat r) = Some (t r) /\ ordered_nodes ltb P /\
    part_wf P (N.of_nat r) /\ faithful P (N.of_nat r) (t r).
  Proof.
    intros Hr. destruct (RD r Hr) as (P & HP & HR). pose proof (coords_ordered _ _ HP) as (Good & WO & GN).
    pose proof (created_wf sm pv np m OK PV CR TT _ P HP) as W. destruct (read_faithful ltb P _ W Good WO GN) as (m' & E & FF).
    rewrite HR in E. apply Some_inj in E. subst m'. exists P. split; auto. split; auto. split; [exists Good; auto|]. auto.
  Qed.
  Lemma gid_cell r c g : r < np -> getLGCell (t r) c = Some g -> exists P C sc, PM_part m (N.of_nat r) = Some P /\ nth_error (pt_cells P) c = Some C /\ pc_gid C = g /\
    SM_cell sm g = Some sc /\ owner pv g = Some (N.of_nat r) /\ c < tm_nCells (t r) /\ g <> INVALID.
  Proof.
    intros Hr HG. destruct (rank_view r Hr) as (P & HP & _ & _ & W & FF). rewrite (ff_lg _ _ _ FF) in HG.
    destruct (nth_error (pt_cells P) c) as [C|] eqn:HC; [|discriminate]. cbn in HG. apply Some_inj in HG. subst g.
    destruct (cell_info sm pv np m OK PV CR _ P HP c C HC) as (sc & A & B & _ & _ & D & _). exists P, C, sc.
    split; auto. split; auto. split; auto. split; auto. split; auto. split; auto. rewrite (proj1 (ff_sizes _ _ _ FF)). apply nth_error_Some. congruence.
  Qed.
  Lemma gid_ex r c : r < np -> c < tm_nCells (t r) -> exists g, getLGCell (t r) c = Some g.
  Proof.
    intros Hr Hc. destruct (rank_view r Hr) as (P & HP & _ & _ & W & FF). rewrite (ff_lg _ _ _ FF). rewrite (proj1 (ff_sizes _ _ _ FF)) in Hc.
    apply nth_error_Some in Hc. destruct (nth_error (pt_cells P) c); [eexists; reflexivity|congruence].
  Qed.
  Lemma gid_inj r c q d g : r < np -> q < np -> getLGCell (t r) c = Some g -> getLGCell (t q) d = Some g -> r = q /\ c = d.
  Proof.
    intros Hr Hq A B. destruct (gid_cell r c g Hr A) as (P & C & sc & HP & HC & EC & _ & O & _). destruct (gid_cell q d g Hq B) as (Q & D & sd & HQ & HD & ED & _ & O' & _).
    rewrite O in O'. apply Some_inj in O'. assert (r = q) by lia. subst q. split; auto. assert (Q = P) by congruence. subst Q.
    eapply (gid_unique pc_gid); [apply (nd_cells sm pv np m OK PV CR _ P HP)|exact HC|exact HD|congruence].
  Qed.
  Lemma gid_onto g sc : SM_cell sm g = Some sc -> exists r c, r < np /\ getLGCell (t r) c = Some g.
  Proof.
    intros H. destruct (owner_some sm pv np PV g sc H) as (p & O). pose proof (owner_lt sm pv np PV g p O) as L.
    assert (Hr : N.to_nat p < np) by lia. destruct (rank_view _ Hr) as (P & HP & _ & _ & W & FF). rewrite N2Nat.id in HP, W, FF.
    destruct (cells_of sm pv np m OK PV CR p P HP) as (_ & IFF). assert (I : In g (cellGids P)) by (apply IFF; eauto).
    unfold cellGids in I. apply in_map_iff in I. destruct I as (C & EC & IC). destruct (In_nth_error _ _ IC) as (c & HC).
    exists (N.to_nat p), c. split; auto. rewrite (ff_lg _ _ _ FF), HC. cbn. now rewrite EC.
  Qed.

  Lemma opp_fun g lf f sf f' sf' : s_opposite sm g lf f sf -> s_opposite sm g lf f' sf' -> f = f' /\ sf = sf'.
  Proof.
    intros A B. assert (H : exists sc, SM_cell sm g = Some sc) by (destruct A as (sc & ? & _); eauto). destruct H as (sc & H).
    destruct (gid_onto g sc H) as (r & c & Hr & HG). destruct (gid_cell r c g Hr HG) as (P & C & _ & HP & HC & <- & _).
    pose proof (created_wf sm pv np m OK PV CR TT _ P HP) as W.
    destruct (serial_opposite sm pv np m OK PV CR _ P HP c C lf f sf HC A) as (x & X & OX & EX).
    destruct (serial_opposite sm pv np m OK PV CR _ P HP c C lf f' sf' HC B) as (y & Y & OY & EY).
    destruct (opposite_fun P _ W c lf x X y Y OX OY) as (-> & ->). assert (f = f') by congruence. subst f'. split; auto.
    destruct A as (? & _ & _ & A & _), B as (? & _ & _ & B & _). congruence.
  Qed.
  Lemma opp_ex g sc lf : SM_cell sm g = Some sc -> lf < 4 -> exists f sf, s_opposite sm g lf f sf.
  Proof.
    intros H L. destruct (gid_onto g sc H) as (r & c & Hr & HG). destruct (gid_cell r c g Hr HG) as (P & C & _ & HP & HC & <- & _).
    pose proof (created_wf sm pv np m OK PV CR TT _ P HP) as W.
    destruct (opposite_ex P _ W c lf) as (f & F & O); [apply nth_error_Some; congruence|auto|].
    destruct (opposite_serial sm pv np m OK PV CR _ P HP c C lf f F HC O) as (sf & K). eauto.
  Qed.
  Lemma opp_lf_inj g lf lf' f sf sf' : s_opposite sm g lf f sf -> s_opposite sm g lf' f sf' -> lf = lf'.
  Proof using.
    clear. intros (sc & A & _ & B & L & S) (sc' & A' & _ & B' & L' & S'). assert (sc' = sc) by congruence. subst sc'. assert (sf' = sf) by congruence. subst sf'.
    assert (K : exists n, nth_error (q4l (sc_nodes sc)) lf = Some n) by (destruct lf as [|[|[|[|lf]]]]; cbn; eauto; lia). destruct K as (n & K).
    destruct (Nat.eq_dec lf lf') as [|Ne]; auto. exfalso. apply (S lf n K); [|reflexivity]. apply (S' lf n K). exact Ne.
  Qed.
  Lemma cell_face g sc f sf : SM_cell sm g = Some sc -> In f (q4l (sc_faces sc)) -> SM_face sm f = Some sf -> exists lf, s_opposite sm g lf f sf.
  Proof using OK TT.
    intros H I HF. destruct (smo_cf sm OK g sc f H I) as (sf' & HF' & _ & K). assert (sf' = sf) by congruence. subst sf'.
    destruct (lface_spec (sc_nodes sc) (sf_nodes sf) (to_cell sm TT g sc H) (proj1 (to_face sm TT f sf HF)) K) as (lf & _ & L & S).
    exists lf, sc. auto 10.
  Qed.
  Lemma opp_cells g lf f sf : s_opposite sm g lf f sf -> let h := s_across sf g in h <> g /\ (sf_cells sf = Q2 g h \/ sf_cells sf = Q2 h g).
  Proof using OK TT.
    intros (sc & A & I & B & _) h. destruct (smo_cf sm OK g sc f A I) as (sf' & B' & K & _). assert (sf' = sf) by congruence. subst sf'.
    destruct (to_face sm TT f sf B) as (_ & NE). unfold h, s_across. destruct (sf_cells sf) as [a b]. cbn in K, NE. destruct (N.eqb_spec a g) as [->|Na].
    - split; auto.
    - destruct K as [K|[K|[]]]; [congruence|]. subst b. split; auto.
  Qed.
  Lemma opp_back g lf f sf : s_opposite sm g lf f sf -> s_across sf g <> INVALID -> exists lf', s_opposite sm (s_across sf g) lf' f sf /\ s_across sf (s_across sf g) = g.
  Proof using OK TT.
    intros O NI. destruct (opp_cells g lf f sf O) as (Ne & K). destruct O as (sc & A & I & B & _). set (h := s_across sf g) in *.
    assert (Ih : In h (q2l (sf_cells sf))) by (destruct K as [-> | ->]; cbn; auto).
    destruct (smo_fc sm OK f sf h B Ih NI) as (sh & Hh & Ifh). destruct (cell_face h sh f sf Hh Ifh B) as (lf' & O'). exists lf'. split; auto.
    unfold s_across. destruct K as [-> | ->]; [|now rewrite N.eqb_refl]. destruct (N.eqb_spec g h); congruence.
  Qed.
  Lemma opp_two g lf h lf' f sf sf' : s_opposite sm g lf f sf -> s_opposite sm h lf' f sf' -> h <> g -> sf' = sf /\ s_across sf g = h.
  Proof using OK TT.
    intros O O' Ne. destruct (opp_cells g lf f sf O) as (_ & K). destruct O as (sc & A & I & B & _), O' as (sh & A' & I' & B' & _).
    assert (sf' = sf) by congruence. subst sf'. split; auto. destruct (smo_cf sm OK h sh f A' I') as (sf' & B'' & J & _). assert (sf' = sf) by congruence. subst sf'.
    destruct K as [K|K]; rewrite K in J; cbn in J; destruct J as [J|[J|[]]]; congruence.
  Qed.
  Lemma faceNumber_iff g lf f : lf < 4 -> (faceNumber sm g lf = Some f <-> exists sf, s_opposite sm g lf f sf).
  Proof.
    intros L. assert (FW : forall f, faceNumber sm g lf = Some f -> exists sf, s_opposite sm g lf f sf).
    { intros f0 H. unfold faceNumber in H. destruct (SM_cell sm g) as [sc|] eqn:E; [|discriminate]. cbn [obind] in H.
      destruct (nth_error (q4l (sc_nodes sc)) lf) as [v|] eqn:Ev; [|discriminate]. cbn [obind] in H. apply find_some in H. destruct H as (I & H).
      destruct (SM_face sm f0) as [sf|] eqn:EF; [|discriminate]. destruct (cell_face g sc f0 sf E I EF) as (lf' & O). exists sf.
      pose proof O as (sc' & E' & _ & _ & _ & S). assert (sc' = sc) by congruence. subst sc'.
      destruct (Nat.eq_dec lf lf') as [->|Ne]; auto. exfalso. apply (S lf v Ev) in Ne. apply Bool.negb_true_iff in H.
      assert (X : existsb (N.eqb v) (q3l (sf_nodes sf)) = true) by (apply existsb_exists; exists v; split; auto; apply N.eqb_refl). congruence. }
    split; [apply FW|]. intros (sf & O). pose proof O as (sc & E & I & EF & _ & S).
    assert (K : exists v, nth_error (q4l (sc_nodes sc)) lf = Some v) by (destruct lf as [|[|[|[|lf]]]]; cbn; eauto; lia). destruct K as (v & Ev).
    destruct (faceNumber sm g lf) as [f'|] eqn:E1; [destruct (FW f' eq_refl) as (sf' & O'); now rewrite (proj1 (opp_fun _ _ _ _ _ _ O' O))|exfalso].
    unfold faceNumber in E1. rewrite E in E1. cbn [obind] in E1. rewrite Ev in E1. cbn [obind] in E1. pose proof (find_none _ _ E1 f I) as N1. cbn beta in N1. rewrite EF in N1.
    apply Bool.negb_false_iff in N1. apply existsb_exists in N1. destruct N1 as (x & Ix & Ex). apply N.eqb_eq in Ex. subst x. exact (proj1 (S lf v Ev) Ix eq_refl).
  Qed.

  Definition touching (x y : nat * nat * nat) : Prop :=
    let '(r, c, f) := x in let '(q, c', f') := y in r < np /\ q < np /\ f < 4 /\ f' < 4 /\
    exists g h n sf, getLGCell (t r) c = Some g /\ getLGCell (t q) c' = Some h /\ s_opposite sm g f n sf /\ s_opposite sm h f' n sf /\ h <> g /\ s_across sf g = h /\ s_across sf h = g.
  Lemma in_sites r c f : In (r, c, f) (allSites np t) <-> r < np /\ c < tm_nCells (t r) /\ f < 4.
  Proof using. clear RD.
    unfold allSites. rewrite in_flat_map. split.
    - intros (q & Hq & H). apply in_seq in Hq. apply in_prod_iff in H. destruct H as (H & Hf). apply in_prod_iff in H. destruct H as ([->|[]] & Hc).
      apply in_seq in Hc, Hf. split; [|split]; try tauto; lia.
    - intros (Hr & Hc & Hf). exists r. split; [apply in_seq; lia|]. apply in_prod; [apply in_prod; [now left|]|]; apply in_seq; lia.
  Qed.
  Lemma touching_sym x y : touching x y -> touching y x.
  Proof using. clear. destruct x as [[r c] f], y as [[q c'] f']. intros (A & B & C & D & g & h & n & sf & E1 & E2 & E3 & E4 & E5 & E6 & E7). unfold touching.
    split; auto. split; auto. split; auto. split; auto. exists h, g, n, sf. auto 10. Qed.
  Lemma touching_fun x y z : touching x y -> touching x z -> y = z.
  Proof.
    destruct x as [[r c] f], y as [[q d] k], z as [[q' d'] k']. intros (Hr & Hq & Hf & Hk & g & h & n & sf & A1 & A2 & A3 & A4 & A5 & A6 & A7) (_ & Hq' & _ & Hk' & g' & h' & n' & sf' & B1 & B2 & B3 & B4 & B5 & B6 & B7).
    clear A7 B7. assert (g' = g) by congruence. subst g'. destruct (opp_fun _ _ _ _ _ _ A3 B3) as (<- & <-). assert (EH : h' = h) by congruence. clear A6 B6. subst h'.
    destruct (gid_inj q d q' d' h Hq Hq' A2 B2) as (<- & <-). now rewrite (opp_lf_inj _ _ _ _ _ _ A4 B4).
  Qed.
  Lemma mate_iff x y : mateOf sm np t x = Some y <-> touching x y.
  Proof.
    assert (FW : forall y, mateOf sm np t x = Some y -> touching x y).
    { clear y. destruct x as [[r c] f]. intros [[q d] k] H. unfold mateOf in H. cbn [fst snd] in H. destruct (Nat.ltb_spec r np) as [Hr|]; [|discriminate].
      destruct (Nat.ltb_spec f 4) as [Hf|]; [|discriminate]. cbn [andb] in H. destruct (siteFace sm t (r, c, f)) as [n|] eqn:En; [|discriminate]. cbn [obind] in H.
      apply find_some in H. destruct H as (I & H). apply in_sites in I. destruct I as (Hq & Hd & Hk). cbn [fst snd] in H. apply Bool.andb_true_iff in H. destruct H as (H1 & H2).
      destruct (siteFace sm t (q, d, k)) as [n'|] eqn:En'; [|discriminate]. apply N.eqb_eq in H2. subst n'.
      unfold siteFace in En, En'. destruct (getLGCell (t r) c) as [g|] eqn:Eg; [|discriminate]. destruct (getLGCell (t q) d) as [h|] eqn:Eh; [|discriminate]. cbn [obind] in En, En'.
      apply faceNumber_iff in En; [|exact Hf]. apply faceNumber_iff in En'; [|exact Hk]. destruct En as (sf & O), En' as (sf' & O').
      assert (NE : h <> g).
      { intros ->. destruct (gid_inj r c q d g Hr Hq Eg Eh) as (<- & <-). rewrite !Nat.eqb_refl in H1. discriminate. }
      destruct (opp_two _ _ _ _ _ _ _ O O' NE) as (-> & AC). destruct (opp_two _ _ _ _ _ _ _ O' O (fun E => NE (eq_sym E))) as (_ & AC').
      split; auto. split; auto. split; auto. split; auto. exists g, h, n, sf. auto 10. }
    split; [apply FW|]. intros T. destruct (mateOf sm np t x) as [z|] eqn:E; [now rewrite (touching_fun x z y (FW z eq_refl) T)|exfalso].
    destruct x as [[r c] f], y as [[q d] k]. destruct T as (Hr & Hq & Hf & Hk & g & h & n & sf & A1 & A2 & A3 & A4 & A5 & A6 & A7).
    unfold mateOf in E. cbn [fst snd] in E. rewrite (proj2 (Nat.ltb_lt r np) Hr), (proj2 (Nat.ltb_lt f 4) Hf) in E. cbn [andb] in E.
    assert (S1 : siteFace sm t (r, c, f) = Some n) by (unfold siteFace; rewrite A1; cbn [obind]; apply faceNumber_iff; eauto).
    assert (S2 : siteFace sm t (q, d, k) = Some n) by (unfold siteFace; rewrite A2; cbn [obind]; apply faceNumber_iff; eauto).
    rewrite S1 in E. cbn [obind] in E. assert (I : In (q, d, k) (allSites np t)) by (apply in_sites; destruct (gid_cell q d h Hq A2) as (_ & _ & _ & _ & _ & _ & _ & _ & Hd & _); auto).
    pose proof (find_none _ _ E _ I) as N1. cbn beta in N1. rewrite S2, N.eqb_refl, Bool.andb_true_r in N1. cbn [fst snd] in N1. apply Bool.negb_false_iff in N1.
    apply Bool.andb_true_iff in N1. destruct N1 as (N1 & N2). apply Nat.eqb_eq in N1, N2. subst q d. congruence.
  Qed.
  (** A face is exterior or has a mate. *)
  Lemma face_cases r c g f : r < np -> f < 4 -> getLGCell (t r) c = Some g -> exists n sf, s_opposite sm g f n sf /\
    ((s_across sf g = INVALID /\ mateOf sm np t (r, c, f) = None) \/
     (s_across sf g <> INVALID /\ exists q c' f', mateOf sm np t (r, c, f) = Some (q, c', f') /\ getLGCell (t q) c' = Some (s_across sf g))).
  Proof.
    intros Hr Hf HG. destruct (gid_cell r c g Hr HG) as (P & C & sc & _ & _ & _ & HS & _ & _ & NI). destruct (opp_ex g sc f HS Hf) as (n & sf & O). exists n, sf. split; auto.
    destruct (N.eq_dec (s_across sf g) INVALID) as [E|E]; [left|right]; split; auto.
    - destruct (mateOf sm np t (r, c, f)) as [[[q d] k]|] eqn:Em; auto. exfalso. apply mate_iff in Em. destruct Em as (_ & Hq & _ & _ & g' & h & n' & sf' & A1 & A2 & A3 & A4 & A5 & A6 & A7).
      clear A7. assert (g' = g) by congruence. subst g'. destruct (opp_fun _ _ _ _ _ _ O A3) as (<- & <-). destruct (gid_cell q d h Hq A2) as (_ & _ & _ & _ & _ & _ & _ & _ & _ & NI'). congruence.
    - destruct (opp_back g f n sf O E) as (lf' & O' & AC). set (h := s_across sf g) in *. pose proof O' as (sh & HH & _ & _ & L' & _).
      destruct (gid_onto h sh HH) as (q & d & Hq & HD). exists q, d, lf'. split; auto. apply mate_iff.
      split; auto. split; auto. split; auto. split; auto. exists g, h, n, sf. split; auto. split; auto. split; auto. split; auto. split; [exact (proj1 (opp_cells g f n sf O))|auto].
  Qed.
End World.
