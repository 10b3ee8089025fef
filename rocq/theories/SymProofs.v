(** A solution of the transport equation on a moved mesh, carried back, solves it on the mesh. *)
From Coq Require Import Reals Lra.
From Verif Require Import Prelude Bytes MeshModel MeshSpec CreateSpec TychoSpec RefineSpec GeometrySpec GeometryProofs TransportSpec ViewSpec ViewGeoProofs ViewProofs MeshRoundProofs RefinedBdryProofs SymSpec SymGeo.

Lemma perm4_onto pi : perm4 pi -> forall j, j < 4 -> exists i, i < 4 /\ pi i = j.
Proof.
  intros H. assert (K : forall j, j < 4 -> j = pi 0 \/ j = pi 1 \/ j = pi 2 \/ j = pi 3).
  { revert H. apply (perm4_cases pi (fun a b c d => forall j, j < 4 -> j = a \/ j = b \/ j = c \/ j = d)); intros; lia. }
  intros j Hj. destruct (K j Hj) as [E|[E|[E|E]]]; subst j; [exists 0|exists 1|exists 2|exists 3]; split; auto; lia.
Qed.
Lemma nth4 {X} (p : q4 X) v x : nth_error (q4l p) v = Some x -> v < 4.
Proof. intros H. change 4 with (length (q4l p)). apply nth_error_Some. congruence. Qed.
Lemma nth4_ex {X} (p : q4 X) v : v < 4 -> exists x, nth_error (q4l p) v = Some x.
Proof. intros H. destruct (nth_error (q4l p) v) eqn:E; [eauto|]. apply nth_error_None in E. cbn in E. lia. Qed.
Lemma nth3_ex {X} (p : q3 X) v : v < 3 -> exists x, nth_error (q3l p) v = Some x.
Proof. intros H. destruct (nth_error (q3l p) v) eqn:E; [eauto|]. apply nth_error_None in E. cbn in E. lia. Qed.
Lemma nth3 {X} (p : q3 X) v x : nth_error (q3l p) v = Some x -> v < 3.
Proof. intros H. change 3 with (length (q3l p)). apply nth_error_Some. congruence. Qed.
Lemma nth_inj {X} (l : list X) i j x : NoDup l -> nth_error l i = Some x -> nth_error l j = Some x -> i = j.
Proof. intros H A B. apply (proj1 (NoDup_nth_error l) H); [apply nth_error_Some|]; congruence. Qed.
Lemma dg_source V area sigma Q Q' nb psi : (forall v, v < 4 -> Q' v = Q v) -> dg V area sigma Q nb psi -> dg V area sigma Q' nb psi.
Proof. intros E H i Hi. specialize (H i Hi). unfold dg_row, sum4 in *. rewrite !E by lia. exact H. Qed.
Lemma dg_areas V area area' sigma Q nb psi : (forall f, f < 4 -> area' f = area f) -> dg V area sigma Q nb psi -> dg V area' sigma Q nb psi.
Proof. intros E H i Hi. specialize (H i Hi). unfold dg_row, sum4, sumFace, sum4, upwind in *. rewrite !E by lia. exact H. Qed.
Lemma signed_one sm dec om g lf x y : serial_mesh_ok sm -> tets_ok sm -> solid sm dec -> s_signed sm dec om g lf x -> s_signed sm dec om g lf y -> x = y.
Proof.
  intros OK TT SOL (p & f & sf & F & n & A1 & A2 & A3 & A4 & ->) (q & f' & sf' & F' & n' & B1 & B2 & B3 & B4 & ->).
  rewrite (s_cell_fun _ _ _ _ _ B1 A1) in *. destruct (opp_unique sm OK TT _ _ _ _ _ _ B2 A2) as (-> & ->). rewrite (s_face_fun _ _ _ _ _ B3 A3) in *.
  rewrite (normal_unique p lf F n n' (sol_volume _ _ SOL g p A1) (s_face_of sm dec OK TT g lf f sf p F A2 A1 A3) A4 B4). reflexivity.
Qed.

Section Moved.
  Context (dec : N -> R) (sm sm' : smesh) (I L : q3 R -> q3 R) (cell face node : N -> N) (vert : N -> nat -> nat).
  Context (OK : serial_mesh_ok sm) (TT : tets_ok sm) (OK' : serial_mesh_ok sm') (TT' : tets_ok sm').
  Context (HI : isometry I L) (MV : moved dec sm sm' I cell face node vert).
  Lemma cell_point g sc n : SM_cell sm g = Some sc -> In n (q4l (sc_nodes sc)) -> exists x, s_point sm dec n = Some x.
  Proof. intros H Hn. destruct (smo_cn sm OK g sc n H Hn) as (sn & E). unfold s_point. rewrite E. cbn. eauto. Qed.
  Lemma node_inj g sc n h sh m : SM_cell sm g = Some sc -> In n (q4l (sc_nodes sc)) -> SM_cell sm h = Some sh -> In m (q4l (sc_nodes sh)) -> node n = node m -> n = m.
  Proof. intros A B C D. destruct (cell_point g sc n A B) as (x & X), (cell_point h sh m C D) as (y & Y). exact (mv_nodes _ _ _ _ _ _ _ _ MV n m x y X Y). Qed.
  Lemma vert_perm g sc : SM_cell sm g = Some sc -> perm4 (vert g).
  Proof.
    intros H. destruct (mv_cell _ _ _ _ _ _ _ _ MV g sc H) as (sc' & H' & _ & V & _). split.
    - intros i Hi. destruct (nth4_ex (sc_nodes sc) i Hi) as (n & Hn). exact (nth4 _ _ _ (V i n Hn)).
    - intros i j Hi Hj E. destruct (nth4_ex (sc_nodes sc) i Hi) as (n & Hn), (nth4_ex (sc_nodes sc) j Hj) as (m & Hm). pose proof (V i n Hn) as A. pose proof (V j m Hm) as B.
      rewrite E, B in A. apply Some_inj in A. assert (n = m) by (eapply node_inj; eauto using nth_error_In). subst m. exact (nth_inj _ i j n (to_cell sm TT g sc H) Hn Hm).
  Qed.
  Lemma node_back g sc sc' v' n' : SM_cell sm g = Some sc -> SM_cell sm' (cell g) = Some sc' -> nth_error (q4l (sc_nodes sc')) v' = Some n' ->
    exists v n, nth_error (q4l (sc_nodes sc)) v = Some n /\ v' = vert g v /\ n' = node n.
  Proof.
    intros H H' E. destruct (mv_cell _ _ _ _ _ _ _ _ MV g sc H) as (sc1 & H1 & _ & V & _). assert (sc1 = sc') by congruence. subst sc1.
    destruct (perm4_onto _ (vert_perm g sc H) v' (nth4 _ _ _ E)) as (v & Hv & <-). destruct (nth4_ex (sc_nodes sc) v Hv) as (n & Hn). exists v, n. split; auto. split; auto. rewrite (V v n Hn) in E. now apply Some_inj in E.
  Qed.
  Lemma opp_moved g lf f sf : s_opposite sm g lf f sf -> exists sf', s_opposite sm' (cell g) (vert g lf) (face f) sf' /\
    (forall n', In n' (q3l (sf_nodes sf')) -> exists n, In n (q3l (sf_nodes sf)) /\ n' = node n).
  Proof.
    intros (sc & H & F & HF & Hlf & O). destruct (mv_cell _ _ _ _ _ _ _ _ MV g sc H) as (sc' & H' & _ & V & VF). destruct (mv_face _ _ _ _ _ _ _ _ MV f sf HF) as (sf' & HF' & NF & _).
    destruct (smo_cf sm OK g sc f H F) as (sf1 & HF1 & _ & NN). assert (sf1 = sf) by congruence. subst sf1.
    assert (BACK : forall n', In n' (q3l (sf_nodes sf')) -> exists n, In n (q3l (sf_nodes sf)) /\ n' = node n).
    { assert (IC : incl (q3l (sf_nodes sf')) (map node (q3l (sf_nodes sf)))).
      { apply NoDup_length_incl; [|reflexivity|].
        - assert (K : forall l, NoDup l -> incl l (q4l (sc_nodes sc)) -> NoDup (map node l)).
          { induction l as [|a l IH]; intros ND IC; cbn; [constructor|]. inversion ND; subst. constructor; [|apply IH; auto; intros x Hx; apply IC; now right].
            intros Ha. apply in_map_iff in Ha. destruct Ha as (b & Eb & Hb). assert (b = a) by (apply (node_inj g sc b g sc a); auto; apply IC; [now right|now left]). subst b. contradiction. }
          apply K; [exact (proj1 (to_face sm TT f sf HF))|exact NN].
        - intros x Hx. apply in_map_iff in Hx. destruct Hx as (n & <- & Hn). now apply NF. }
      intros n' Hn'. apply IC, in_map_iff in Hn'. destruct Hn' as (n & <- & Hn). eauto. }
    exists sf'. split; [|exact BACK]. exists sc'. split; auto. split; auto. split; auto. split; [exact (proj1 (vert_perm g sc H) lf Hlf)|].
    intros v' n' E. destruct (node_back g sc sc' v' n' H H' E) as (v & n & Hn & -> & ->). split.
    - intros IN. destruct (BACK _ IN) as (m & Hm & EM). assert (n = m) by (eapply (node_inj g sc n g sc m); eauto using nth_error_In). subst m.
      pose proof (proj1 (O v n Hn) Hm) as NE. intros EV. apply NE. exact (proj2 (vert_perm g sc H) v lf (nth4 _ _ _ Hn) Hlf EV).
    - intros NE. apply NF. apply (O v n Hn). intros ->. now apply NE.
  Qed.
  Lemma cell_valid m (OKm : serial_mesh_ok m) g sc : SM_cell m g = Some sc -> g <> INVALID.
  Proof using. clear -OKm. intros H. assert (K : N.to_nat g < length (sm_cells m)) by (apply nth_error_Some; unfold SM_cell in H; congruence). pose proof (smo_cells m OKm) as B. unfold lenN in B. intros ->. lia. Qed.
  Definition over (h : N) : N := if N.eqb h INVALID then INVALID else cell h.
  Lemma across_moved g lf f sf sf' : s_opposite sm g lf f sf -> s_opposite sm' (cell g) (vert g lf) (face f) sf' -> s_across sf' (cell g) = over (s_across sf g).
  Proof.
    intros O O'. destruct (opp_cells sm OK TT g lf f sf O) as (NE & C). destruct (opp_cells sm' OK' TT' _ _ _ _ O') as (_ & C').
    pose proof O as (sc & H & F & HF & _). pose proof O' as (sc' & H' & _ & HF' & _). destruct (mv_face _ _ _ _ _ _ _ _ MV f sf HF) as (sf1 & HF1 & _ & CC). assert (sf1 = sf') by congruence. subst sf1.
    set (h := s_across sf g) in *. set (h' := s_across sf' (cell g)) in *. assert (IN : In h (q2l (sf_cells sf))) by (destruct C as [->| ->]; cbn; auto).
    pose proof (CC h IN) as IN'. fold (over h) in IN'. assert (NG : over h <> cell g).
    { unfold over. destruct (N.eqb_spec h INVALID) as [_|V]; [intros E; exact (cell_valid sm' OK' (cell g) sc' H' (eq_sym E))|]. destruct (smo_fc sm OK f sf h HF IN V) as (sh & Hh & _). intros E. exact (NE (mv_cells _ _ _ _ _ _ _ _ MV h g sh sc Hh H E)). }
    destruct C' as [E|E]; rewrite E in IN'; cbn in IN'; destruct IN' as [E1|[E1|[]]]; congruence.
  Qed.
  Lemma next_cell g lf h : s_next sm g lf h -> exists sh, SM_cell sm h = Some sh.
  Proof.
    intros (f & sf & O & E & V). destruct (opp_cells sm OK TT g lf f sf O) as (_ & C). destruct O as (sc & H & F & HF & _).
    assert (IN : In h (q2l (sf_cells sf))) by (rewrite E in C; destruct C as [->| ->]; cbn; auto). destruct (smo_fc sm OK f sf h HF IN V) as (sh & Hh & _). eauto.
  Qed.
  Lemma next_moved g lf h : s_next sm g lf h -> s_next sm' (cell g) (vert g lf) (cell h).
  Proof.
    intros NX. destruct (next_cell g lf h NX) as (sh & Hh). destruct NX as (f & sf & O & E & V). destruct (opp_moved g lf f sf O) as (sf' & O' & _). exists (face f), sf'. split; auto.
    rewrite (across_moved g lf f sf sf' O O'), E. unfold over. destruct (N.eqb_spec h INVALID) as [|_]; [contradiction|]. split; auto.
    destruct (mv_cell _ _ _ _ _ _ _ _ MV h sh Hh) as (sh' & Hh' & _). exact (cell_valid sm' OK' _ _ Hh').
  Qed.
  Lemma next_back g sc lf h' : SM_cell sm g = Some sc -> lf < 4 -> s_next sm' (cell g) (vert g lf) h' -> exists h, s_next sm g lf h /\ h' = cell h.
  Proof.
    intros H Hlf (f' & sf' & O' & E & V). destruct (RefinedBdryProofs.face_at sm g sc lf OK TT H Hlf) as (f & sf & O). destruct (opp_moved g lf f sf O) as (sf1 & O1 & _).
    destruct (opp_unique sm' OK' TT' _ _ _ _ _ _ O1 O') as (<- & <-). rewrite (across_moved g lf f sf sf1 O O1) in E. unfold over in E.
    destruct (N.eqb_spec (s_across sf g) INVALID) as [_|NV]; [congruence|]. exists (s_across sf g). split; [|congruence]. exists f, sf. auto.
  Qed.
  Lemma map_nth3 (l : q3 N) (F : q3 (q3 R)) m : map (s_point m dec) (q3l l) = map Some (q3l F) -> forall i n, nth_error (q3l l) i = Some n -> s_point m dec n = nth_error (q3l F) i.
  Proof using. clear. intros E i n H. apply (f_equal (fun l => nth_error l i)) in E. rewrite (map_nth_error _ _ _ H) in E. destruct (nth3_ex F i (nth3 _ _ _ H)) as (x & Hx). rewrite (map_nth_error _ _ _ Hx) in E. apply Some_inj in E. congruence. Qed.
  Lemma map_nth4 (l : q4 N) (F : q4 (q3 R)) m : map (s_point m dec) (q4l l) = map Some (q4l F) -> forall i n, nth_error (q4l l) i = Some n -> s_point m dec n = corner F i.
  Proof using. clear. unfold corner. intros E i n H. apply (f_equal (fun l => nth_error l i)) in E. rewrite (map_nth_error _ _ _ H) in E. destruct (nth4_ex F i (nth4 _ _ _ H)) as (x & Hx). rewrite (map_nth_error _ _ _ Hx) in E. apply Some_inj in E. congruence. Qed.
  Lemma corners_moved g p p' : s_cell sm dec g p -> s_cell sm' dec (cell g) p' -> forall v x, corner p v = Some x -> corner p' (vert g v) = Some (I x).
  Proof.
    intros (sc & H & E) (sc' & H' & E') v x C. destruct (mv_cell _ _ _ _ _ _ _ _ MV g sc H) as (sc1 & H1 & _ & V & _). assert (sc1 = sc') by congruence. subst sc1.
    destruct (nth4_ex (sc_nodes sc) v (nth4 _ _ _ C)) as (n & Hn). pose proof (map_nth4 _ _ _ E v n Hn) as P. rewrite C in P. rewrite <- (map_nth4 _ _ _ E' _ _ (V v n Hn)). exact (mv_node _ _ _ _ _ _ _ _ MV n x P).
  Qed.
  Lemma signed_moved om g lf x : s_signed sm dec om g lf x -> s_signed sm' dec (L om) (cell g) (vert g lf) x.
  Proof.
    intros (p & f & sf & F & n & C & O & HF & NO & ->). pose proof C as (sc & H & _). pose proof O as (_ & _ & _ & _ & Hlf & _). destruct (opp_moved g lf f sf O) as (sf' & O' & BK).
    destruct (mv_cell _ _ _ _ _ _ _ _ MV g sc H) as (sc' & H' & _). destruct (s_cell_ex sm' dec OK' _ _ H') as (p' & C'). destruct (s_face_ex sm' dec OK' _ _ _ _ O') as (F' & HF').
    pose proof (corners_moved g p p' C C') as CM. assert (SH : shuffled I F F').
    { destruct HF as (sf0 & A & E), HF' as (sf1 & A' & E'). pose proof O as (_ & _ & _ & B & _). pose proof O' as (_ & _ & _ & B' & _). assert (sf0 = sf) by congruence. assert (sf1 = sf') by congruence. subst sf0 sf1.
      assert (K : forall i n', nth_error (q3l (sf_nodes sf')) i = Some n' -> exists j m, nth_error (q3l (sf_nodes sf)) j = Some m /\ n' = node m).
      { intros i n' Hi. destruct (BK n' (nth_error_In _ _ Hi)) as (m & Hm & ->). apply In_nth_error in Hm. destruct Hm as (j & Hj). eauto. }
      destruct (K 0 _ eq_refl) as (i & a & Ha & Ea), (K 1 _ eq_refl) as (j & b & Hb & Eb), (K 2 _ eq_refl) as (k & c & Hc & Ec). clear K.
      assert (PT : forall v i n' m, nth_error (q3l (sf_nodes sf')) v = Some n' -> nth_error (q3l (sf_nodes sf)) i = Some m -> n' = node m -> option_map I (nth_error (q3l F) i) = nth_error (q3l F') v).
      { clear - E E' MV. intros v i n' m A B ->. rewrite <- (map_nth3 _ _ _ E' v _ A). pose proof (map_nth3 _ _ _ E i _ B) as P. destruct (nth3_ex F i (nth3 _ _ _ B)) as (x & Hx). rewrite Hx in P |- *. cbn. symmetry. exact (mv_node _ _ _ _ _ _ _ _ MV m x P). }
      pose proof (proj1 (to_face sm' TT' _ _ B')) as ND. pose proof (PT 0 i _ a eq_refl Ha Ea) as P0. pose proof (PT 1 j _ b eq_refl Hb Eb) as P1. pose proof (PT 2 k _ c eq_refl Hc Ec) as P2.
      exists i, j, k. split; [exact (nth3 _ _ _ Ha)|]. split; [exact (nth3 _ _ _ Hb)|]. split; [exact (nth3 _ _ _ Hc)|].
      assert (ND3 : t0 (sf_nodes sf') <> t1 (sf_nodes sf') /\ t0 (sf_nodes sf') <> t2 (sf_nodes sf') /\ t1 (sf_nodes sf') <> t2 (sf_nodes sf')).
      { clear - ND. destruct (sf_nodes sf') as [u v w]. cbn in *. inversion ND as [|? ? N1 ND1]; subst. inversion ND1 as [|? ? N2 ND2]; subst. cbn in N1, N2. repeat split; intros ->; auto. }
      split; [intros ->; apply (proj1 ND3); congruence|]. split; [intros ->; apply (proj1 (proj2 ND3)); congruence|]. split; [intros ->; apply (proj2 (proj2 ND3)); congruence|]. auto. }
    exists p', (face f), sf', F', (L n). split; auto. split; auto. split; auto. split.
    - apply (normal_moved I L p p' lf (vert g lf) F F' n HI SH); [|exact NO]. intros y Hy. destruct (nth4_ex p lf Hlf) as (z & Hz). exists z. split; [exact Hz|]. pose proof (CM lf z Hz). congruence.
    - rewrite (heron_moved I L F F' HI SH), (iso_dot _ _ HI). reflexivity.
  Qed.
  (** What lies beyond a face. *)
  Lemma beyond_back psi' g sc lf j y : SM_cell sm g = Some sc -> lf < 4 -> j < 4 -> s_beyond sm' psi' (cell g) (vert g lf) (vert g j) y -> s_beyond sm (fun h v => psi' (cell h) (vert h v)) g lf j y.
  Proof.
    intros H Hlf Hj [(NO & ->)|(h' & sc' & sh' & k' & n' & NX & H' & Hh' & Nj & Nk & ->)].
    - left. split; auto. intros h NX. exact (NO _ (next_moved g lf h NX)).
    - right. destruct (next_back g sc lf h' H Hlf NX) as (h & NX0 & ->). destruct (next_cell g lf h NX0) as (sh & Hh). destruct (node_back h sh sh' k' n' Hh Hh' Nk) as (k & n & Hk & -> & ->).
      destruct (nth4_ex (sc_nodes sc) j Hj) as (m & Hm). destruct (mv_cell _ _ _ _ _ _ _ _ MV g sc H) as (sc1 & H1 & _ & V & _). assert (sc1 = sc') by congruence. subst sc1. pose proof (V j m Hm) as Em. rewrite Nj in Em. apply Some_inj in Em.
      assert (m = n) by (apply (node_inj g sc m h sh n); eauto using nth_error_In). subst m. exists h, sc, sh, k, n. auto 10.
  Qed.
  Context (SOL' : solid sm' dec).
  Lemma dg_back om sigma Q Q' psi' g sc : SM_cell sm g = Some sc -> (forall lf, lf < 4 -> exists x, s_signed sm dec om g lf x) -> (forall v, v < 4 -> Q' (vert g v) = Q v) ->
    s_dg sm' dec (L om) sigma Q' psi' (cell g) -> s_dg sm dec om sigma Q (fun h v => psi' (cell h) (vert h v)) g.
  Proof.
    intros H AR EQ (p' & area & nb & C' & SG & BY & DG). destruct (s_cell_ex sm dec OK g sc H) as (p & C). pose proof (vert_perm g sc H) as PM.
    assert (S1 : forall lf, lf < 4 -> s_signed sm dec om g lf (area (vert g lf))).
    { intros lf Hlf. destruct (AR lf Hlf) as (x & Hx). pose proof (signed_moved om g lf x Hx) as SX. rewrite <- (signed_one sm' dec _ _ _ _ _ OK' TT' SOL' SX (SG _ (proj1 PM lf Hlf))). exact Hx. }
    exists p, (fun lf => area (vert g lf)), (fun lf j => nb (vert g lf) (vert g j)). split; auto. split; auto. split.
    - intros lf j Hlf Hj NE NA. apply (beyond_back psi' g sc lf j _ H Hlf Hj). apply BY; auto; try apply PM; auto. intros E. apply NE. exact (proj2 PM j lf Hj Hlf E).
    - rewrite <- (vol6_moved I L (vert g) p p' HI PM (fun v x _ => corners_moved g p p' C C' v x)). apply (dg_source _ _ _ (fun i => Q' (vert g i))); [intros v Hv; now rewrite EQ|]. exact (dg_perm (vert g) _ _ _ _ _ _ PM DG).
  Qed.
End Moved.
