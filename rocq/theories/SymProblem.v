(** A moved mesh poses a transport problem if the mesh does. *)
From Coq Require Import Reals Lra Permutation.
From Verif Require Import Prelude Bytes MeshModel MeshSpec CreateModel CreateSpec TychoModel TychoSpec RefineSpec GeometryModel GeometrySpec TransportSpec TraverseModel TraverseSpec TraverseRun SweepModel ViewModel ViewSpec ViewGeoProofs ViewProofs ViewSysProofs MeshRoundProofs RefinedBdryProofs PropertiesView MainModel MainSpec MainTransport
  SymSpec SymGeo SymProofs SymRun.

Lemma bary_perm pi p p' : perm4 pi -> (forall v x, v < 4 -> corner p v = Some x -> corner p' (pi v) = Some x) -> forall x, strictly_inside p' x -> strictly_inside p x.
Proof.
  intros H E x (a & b & c & d & P & ->). destruct p as [x0 x1 x2 x3]. pose proof (E 0%nat x0 ltac:(lia) eq_refl) as E0. pose proof (E 1%nat x1 ltac:(lia) eq_refl) as E1. pose proof (E 2%nat x2 ltac:(lia) eq_refl) as E2. pose proof (E 3%nat x3 ltac:(lia) eq_refl) as E3. clear E.
  assert (K : exists a' b' c' d', (0 < a' /\ 0 < b' /\ 0 < c' /\ 0 < d' /\ a' + b' + c' + d' = 1)%R /\ bary p' a b c d = bary (Q4 x0 x1 x2 x3) a' b' c' d').
  { revert E0 E1 E2 E3. revert H.
    apply (perm4_cases pi (fun i j k l => corner p' i = Some x0 -> corner p' j = Some x1 -> corner p' k = Some x2 -> corner p' l = Some x3 ->
      exists a' b' c' d', (0 < a' /\ 0 < b' /\ 0 < c' /\ 0 < d' /\ a' + b' + c' + d' = 1)%R /\ bary p' a b c d = bary (Q4 x0 x1 x2 x3) a' b' c' d'));
    (destruct p' as [y0 y1 y2 y3]; unfold corner; cbn [q4l r0 r1 r2 r3 nth_error]; intros; repeat match goal with X : Some _ = Some _ |- _ => apply Some_inj in X; subst end).
    all: let tac a' b' c' d' := (exists a', b', c', d'; split; [lra|unfold bary; cbn [r0 r1 r2 r3]; f_equal; ring]) in
      first [tac a b c d|tac a b d c|tac a c b d|tac a c d b|tac a d b c|tac a d c b|tac b a c d|tac b a d c|tac b c a d|tac b c d a|tac b d a c|tac b d c a
            |tac c a b d|tac c a d b|tac c b a d|tac c b d a|tac c d a b|tac c d b a|tac d a b c|tac d a c b|tac d b a c|tac d b c a|tac d c a b|tac d c b a]. }
  destruct K as (a' & b' & c' & d' & P' & ->). exists a', b', c', d'. auto.
Qed.
Lemma dot_zero u : dotR u u = 0%R -> u = zeroR.
Proof. destruct u as [x y z]. unfold dotR, zeroR. cbn. intros H. assert (x = 0 /\ y = 0 /\ z = 0)%R as (-> & -> & ->); [|reflexivity]. repeat split; nra. Qed.
(** Isometries keep barycentric coordinates. *)
Lemma bary_iso I L p a b c d : isometry I L -> (a + b + c + d = 1)%R -> bary (map4 I p) a b c d = I (bary p a b c d).
Proof.
  intros HI S. set (y := bary p a b c d). set (u i := subR (I i) (I y)). set (w i := subR i y).
  assert (UU : forall i j, dotR (u i) (u j) = dotR (w i) (w j)) by (intros; apply (iso_dot_sub I L HI)).
  assert (E : subR (bary (map4 I p) a b c d) (I y) = addR (addR (scaleR a (u (r0 p))) (scaleR b (u (r1 p)))) (addR (scaleR c (u (r2 p))) (scaleR d (u (r3 p))))).
  { unfold u. destruct p as [p0 p1 p2 p3]. generalize (I y) as z. unfold map4, bary, subR, addR, scaleR. cbn [r0 r1 r2 r3 t0 t1 t2]. intros z. replace d with (1 - a - b - c)%R by lra. f_equal; ring. }
  assert (W : addR (addR (scaleR a (w (r0 p))) (scaleR b (w (r1 p)))) (addR (scaleR c (w (r2 p))) (scaleR d (w (r3 p)))) = zeroR).
  { unfold w, y. destruct p as [p0 p1 p2 p3]. unfold bary, subR, addR, scaleR, zeroR. cbn [r0 r1 r2 r3 t0 t1 t2]. replace d with (1 - a - b - c)%R by lra. f_equal; ring. }
  assert (Q : forall u0 u1 u2 u3, dotR (addR (addR (scaleR a u0) (scaleR b u1)) (addR (scaleR c u2) (scaleR d u3))) (addR (addR (scaleR a u0) (scaleR b u1)) (addR (scaleR c u2) (scaleR d u3))) =
    (a * a * dotR u0 u0 + b * b * dotR u1 u1 + c * c * dotR u2 u2 + d * d * dotR u3 u3 + 2 * (a * b * dotR u0 u1 + a * c * dotR u0 u2 + a * d * dotR u0 u3 + b * c * dotR u1 u2 + b * d * dotR u1 u3 + c * d * dotR u2 u3))%R).
  { intros [x0 x1 x2] [y0 y1 y2] [z0 z1 z2] [w0 w1 w2]. unfold dotR, addR, scaleR. cbn. ring. }
  assert (Z : subR (bary (map4 I p) a b c d) (I y) = zeroR).
  { apply dot_zero. rewrite E, Q, !UU, <- Q, W. unfold dotR, zeroR. cbn. ring. }
  clear - Z. set (x := bary (map4 I p) a b c d) in *. clearbody x. destruct x as [x0 x1 x2], (I y) as [y0 y1 y2]. unfold subR, zeroR in Z. cbn in Z. injection Z as A B C. f_equal; lra.
Qed.
Lemma inside_moved I L pi p p' : isometry I L -> perm4 pi -> (forall v x, v < 4 -> corner p v = Some x -> corner p' (pi v) = Some (I x)) -> forall x, strictly_inside p' x -> exists y, strictly_inside p y /\ x = I y.
Proof.
  intros HI H E x IN. assert (IN' : strictly_inside (map4 I p) x).
  { revert IN. apply (bary_perm pi); auto. intros v z Hv Hz. destruct p as [x0 x1 x2 x3]. unfold corner in *. cbn [map4 q4l r0 r1 r2 r3] in *.
    destruct v as [|[|[|[|]]]]; [| | | |lia]; cbn [nth_error] in Hz; apply Some_inj in Hz; subst z; apply E; auto; lia. }
  destruct IN' as (a & b & c & d & P & ->). exists (bary p a b c d). split; [exists a, b, c, d; auto|]. apply (bary_iso I L); auto. lra.
Qed.
Lemma iso_inj I L x y : isometry I L -> I x = I y -> x = y.
Proof.
  intros HI E. assert (Z : subR x y = zeroR). { apply dot_zero. rewrite <- (iso_dot_sub I L HI), E. unfold dotR, subR. cbn. ring. }
  destruct x as [x0 x1 x2], y as [y0 y1 y2]. unfold subR, zeroR in Z. cbn in Z. injection Z as A B C. f_equal; lra.
Qed.
Lemma onto n (f : nat -> nat) : (forall i, i < n -> f i < n) -> (forall i j, i < n -> j < n -> f i = f j -> i = j) -> forall j, j < n -> exists i, i < n /\ f i = j.
Proof.
  intros B J j Hj. assert (IN : In j (map f (seq 0 n))) by (eapply Permutation_in; [symmetry; apply map_perm; auto|]; apply in_seq; lia).
  apply in_map_iff in IN. destruct IN as (i & E & Hi). apply in_seq in Hi. exists i. split; [lia|exact E].
Qed.

Section Problem.
  Context (dec : N -> R) (sm sm' : smesh) (I L : q3 R -> q3 R) (cell face node : N -> N) (vert : N -> nat -> nat) (q : angles R) (angle : nat -> nat) (s1 s2 : R).
  Notation nA := (q_num q). Notation om := (q_omega q). Notation sT := (by_material Rops sm s1 s2). Notation sT' := (by_material Rops sm' s1 s2).
  Context (PB : problem_ok sm dec nA om sT) (OK' : serial_mesh_ok sm') (TT' : tets_ok sm') (SM : mesh_small sm 1).
  Context (HI : isometry I L) (MV : moved dec sm sm' I cell face node vert) (TU : turned q L angle).
  Let OK := pb_mesh _ _ _ _ _ PB. Let TT := pb_tets _ _ _ _ _ PB.
  Lemma cell_onto g' sc' : SM_cell sm' g' = Some sc' -> exists g sc, SM_cell sm g = Some sc /\ cell g = g'.
  Proof.
    intros H'. set (n := length (sm_cells sm)). assert (IN : forall i, i < n -> exists sc, SM_cell sm (N.of_nat i) = Some sc).
    { intros i Hi. unfold SM_cell. rewrite Nat2N.id. destruct (nth_error (sm_cells sm) i) eqn:K; [eauto|]. apply nth_error_None in K. unfold n in Hi. lia. }
    destruct (onto n (fun i => N.to_nat (cell (N.of_nat i)))) with (j := N.to_nat g') as (i & Hi & E).
    - intros i Hi. destruct (IN i Hi) as (sc & H). destruct (mv_cell _ _ _ _ _ _ _ _ MV _ sc H) as (sc1 & H1 & _). unfold n. rewrite <- (mv_onto _ _ _ _ _ _ _ _ MV). apply nth_error_Some. unfold SM_cell in H1. congruence.
    - intros i j Hi Hj Eij. apply N2Nat.inj in Eij. destruct (IN i Hi) as (si & Hsi), (IN j Hj) as (sj & Hsj). apply Nat2N.inj. exact (mv_cells _ _ _ _ _ _ _ _ MV _ _ _ _ Hsi Hsj Eij).
    - unfold n. rewrite <- (mv_onto _ _ _ _ _ _ _ _ MV). apply nth_error_Some. unfold SM_cell in H'. congruence.
    - apply N2Nat.inj in E. destruct (IN i Hi) as (sc & H). eauto.
  Qed.
  Lemma solid_moved : solid sm' dec.
  Proof.
    destruct (pb_solid _ _ _ _ _ PB) as [VO AP]. constructor.
    - intros g' p' C'. pose proof C' as (sc' & H' & _). destruct (cell_onto g' sc' H') as (g & sc & H & <-). destruct (s_cell_ex sm dec OK g sc H) as (p & C).
      pose proof (vol6_moved I L (vert g) p p' HI (vert_perm dec sm sm' I cell face node vert OK TT MV g sc H) (fun v x _ => corners_moved dec sm sm' I cell face node vert MV g p p' C C' v x)) as E.
      intros Z. rewrite Z, Rabs_R0 in E. symmetry in E. apply (VO g p C). destruct (Req_dec (vol6 p) 0) as [|NZ]; auto. now apply Rabs_no_R0 in NZ.
    - intros g' h' p' q' x NE C' D' X Y. pose proof C' as (sc' & H' & _). pose proof D' as (sd' & K' & _). destruct (cell_onto g' sc' H') as (g & sc & H & <-), (cell_onto h' sd' K') as (h & sd & K & <-).
      destruct (s_cell_ex sm dec OK g sc H) as (p & C), (s_cell_ex sm dec OK h sd K) as (q0 & D).
      destruct (inside_moved I L (vert g) p p' HI (vert_perm dec sm sm' I cell face node vert OK TT MV g sc H) (fun v x _ => corners_moved dec sm sm' I cell face node vert MV g p p' C C' v x) x X) as (y & Hy & ->).
      destruct (inside_moved I L (vert h) q0 q' HI (vert_perm dec sm sm' I cell face node vert OK TT MV h sd K) (fun v x _ => corners_moved dec sm sm' I cell face node vert MV h q0 q' D D' v x) (I y) Y) as (z & Hz & E).
      apply (iso_inj I L _ _ HI) in E. subst z. apply (AP g h p q0 y); auto. intros ->. now apply NE.
  Qed.
  Lemma signed_ex om0 g sc lf : SM_cell sm g = Some sc -> lf < 4 -> exists x, s_signed sm dec om0 g lf x.
  Proof.
    intros H Hlf. destruct (one_rank sm dec 0 om sT) with (psize := 1%N) as (t & R0 & sTT & CF); [|exact SM|reflexivity|reflexivity|].
    { destruct PB as [P1 P2 P3 P4 P5 P6]. constructor; auto; [intros a; intros; lia|exists (fun _ _ => 0); intros; lia]. }
    assert (PB0 : problem_ok sm dec 0 om sT). { destruct PB as [P1 P2 P3 P4 P5 P6]. constructor; auto; [intros a; intros; lia|exists (fun _ _ => 0); intros; lia]. }
    destruct (cfg _ _ _ _ _ PB0 _ _ _ _ _ _ CF) as (m & CR & RD). pose proof (cf_partition _ _ _ _ _ _ _ _ _ _ _ CF) as PV. pose proof (cf_compares _ _ _ _ _ _ _ _ _ _ _ CF) as CMP.
    destruct (gid_onto sm _ 1 m _ dec t OK TT PV CR CMP RD g sc H) as (r & c & Hr & HG).
    eexists. exact (signed_ok sm _ 1 m _ dec t OK TT PV CR CMP RD (pb_solid _ _ _ _ _ PB) (fun _ => om0) r 0 c g lf Hr Hlf HG).
  Qed.
  Lemma angle_onto a' : a' < nA -> exists a, a < nA /\ angle a = a'.
  Proof. apply onto; [intros a Ha; apply (tu_angle _ _ _ TU a Ha)|apply (tu_apart _ _ _ TU)]. Qed.
  (** Faces between cells, and their signed areas, seen from the mesh. *)
  Lemma seen a' g' lf' h' x : a' < nA -> s_next sm' g' lf' h' -> s_signed sm' dec (om a') g' lf' x ->
    exists a g lf h, a < nA /\ angle a = a' /\ cell g = g' /\ cell h = h' /\ s_next sm g lf h /\ s_signed sm dec (om a) g lf x.
  Proof.
    intros Ha' NX SG. pose proof NX as (f' & sf' & (sc' & H' & _ & _ & Hlf' & _) & _). destruct (cell_onto g' sc' H') as (g & sc & H & <-). destruct (angle_onto a' Ha') as (a & Ha & <-).
    destruct (perm4_onto _ (vert_perm dec sm sm' I cell face node vert OK TT MV g sc H) lf' Hlf') as (lf & Hlf & <-). destruct (next_back dec sm sm' I cell face node vert OK TT OK' TT' MV g sc lf h' H Hlf NX) as (h & NX0 & ->).
    destruct (signed_ex (om a) g sc lf H Hlf) as (y & Hy). pose proof (signed_moved dec sm sm' I L cell face node vert OK TT OK' TT' HI MV (om a) g lf y Hy) as Hy'. rewrite (proj1 (proj2 (tu_angle _ _ _ TU a Ha))) in SG.
    rewrite (signed_one sm' dec _ _ _ _ _ OK' TT' solid_moved SG Hy'). exists a, g, lf, h. auto 10.
  Qed.
  Lemma problem_moved : problem_ok sm' dec nA om sT'.
  Proof.
    constructor; [exact OK'|exact TT'|exact solid_moved| | |].
    - intros a' g' lf' h' x Ha' NX SG. destruct (seen a' g' lf' h' x Ha' NX SG) as (a & g & lf & h & Ha & _ & _ & _ & N0 & S0). exact (pb_transversal _ _ _ _ _ PB a g lf h x Ha N0 S0).
    - destruct (pb_acyclic _ _ _ _ _ PB) as (lvl & LV).
      set (back := fun g' => match find (fun i => (cell (N.of_nat i) =? g')%N) (seq 0 (length (sm_cells sm))) with Some i => N.of_nat i | None => 0%N end).
      set (turn := fun a' => match find (fun a => angle a =? a') (seq 0 nA) with Some a => a | None => 0 end).
      assert (BK : forall g sc, SM_cell sm g = Some sc -> back (cell g) = g).
      { intros g sc H. unfold back. assert (LT : N.to_nat g < length (sm_cells sm)) by (apply nth_error_Some; unfold SM_cell in H; congruence). destruct (find _ _) as [i|] eqn:E.
        - apply find_some in E. destruct E as (IN & E). apply N.eqb_eq in E. apply in_seq in IN. assert (exists si, SM_cell sm (N.of_nat i) = Some si) as (si & Hi).
          { unfold SM_cell. rewrite Nat2N.id. destruct (nth_error (sm_cells sm) i) eqn:K; [eauto|]. apply nth_error_None in K. lia. }
          exact (mv_cells _ _ _ _ _ _ _ _ MV _ _ _ _ Hi H E).
        - pose proof (find_none _ _ E (N.to_nat g) ltac:(apply in_seq; lia)) as Z. cbv beta in Z. rewrite N2Nat.id, N.eqb_refl in Z. discriminate Z. }
      assert (TB : forall a, a < nA -> turn (angle a) = a).
      { intros a Ha. unfold turn. destruct (find _ _) as [i|] eqn:E.
        - apply find_some in E. destruct E as (IN & E). apply Nat.eqb_eq in E. apply in_seq in IN. apply (tu_apart _ _ _ TU); auto; lia.
        - pose proof (find_none _ _ E a ltac:(apply in_seq; lia)) as Z. cbv beta in Z. rewrite Nat.eqb_refl in Z. discriminate Z. }
      exists (fun a' g' => lvl (turn a') (back g')). intros a' g' lf' h' x Ha' NX SG X. destruct (seen a' g' lf' h' x Ha' NX SG) as (a & g & lf & h & Ha & <- & <- & <- & N0 & S0).
      pose proof N0 as (f & sf & (sc & H & _) & _). destruct (next_cell sm OK TT g lf h N0) as (sh & Hh). rewrite (TB a Ha), (BK g sc H), (BK h sh Hh). exact (LV a g lf h x Ha N0 S0 X).
    - intros g' sc' H'. destruct (cell_onto g' sc' H') as (g & sc & H & <-). rewrite (material_moved dec sm sm' I cell face node vert MV s1 s2 g sc H). exact (pb_sigma _ _ _ _ _ PB g sc H).
  Qed.
End Problem.
