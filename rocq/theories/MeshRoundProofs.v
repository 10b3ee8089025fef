(** From a resolved serial mesh to the computed signs. *)
From Coq Require Import ZArith Reals Lra Lia.
From Flocq Require Import Core IEEE754.BinarySingleNaN IEEE754.Binary IEEE754.Bits.
From Verif Require Import Prelude Bytes MeshModel MeshSpec CreateSpec TychoSpec GeometryModel GeometrySpec ViewModel ViewSpec BitsSpec DoubleModel DoubleSpec DoubleProofs
  RoundProofs RoundSpec TripleProofs FaceSignProofs ViewProofs PropertiesDouble.
Local Open Scope R_scope.

(** Exact side: the sign of o.n from two triple products. *)
Lemma normal_triple o n a b : dotR n n = 1 -> dotR n a = 0 -> dotR n b = 0 -> triple o a b = triple n a b * dotR o n.
Proof.
  destruct o as [o0 o1 o2], n as [n0 n1 n2], a as [a0 a1 a2], b as [b0 b1 b2]. unfold dotR, triple. cbn [t0 t1 t2]. intros N A B.
  set (c0 := a1 * b2 - a2 * b1). set (c1 := a2 * b0 - a0 * b2). set (c2 := a0 * b1 - a1 * b0).
  (* n x (a x b) = a (n.b) - b (n.a) = 0 *)
  assert (X0 : n1 * c2 - n2 * c1 = 0). { replace (n1 * c2 - n2 * c1) with (a0 * (n0 * b0 + n1 * b1 + n2 * b2) - b0 * (n0 * a0 + n1 * a1 + n2 * a2)) by (unfold c1, c2; ring). rewrite A, B. ring. }
  assert (X1 : n2 * c0 - n0 * c2 = 0). { replace (n2 * c0 - n0 * c2) with (a1 * (n0 * b0 + n1 * b1 + n2 * b2) - b1 * (n0 * a0 + n1 * a1 + n2 * a2)) by (unfold c0, c2; ring). rewrite A, B. ring. }
  assert (X2 : n0 * c1 - n1 * c0 = 0). { replace (n0 * c1 - n1 * c0) with (a2 * (n0 * b0 + n1 * b1 + n2 * b2) - b2 * (n0 * a0 + n1 * a1 + n2 * a2)) by (unfold c0, c1; ring). rewrite A, B. ring. }
  clearbody c0 c1 c2. clear A B.
  replace ((n0 * c0 + n1 * c1 + n2 * c2) * (o0 * n0 + o1 * n1 + o2 * n2)) with
    (o0 * c0 * (n0 * n0 + n1 * n1 + n2 * n2) + o1 * c1 * (n0 * n0 + n1 * n1 + n2 * n2) + o2 * c2 * (n0 * n0 + n1 * n1 + n2 * n2)
     + (o0 * n1 - o1 * n0) * (n0 * c1 - n1 * c0) + (o1 * n2 - o2 * n1) * (n1 * c2 - n2 * c1) + (o2 * n0 - o0 * n2) * (n2 * c0 - n0 * c2)) by ring.
  rewrite X0, X1, X2, N. ring.
Qed.
Lemma outward_sign o w n a b : dotR n n = 1 -> dotR n a = 0 -> dotR n b = 0 -> dotR n w < 0 -> triple o a b <> 0 -> triple w a b <> 0 ->
  dotR o n <> 0 /\ (0 < dotR o n <-> ~ (0 < triple o a b <-> 0 < triple w a b)).
Proof.
  intros N A B W To Tw. rewrite (normal_triple o n a b N A B) in *. rewrite (normal_triple w n a b N A B) in *. assert (E : dotR w n = dotR n w) by (unfold dotR; ring). rewrite E in *.
  revert To Tw W. generalize (triple n a b) (dotR o n) (dotR n w). intros k x y To Tw Y. assert (k <> 0) by (intros ->; apply To; ring). assert (X : x <> 0) by (intros ->; apply To; ring). split; [exact X|].
  assert (S : forall p q, p <> 0 -> q <> 0 -> (0 < p * q <-> (0 < p /\ 0 < q) \/ (p < 0 /\ q < 0))).
  { intros p q P Q. split; [|intros [(U & V)|(U & V)]; [now apply Rmult_lt_0_compat|]; replace (p * q) with ((- p) * (- q)) by ring; apply Rmult_lt_0_compat; lra].
    intros H0. destruct (Rlt_or_le 0 p), (Rlt_or_le 0 q); auto; [exfalso|exfalso|right; lra]; assert (p * q <= 0); try lra.
    - replace (p * q) with (- (p * - q)) by ring. assert (0 <= p * - q) by (apply Rmult_le_pos; lra). lra.
    - replace (p * q) with (- ((- p) * q)) by ring. assert (0 <= (- p) * q) by (apply Rmult_le_pos; lra). lra. }
  pose proof (S k x H X) as S1. pose proof (S k y H ltac:(lra)) as S2. destruct (Rtotal_order k 0) as [K|[K|K]]; [|contradiction|].
  - split; [intros P (_ & Q); assert (0 < k * y) by (apply S2; right; lra); specialize (Q H0); apply S1 in Q; lra|]. intros Q. destruct (Rlt_or_le 0 x); auto. exfalso. apply Q. split; intros _; [apply S2; right; lra|apply S1; right; lra].
  - split; [intros P (Q & _); assert (0 < k * x) by (apply S1; left; lra); specialize (Q H0); apply S2 in Q; lra|]. intros Q. destruct (Rlt_or_le 0 x); auto. exfalso. apply Q. split; intros G; exfalso; [apply S1 in G|apply S2 in G]; lra.
Qed.

Section Mesh.
  Context (sm : smesh) (OK : serial_mesh_ok sm) (TT : tets_ok sm).
  Lemma opp_unique g lf f sf f' sf' : s_opposite sm g lf f sf -> s_opposite sm g lf f' sf' -> f = f' /\ sf = sf'.
  Proof using OK TT.
    intros (sc & A & I & B & L & S) (sc' & A' & I' & B' & _ & S'). assert (sc' = sc) by congruence. subst sc'.
    destruct (In_nth_error _ _ I) as (i & Ii). destruct (In_nth_error _ _ I') as (j & Ij).
    destruct (smo_cf sm OK g sc f A I) as (sf1 & B1 & _ & K). destruct (smo_cf sm OK g sc f' A I') as (sf2 & B2 & _ & K'). assert (sf1 = sf) by congruence. assert (sf2 = sf') by congruence. subst sf1 sf2.
    assert (E : i = j).
    { apply (to_distinct sm TT g sc i j f f' sf sf' A Ii Ij B B'). intros n. split; intros Hn.
      - destruct (In_nth_error _ _ (K n Hn)) as (v & Hv). apply (S' v n Hv). apply (S v n Hv). exact Hn.
      - destruct (In_nth_error _ _ (K' n Hn)) as (v & Hv). apply (S v n Hv). apply (S' v n Hv). exact Hn. }
    subst j. assert (f = f') by congruence. subst f'. split; [reflexivity|congruence].
  Qed.
  Lemma number_ok g lf f sf : s_opposite sm g lf f sf -> faceNumber sm g lf = Some f.
  Proof using OK TT.
    intros O. pose proof O as (sc & E & I & EF & L & S).
    assert (K : exists v, nth_error (q4l (sc_nodes sc)) lf = Some v) by (destruct lf as [|[|[|[|lf]]]]; cbn; eauto; lia). destruct K as (v & Ev).
    unfold faceNumber. rewrite E. cbn [obind]. rewrite Ev. cbn [obind]. destruct (find _ (q4l (sc_faces sc))) as [f'|] eqn:E1.
    - apply find_some in E1. destruct E1 as (I' & H). destruct (SM_face sm f') as [sf'|] eqn:EF'; [|discriminate]. destruct (cell_face sm OK TT g sc f' sf' E I' EF') as (lf' & O').
      pose proof O' as (sc' & E' & _ & _ & _ & S'). assert (sc' = sc) by congruence. subst sc'. destruct (Nat.eq_dec lf lf') as [<-|Ne]; [destruct (opp_unique _ _ _ _ _ _ O O') as (-> & _); reflexivity|].
      exfalso. apply (S' lf v Ev) in Ne. apply Bool.negb_true_iff in H. assert (X : existsb (N.eqb v) (q3l (sf_nodes sf')) = true) by (apply existsb_exists; exists v; split; auto; apply N.eqb_refl). congruence.
    - exfalso. pose proof (find_none _ _ E1 f I) as N1. cbn beta in N1. rewrite EF in N1. apply Bool.negb_false_iff in N1. apply existsb_exists in N1. destruct N1 as (x & Ix & Ex). apply N.eqb_eq in Ex. subst x. exact (proj1 (S lf v Ev) Ix eq_refl).
  Qed.
  Lemma point_real n : s_point sm rdec n = option_map real3 (b_point sm ddec n).
  Proof. unfold s_point, b_point. destruct (SM_node sm n); reflexivity. Qed.
  Context (CM : coords_moderate sm).
  Lemma point_tame n p : b_point sm ddec n = Some p -> tame3 (-100) 100 p.
  Proof using CM.
    unfold b_point. destruct (SM_node sm n) as [s|] eqn:E; [|discriminate]. intros H. apply Some_inj in H. subst p. pose proof (fun x => CM n s x E) as C. destruct (sn_coords s) as [x y z].
    split; [|split]; apply moderate_tame; apply C; cbn; auto.
  Qed.
  Definition rface (F : q3 (q3 binary64)) : q3 (q3 R) := Q3 (real3 (t0 F)) (real3 (t1 F)) (real3 (t2 F)).
  Definition rcell (P : q4 (q3 binary64)) : q4 (q3 R) := Q4 (real3 (r0 P)) (real3 (r1 P)) (real3 (r2 P)) (real3 (r3 P)).
  Lemma b_cell_ok g sc : SM_cell sm g = Some sc -> exists P, b_cell sm ddec g = Some P /\ s_cell sm rdec g (rcell P) /\ forall v p, nth_error (q4l P) v = Some p <-> exists n, nth_error (q4l (sc_nodes sc)) v = Some n /\ b_point sm ddec n = Some p.
  Proof using OK.
    intros H. assert (PT : forall n, In n (q4l (sc_nodes sc)) -> exists p, b_point sm ddec n = Some p).
    { intros n I. destruct (smo_cn sm OK g sc n H I) as (s & E). unfold b_point. rewrite E. cbn. eauto. }
    unfold b_cell, s_cell. rewrite H. cbn [obind]. assert (N4 : exists a b c d, sc_nodes sc = Q4 a b c d) by (destruct (sc_nodes sc); eauto). destruct N4 as (a & b & c & d & N4). rewrite N4 in *. cbn [r0 r1 r2 r3].
    destruct (PT a ltac:(cbn; auto)) as (pa & Ea). destruct (PT b ltac:(cbn; auto)) as (pb & Eb). destruct (PT c ltac:(cbn; auto)) as (pc & Ec). destruct (PT d ltac:(cbn; auto)) as (pd & Ed). rewrite Ea, Eb, Ec, Ed. cbn [obind].
    eexists. split; [reflexivity|]. split.
    - exists sc. split; [reflexivity|]. rewrite N4. cbn [q4l map r0 r1 r2 r3 rcell]. rewrite !point_real, Ea, Eb, Ec, Ed. reflexivity.
    - intros v p. destruct v as [|[|[|[|v]]]]; cbn [q4l r0 r1 r2 r3 nth_error].
      all: try (split; [intros K; eexists; split; [reflexivity|congruence]|intros (n & E1 & E2); apply Some_inj in E1; subst n; congruence]).
      assert (NN : forall (X : Type), @nth_error X [] v = None) by (intros X; destruct v; reflexivity). rewrite !NN. split; [discriminate|intros (n & K & _); discriminate].
  Qed.
  Lemma b_face_ok g lf f sf : s_opposite sm g lf f sf -> exists F, b_face sm ddec g lf = Some F /\ s_face sm rdec f (rface F) /\ (forall p, In p (q3l F) <-> exists n, In n (q3l (sf_nodes sf)) /\ b_point sm ddec n = Some p) /\
    tame3 (-100) 100 (t0 F) /\ tame3 (-100) 100 (t1 F) /\ tame3 (-100) 100 (t2 F) /\ b_face sm ddec g lf = (let n := sf_nodes sf in let* a := b_point sm ddec (t0 n) in let* b := b_point sm ddec (t1 n) in let* c := b_point sm ddec (t2 n) in Some (Q3 a b c)).
  Proof using OK TT CM.
    intros O. pose proof O as (sc & A & I & B & _). destruct (smo_cf sm OK g sc f A I) as (sf1 & B1 & _ & K). assert (sf1 = sf) by congruence. subst sf1.
    assert (PT : forall n, In n (q3l (sf_nodes sf)) -> exists p, b_point sm ddec n = Some p).
    { intros n Hn. destruct (smo_cn sm OK g sc n A (K n Hn)) as (s & E). unfold b_point. rewrite E. cbn. eauto. }
    unfold b_face, s_face. rewrite (number_ok g lf f sf O). cbn [obind]. rewrite B. cbn [obind]. clear K. assert (N3 : exists a b c, sf_nodes sf = Q3 a b c) by (destruct (sf_nodes sf); eauto). destruct N3 as (a & b & c & N3). rewrite N3 in *. cbn [t0 t1 t2].
    destruct (PT a ltac:(cbn; auto)) as (pa & Ea). destruct (PT b ltac:(cbn; auto)) as (pb & Eb). destruct (PT c ltac:(cbn; auto)) as (pc & Ec). rewrite Ea, Eb, Ec. cbn [obind].
    eexists. split; [reflexivity|]. split; [|split; [|split; [|split; [|split]]]].
    - exists sf. split; [reflexivity|]. rewrite N3. cbn [q3l map t0 t1 t2 rface]. rewrite !point_real, Ea, Eb, Ec. reflexivity.
    - intros p. cbn [q3l In t0 t1 t2]. split; [intros [<-|[<-|[<-|[]]]]; eauto 8|]. intros (n & [<-|[<-|[<-|[]]]] & E); [left|right; left|right; right; left]; congruence.
    - exact (point_tame _ _ Ea).
    - exact (point_tame _ _ Eb).
    - exact (point_tame _ _ Ec).
    - reflexivity.
  Qed.
  Lemma aeq_fin x : fin x = true -> aeq Dops x x = true.
  Proof. intros F. cbn. unfold Bits.b64_compare. rewrite Bcompare_correct by exact F. now rewrite Rcompare_Eq. Qed.
  Lemma ptEq_refl p : tame3 (-100) 100 p -> ptEq Dops p p = true.
  Proof. intros (A & B & C). unfold ptEq. rewrite !aeq_fin by (exact (proj1 A) || exact (proj1 B) || exact (proj1 C)). reflexivity. Qed.
  Lemma aeq_val x y : fin x = true -> fin y = true -> aeq Dops x y = true -> val x = val y.
  Proof. intros F G. cbn. unfold Bits.b64_compare. rewrite Bcompare_correct by auto. destruct (Rcompare_spec (val x) (val y)); congruence. Qed.
  Lemma ptEq_val p q : tame3 (-100) 100 p -> tame3 (-100) 100 q -> ptEq Dops p q = true -> real3 p = real3 q.
  Proof.
    intros (A & B & C) (A' & B' & C') H. unfold ptEq in H. apply Bool.andb_true_iff in H. destruct H as (H & H2). apply Bool.andb_true_iff in H. destruct H as (H & H1). unfold real3.
    change (Q3 (val (t0 p)) (val (t1 p)) (val (t2 p)) = Q3 (val (t0 q)) (val (t1 q)) (val (t2 q))).
    rewrite (aeq_val _ _ (proj1 A) (proj1 A') H), (aeq_val _ _ (proj1 B) (proj1 B') H1), (aeq_val _ _ (proj1 C) (proj1 C') H2). reflexivity.
  Qed.
  Lemma clear_off (v : q3 R) F : clear_of (subR v (t0 F)) F -> ~ In v (q3l F).
  Proof.
    intros C I. assert (E : triple (subR v (t0 F)) (subR (t1 F) (t0 F)) (subR (t2 F) (t0 F)) = 0).
    { destruct F as [[x0 x1 x2] [y0 y1 y2] [z0 z1 z2]]. cbn in I. destruct I as [<-|[<-|[<-|[]]]]; unfold triple, subR; cbn; ring. }
    unfold clear_of in C. rewrite E, Rabs_R0 in C. assert (0 <= tripleAbs (subR v (t0 F)) (subR (t1 F) (t0 F)) (subR (t2 F) (t0 F))).
    { unfold tripleAbs. repeat apply Rplus_le_le_0_compat; apply Rmult_le_pos; try apply Rabs_pos; apply Rplus_le_le_0_compat; apply Rabs_pos. }
    lra.
  Qed.
  Lemma in_rface p F : In (real3 p) (q3l (rface F)) <-> exists q, In q (q3l F) /\ real3 p = real3 q.
  Proof. destruct F as [a b c]. cbn. split; [intros [E|[E|[E|[]]]]; eauto 8|intros (q & [<-|[<-|[<-|[]]]] & E); auto]. Qed.
  (** The apex is found, and all signs are right. *)
  Lemma apex_ok nA om g lf f sf : omegas_moderate nA om -> resolved_at sm nA om g lf -> s_opposite sm g lf f sf ->
    exists F v P, b_face sm ddec g lf = Some F /\ b_cell sm ddec g = Some P /\ vertIndex Dops F P = Some v /\ s_cell sm rdec g (rcell P) /\ s_face sm rdec f (rface F) /\ corner (rcell P) lf = Some (real3 v) /\
      b_face sm ddec g lf = (let n := sf_nodes sf in let* a := b_point sm ddec (t0 n) in let* b := b_point sm ddec (t1 n) in let* c := b_point sm ddec (t2 n) in Some (Q3 a b c)) /\
      clear_of (subR (real3 v) (real3 (t0 F))) (rface F) /\ (forall a, (a < nA)%nat -> clear_of (real3 (om a)) (rface F)) /\
      (above Dops F v = true <-> 0 < triple (subR (real3 v) (real3 (t0 F))) (subR (real3 (t1 F)) (real3 (t0 F))) (subR (real3 (t2 F)) (real3 (t0 F)))) /\
      forall a, (a < nA)%nat -> let d := vdot Dops (om a) (triNormal Dops F) in fin d = true /\ val d <> 0 /\ (0 < val d <-> 0 < triple (real3 (om a)) (subR (real3 (t1 F)) (real3 (t0 F))) (subR (real3 (t2 F)) (real3 (t0 F)))).
  Proof using OK TT CM.
    intros OM RS O. pose proof O as (sc & A & _ & _ & L & S). destruct (b_cell_ok g sc A) as (P & EP & SC & KP). destruct (b_face_ok g lf f sf O) as (F & EF & SF & KF & T0 & T1 & T2 & EB).
    assert (K : exists v, nth_error (q4l P) lf = Some v) by (destruct P, lf as [|[|[|[|lf]]]]; cbn; eauto; lia). destruct K as (v & Ev).
    assert (CV : corner (rcell P) lf = Some (real3 v)). { unfold corner. clear -Ev L. destruct P as [a b c d]. destruct lf as [|[|[|[|lf]]]]; [cbn in Ev |- *; congruence..|lia]. }
    destruct (RS _ f sf (rface F) _ SC O SF CV) as (CA & CO). cbn [t0 rface] in CA. exists F, v, P. split; [exact EF|]. split; [exact EP|].
    assert (TP : forall i p, nth_error (q4l P) i = Some p -> tame3 (-100) 100 p) by (intros i p H; apply KP in H; destruct H as (n & _ & H); exact (point_tame _ _ H)).
    assert (TF : forall p, In p (q3l F) -> tame3 (-100) 100 p) by (intros p H; apply KF in H; destruct H as (n & _ & H); exact (point_tame _ _ H)).
    assert (VI : vertIndex Dops F P = Some v).
    { assert (IN : forall i p, nth_error (q4l P) i = Some p -> i <> lf -> negb (existsb (ptEq Dops p) (q3l F)) = false).
      { intros i p H Ne. apply Bool.negb_false_iff. apply existsb_exists. exists p. split; [|exact (ptEq_refl p (TP i p H))]. apply KP in H. destruct H as (n & Hn & Hp). apply KF. exists n. split; [|exact Hp]. apply (S i n Hn). exact Ne. }
      assert (OUT : negb (existsb (ptEq Dops v) (q3l F)) = true).
      { apply Bool.negb_true_iff. destruct (existsb (ptEq Dops v) (q3l F)) eqn:E; auto. apply existsb_exists in E. destruct E as (q & Iq & Eq). exfalso. apply (clear_off (real3 v) (rface F) CA). apply in_rface. exists q. split; [exact Iq|].
        exact (ptEq_val _ _ (TP _ _ Ev) (TF _ Iq) Eq). }
      unfold vertIndex. clear -IN OUT Ev L. destruct P as [a b c d]. cbn [q4l find r0 r1 r2 r3] in *. destruct lf as [|[|[|[|lf]]]]; cbn [nth_error q4l r0 r1 r2 r3] in Ev; try lia; apply Some_inj in Ev; subst v.
      - rewrite OUT. reflexivity.
      - rewrite (IN 0%nat a eq_refl ltac:(lia)), OUT. reflexivity.
      - rewrite (IN 0%nat a eq_refl ltac:(lia)), (IN 1%nat b eq_refl ltac:(lia)), OUT. reflexivity.
      - rewrite (IN 0%nat a eq_refl ltac:(lia)), (IN 1%nat b eq_refl ltac:(lia)), (IN 2%nat c eq_refl ltac:(lia)), OUT. reflexivity. }
    split; [exact VI|]. split; [exact SC|]. split; [exact SF|]. split; [exact CV|]. split; [exact EB|]. split; [exact CA|]. split; [exact CO|]. split; [exact (above_ok F T0 T1 T2 v (TP _ _ Ev) CA)|].
    intros a Ha. assert (TO : tame3 (-100) 100 (om a)). { pose proof (fun x => OM a x Ha) as M. destruct (om a) as [x y z]. split; [|split]; apply moderate_tame; apply M; cbn; auto. }
    exact (omega_ok F T0 T1 T2 (om a) TO (CO a Ha)).
  Qed.
End Mesh.
