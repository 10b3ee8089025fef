(** Source iteration on a moved mesh. *)
From Coq Require Import Reals Lra Permutation.
From Verif Require Import Prelude Bytes MeshModel MeshSpec CreateModel CreateSpec TychoModel TychoSpec GeometryModel GeometrySpec GaussModel TransportModel TransportSpec TraverseModel TraverseSpec TraverseRun SweepModel FluxModel FluxSpec PropertiesFlux EnergySpec EnergyProofs ViewModel ViewSpec PropertiesView BitsModel BitsSpec MainModel MainSpec MainTransport
  SymSpec SymGeo SymProofs.

(** The transport equation has at most one solution. *)
Lemma transport_unique sm dec nA om sigma nG Q psi psi' : problem_ok sm dec nA om sigma -> mesh_small sm 1 -> (N.of_nat (nA * length (sm_cells sm) * 4) * 1 < INT_MAX)%N ->
  s_transport sm dec nA nG om sigma Q psi -> s_transport sm dec nA nG om sigma Q psi' -> s_same sm nA nG psi psi'.
Proof.
  intros PB SM SZ H H'. destruct (one_rank sm dec nA om sigma PB SM 1%N eq_refl SZ) as (t & R0 & sT & CF).
  destruct (Nat.eq_dec nA 0) as [Z|NZ]; [intros a G g sc v Ha; lia|].
  assert (OV : overAngles nA (fun _ => 1%R) (fun _ => 1%R) = INR nA).
  { unfold overAngles, lsum. replace nA with (length (seq 0 nA)) at 2 by apply seq_length. generalize (seq 0 nA) as l. induction l as [|a l IH]; [reflexivity|]. cbn [fold_right length]. rewrite S_INR, IH. ring. }
  assert (SC : s_scatters sm nA sigma 1 (fun _ => 1%R) 0 (fun _ => 0%R)).
  { unfold s_scatters. rewrite OV. pose proof (lt_0_INR nA ltac:(lia)). split; [lra|]. split; [intros; lra|]. split; [auto|]. split; [lra|]. intros g sc _. split; [lra|]. right. ring. }
  assert (K : forall p, s_transport sm dec nA nG om sigma Q p -> s_scattering sm dec nA nG om sigma 1 (fun _ => 1%R) (fun _ => 0%R) Q p).
  { intros p HP a G g sc Ha HG Hg. destruct (HP a G g sc Ha HG Hg) as (c & area & nb & A1 & A2 & A3 & A4). exists c, area, nb. split; auto. split; auto. split; auto. apply (dg_source _ _ _ (Q a G g)); [|exact A4]. intros v _. unfold scattered. field. }
  destruct (well_posed sm dec nA om sigma PB t R0 sT CF 1%R (fun _ => 1%R) 0%R (fun _ => 0%R) SC nG Q Rlt_0_1) as (sol & _ & U).
  pose proof (U psi (K psi H)) as E. pose proof (U psi' (K psi' H')) as E'. intros a G g sc v Ha HG Hg Hv. rewrite <- (E a G g sc v), <- (E' a G g sc v); auto.
Qed.
Lemma flux_fold nA wt (V : nat -> N -> value R) g v G : b_flux Rops nA wt V g v G = s_flux nA wt (fun a G g v => getBlock Rops (V a g) v G) G g v.
Proof.
  unfold b_flux, s_flux, overAngles, lsum. cbn [aadd amul azero Rops].
  assert (K : forall l z, fold_left (fun s a => s + getBlock Rops (V a g) v G * wt a)%R l z = (z + fold_right (fun a s => wt a * getBlock Rops (V a g) v G + s) 0 l)%R) by (induction l as [|a l IHl]; intros z; cbn; [ring|rewrite IHl; ring]).
  rewrite K. ring.
Qed.
Lemma map_perm n (f : nat -> nat) : (forall i, i < n -> f i < n) -> (forall i j, i < n -> j < n -> f i = f j -> i = j) -> Permutation (map f (seq 0 n)) (seq 0 n).
Proof.
  intros B J. apply NoDup_Permutation_bis.
  - assert (K : forall l, NoDup l -> (forall x, In x l -> x < n) -> NoDup (map f l)).
    { induction l as [|a l IH]; intros ND IC; cbn; [constructor|]. inversion ND; subst. constructor; [|apply IH; auto; intros x Hx; apply IC; now right].
      intros Ha. apply in_map_iff in Ha. destruct Ha as (b & Eb & Hb). assert (b = a) by (apply J; auto; apply IC; cbn; auto). subst b. contradiction. }
    apply K; [apply seq_NoDup|]. intros x Hx. apply in_seq in Hx. lia.
  - rewrite map_length, seq_length. auto.
  - intros x Hx. apply in_map_iff in Hx. destruct Hx as (y & <- & Hy). apply in_seq in Hy. apply in_seq. specialize (B y ltac:(lia)). lia.
Qed.
Lemma lsum_map {X Y} (f : X -> Y) l g : lsum (map f l) g = lsum l (fun x => g (f x)).
Proof. induction l as [|a l IH]; cbn; [reflexivity|]. unfold lsum in *. now rewrite IH. Qed.
Lemma fold_lsum {X} (l : list X) f : fold_right Rplus 0%R (map f l) = lsum l f.
Proof. induction l as [|a l IH]; cbn; [reflexivity|]. unfold lsum in *. now rewrite IH. Qed.
(** The hat source is symmetric about its centre. *)
Lemma hat_form sT sS p o : let d := subR p centre in b_hat Rops sT sS p o =
  (if (if Rgt_dec 30 (sqrt (dotR d d)) then true else false) || (if Req_EM_T (sqrt (dotR d d)) 30 then true else false) then - (dotR d o) * / (30 * sqrt (dotR d d)) + (sT - sS) * (1 - sqrt (dotR d d) / 30) else 0)%R.
Proof.
  cbv zeta. unfold b_hat. cbn [aadd asub amul adiv aneg asqrt agt aeq azero aone alit Rops]. cbn [t0 t1 t2].
  replace (IZR 100 / IZR 2)%R with 50%R by lra. unfold dotR, subR, centre. cbn [t0 t1 t2]. set (c := sqrt _). destruct (_ || _); [|reflexivity]. unfold Rdiv. ring.
Qed.
Lemma hat_moved I L sT sS p o : isometry I L -> I centre = centre -> b_hat Rops sT sS (I p) (L o) = b_hat Rops sT sS p o.
Proof. intros H C. rewrite !hat_form. cbv zeta. replace (subR (I p) centre) with (subR (I p) (I centre)) by now rewrite C. rewrite (iso_sub _ _ H), !(iso_dot _ _ H). reflexivity. Qed.

Section Runs.
  Context (dec : N -> R) (sm sm' : smesh) (I L : q3 R -> q3 R) (cell face node : N -> N) (vert : N -> nat -> nat) (q : angles R) (angle : nat -> nat).
  Notation nA := (q_num q). Notation om := (q_omega q). Notation wt := (q_weight q).
  Context (nG : nat) (t1 t2 s1 s2 : R). 
  Notation sT := (by_material Rops sm t1 t2). Notation sS := (by_material Rops sm s1 s2). Notation sT' := (by_material Rops sm' t1 t2). Notation sS' := (by_material Rops sm' s1 s2).
  Context (PB : problem_ok sm dec nA om sT) (PB' : problem_ok sm' dec nA om sT') (SM : mesh_small sm 1) (SM' : mesh_small sm' 1).
  Context (HI : isometry I L) (CE : I centre = centre) (MV : moved dec sm sm' I cell face node vert) (TU : turned q L angle).
  Let OK := pb_mesh _ _ _ _ _ PB. Let OK' := pb_mesh _ _ _ _ _ PB'. Let TT := pb_tets _ _ _ _ _ PB. Let TT' := pb_tets _ _ _ _ _ PB'.
  Lemma material_moved u1 u2 g sc : SM_cell sm g = Some sc -> by_material Rops sm' u1 u2 (cell g) = by_material Rops sm u1 u2 g.
  Proof using MV. intros H. destruct (mv_cell _ _ _ _ _ _ _ _ MV g sc H) as (sc' & H' & M & _). unfold by_material. now rewrite H, H', M. Qed.
  Lemma source_moved a g sc v G : a < nA -> SM_cell sm g = Some sc -> v < 4 -> b_source Rops sm' dec om sT' sS' (angle a) (cell g) (vert g v) G = b_source Rops sm dec om sT sS a g v G.
  Proof using PB HI CE MV TU.
    intros Ha H Hv. unfold b_source. rewrite !(material_moved _ _ g sc H), (proj1 (proj2 (tu_angle _ _ _ TU a Ha))). destruct (mv_cell _ _ _ _ _ _ _ _ MV g sc H) as (sc' & H' & _ & V & _). rewrite H, H'. cbn [obind].
    destruct (nth4_ex (sc_nodes sc) v Hv) as (n & Hn). rewrite Hn, (V v n Hn). cbn [obind]. destruct (cell_point dec sm OK g sc n H (nth_error_In _ _ Hn)) as (x & Hx). pose proof (mv_node _ _ _ _ _ _ _ _ MV n x Hx) as Hx'.
    change (b_point sm dec n) with (s_point sm dec n). change (b_point sm' dec (node n)) with (s_point sm' dec (node n)). rewrite Hx, Hx'. now apply hat_moved.
  Qed.
  (** Fields that agree when carried back. *)
  Definition carried (V V' : nat -> N -> value R) : Prop := forall a G g sc v, a < nA -> G < nG -> SM_cell sm g = Some sc -> v < 4 ->
    getBlock Rops (V' (angle a) (cell g)) (vert g v) G = getBlock Rops (V a g) v G.
  Lemma angles_sum (f : nat -> R) : overAngles nA wt f = overAngles nA wt (fun a => f (angle a)).
  Proof.
    unfold overAngles. rewrite <- (lsum_perm _ _ (fun a => wt a * f a)%R (map_perm nA angle (fun a H => proj1 (tu_angle _ _ _ TU a H)) (tu_apart _ _ _ TU))).
    rewrite lsum_map. apply lsum_ext. intros a Ha. apply in_seq in Ha. now rewrite (proj2 (proj2 (tu_angle _ _ _ TU a ltac:(lia)))).
  Qed.
  Lemma flux_moved V V' G g sc v : carried V V' -> G < nG -> SM_cell sm g = Some sc -> v < 4 -> b_flux Rops nA wt V' (cell g) (vert g v) G = b_flux Rops nA wt V g v G.
  Proof.
    intros C HG H Hv. rewrite !flux_fold. unfold s_flux. rewrite angles_sum. unfold overAngles. apply lsum_ext. intros a Ha. apply in_seq in Ha. f_equal. apply (C a G g sc v); auto; lia.
  Qed.
  Context (SZ : (N.of_nat (nA * length (sm_cells sm) * 4) * 1 < INT_MAX)%N).
  Context (SZ' : (N.of_nat (nA * length (sm_cells sm') * 4) * 1 < INT_MAX)%N) (pi : R).
  Lemma step_carried gs gs' V V' W W' : carried V V' -> b_sweep Rops sm dec om gs nG sT nA (b_emission Rops sm dec om nA wt pi sT sS V) W ->
    b_sweep Rops sm' dec om gs' nG sT' nA (b_emission Rops sm' dec om nA wt pi sT' sS' V') W' -> carried W W'.
  Proof.
    intros C B B'. destruct (one_rank sm dec nA om sT PB SM 1%N eq_refl SZ) as (tt & R0 & sTT & CF). pose proof (emission_transport sm dec nA om sT PB 1%N eq_refl SZ tt R0 sTT CF pi wt sS gs nG V W B) as T.
    destruct (one_rank sm' dec nA om sT' PB' SM' 1%N eq_refl SZ') as (tt' & R0' & sTT' & CF'). pose proof (emission_transport sm' dec nA om sT' PB' 1%N eq_refl SZ' tt' R0' sTT' CF' pi wt sS' gs' nG V' W' B') as T'.
    clear CF R0 tt sTT CF' R0' tt' sTT' B B'.
    assert (P : s_transport sm dec nA nG om sT (fun a G g v => scattered pi (sS g) (b_source Rops sm dec om sT sS a g v G) (s_flux nA wt (fun a G g v => getBlock Rops (V a g) v G) G g v))
      (fun a G g v => getBlock Rops (W' (angle a) (cell g)) (vert g v) G)).
    { intros a G g sc Ha HG H. destruct (tu_angle _ _ _ TU a Ha) as (Ha' & EO & _). destruct (mv_cell _ _ _ _ _ _ _ _ MV g sc H) as (sc' & H' & _).
      pose proof (T' (angle a) G (cell g) sc' Ha' HG H') as D. rewrite EO, (material_moved _ _ g sc H) in D.
      refine (dg_back dec sm sm' I L cell face node vert OK TT OK' TT' HI MV (pb_solid _ _ _ _ _ PB') (om a) (sT g) _ _ (fun h v => getBlock Rops (W' (angle a) h) v G) g sc H _ _ D).
      - intros lf Hlf. destruct (T a G g sc Ha HG H) as (p & area & nb & _ & SG & _). exists (area lf). auto.
      - intros v Hv. cbv beta. rewrite (material_moved _ _ g sc H), (source_moved a g sc v G Ha H Hv), <- !flux_fold, (flux_moved V V' G g sc v C HG H Hv). reflexivity. }
    intros a G g sc v Ha HG H Hv. exact (transport_unique sm dec nA om sT nG _ _ _ PB SM SZ P T a G g sc v Ha HG H Hv).
  Qed.
  (** Sums over the mesh. *)
  Lemma total_moved (f f' : N -> nat -> nat -> R) : (forall g sc v G, SM_cell sm g = Some sc -> v < 4 -> G < nG -> f' (cell g) (vert g v) G = f g v G) -> s_total sm' nG f' = s_total sm nG f.
  Proof.
    intros E. unfold s_total. rewrite (mv_onto _ _ _ _ _ _ _ _ MV). set (n := length (sm_cells sm)). rewrite !fold_lsum.
    assert (IN : forall i, i < n -> exists sc, SM_cell sm (N.of_nat i) = Some sc).
    { intros i Hi. unfold SM_cell. rewrite Nat2N.id. destruct (nth_error (sm_cells sm) i) eqn:K; [eauto|]. apply nth_error_None in K. unfold n in Hi. lia. }
    assert (PM : Permutation (map (fun i => N.to_nat (cell (N.of_nat i))) (seq 0 n)) (seq 0 n)).
    { apply map_perm.
      - intros i Hi. destruct (IN i Hi) as (sc & H). destruct (mv_cell _ _ _ _ _ _ _ _ MV _ sc H) as (sc' & H' & _). unfold n. rewrite <- (mv_onto _ _ _ _ _ _ _ _ MV). apply nth_error_Some. unfold SM_cell in H'. congruence.
      - intros i j Hi Hj Eij. apply N2Nat.inj in Eij. destruct (IN i Hi) as (si & Hsi), (IN j Hj) as (sj & Hsj). apply Nat2N.inj. exact (mv_cells _ _ _ _ _ _ _ _ MV _ _ _ _ Hsi Hsj Eij). }
    rewrite <- (lsum_perm _ _ _ PM).
    rewrite lsum_map. apply lsum_ext. intros i Hi. apply in_seq in Hi. destruct (IN i ltac:(lia)) as (sc & H). rewrite N2Nat.id. rewrite !fold_lsum.
    pose proof (vert_perm dec sm sm' I cell face node vert OK TT MV (N.of_nat i) sc H) as (P1 & P2).
    rewrite <- (lsum_perm _ _ _ (map_perm 4 (vert (N.of_nat i)) P1 P2)), lsum_map. apply lsum_ext. intros v Hv. apply in_seq in Hv. rewrite !fold_lsum. apply lsum_ext. intros G HG. apply in_seq in HG. apply (E _ sc); auto; lia.
  Qed.
  Lemma change_moved V V' W W' : carried V V' -> carried W W' -> s_change sm' nA wt nG V' W' = s_change sm nA wt nG V W.
  Proof.
    intros C D. unfold s_change. apply f_equal2; apply total_moved; intros g sc v G H Hv HG.
    - now rewrite (flux_moved V V' G g sc v C HG H Hv), (flux_moved W W' G g sc v D HG H Hv).
    - now rewrite (flux_moved W W' G g sc v D HG H Hv).
  Qed.
  Context (gs gs' : gaussElim) (iterMax : nat) (errMax : R).
  Notation run := (s_run sm dec om nA wt pi gs nG sT sS iterMax errMax). Notation run' := (s_run sm' dec om nA wt pi gs' nG sT' sS' iterMax errMax).
  Lemma run_moved n e V : run n e V -> forall e' V', run' n e' V' -> e' = e /\ carried V V'.
  Proof.
    induction 1 as [|n e V W H IH Ln E B NN]; intros e' W' H'.
    - inversion H'; subst. split; [reflexivity|]. intros a G g sc v _ _ _ _. reflexivity.
    - inversion H' as [|? e1 V' ? R1 L1 E1 B1 NN1]; subst. destruct (IH _ _ R1) as (-> & C). pose proof (step_carried gs gs' V V' W W' C B B1) as D. split; [now apply change_moved|exact D].
  Qed.
  Lemma before m o t s n e V : s_run m dec om nA wt pi o nG t s iterMax errMax n e V -> forall k, k < n -> exists e' V', s_run m dec om nA wt pi o nG t s iterMax errMax k e' V' /\ k < iterMax /\ (e' > errMax)%R.
  Proof. induction 1 as [|n e V V' H IH Ln E B NN]; intros k Hk; [lia|]. destruct (Nat.eq_dec k n) as [->|NE]; [eauto 6|apply IH; lia]. Qed.
  Lemma ends_moved n n' V V' : s_ends sm dec om nA wt pi gs nG sT sS iterMax errMax n V -> s_ends sm' dec om nA wt pi gs' nG sT' sS' iterMax errMax n' V' -> n' = n /\ carried V V'.
  Proof.
    intros (e & R1 & E) (e' & R' & E'). assert (n' = n).
    { destruct (Nat.lt_total n n') as [LT|[->|LT]]; [exfalso|reflexivity|exfalso].
      - destruct (before _ _ _ _ _ _ _ R' n LT) as (e1 & V1 & H1 & L1 & G1). destruct (run_moved _ _ _ R1 _ _ H1) as (-> & _). destruct E; [lia|lra].
      - destruct (before _ _ _ _ _ _ _ R1 n' LT) as (e1 & V1 & H1 & L1 & G1). destruct (run_moved _ _ _ H1 _ _ R') as (-> & _). destruct E'; [lia|lra]. }
    subst n'. split; [reflexivity|]. exact (proj2 (run_moved _ _ _ R1 _ _ R')).
  Qed.
End Runs.
