(** C73: what the program prints about its result. *)
From Coq Require Import Reals Lra Permutation String.
From Flocq Require Import Core IEEE754.BinarySingleNaN IEEE754.Binary IEEE754.Bits.
From Verif Require Import Prelude Bytes LayoutModel PsiFileModel PsiFileSpec DeckModel MeshModel MeshSpec CreateModel CreateSpec CreateProofs PropertiesCreate TychoModel TychoSpec GeometryModel GaussModel TransportModel TransportSpec TraverseModel TraverseRun SweepModel FluxModel FluxSpec ProblemModel EnergyProofs
  ViewModel ViewSpec ViewProofs PropertiesView BitsModel BitsSpec BitsProofs PropertiesBits DoubleModel DoubleSpec PropertiesDouble MainModel MainSpec MainProofs MainExact PropertiesMain PropertiesMainEx MainTransport PropertiesMainExact MainAllModel MainAllSpec PropertiesMainAll PropertiesMainAllEx PrintModel PrintSpec PrintProofs.

(** The run is one of C70. *)
Lemma print_run {T} (A : arith T) dec enc stod ltb quadrature pi tol fname deck mesh np threads pr gsum gmax iters err diff out :
  mainPrint A dec enc stod ltb quadrature pi tol fname deck mesh np threads pr gsum gmax iters err diff out -> mainRun A dec enc stod ltb quadrature pi tol fname deck mesh np threads pr gsum iters out.
Proof. intros (cfg & q & t & xs & psi & A1 & A2 & A3 & A4 & A5 & A6 & _ & O). exists cfg, q, t, xs, psi. auto 10. Qed.
(** And every run of C70 prints something. *)
Lemma run_print {T} (A : arith T) dec enc stod ltb quadrature pi tol fname deck mesh np threads pr gsum gmax iters out :
  mainRun A dec enc stod ltb quadrature pi tol fname deck mesh np threads pr gsum iters out -> exists err diff, mainPrint A dec enc stod ltb quadrature pi tol fname deck mesh np threads pr gsum gmax iters err diff out.
Proof. intros (cfg & q & t & xs & psi & A1 & A2 & A3 & A4 & A5 & A6 & O). do 2 eexists. exists cfg, q, t, xs, psi. do 6 (split; [eassumption|]). split; [split; reflexivity|exact O]. Qed.

(** The largest size of a flux [flux angle cell vertex] in the cells of one rank: zero if no size compares greater, else the size of a value there that compares
    greater than zero or than another size. *)
Definition largest {T} (A : arith T) (pv : list N) (nA r : nat) (flux : nat -> N -> nat -> T) (e : T) : Prop :=
  (e = azero A /\ forall a g v, a < nA -> owner pv g = Some (N.of_nat r) -> v < 4 -> agt A (aabs A (flux a g v)) (azero A) = false) \/
  exists a g v e', a < nA /\ owner pv g = Some (N.of_nat r) /\ v < 4 /\ e = aabs A (flux a g v) /\ agt A e e' = true /\ (e' = azero A \/ exists x, e' = aabs A x).
(** The file with the same flux in all groups. *)
Definition group_file {T} (enc : T -> N) (sm : smesh) (cfg : config T) (q : angles T) (flux : nat -> N -> nat -> T) : bytes :=
  psiImage (N.to_nat (cNGroups cfg)) 4 (q_num q) (List.length (sm_cells sm)) (fun _ v a c => enc (flux a (N.of_nat c) v)).

Lemma group_file_same {T} (A : arith T) (enc : T -> N) sm (cfg : config T) (q : angles T) Val flux :
  (forall a g sc v G, a < q_num q -> SM_cell sm g = Some sc -> v < 4 -> G < N.to_nat (cNGroups cfg) -> getBlock A (Val a g) v G = flux a g v) -> flux_file A enc sm cfg q Val = group_file enc sm cfg q flux.
Proof.
  intros U. unfold flux_file, group_file, psiImage. do 5 f_equal.
  assert (FM : forall X (f g : nat -> list X) l, (forall x, In x l -> f x = g x) -> flat_map f l = flat_map g l).
  { intros X f g l E. induction l as [|x l IHl]; [reflexivity|]. cbn. rewrite E by now left. rewrite IHl; [reflexivity|]. intros y Hy. apply E. now right. }
  apply FM. intros c Hc. apply FM. intros a Ha. apply FM. intros v Hv. apply FM. intros G HGr. apply in_seq in Hc, Ha, Hv, HGr.
  destruct (SM_cell sm (N.of_nat c)) as [sc|] eqn:HS; [|unfold SM_cell in HS; rewrite Nat2N.id in HS; apply nth_error_None in HS; lia].
  now rewrite (U a (N.of_nat c) sc v G) by (auto; lia).
Qed.

Lemma parts_ok {T} (A : arith T) dec ltb sm pv np (q : angles T) nG t psi flux : exact_minus A -> bits_ok A sm dec (q_omega q) (q_num q) -> partition_vector_ok sm pv np -> mesh_small sm np -> (exists decR, compares sm decR ltb) ->
  program_reads sm pv np ltb t -> 0 < nG ->
  (forall r c g sc a v G, r < np -> getLGCell (t r) c = Some g -> SM_cell sm g = Some sc -> a < q_num q -> v < 4 -> G < nG -> psi r c a v G = flux a g v) ->
  forall r, r < np -> exists e, largest A pv (q_num q) r flux e /\ diffRank A nG (q_num q) (tm_nCells (t r)) (psi r) = adiv A (azero A) e.
Proof.
  intros EM BO PV SM CE RD HG0 PSI r Hr. destruct (reads_parts sm pv np ltb t (bo_mesh _ _ _ _ _ BO) PV SM RD) as (m & CR & R1). destruct CE as (d & CP).
  assert (AT : forall c, c < tm_nCells (t r) -> exists g sc, getLGCell (t r) c = Some g /\ SM_cell sm g = Some sc /\ owner pv g = Some (N.of_nat r)).
  { intros c Hc. pose proof (lg_length A dec ltb sm pv np q BO PV SM (ex_intro _ d CP) t RD r Hr) as LL. unfold getLGCell. destruct (nth_error (tm_lGCells (t r)) c) as [g|] eqn:EG; [|apply nth_error_None in EG; lia].
    destruct (gid_cell sm pv np m ltb d t (bo_mesh _ _ _ _ _ BO) (bo_tets _ _ _ _ _ BO) PV CR CP R1 r c g Hr EG) as (_ & _ & sc & _ & _ & _ & HS & OW & _). eauto. }
  assert (ON : forall g, owner pv g = Some (N.of_nat r) -> exists c, c < tm_nCells (t r) /\ getLGCell (t r) c = Some g).
  { intros g OW. assert (HS : exists sc, SM_cell sm g = Some sc).
    { unfold SM_cell. destruct (nth_error (sm_cells sm) (N.to_nat g)) eqn:E; [eauto|]. apply nth_error_None in E. unfold owner in OW. destruct PV as (L & _). assert (X : nth_error pv (N.to_nat g) = None) by (apply nth_error_None; lia). congruence. }
    destruct HS as (sc & HS). destruct (gid_onto sm pv np m ltb d t (bo_mesh _ _ _ _ _ BO) (bo_tets _ _ _ _ _ BO) PV CR CP R1 g sc HS) as (r' & c & Hr' & EG).
    destruct (gid_cell sm pv np m ltb d t (bo_mesh _ _ _ _ _ BO) (bo_tets _ _ _ _ _ BO) PV CR CP R1 r' c g Hr' EG) as (_ & _ & _ & _ & _ & _ & _ & OW' & Hc & _).
    assert (r' = r) by (rewrite OW in OW'; apply Some_inj in OW'; lia). subst r'. eauto. }
  unfold diffRank. pose proof (diff_same A EM nG (q_num q) (tm_nCells (t r)) (fun G v a c => psi r c a v G)) as DS. destruct (diffLoops A nG (q_num q) (tm_nCells (t r)) (fun G v a c => psi r c a v G)) as [md e]. cbn [fst snd] in DS.
  assert (PS : forall c a v G, c < tm_nCells (t r) -> a < q_num q -> v < 4 -> G < nG -> exists g sc, getLGCell (t r) c = Some g /\ SM_cell sm g = Some sc /\ owner pv g = Some (N.of_nat r) /\ psi r c a v G = flux a g v).
  { intros c a v G Hc Ha Hv HGr. destruct (AT c Hc) as (g & sc & EG & HS & OW). exists g, sc. repeat split; auto. now apply (PSI r c g sc a v G). }
  destruct DS as (-> & SZ).
  { intros c a v G Hc Ha Hv HGr. destruct (PS c a v G Hc Ha Hv HGr) as (g & sc & EG & HS & _ & E). destruct (PS c a v 0 Hc Ha Hv HG0) as (g' & sc' & EG' & _ & _ & E'). rewrite E, E'. rewrite EG in EG'. apply Some_inj in EG'. now subst. }
  exists e. split; [|reflexivity]. destruct SZ as [(Z & N)|(c & a & v & e' & Hc & Ha & Hv & Ee & G & E')].
  + left. split; [exact Z|]. intros a g v Ha OW Hv. destruct (ON g OW) as (c & Hc & EG). destruct (PS c a v 0 Hc Ha Hv HG0) as (g' & _ & EG' & _ & _ & E). rewrite EG in EG'. apply Some_inj in EG'. subst g'. rewrite <- E. now apply N.
  + right. destruct (PS c a v 0 Hc Ha Hv HG0) as (g & sc & EG & _ & OW & E). exists a, g, v, e'. rewrite <- E. auto 10.
Qed.
(** All energy groups get the same flux, bit for bit, in the file and in what diffBetweenGroups compares: every rank contributes zero over the largest size
    of its flux. *)
Theorem C73_groups : forall T (A : arith T) dec enc stod ltb quadrature pi tol fname deck sm cfg q pv np threads mesh pr gsum gmax iters err diff out,
  exact_minus A -> setting A dec stod quadrature tol fname deck sm cfg q -> launch ltb sm pv np threads mesh ->
  mainPrint A dec enc stod ltb quadrature pi tol fname deck mesh np threads pr gsum gmax iters err diff out ->
  exists Val flux part, serial_flux A dec pi sm cfg q (N.to_nat iters) Val /\
    (forall a g sc v G, a < q_num q -> SM_cell sm g = Some sc -> v < 4 -> G < N.to_nat (cNGroups cfg) -> getBlock A (Val a g) v G = flux a g v) /\
    match out with Some (_, f) => forall p, f p = nth_error (group_file enc sm cfg q flux) (N.to_nat p) | None => True end /\
    diff = gmax part /\ forall r, r < np -> exists e, largest A pv (q_num q) r flux e /\ part r = adiv A (azero A) e.
Proof.
  intros T A dec enc stod ltb quadrature pi tol fname deck sm cfg q pv np threads mesh pr gsum gmax iters err diff out EM SE LA M.
  pose proof (some_rank A dec stod ltb quadrature tol fname deck sm cfg q SE pv np threads mesh LA) as NP.
  pose proof M as (cfg' & q' & t & xs & psi & E1 & E2 & CM & XS & SI & SO & (_ & PR) & OUT).
  pose proof (reads_mesh A dec ltb sm q pv np threads mesh LA t) as RD. destruct SE as [D1 D2 se_mesh0 se_tol0 se_cells0 se_some0 se_groups0 se_size0], LA as [la_partition0 la_small0 la_compares0 la_file0 la_threads0]. rewrite D1 in E1. apply Some_inj in E1. subst cfg'. rewrite D2 in E2. apply Some_inj in E2. subst q'. specialize (RD CM).
  assert (HG0 : 0 < N.to_nat (cNGroups cfg)) by lia.
  destruct (solve_ok A dec enc ltb pi sm pv np cfg q threads se_mesh0 la_partition0 la_small0 la_compares0 la_threads0 NP HG0 se_some0 se_cells0 se_size0 t RD xs XS tol se_tol0 pr gsum iters psi SO) as (Val & H & IT & _).
  pose proof (first_iterate A sm dec (q_omega q) (q_num q) (q_weight q) pi _ _ _ _ HG0 _ _ IT) as IT1.
  pose proof (iterate_unique A dec enc ltb pi sm pv np cfg q threads se_mesh0 la_partition0 la_small0 la_compares0 la_threads0 NP HG0 se_some0 se_cells0 se_size0 t RD xs XS (N.to_nat iters) _ _ IT IT1) as U. cbv beta in U.
  set (flux := fun a g v => getBlock A (Val a g) v 0).
  assert (UF : forall a g sc v G, a < q_num q -> SM_cell sm g = Some sc -> v < 4 -> G < N.to_nat (cNGroups cfg) -> getBlock A (Val a g) v G = flux a g v).
  { intros a g sc v G Ha HS Hv HGr. rewrite (vsame_get A _ _ _ v G (U a g sc Ha HS) Hv HGr). apply first_block. }
  exists Val, flux, (fun r => diffRank A (N.to_nat (cNGroups cfg)) (q_num q) (tm_nCells (t r)) (psi r)).
  split; [unfold serial_flux; rewrite <- gauss_named; exact IT|]. split; [exact UF|]. split; [|split; [exact PR|]].
  - destruct out as [(name, f)|]; [|exact I]. destruct OUT as (_ & _ & WF). intros p.
    rewrite (proj2 (write_ok A dec enc ltb pi sm pv np cfg q threads se_mesh0 la_partition0 la_small0 la_compares0 la_threads0 NP HG0 se_some0 se_cells0 se_size0 t RD psi Val H) f WF p). f_equal. exact (group_file_same A enc sm cfg q Val flux UF).
  - intros r Hr. apply (parts_ok A dec ltb sm pv np q _ t psi flux EM se_mesh0 la_partition0 la_small0 la_compares0 RD HG0); [|exact Hr].
    intros r' c g sc a v G Hr' EG HS Ha Hv HGr. rewrite (H r' c g a v G Hr' EG Ha Hv HGr). now apply (UF a g sc).
Qed.
Lemma exact_minus_R : exact_minus Rops.
Proof. intros x. cbn. rewrite Rminus_diag_eq, Rabs_R0 by reflexivity. destruct (Rgt_dec 0 0); [lra|reflexivity]. Qed.
Definition Dz : binary64 := B754_zero 53 1024 false.
Lemma D0 : D_of_Z 0 = Dz.
Proof. reflexivity. Qed.
Lemma exact_minus_D : exact_minus Dops.
Proof.
  intros x. cbn [agt aabs asub azero Dops]. rewrite D0. destruct (is_finite 53 1024 x) eqn:F.
  - pose proof (Bminus_correct 53 1024 eq_refl eq_refl binop_nan_pl64 mode_NE x x F F) as C.
    rewrite Rminus_diag_eq, round_0, Rabs_R0 in C by (try reflexivity; apply valid_rnd_round_mode). rewrite Rlt_bool_true in C by apply bpow_gt_0. destruct C as (V & FM & _).
    change (b64_minus mode_NE x x) with (Bminus 53 1024 eq_refl eq_refl binop_nan_pl64 mode_NE x x).
    unfold b64_compare. rewrite Bcompare_correct; [|unfold b64_abs; now rewrite is_finite_Babs|reflexivity].
    unfold b64_abs. rewrite B2R_Babs, V, Rabs_R0. cbn [B2R Dz]. rewrite Rcompare_Eq by reflexivity. reflexivity.
  - destruct x as [s|s|s pl e|s m e B]; try discriminate F; [destruct s|]; reflexivity.
Qed.
(** Zero over a size, in double precision and in exact arithmetic. *)
Lemma quotient_D pv nA r flux e : largest Dops pv nA r flux e ->
  (adiv Dops (azero Dops) e = azero Dops /\ exists a g v, a < nA /\ owner pv g = Some (N.of_nat r) /\ v < 4 /\ agt Dops (aabs Dops (flux a g v)) (azero Dops) = true) \/
  (is_nan 53 1024 (adiv Dops (azero Dops) e) = true /\ forall a g v, a < nA -> owner pv g = Some (N.of_nat r) -> v < 4 -> agt Dops (aabs Dops (flux a g v)) (azero Dops) = false).
Proof.
  cbn [adiv azero agt aabs Dops]. rewrite D0. intros [(-> & K)|(a & g & v & e' & Ha & OW & Hv & -> & G & E')].
  - right. cbn [azero Dops]. rewrite D0. split; [reflexivity|exact K].
  - left. cbn [azero aabs agt Dops] in *. rewrite D0 in E'.
    assert (P : b64_div mode_NE Dz (b64_abs (flux a g v)) = Dz /\ match b64_compare (b64_abs (flux a g v)) Dz with Some Gt => true | _ => false end = true); [|split; [apply P|exists a, g, v; tauto]].
    destruct (flux a g v) as [s|s|s pl H|s m x B]; [|split; reflexivity|discriminate G|split; reflexivity].
    exfalso. destruct E' as [->|([s'|s'|s' pl' H'|s' m' x' B'] & ->)]; discriminate G.
Qed.
Lemma quotient_R pv nA r flux e : largest Rops pv nA r flux e ->
  ((0 < e)%R /\ exists a g v, a < nA /\ owner pv g = Some (N.of_nat r) /\ v < 4 /\ flux a g v <> 0%R) \/ (e = 0%R /\ forall a g v, a < nA -> owner pv g = Some (N.of_nat r) -> v < 4 -> flux a g v = 0%R).
Proof.
  cbn [azero agt aabs Rops]. intros [(-> & K)|(a & g & v & e' & Ha & OW & Hv & -> & G & E')]; cbn [azero agt aabs Rops] in *.
  - right. split; [reflexivity|]. intros a g v Ha OW Hv. specialize (K a g v Ha OW Hv). destruct (Rgt_dec (Rabs (flux a g v)) 0) as [|NG]; [discriminate|]. destruct (Req_dec (flux a g v) 0) as [|NE]; [auto|]. apply Rabs_pos_lt in NE. lra.
  - left. destruct (Rgt_dec (Rabs (flux a g v)) e') as [G'|]; [|discriminate]. assert (0 <= e')%R by (destruct E' as [->|(x & ->)]; [lra|apply Rabs_pos]). split; [lra|]. exists a, g, v. repeat split; auto. intros Z. rewrite Z, Rabs_R0 in G'. lra.
Qed.

(** In double precision: what a rank contributes to the printed difference is +0, or it is not a number because the rank has only zeros and NaNs. *)
Theorem C73_groups_doubles : forall dec enc stod ltb quadrature pi tol fname deck sm cfg q pv np threads mesh pr gsum gmax iters err diff out,
  setting Dops dec stod quadrature tol fname deck sm cfg q -> launch ltb sm pv np threads mesh ->
  mainPrint Dops dec enc stod ltb quadrature pi tol fname deck mesh np threads pr gsum gmax iters err diff out ->
  exists flux part, match out with Some (_, f) => forall p, f p = nth_error (group_file enc sm cfg q flux) (N.to_nat p) | None => True end /\
    diff = gmax part /\ forall r, r < np ->
      (part r = azero Dops /\ exists a g v, a < q_num q /\ owner pv g = Some (N.of_nat r) /\ v < 4 /\ agt Dops (aabs Dops (flux a g v)) (azero Dops) = true) \/
      (is_nan 53 1024 (part r) = true /\ forall a g v, a < q_num q -> owner pv g = Some (N.of_nat r) -> v < 4 -> agt Dops (aabs Dops (flux a g v)) (azero Dops) = false).
Proof.
  intros dec enc stod ltb quadrature pi tol fname deck sm cfg q pv np threads mesh pr gsum gmax iters err diff out SE LA M.
  destruct (C73_groups _ _ _ _ _ _ _ _ _ _ _ _ _ _ _ _ _ _ _ _ _ _ _ _ _ exact_minus_D SE LA M) as (Val & flux & part & _ & _ & F & D & P). exists flux, part. split; [exact F|]. split; [exact D|].
  intros r Hr. destruct (P r Hr) as (e & L & ->). exact (quotient_D pv (q_num q) r flux e L).
Qed.

(** ** The error *)
Lemma error_same sm dec nA nG psi psi' e e' : (forall a G g sc v, a < nA -> G < nG -> SM_cell sm g = Some sc -> v < 4 -> psi a G g v = psi' a G g v) -> s_error sm dec nA nG psi e -> s_error sm dec nA nG psi' e' -> e = e'.
Proof.
  intros U (h & H & ->) (h' & H' & ->).
  assert (S : forall f f' : N -> nat -> nat -> R, (forall g sc a G, SM_cell sm g = Some sc -> a < nA -> G < nG -> f g a G = f' g a G) -> s_sum sm nA nG f = s_sum sm nA nG f').
  { intros f f' E. unfold s_sum. apply rsum_ext. intros g Hg. apply in_seq in Hg. apply rsum_ext. intros a Ha. apply in_seq in Ha. apply rsum_ext. intros G HGr. apply in_seq in HGr.
    destruct (SM_cell sm (N.of_nat g)) as [sc|] eqn:HS; [|unfold SM_cell in HS; rewrite Nat2N.id in HS; apply nth_error_None in HS; lia]. apply (E _ sc); auto; lia. }
  assert (AV : forall g sc a G, SM_cell sm g = Some sc -> a < nA -> G < nG -> s_average psi a G g = s_average psi' a G g) by (intros g sc a G HS Ha HGr; unfold s_average; now rewrite !(U a G g sc) by (auto; lia)).
  rewrite (S (fun g a G => (s_average psi a G g ^ 2)%R) (fun g a G => (s_average psi' a G g ^ 2)%R)) by (intros g sc a G HS Ha HGr; now rewrite (AV g sc)).
  do 2 f_equal. apply S. intros g sc a G HS Ha HGr. rewrite (AV g sc a G HS Ha HGr).
  destruct (H g sc HS) as (c & (P & EP & ->) & ->). destruct (H' g sc HS) as (c' & (P' & EP' & ->) & ->). rewrite EP in EP'. apply Some_inj in EP'. now subst P'.
Qed.
Lemma serial_same {T} (A : arith T) dec stod ltb quadrature pi tol fname deck sm cfg q pv np threads mesh n V V' : setting A dec stod quadrature tol fname deck sm cfg q -> launch ltb sm pv np threads mesh -> two_materials sm ->
  serial_flux A dec pi sm cfg q n V -> serial_flux A dec pi sm cfg q n V' -> forall a G g sc v, a < q_num q -> G < N.to_nat (cNGroups cfg) -> SM_cell sm g = Some sc -> v < 4 -> getBlock A (V a g) v G = getBlock A (V' a g) v G.
Proof.
  intros SE LA TM H H' a G g sc v Ha HGr HS Hv. unfold serial_flux in H, H'. rewrite <- gauss_named in H, H'.
  pose proof (some_rank A dec stod ltb quadrature tol fname deck sm cfg q SE pv np threads mesh LA) as NP. destruct (program_meshes A dec stod ltb quadrature tol fname deck sm cfg q pv np threads mesh SE LA TM) as (t & xs & RD & _ & XS).
  destruct SE as [D1 D2 se_mesh0 se_tol0 se_cells0 se_some0 se_groups0 se_size0], LA as [la_partition0 la_small0 la_compares0 la_file0 la_threads0]. assert (HG0 : 0 < N.to_nat (cNGroups cfg)) by lia.
  apply (vsame_get A (N.to_nat (cNGroups cfg))); auto.
  exact (iterate_unique A dec (fun _ => 0%N) ltb pi sm pv np cfg q threads se_mesh0 la_partition0 la_small0 la_compares0 la_threads0 NP HG0 se_some0 se_cells0 se_size0 t RD xs XS n V V' H H' a g sc Ha HS).
Qed.
(** In exact arithmetic the error that is printed is that of the flux on the serial mesh. *)
Theorem C73_error : forall dec enc stod ltb quadrature pi tol fname deck sm cfg q pv np threads mesh pr gsum gmax iters err diff out,
  setting Rops dec stod quadrature tol fname deck sm cfg q -> launch ltb sm pv np threads mesh -> sums np gsum ->
  mainPrint Rops dec enc stod ltb quadrature pi tol fname deck mesh np threads pr gsum gmax iters err diff out ->
  exists Val, serial_flux Rops dec pi sm cfg q (N.to_nat iters) Val /\ s_error sm dec (q_num q) (N.to_nat (cNGroups cfg)) (fun a G g v => getBlock Rops (Val a g) v G) err.
Proof.
  intros dec enc stod ltb quadrature pi tol fname deck sm cfg q pv np threads mesh pr gsum gmax iters err diff out SE LA GS M.
  pose proof (some_rank Rops dec stod ltb quadrature tol fname deck sm cfg q SE pv np threads mesh LA) as NP.
  pose proof M as (cfg' & q' & t & xs & psi & E1 & E2 & CM & XS & SI & SO & (PR & _) & OUT).
  pose proof (reads_mesh Rops dec ltb sm q pv np threads mesh LA t) as RD. destruct SE as [D1 D2 se_mesh0 se_tol0 se_cells0 se_some0 se_groups0 se_size0], LA as [la_partition0 la_small0 la_compares0 la_file0 la_threads0]. rewrite D1 in E1. apply Some_inj in E1. subst cfg'. rewrite D2 in E2. apply Some_inj in E2. subst q'. specialize (RD CM).
  assert (HG0 : 0 < N.to_nat (cNGroups cfg)) by lia.
  destruct (solve_ok Rops dec enc ltb pi sm pv np cfg q threads se_mesh0 la_partition0 la_small0 la_compares0 la_threads0 NP HG0 se_some0 se_cells0 se_size0 t RD xs XS tol se_tol0 pr gsum iters psi SO) as (Val & H & IT & _).
  exists Val. split; [unfold serial_flux; rewrite <- gauss_named; exact IT|]. subst err.
  apply (error_ok dec enc ltb pi sm pv np cfg q threads se_mesh0 la_partition0 la_small0 la_compares0 la_threads0 NP HG0 se_some0 se_cells0 se_size0 t RD gsum psi); [exact GS|]. intros r c g a v G Hr HG Ha Hv HGr. exact (H r c g a v G Hr HG Ha Hv HGr).
Qed.
(** So two runs of the same deck on the same mesh, however partitioned and launched, print the same error. *)
Theorem C73_error_independent : forall dec enc stod ltb quadrature pi tol fname deck sm cfg q pv1 np1 threads1 mesh1 pr1 gsum1 gmax1 iters1 err1 diff1 out1 pv2 np2 threads2 mesh2 pr2 gsum2 gmax2 iters2 err2 diff2 out2,
  setting Rops dec stod quadrature tol fname deck sm cfg q -> launch ltb sm pv1 np1 threads1 mesh1 -> launch ltb sm pv2 np2 threads2 mesh2 -> sums np1 gsum1 -> sums np2 gsum2 ->
  mainPrint Rops dec enc stod ltb quadrature pi tol fname deck mesh1 np1 threads1 pr1 gsum1 gmax1 iters1 err1 diff1 out1 ->
  mainPrint Rops dec enc stod ltb quadrature pi tol fname deck mesh2 np2 threads2 pr2 gsum2 gmax2 iters2 err2 diff2 out2 -> err1 = err2.
Proof.
  intros dec enc stod ltb quadrature pi tol fname deck sm cfg q pv1 np1 threads1 mesh1 pr1 gsum1 gmax1 iters1 err1 diff1 out1 pv2 np2 threads2 mesh2 pr2 gsum2 gmax2 iters2 err2 diff2 out2 SE L1 L2 G1 G2 M1 M2.
  destruct (C73_error _ _ _ _ _ _ _ _ _ _ _ _ _ _ _ _ _ _ _ _ _ _ _ SE L1 G1 M1) as (V1 & F1 & E1). destruct (C73_error _ _ _ _ _ _ _ _ _ _ _ _ _ _ _ _ _ _ _ _ _ _ _ SE L2 G2 M2) as (V2 & F2 & E2).
  apply print_run in M1, M2. destruct (C70_exact_partition_independent _ _ _ _ _ _ _ _ _ _ _ _ _ _ _ _ _ _ _ _ _ _ _ _ _ _ _ _ SE L1 L2 G1 G2 M1 M2) as (-> & _).
  destruct (C70_output _ _ _ _ _ _ _ _ _ _ _ _ _ _ _ _ _ _ _ _ _ _ SE L1 M1) as (TM & _).
  apply (error_same sm dec (q_num q) (N.to_nat (cNGroups cfg)) _ _ _ _ (serial_same Rops dec stod ltb quadrature pi tol fname deck sm cfg q pv1 np1 threads1 mesh1 _ V1 V2 SE L1 TM F1 F2) E1 E2).
Qed.

(** ** All solvers *)
(** The solution of the deck is the same in all groups. *)
Lemma solution_groups dec pi sm cfg q sol : 0 < N.to_nat (cNGroups cfg) -> deck_solution dec pi sm cfg q sol -> deck_solution dec pi sm cfg q (fun a _ g v => sol a 0 g v).
Proof. intros HG0 S a G g sc Ha HGr HS. exact (S a 0 g sc Ha HG0 HS). Qed.
(** A deck whose solver does not iterate prints the error of the solution, and its groups agree. *)
Theorem C73_direct : forall dec enc stod ltb quadrature pi tol kspPhi kspVec kspBoth fname deck sm cfg q k pv np threads mesh,
  runnable dec stod ltb quadrature pi tol fname deck sm cfg q k pv np threads mesh -> (k < 1)%R ->
  solves_exactly dec ltb cfg q mesh np kspPhi kspVec kspBoth -> direct (List.length (sm_cells sm)) cfg ->
  exists flux, deck_solution dec pi sm cfg q (fun a _ g v => flux a g v) /\
    forall pr gsum gmax its err diff out, sums np gsum ->
    mainAllPrint dec enc stod ltb quadrature pi tol kspPhi kspVec kspBoth fname deck mesh np threads pr gsum gmax its err diff out ->
    s_error sm dec (q_num q) (N.to_nat (cNGroups cfg)) (fun a _ g v => flux a g v) err /\
    exists part, diff = gmax part /\ forall r, r < np -> (exists a g v, a < q_num q /\ owner pv g = Some (N.of_nat r) /\ v < 4 /\ flux a g v <> 0%R) -> part r = 0%R.
Proof.
  intros dec enc stod ltb quadrature pi tol kspPhi kspVec kspBoth fname deck sm cfg q k pv np threads mesh [SE LA CMP MX PB SC] K1 KS D.
  pose proof (NP dec stod ltb quadrature tol fname deck sm cfg q SE pv np threads mesh LA) as N0. pose proof (HG0 dec stod quadrature tol fname deck sm cfg q SE) as G0.
  destruct (deck_well_posed dec stod quadrature pi tol fname deck sm cfg q np k SE N0 (la_small _ _ _ _ _ _ LA) PB SC K1) as (sol & S & U). exists (fun a g v => sol a 0 g v).
  pose proof (solution_groups dec pi sm cfg q sol G0 S) as S0. split; [exact S0|].
  intros pr gsum gmax its err diff out GS (cfg' & q' & psi & E1 & E2 & HM & HX & SO & (PE & PD) & _). rewrite (se_deck _ _ _ _ _ _ _ _ _ _ SE) in E1. apply Some_inj in E1. subst cfg'. rewrite (se_angles _ _ _ _ _ _ _ _ _ _ SE) in E2. apply Some_inj in E2. subst q'.
  pose proof (direct_deck dec enc stod ltb quadrature pi tol fname deck sm cfg q SE pv np threads mesh LA CMP MX PB HM HX k SC K1 kspPhi kspVec kspBoth KS pr gsum its psi D SO) as SP.
  pose proof (gathered dec enc stod ltb quadrature pi tol fname deck sm cfg q SE pv np threads mesh LA CMP MX PB HM HX psi) as GA.
  pose proof (RD dec ltb sm q pv np threads mesh LA HM) as RD0. set (t := meshes dec ltb q mesh np) in *.
  assert (PSI : forall r c g sc a v G, r < np -> getLGCell (t r) c = Some g -> SM_cell sm g = Some sc -> a < q_num q -> v < 4 -> G < N.to_nat (cNGroups cfg) -> psi r c a v G = sol a 0 g v).
  { intros r c g sc a v G Hr HG HS Ha Hv HGr. rewrite (GA r c g a v G Hr HG Ha Hv HGr). rewrite <- (U _ SP a G g sc v Ha HGr HS Hv). exact (U _ S0 a G g sc v Ha HGr HS Hv). }
  split.
  - subst err. apply (error_ok dec enc ltb pi sm pv np cfg q threads (se_mesh _ _ _ _ _ _ _ _ _ _ SE) (la_partition _ _ _ _ _ _ LA) (la_small _ _ _ _ _ _ LA) (ex_intro _ dec CMP) (la_threads _ _ _ _ _ _ LA) N0 G0 (se_some _ _ _ _ _ _ _ _ _ _ SE) (se_cells _ _ _ _ _ _ _ _ _ _ SE) (se_size _ _ _ _ _ _ _ _ _ _ SE) t RD0); [exact GS|].
    intros r c g a v G Hr HG Ha Hv HGr. destruct (reads_parts sm pv np ltb t (bo_mesh _ _ _ _ _ (se_mesh _ _ _ _ _ _ _ _ _ _ SE)) (la_partition _ _ _ _ _ _ LA) (la_small _ _ _ _ _ _ LA) RD0) as (m & CR & R1).
    destruct (gid_cell sm pv np m ltb dec t (bo_mesh _ _ _ _ _ (se_mesh _ _ _ _ _ _ _ _ _ _ SE)) (bo_tets _ _ _ _ _ (se_mesh _ _ _ _ _ _ _ _ _ _ SE)) (la_partition _ _ _ _ _ _ LA) CR CMP R1 r c g Hr HG) as (_ & _ & sc & _ & _ & _ & HS & _).
    exact (PSI r c g sc a v G Hr HG HS Ha Hv HGr).
  - exists (fun r => diffRank Rops (N.to_nat (cNGroups cfg)) (q_num q) (tm_nCells (t r)) (psi r)). split; [exact PD|]. intros r Hr NZ.
    destruct (parts_ok Rops dec ltb sm pv np q _ t psi (fun a g v => sol a 0 g v) exact_minus_R (se_mesh _ _ _ _ _ _ _ _ _ _ SE) (la_partition _ _ _ _ _ _ LA) (la_small _ _ _ _ _ _ LA) (ex_intro _ dec CMP) RD0 G0 PSI r Hr) as (e & L & ->).
    destruct (quotient_R pv (q_num q) r _ e L) as [(PE1 & _)|(_ & Z)]; [|destruct NZ as (a & g & v & Ha & OW & Hv & NZ); now rewrite (Z a g v Ha OW Hv) in NZ]. cbn [adiv azero Rops]. field. lra.
Qed.
Lemma all_print dec enc stod ltb quadrature pi tol kspPhi kspVec kspBoth fname deck mesh np threads pr gsum gmax its out :
  mainAll dec enc stod ltb quadrature pi tol kspPhi kspVec kspBoth fname deck mesh np threads pr gsum its out -> exists err diff, mainAllPrint dec enc stod ltb quadrature pi tol kspPhi kspVec kspBoth fname deck mesh np threads pr gsum gmax its err diff out.
Proof. intros (cfg & q & psi & A1 & A2 & A3 & A4 & A5 & O). do 2 eexists. exists cfg, q, psi. do 5 (split; [eassumption|]). split; [split; reflexivity|exact O]. Qed.
Lemma print_all dec enc stod ltb quadrature pi tol kspPhi kspVec kspBoth fname deck mesh np threads pr gsum gmax its err diff out :
  mainAllPrint dec enc stod ltb quadrature pi tol kspPhi kspVec kspBoth fname deck mesh np threads pr gsum gmax its err diff out -> mainAll dec enc stod ltb quadrature pi tol kspPhi kspVec kspBoth fname deck mesh np threads pr gsum its out.
Proof. intros (cfg & q & psi & A1 & A2 & A3 & A4 & A5 & _ & O). exists cfg, q, psi. auto 10. Qed.
(** Two decks with such solvers that pose the same equations print the same error. *)
Theorem C73_same : forall dec enc stod ltb quadrature pi tol sm k fname1 deck1 cfg1 q1 pv1 np1 threads1 mesh1 kspPhi1 kspVec1 kspBoth1 pr1 gsum1 gmax1 its1 err1 diff1 out1 fname2 deck2 cfg2 q2 pv2 np2 threads2 mesh2 kspPhi2 kspVec2 kspBoth2 pr2 gsum2 gmax2 its2 err2 diff2 out2,
  runnable dec stod ltb quadrature pi tol fname1 deck1 sm cfg1 q1 k pv1 np1 threads1 mesh1 -> runnable dec stod ltb quadrature pi tol fname2 deck2 sm cfg2 q2 k pv2 np2 threads2 mesh2 -> (k < 1)%R ->
  same_equations cfg1 cfg2 -> solves_exactly dec ltb cfg1 q1 mesh1 np1 kspPhi1 kspVec1 kspBoth1 -> solves_exactly dec ltb cfg2 q2 mesh2 np2 kspPhi2 kspVec2 kspBoth2 ->
  direct (List.length (sm_cells sm)) cfg1 -> direct (List.length (sm_cells sm)) cfg2 -> sums np1 gsum1 -> sums np2 gsum2 ->
  mainAllPrint dec enc stod ltb quadrature pi tol kspPhi1 kspVec1 kspBoth1 fname1 deck1 mesh1 np1 threads1 pr1 gsum1 gmax1 its1 err1 diff1 out1 ->
  mainAllPrint dec enc stod ltb quadrature pi tol kspPhi2 kspVec2 kspBoth2 fname2 deck2 mesh2 np2 threads2 pr2 gsum2 gmax2 its2 err2 diff2 out2 -> err1 = err2.
Proof.
  intros dec enc stod ltb quadrature pi tol sm k fname1 deck1 cfg1 q1 pv1 np1 threads1 mesh1 kspPhi1 kspVec1 kspBoth1 pr1 gsum1 gmax1 its1 err1 diff1 out1 fname2 deck2 cfg2 q2 pv2 np2 threads2 mesh2 kspPhi2 kspVec2 kspBoth2 pr2 gsum2 gmax2 its2 err2 diff2 out2 R1 R2 K1 SQ X1 X2 D1 D2 G1 G2 M1 M2.
  pose proof (ru_setting _ _ _ _ _ _ _ _ _ _ _ _ _ _ _ _ R1) as SE1.
  assert (q1 = q2). { pose proof (se_angles _ _ _ _ _ _ _ _ _ _ SE1) as E1. pose proof (se_angles _ _ _ _ _ _ _ _ _ _ (ru_setting _ _ _ _ _ _ _ _ _ _ _ _ _ _ _ _ R2)) as E2. rewrite (sq_angles _ _ SQ), E2 in E1. now apply Some_inj in E1. } subst q2.
  destruct (C73_direct _ enc _ _ _ _ _ _ _ _ _ _ _ _ _ _ _ _ _ _ R1 K1 X1 D1) as (f1 & S1 & F1). destruct (C73_direct _ enc _ _ _ _ _ _ _ _ _ _ _ _ _ _ _ _ _ _ R2 K1 X2 D2) as (f2 & S2 & F2).
  destruct (F1 _ _ _ _ _ _ _ G1 M1) as (E1 & _). destruct (F2 _ _ _ _ _ _ _ G2 M2) as (E2 & _).
  apply (same_deck dec enc pi sm cfg1 cfg2 q1 _ SQ) in S2. rewrite <- (sq_groups _ _ SQ) in E2.
  destruct R1 as [SE LA _ _ PB SC]. pose proof (NP dec stod ltb quadrature tol fname1 deck1 sm cfg1 q1 SE pv1 np1 threads1 mesh1 LA) as N0.
  destruct (deck_well_posed dec stod quadrature pi tol fname1 deck1 sm cfg1 q1 np1 k SE N0 (la_small _ _ _ _ _ _ LA) PB SC K1) as (sol & _ & U).
  refine (error_same sm dec (q_num q1) (N.to_nat (cNGroups cfg1)) _ _ _ _ _ E1 E2). intros a G g sc v Ha HGr HS Hv. rewrite <- (U _ S1 a G g sc v Ha HGr HS Hv). exact (U _ S2 a G g sc v Ha HGr HS Hv).
Qed.
Print Assumptions C73_groups.
Print Assumptions C73_groups_doubles.
Print Assumptions C73_error.
Print Assumptions C73_error_independent.
Print Assumptions C73_direct.
Print Assumptions C73_same.

(** Runs that print exist: in double precision on one and two ranks, and in exact arithmetic with any of the solvers that do not iterate. *)
Example C73_ex : forall ty, In ty C70_types -> forall pv np threads, In (pv, np) [([0; 0]%N, 1); ([1; 0]%N, 2); ([0; 1]%N, 2)] -> 0 < threads -> forall pr gsum gmax, exists mesh iters err diff out,
  setting Dops ddec C70_stod C70_quadrature C70_tol [] (C70_deck ty) C66_mesh (C70_cfg ty) (mkAngles 1 C66_om (fun _ => aone Dops)) /\ launch dltb C66_mesh pv np threads mesh /\
  mainPrint Dops ddec C70_enc C70_stod dltb C70_quadrature (ddec 0x400921FB54442D18) C70_tol [] (C70_deck ty) mesh np threads pr gsum gmax iters err diff (Some (str "out.psi", out)).
Proof.
  intros ty IN pv np threads IN2 TH pr gsum gmax. destruct (C70_ex ty IN) as (SE & _ & K). destruct (K pv np threads IN2 TH) as (mesh & LA & K2). destruct (K2 pr gsum) as (iters & out & M).
  destruct (run_print _ _ _ _ _ _ _ _ _ _ _ _ _ _ _ gmax _ _ M) as (err & diff & P). exists mesh, iters, err, diff, out. auto.
Qed.
Example C73_direct_ex : forall threads, 0 < threads -> exists mesh kspPhi kspVec kspBoth, forall ty, ty <> PBJOuter -> ty <> PBJSI -> forall enc pr gsum gmax,
  runnable C65_dec C72_stod C65_ltb C72_quadrature PI (/ 10 ^ 10)%R [] (C72_deck ty false) C12_mesh (C72_cfg ty false) C70R_q (/ 2)%R [1; 0]%N 2 threads mesh /\
  solves_exactly C65_dec C65_ltb (C72_cfg ty false) C70R_q mesh 2 kspPhi kspVec kspBoth /\ direct 2 (C72_cfg ty false) /\
  exists its err diff out, mainAllPrint C65_dec enc C72_stod C65_ltb C72_quadrature PI (/ 10 ^ 10)%R kspPhi kspVec kspBoth [] (C72_deck ty false) mesh 2 threads pr gsum gmax its err diff out.
Proof.
  intros threads TH. destruct C72_ex as (_ & _ & _ & K). destruct (K threads TH) as (mesh & k1 & k2 & k3 & H). exists mesh, k1, k2, k3. intros ty N1 N2 enc pr gsum gmax.
  destruct (H ty false) as (RU & SX & _ & D & _ & _ & M). split; [exact RU|]. split; [exact SX|]. split; [apply D; auto|].
  destruct (M (or_intror eq_refl) enc pr gsum) as (its & f & R1). destruct (all_print _ _ _ _ _ _ _ _ _ _ _ _ _ _ _ _ _ gmax _ _ R1) as (err & diff & P). eauto.
Qed.
Example C73_error_ex : exists fname deck stod quadrature, setting Rops C65_dec stod quadrature (/ 10 ^ 10)%R fname deck C12_mesh C70R_cfg C70R_q /\
  forall threads, 0 < threads -> exists mesh, launch C65_ltb C12_mesh [1; 0]%N 2 threads mesh /\ forall enc pr gsum gmax, exists iters err diff out, mainPrint Rops C65_dec enc stod C65_ltb quadrature PI (/ 10 ^ 10)%R fname deck mesh 2 threads pr gsum gmax iters err diff out.
Proof.
  destruct C70_exact_ex as (fname & deck & stod & quadrature & SE & _ & _ & _ & _ & K). exists fname, deck, stod, quadrature. split; [exact SE|]. intros threads TH. destruct (K threads TH) as (mesh & LA & K2). exists mesh. split; [exact LA|].
  intros enc pr gsum gmax. destruct (K2 enc pr gsum) as (iters & f & M). destruct (run_print _ _ _ _ _ _ _ _ _ _ _ _ _ _ _ gmax _ _ M) as (err & diff & P). eauto.
Qed.
