(** The METIS partitioner utility: C53. *)
From Verif Require Import Prelude Bytes MeshModel MeshSpec CreateModel CreateSpec CreateProofs TychoModel TychoSpec TychoProofs MeshCheck MetisModel MetisSpec MetisProofs PropertiesCreate PropertiesTycho.
From Coq Require Import Permutation.
Local Open Scope N_scope.

(** The arrays are big enough and hold the cell adjacency graph, for every well-formed mesh of
    tetrahedra whose size fits in METIS's index type. *)
Theorem C53_graph : forall w sm, serial_mesh_ok sm -> tets_ok sm -> 1 <= w <= 64 -> 4 * lenN (sm_cells sm) < 2^(w-1) ->
  exists xadj adj, metisGraph w sm = Some (xadj, adj) /\ cell_graph sm xadj adj.
Proof.
  intros w sm OK TT (W1 & W2) SZ. eexists _, _. split; [exact (graph_ok sm OK TT w W1 W2 SZ)|]. exact (graph_spec sm OK TT w W1 W2 SZ).
Qed.
Print Assumptions C53_graph.

(** The graph is undirected, as METIS requires. *)
Theorem C53_symmetric : forall sm xadj adj c d, serial_mesh_ok sm -> tets_ok sm -> cell_graph sm xadj adj ->
  (c < length (sm_cells sm))%nat -> (d < length (sm_cells sm))%nat ->
  count_occ Z.eq_dec (slice adj (Z.to_nat (nth c xadj (-1)%Z)) (Z.to_nat (nth (S c) xadj (-1)%Z))) (Z.of_nat d) =
  count_occ Z.eq_dec (slice adj (Z.to_nat (nth d xadj (-1)%Z)) (Z.to_nat (nth (S d) xadj (-1)%Z))) (Z.of_nat c).
Proof.
  intros sm xadj adj c d OK TT G Lc Ld. destruct (Nat.eq_dec c d) as [->|NE]; auto.
  rewrite !(cg_edges _ _ _ G) by auto. now apply shared_sym.
Qed.
Print Assumptions C53_symmetric.

(** The utility always hands the partitioned mesh writer a vector it accepts: one part number
    below the requested number for every cell, hence (C11) a partitioned mesh is made. *)
Theorem C53_vector : forall w metis np sm pv, serial_mesh_ok sm -> tets_ok sm -> 1 <= w <= 64 -> 4 * lenN (sm_cells sm) < 2^(w-1) ->
  metis_ok metis -> 0 < np < 2^31 -> partitionMetis w metis np sm (lenN (sm_cells sm)) = Some pv ->
  partition_vector_ok sm pv (N.to_nat np) /\ exists m, createFromSerialMesh sm pv (N.to_nat np) = Some m.
Proof.
  intros w metis np sm pv OK TT (W1 & W2) SZ MO NP H.
  enough (V : partition_vector_ok sm pv (N.to_nat np)).
  { split; auto. destruct (C11_partition_total sm pv (N.to_nat np) OK V) as (m & E & _). eauto. }
  unfold partitionMetis in H. rewrite (nCs sm OK) in H. unfold lenN in H. rewrite N.eqb_refl in H. cbn [negb] in H.
  rewrite Nat2N.id in H. split; [|split; [|lia]].
  - destruct (np =? 1). { apply Some_inj in H. subst pv. apply repeat_length. }
    destruct (metisGraph w sm) as [(x, a)|] eqn:Eg; [|discriminate]. cbn [obind fst snd] in H.
    destruct (metis _ x a _) as ([|], part) eqn:Em; [|discriminate]. apply mapM_length in H. now rewrite map_length, seq_length in H.
  - destruct (N.eqb_spec np 1) as [->|N1].
    { apply Some_inj in H. subst pv. apply Forall_forall. intros x Hx. apply repeat_spec in Hx. subst x. reflexivity. }
    rewrite (graph_ok sm OK TT w W1 W2 SZ) in H. cbn [obind fst snd] in H.
    pose proof (graph_spec sm OK TT w W1 W2 SZ) as GS. set (x := xadjOf sm _) in *. set (a := adjOf sm _) in *.
    destruct (small sm w W1 W2 SZ (length (sm_cells sm))) as (S1 & _); [lia|]. rewrite toIdx_small, nat_N_Z in H by auto.
    destruct (metis _ x a _) as ([|], part) eqn:Em; [|discriminate].
    destruct (MO sm x a (Z.of_N np) part GS ltac:(lia) Em) as (Lp & Fp).
    apply Forall_forall. intros y Hy. apply In_nth_error in Hy as (i & Hi). destruct (mapM_nth _ _ _ _ _ H Hi) as (c & _ & Hc).
    rewrite nthN_nth in Hc. destruct (nth_error part (N.to_nat c)) as [z|] eqn:Ez; [|discriminate]. cbn [obind] in Hc. apply Some_inj in Hc. subst y.
    rewrite Forall_forall in Fp. specialize (Fp z (nth_error_In _ _ Ez)). unfold ofIdx, two64. rewrite Z.mod_small by lia. lia.
Qed.
Print Assumptions C53_vector.

(** It succeeds whenever METIS reports success. *)
Theorem C53_succeeds : forall w metis np sm, serial_mesh_ok sm -> tets_ok sm -> 1 <= w <= 64 -> 4 * lenN (sm_cells sm) < 2^(w-1) ->
  metis_ok metis -> 0 < np < 2^31 -> (forall n x a p, fst (metis n x a p) = true) ->
  exists pv, partitionMetis w metis np sm (lenN (sm_cells sm)) = Some pv.
Proof.
  intros w metis np sm OK TT (W1 & W2) SZ MO NP MS. unfold partitionMetis. rewrite (nCs sm OK). unfold lenN. rewrite N.eqb_refl. cbn [negb].
  rewrite Nat2N.id. destruct (N.eqb_spec np 1) as [|N1]; [eauto|].
  rewrite (graph_ok sm OK TT w W1 W2 SZ). cbn [obind fst snd]. pose proof (graph_spec sm OK TT w W1 W2 SZ) as GS. set (x := xadjOf sm _) in *. set (a := adjOf sm _) in *.
  destruct (small sm w W1 W2 SZ (length (sm_cells sm))) as (S1 & _); [lia|]. rewrite toIdx_small, nat_N_Z by auto.
  destruct (metis _ x a _) as (ok, part) eqn:Em. pose proof (MS (Z.of_nat (length (sm_cells sm))) x a (Z.of_N np)) as Q. rewrite Em in Q. cbn [fst] in Q. subst ok.
  destruct (MO sm x a (Z.of_N np) part GS ltac:(lia) Em) as (Lp & _).
  eexists. apply (mapM_some _ (fun c => ofIdx (nth (N.to_nat c) part 0%Z))). intros c Hc. apply in_map_iff in Hc as (k & <- & Hk). apply in_seq in Hk.
  rewrite nthN_nth, Nat2N.id. rewrite (nth_error_nth' _ 0%Z) by lia. reflexivity.
Qed.
Print Assumptions C53_succeeds.

(** Three cells, the first touching both others, 32-bit indices; a METIS putting vertex v in
    part v mod 2. *)
Example C53_ex : serial_mesh_ok C52_mesh /\ tets_ok C52_mesh /\ 4 * lenN (sm_cells C52_mesh) < 2^(32-1) /\
  metis_ok (fun n _ _ np => (true, map (fun v => Z.of_nat v mod 2)%Z (seq 0 (Z.to_nat n)))) /\
  (exists rest, metisGraph 32 C52_mesh = Some ([0; 2; 3; 4]%Z, [2; 1; 0; 0]%Z ++ rest)) /\
  partitionMetis 32 (fun n _ _ np => (true, map (fun v => Z.of_nat v mod 2)%Z (seq 0 (Z.to_nat n)))) 2 C52_mesh 3 = Some [0; 1; 0].
Proof.
  destruct C52_mesh_ok as (OK & TT & _). split; [exact OK|]. split; [exact TT|]. split; [reflexivity|]. split; [|split].
  - intros sm xadj adj np part _ NP E. injection E as <-. rewrite map_length, seq_length, Nat2Z.id. split; auto.
    apply Forall_forall. intros z Hz. apply in_map_iff in Hz as (v & <- & _). pose proof (Z.mod_pos_bound (Z.of_nat v) 2 ltac:(lia)). lia.
  - eexists. vm_compute. reflexivity.
  - vm_compute. reflexivity.
Qed.
