(** C13: the column partitioner. *)
From Coq Require Import Permutation Sorted.
From Verif Require Import Prelude MeshModel MeshSpec CreateSpec ColumnsModel ColumnsSpec ColumnsProofs.

(** For every coordinate arithmetic, every outcome of the two sorts allowed by std::sort, every
    mesh whose nodes exist, and all nx, ny >= 1. *)
Theorem C13_columns : forall (T : Type) zero add quarter ltb (sortX sortY : list (centroid T) -> list (centroid T))
    nodeX nodeY cells nx ny,
  is_sort (compareX ltb) sortX -> is_sort (compareY ltb) sortY -> 0 < nx -> 0 < ny ->
  (forall c q v, nth_error cells c = Some q -> In v (q4l q) -> nodeX v <> None /\ nodeY v <> None) ->
  exists pv, partitionColumns zero add quarter sortX sortY nodeX nodeY cells nx ny = Some pv /\
    length pv = length cells /\
    (forall c, c < length cells -> nth c pv 0 < nx * ny) /\
    (forall i, i < nx -> count_cells (length cells) (fun c => nth c pv 0 / ny =? i) = share (length cells) nx i) /\
    (forall i j, i < nx -> j < ny ->
       count_cells (length cells) (fun c => nth c pv 0 =? i * ny + j) = share (share (length cells) nx i) ny j) /\
    (forall c1 c2 a1 a2, c1 < length cells -> c2 < length cells ->
       centroidOf zero add quarter nodeX nodeY cells c1 = Some a1 ->
       centroidOf zero add quarter nodeX nodeY cells c2 = Some a2 ->
       nth c1 pv 0 / ny < nth c2 pv 0 / ny -> ltb (ct_x a2) (ct_x a1) = false) /\
    (forall c1 c2 a1 a2, c1 < length cells -> c2 < length cells ->
       centroidOf zero add quarter nodeX nodeY cells c1 = Some a1 ->
       centroidOf zero add quarter nodeX nodeY cells c2 = Some a2 ->
       nth c1 pv 0 / ny = nth c2 pv 0 / ny -> nth c1 pv 0 < nth c2 pv 0 -> ltb (ct_y a2) (ct_y a1) = false).
Proof.
  intros T zero add quarter ltb sortX sortY nodeX nodeY cells nx ny HX HY NX NY HN.
  assert (HC : exists cts, mapM (centroidOf zero add quarter nodeX nodeY cells) (seq 0 (length cells)) = Some cts).
  { assert (K : forall l, (forall c, In c l -> c < length cells) -> exists cts, mapM (centroidOf zero add quarter nodeX nodeY cells) l = Some cts).
    { induction l as [|c l IH]; intros H; cbn [mapM]; [eauto|].
      destruct IH as (r & ->); [intros; apply H; now right|].
      unfold centroidOf. destruct (nth_error cells c) as [q|] eqn:E; [|apply nth_error_None in E; specialize (H c (or_introl eq_refl)); lia].
      cbn [obind]. unfold mean4.
      assert (V : forall v, In v (q4l q) -> (exists x, nodeX v = Some x) /\ exists y, nodeY v = Some y).
      { intros v Hv. destruct (HN c q v E Hv). destruct (nodeX v), (nodeY v); split; try congruence; eauto. }
      destruct (V (r0 q)) as ((x0 & ->) & (y0 & ->)); [cbn; auto|].
      destruct (V (r1 q)) as ((x1 & ->) & (y1 & ->)); [cbn; auto|].
      destruct (V (r2 q)) as ((x2 & ->) & (y2 & ->)); [cbn; auto|].
      destruct (V (r3 q)) as ((x3 & ->) & (y3 & ->)); [cbn; auto|]. cbn [obind]. eauto. }
    apply K. intros c Hc. apply in_seq in Hc. lia. }
  destruct HC as (cts & HC).
  destruct (partition_arranged zero add quarter ltb sortX sortY HX HY nodeX nodeY cells nx ny cts NX NY HC) as (cols & pv & E & AR).
  exists pv. split; auto. pose proof AR as (_ & _ & _ & _ & L & _). split; auto.
  split. { intros c Hc. destruct (pv_range zero add quarter ltb nodeX nodeY cells nx ny cts NX NY HC cols pv AR c Hc) as (p & Hp & Lp).
    apply (nth_error_nth _ _ 0) in Hp. now rewrite Hp. }
  split; [exact (count_column zero add quarter ltb nodeX nodeY cells nx ny cts NX NY HC cols pv AR)|]. split; [exact (count_part zero add quarter ltb nodeX nodeY cells nx ny cts NX NY HC cols pv AR)|].
  split; [exact (order_x zero add quarter ltb nodeX nodeY cells nx ny cts NX NY HC cols pv AR)|exact (order_y zero add quarter ltb nodeX nodeY cells nx ny cts NX NY HC cols pv AR)].
Qed.
Print Assumptions C13_columns.

(** The result is a valid partition vector for createFromSerialMesh with nx*ny partitions. *)
Theorem C13_valid_partition_vector : forall (sm : smesh) pv np, length pv = length (sm_cells sm) ->
  (forall c, c < length (sm_cells sm) -> nth c pv 0 < np) -> (N.of_nat np < 2^31)%N ->
  partition_vector_ok sm (map N.of_nat pv) np.
Proof.
  intros sm pv np L H B. split; [now rewrite map_length|]. split; auto.
  apply Forall_forall. intros x Hx. apply in_map_iff in Hx as (p & <- & Hp). apply In_nth_error in Hp as (c & Hc).
  assert (c < length pv) by (apply nth_error_Some; congruence). apply (nth_error_nth _ _ 0) in Hc. specialize (H c ltac:(lia)). lia.
Qed.
Print Assumptions C13_valid_partition_vector.

(** An instance: insertion sort on centroids with N coordinates. *)
Section InsertionSort.
  Context {A : Type} (key : A -> N).
  Fixpoint ins (a : A) (l : list A) : list A :=
    match l with [] => [a] | b :: t => if (key b <? key a)%N then b :: ins a t else a :: l end.
  Fixpoint isort (l : list A) : list A := match l with [] => [] | a :: t => ins a (isort t) end.
  Lemma ins_perm a l : Permutation (a :: l) (ins a l).
  Proof. induction l as [|b t IH]; cbn; auto. destruct (key b <? key a)%N; auto. rewrite perm_swap. now constructor. Qed.
  Lemma ins_sorted a l : StronglySorted (fun x y => (key x <= key y)%N) l -> StronglySorted (fun x y => (key x <= key y)%N) (ins a l).
  Proof.
    induction 1 as [|b t H IH F]; cbn; [repeat constructor|]. destruct (N.ltb_spec (key b) (key a)).
    - constructor; auto. apply Forall_forall. intros y Hy. apply (Permutation_in _ (Permutation_sym (ins_perm a t))) in Hy.
      destruct Hy as [->|Hy]; [lia|]. rewrite Forall_forall in F; auto.
    - constructor; [now constructor|]. constructor; [lia|]. eapply Forall_impl; [|exact F]. cbn; intros; lia.
  Qed.
  Lemma isort_is_sort : is_sort (fun a b => (key a <? key b)%N) isort.
  Proof.
    intros l. split.
    - induction l; cbn; auto. rewrite <- ins_perm. now constructor.
    - assert (S : StronglySorted (fun x y => (key x <= key y)%N) (isort l)).
      { induction l; cbn; [constructor|]. now apply ins_sorted. }
      revert S. generalize (isort l). clear. induction l as [|x l IH]; intros S i j a b L Hi Hj; [destruct i; discriminate|].
      inversion S as [|? ? S1 F]; subst. destruct j as [|j]; [lia|]. cbn in Hj. destruct i as [|i]; cbn in Hi.
      + inversion Hi; subst. rewrite Forall_forall in F. specialize (F b (nth_error_In _ _ Hj)). apply N.ltb_ge. lia.
      + apply (IH S1 i j); auto. lia.
  Qed.
End InsertionSort.
(** Seven cells on 2 x 2 columns, centroids by node 0..6 (each cell has one node four times). *)
Example C13_ex :
  is_sort (compareX N.ltb) (isort (@ct_x N)) /\ is_sort (compareY N.ltb) (isort (@ct_y N)) /\
  partitionColumns 0%N N.add (fun x => (x / 4)%N) (isort (@ct_x N)) (isort (@ct_y N))
    (fun v => Some ((v * 5) mod 7)%N) (fun v => Some ((v * 3) mod 7)%N)
    (map (fun v => Q4 v v v v) [0; 1; 2; 3; 4; 5; 6]%N) 2 2 = Some [0; 2; 1; 0; 3; 2; 1].
Proof.
  split; [apply (isort_is_sort (@ct_x N))|split; [apply (isort_is_sort (@ct_y N))|vm_compute; reflexivity]].
Qed.
