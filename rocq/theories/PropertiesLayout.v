(** C01: storage never aliases. *)
From Verif Require Import Prelude LayoutModel LayoutSpec LayoutProofs.
Local Open Scope N_scope.

(** PsiData (and PsiBoundData, whose code is the same with nv = 3 and sides for cells). *)
Theorem C01_psi_layout : forall ng nv na nc, ng * nv * na * nc < 2^64 ->
  (forall g v a c, g < ng -> v < nv -> a < na -> c < nc ->
     exists k, index4 ng nv na nc g v a c = Some k /\ k < size4 ng nv na nc) /\
  (forall g v a c g' v' a' c' k,
     index4 ng nv na nc g v a c = Some k -> index4 ng nv na nc g' v' a' c' = Some k ->
     (g, v, a, c) = (g', v', a', c')) /\
  (forall k, k < size4 ng nv na nc -> exists g v a c, index4 ng nv na nc g v a c = Some k) /\
  (forall g v a c, ~ (g < ng /\ v < nv /\ a < na /\ c < nc) -> index4 ng nv na nc g v a c = None).
Proof. exact layout4. Qed.
Print Assumptions C01_psi_layout.

Example C01_psi_layout_ex : 2 * 4 * 32 * 1000 < 2^64 /\ index4 2 4 32 1000 1 3 31 999 = Some 255999.
Proof. vm_compute. split; reflexivity. Qed.

(** After any history of asserted-legal writes a read returns the last value written
    at that multi-index, or the initial zero. *)
Theorem C01_psi_history : forall (T : Type) (zero : T) ng nv na nc (l : list (op4 T)),
  ng * nv * na * nc < 2^64 -> Forall (op4_ok ng nv na nc) l ->
  exists b, run4 ng nv na nc (new4 zero ng nv na nc) l = Some b /\
    forall g v a c, g < ng -> v < nv -> a < na -> c < nc ->
      read4 ng nv na nc b g v a c =
      Some (fold_left (spec_step ng nv na nc) l (fun _ _ _ _ => zero) g v a c).
Proof. intros T. exact (@history4 T). Qed.
Print Assumptions C01_psi_history.

Example C01_psi_history_ex :
  Forall (op4_ok 2 4 3 5) [WAt 1 2 0 4 7; WRaw 117 8; WAt 0 0 0 0 9] /\
  match run4 2 4 3 5 (new4 0 2 4 3 5) [WAt 1 2 0 4 7; WRaw 117 8; WAt 0 0 0 0 9] with
  | Some b => read4 2 4 3 5 b 1 2 0 4 = Some 7 /\ read4 2 4 3 5 b 1 2 2 4 = Some 8
  | None => False
  end.
Proof. split; [repeat constructor; cbn; lia | vm_compute; split; reflexivity]. Qed.

(** PhiData. *)
Theorem C01_phi_layout : forall ng nv nc, ng * nv * nc < 2^64 ->
  (forall g v c, g < ng -> v < nv -> c < nc ->
     exists k, index3 ng nv nc g v c = Some k /\ k < size3 ng nv nc) /\
  (forall g v c g' v' c' k,
     index3 ng nv nc g v c = Some k -> index3 ng nv nc g' v' c' = Some k ->
     (g, v, c) = (g', v', c')) /\
  (forall k, k < size3 ng nv nc -> exists g v c, index3 ng nv nc g v c = Some k) /\
  (forall g v c, ~ (g < ng /\ v < nv /\ c < nc) -> index3 ng nv nc g v c = None).
Proof. exact layout3. Qed.
Print Assumptions C01_phi_layout.

Example C01_phi_layout_ex : 2 * 4 * 1000 < 2^64 /\ index3 2 4 1000 1 3 999 = Some 7999.
Proof. vm_compute. split; reflexivity. Qed.

(** Mat3. *)
Theorem C01_mat3_layout : forall x y z, x * y * z < 2^64 ->
  (forall i j k, i < x -> j < y -> k < z ->
     exists p, mat3_index x y z i j k = Some p /\ p < mat3_size x y z) /\
  (forall i j k i' j' k' p,
     mat3_index x y z i j k = Some p -> mat3_index x y z i' j' k' = Some p ->
     (i, j, k) = (i', j', k')) /\
  (forall p, p < mat3_size x y z -> exists i j k, mat3_index x y z i j k = Some p) /\
  (forall i j k, ~ (i < x /\ j < y /\ k < z) -> mat3_index x y z i j k = None).
Proof. exact layout3. Qed.
Print Assumptions C01_mat3_layout.

Example C01_mat3_layout_ex : 8 * 9 * 4 < 2^64 /\ mat3_index 8 9 4 7 8 3 = Some 287.
Proof. vm_compute. split; reflexivity. Qed.

(** Mat2. *)
Theorem C01_mat2_layout : forall x y, x * y < 2^64 ->
  (forall i j, i < x -> j < y -> exists k, mat2_index x y i j = Some k /\ k < mat2_size x y) /\
  (forall i j i' j' k, mat2_index x y i j = Some k -> mat2_index x y i' j' = Some k ->
     (i, j) = (i', j')) /\
  (forall k, k < mat2_size x y -> exists i j, mat2_index x y i j = Some k) /\
  (forall i j, ~ (i < x /\ j < y) -> mat2_index x y i j = None).
Proof. exact layout2. Qed.
Print Assumptions C01_mat2_layout.

Example C01_mat2_layout_ex : 8 * 9 < 2^64 /\ mat2_index 8 9 7 8 = Some 71.
Proof. vm_compute. split; reflexivity. Qed.

(** The size bound is needed: with wrapping extents an in-range index leaves the block. *)
Theorem C01_unbounded_size_refuted :
  exists ng nv na nc g v a c k,
    g < ng /\ v < nv /\ a < na /\ c < nc /\
    ng < 2^64 /\ nv < 2^64 /\ na < 2^64 /\ nc < 2^64 /\
    index4 ng nv na nc g v a c = Some k /\ size4 ng nv na nc <= k.
Proof. exact layout4_wraps. Qed.
Print Assumptions C01_unbounded_size_refuted.
