(** C03: the Psi output file does not depend on partitioning or on write order. *)
From Verif Require Import Prelude Bytes LayoutModel PsiFileModel PsiFileSpec PsiFileProofs.
From Coq Require Import Permutation.

(** [agrees r] : rank r's angular flux at its local cell is the global flux [Psi] at the cell's
    global id.  Conclusion: whatever the distribution of the global cells over the ranks, the
    writes succeed, and after any interleaving of them (any permutation) the file is exactly the
    documented image, every byte of which is written by exactly one write. *)
Theorem C03_psi_file : forall ng nv na nc Psi ranks,
  (N.of_nat (na * (nv * ng)) < 2^31)%N -> (8 * (8 + N.of_nat nc * N.of_nat (na * (nv * ng))) < 2^64)%N ->
  0 < ng -> 0 < nv -> 0 < na -> ranks <> [] ->
  Permutation (concat (map lgCell ranks)) (map N.of_nat (seq 0 nc)) ->
  (forall r, In r ranks -> agrees ng nv na Psi r) ->
  exists ws, allWrites (N.of_nat ng) (N.of_nat nv) (N.of_nat na) ranks = Some ws /\
    forall l, Permutation l (concat ws) ->
      (forall p, applyWrites emptyFile l p = nth_error (psiImage ng nv na nc Psi) (N.to_nat p)) /\
      (forall p, (p < N.of_nat (length (psiImage ng nv na nc Psi)))%N ->
         length (filter (fun w => covers w p) l) = 1).
Proof. exact (fun ng nv na nc Psi ranks a b c d e => file_correct ng nv na nc Psi a b c d e ranks). Qed.
Print Assumptions C03_psi_file.

(** Two ranks, three cells (global 2,0 on rank 0 and 1 on rank 1), 2 groups, 1 vertex, 2 angles. *)
Definition C03_Psi (g v a c : nat) : N := N.of_nat (1000 * c + 100 * a + 10 * v + g + 1).
Definition C03_rank (cells : list nat) : psirank :=
  mkPsiRank (map N.of_nat cells)
    (mkBuf (4 * N.of_nat (length cells))%N
       (fun k => let c := nth (N.to_nat (k / 4)) cells 0 in
                 C03_Psi (N.to_nat (k mod 2)) 0 (N.to_nat ((k / 2) mod 2)) c)).
Example C03_psi_file_ex :
  match allWrites 2 1 2 [C03_rank [2; 0]; C03_rank [1]] with
  | Some ws =>
      map (fun p => applyWrites emptyFile (rev (concat ws)) (N.of_nat p)) (seq 0 (64 + 96))
      = map Some (psiImage 2 1 2 3 C03_Psi) /\
      applyWrites emptyFile (rev (concat ws)) 160%N = None
  | None => False
  end.
Proof. vm_compute. split; reflexivity. Qed.

Theorem C03_partition_independent : forall ng nv na nc Psi ranks ranks' ws ws' l l',
  (N.of_nat (na * (nv * ng)) < 2^31)%N -> (8 * (8 + N.of_nat nc * N.of_nat (na * (nv * ng))) < 2^64)%N ->
  0 < ng -> 0 < nv -> 0 < na -> ranks <> [] -> ranks' <> [] ->
  Permutation (concat (map lgCell ranks)) (map N.of_nat (seq 0 nc)) ->
  Permutation (concat (map lgCell ranks')) (map N.of_nat (seq 0 nc)) ->
  (forall r, In r ranks -> agrees ng nv na Psi r) -> (forall r, In r ranks' -> agrees ng nv na Psi r) ->
  allWrites (N.of_nat ng) (N.of_nat nv) (N.of_nat na) ranks = Some ws ->
  allWrites (N.of_nat ng) (N.of_nat nv) (N.of_nat na) ranks' = Some ws' ->
  Permutation l (concat ws) -> Permutation l' (concat ws') ->
  forall p, applyWrites emptyFile l p = applyWrites emptyFile l' p.
Proof. exact file_same. Qed.
Print Assumptions C03_partition_independent.

Example C03_partition_independent_ex :
  match allWrites 2 1 2 [C03_rank [2; 0]; C03_rank [1]], allWrites 2 1 2 [C03_rank [0; 1; 2]] with
  | Some ws, Some ws' =>
      map (fun p => applyWrites emptyFile (concat ws) (N.of_nat p)) (seq 0 160)
      = map (fun p => applyWrites emptyFile (concat ws') (N.of_nat p)) (seq 0 160)
  | _, _ => False
  end.
Proof. vm_compute. reflexivity. Qed.

(** The bound 2^31 on the values per cell is needed (the size is converted to int). *)
Theorem C03_large_cells_refuted :
  exists ng nv na r ws, (na * ng * nv = 2^32)%N /\ length (lgCell r) = 1 /\
    (blen (psibuf r) = size4 ng nv na 1)%N /\
    rankWrites ng nv na [] r = Some ws /\ ws = [(64%N, [])].
Proof. exact dataSize_truncated. Qed.
Print Assumptions C03_large_cells_refuted.
