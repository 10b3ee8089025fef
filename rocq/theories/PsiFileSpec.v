(** What the Psi output file should contain, as a function of the global angular flux only. *)
From Verif Require Import Prelude Bytes LayoutModel PsiFileModel.
Local Open Scope N_scope.

(** The documented layout (src/PsiData.cc:51-60): 32 characters, 4 words, then for every global
    cell the values psi(group, vertex, angle, cell), group fastest, angle slowest. *)
Definition psiImage (ng nv na nc : nat) (Psi : nat -> nat -> nat -> nat -> N) : bytes :=
  [84; 121; 99; 104; 111; 32; 50; 32; 80; 115; 105; 32; 79; 117; 116; 112; 117; 116;
   0; 0; 0; 0; 0; 0; 0; 0; 0; 0; 0; 0; 0; 0]
  ++ u64_bytes 1 ++ u64_bytes (N.of_nat nc) ++ u64_bytes (N.of_nat na) ++ u64_bytes (N.of_nat ng)
  ++ flat_map (fun c => flat_map (fun a => flat_map (fun v => flat_map (fun g =>
       u64_bytes (Psi g v a c)) (seq 0 ng)) (seq 0 nv)) (seq 0 na)) (seq 0 nc).

(** A write covers a byte position. *)
Definition covers (w : fwrite) (p : N) : bool :=
  (fst w <=? p) && (p <? fst w + 8 * N.of_nat (length (snd w))).

Local Open Scope nat_scope.
(** The rank's flux at each local cell is the global flux at that cell's global id. *)
Definition agrees (ng nv na : nat) (Psi : nat -> nat -> nat -> nat -> N) (r : psirank) : Prop :=
  forall cell gc g v a, nth_error (lgCell r) cell = Some gc -> g < ng -> v < nv -> a < na ->
    read4 (N.of_nat ng) (N.of_nat nv) (N.of_nat na) (N.of_nat (length (lgCell r))) (psibuf r)
          (N.of_nat g) (N.of_nat v) (N.of_nat a) (N.of_nat cell) = Some (Psi g v a (N.to_nat gc)).

