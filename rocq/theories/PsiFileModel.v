(** PsiData::writeToFile as positioned writes into a byte file. *)
From Verif Require Import Prelude Bytes LayoutModel.
Local Open Scope N_scope.

(** Conversion of a 64-bit unsigned value to [int] (two's complement, as on all supported
    compilers); result as a Z. *)
Definition to_i32 (x : N) : Z :=
  let m := Z.of_N (x mod 4294967296) in
  if (m <? 2147483648)%Z then m else (m - 4294967296)%Z.
(** Conversion of [int] to uint64_t. *)
Definition i32_to_u64 (z : Z) : N := Z.to_N (z mod 18446744073709551616)%Z.

(** One rank: its local-to-global cell table and its PsiData block. *)
Record psirank := mkPsiRank { lgCell : list N; psibuf : buf N }.

(** A positioned write: byte offset and 64-bit words. *)
Definition fwrite := (N * list N)%type.

(** src/PsiData.cc:65-90 the header, 32 characters then 4 words; written by rank 0 as 8 doubles. *)
Definition psiName : bytes :=
  [84; 121; 99; 104; 111; 32; 50; 32; 80; 115; 105; 32; 79; 117; 116; 112; 117; 116;
   0; 0; 0; 0; 0; 0; 0; 0; 0; 0; 0; 0; 0; 0].
Definition headerWrite (totalCells na ng : N) : fwrite :=
  (0, bytes_words psiName ++ [1; totalCells; na; ng]).

(** src/PsiData.cc:95-101 one iteration of the cell loop, with src/Comm.cc:410-416
    writeDoublesAt (offset * 8, count passed as int).  A negative count is an MPI error,
    hence an abort. *)
Definition cellWrite (ng nv na : N) (r : psirank) (cell : nat) : option fwrite :=
  let nc := N.of_nat (length (lgCell r)) in
  let dataSize := to_i32 (w64 (w64 (na * ng) * nv)) in
  match nth_error (lgCell r) cell, index4 ng nv na nc 0 0 0 (N.of_nat cell) with
  | Some globalCell, Some k =>
      if (dataSize <? 0)%Z then None else
      let offset := w64 (8 + w64 (globalCell * i32_to_u64 dataSize)) in
      match mapM (fun j => buf_read (psibuf r) (k + N.of_nat j)) (seq 0 (Z.to_nat dataSize)) with
      | Some ws => Some (w64 (offset * 8), ws)
      | None => None
      end
  | _, _ => None
  end.

(** All writes of one rank, in program order; [header] is present on rank 0 only. *)
Definition rankWrites (ng nv na : N) (header : list fwrite) (r : psirank) : option (list fwrite) :=
  match mapM (cellWrite ng nv na r) (seq 0 (length (lgCell r))) with
  | Some l => Some (header ++ l)
  | None => None
  end.

(** src/PsiData.cc:75-76 Comm::gsum of the cell counts. *)
Definition totalCells (ranks : list psirank) : N :=
  fold_right (fun r n => N.of_nat (length (lgCell r)) + n) 0 ranks.

(** The writes issued by every rank. *)
Definition allWrites (ng nv na : N) (ranks : list psirank) : option (list (list fwrite)) :=
  match ranks with
  | [] => Some []
  | r0 :: rest =>
      mapM (fun hr => rankWrites ng nv na (fst hr) (snd hr))
           (([headerWrite (totalCells ranks) na ng], r0) :: map (fun r => ([], r)) rest)
  end.

(** The file: a byte at every written position.  openFileForWrite creates it empty. *)
Definition file := N -> option N.
Definition emptyFile : file := fun _ => None.
Definition applyWrite (f : file) (w : fwrite) : file :=
  let bs := words_bytes (snd w) in
  fun p => if (fst w <=? p) && (p <? fst w + N.of_nat (length bs))
           then nth_error bs (N.to_nat (p - fst w)) else f p.
Definition applyWrites (f : file) (l : list fwrite) : file := fold_left applyWrite l f.
