(** Storage classes of Tycho 2: PsiData, PsiBoundData, PhiData, Mat2, Mat3.

    size_t arithmetic is 64-bit and wraps; a failed [Assert] and an access outside
    the allocated buffer are the outcome [None].
    Simplification: element values are an abstract type [T]; the raw-pointer
    constructors of PsiData and PhiData are the same object with
    caller-owned contents, so they are covered by an arbitrary initial buffer. *)
From Verif Require Import Prelude.
Local Open Scope N_scope.

(** A heap block: [new double[n]] has [blen = n] accessible slots. *)
Record buf (T : Type) := mkBuf { blen : N; bget : N -> T }.
Arguments mkBuf {T} _ _.
Arguments blen {T} _.
Arguments bget {T} _ _.

Definition buf_read {T} (b : buf T) (i : N) : option T :=
  if i <? blen b then Some (bget b i) else None.
Definition buf_write {T} (b : buf T) (i : N) (x : T) : option (buf T) :=
  if i <? blen b then Some (mkBuf (blen b) (fupdN (bget b) i x)) else None.

(** src/PsiData.hh:87-90 PsiData::size, 205-208 PsiBoundData::size. *)
Definition size4 (ng nv na nc : N) : N := w64 (w64 (w64 (ng * nv) * na) * nc).
(** src/PsiData.hh:155-163 PsiData::index, 263-271 PsiBoundData::index. *)
Definition index4 (ng nv na nc g v a c : N) : option N :=
  if (g <? ng) && (v <? nv) && (a <? na) && (c <? nc) then
    Some (w64 (w64 (w64 (w64 (w64 (w64 (c * na) + a) * nv) + v) * ng) + g))
  else None.

(** src/PsiData.hh:311-314 PhiData::size. *)
Definition size3 (ng nv nc : N) : N := w64 (w64 (ng * nv) * nc).
(** src/PsiData.hh:370-377 PhiData::index. *)
Definition index3 (ng nv nc g v c : N) : option N :=
  if (g <? ng) && (v <? nv) && (c <? nc) then
    Some (w64 (w64 (w64 (w64 (c * nv) + v) * ng) + g))
  else None.

(** src/Mat.hh:213-216 Mat2::size, 170-176 Mat2::index. *)
Definition mat2_size (xlen ylen : N) : N := w64 (xlen * ylen).
Definition mat2_index (xlen ylen i j : N) : option N :=
  if (i <? xlen) && (j <? ylen) then Some (w64 (w64 (j * xlen) + i)) else None.

(** src/Mat.hh:300-307 Mat3::index; size is the product of the three extents. *)
Definition mat3_size (xlen ylen zlen : N) : N := w64 (w64 (xlen * ylen) * zlen).
Definition mat3_index (xlen ylen zlen i j k : N) : option N :=
  if (i <? xlen) && (j <? ylen) && (k <? zlen) then
    Some (w64 (w64 (w64 (w64 (k * ylen) + j) * xlen) + i))
  else None.

(** Operations a client can perform on a four-index container.
    [WAt]: operator() (src/PsiData.hh:62-71); [WRaw]: operator[] (73-83);
    [WAll]: setToValue (125-133). *)
Inductive op4 (T : Type) :=
| WAt (g v a c : N) (x : T)
| WRaw (i : N) (x : T)
| WAll (x : T).
Arguments WAt {T}. Arguments WRaw {T}. Arguments WAll {T}.

(** src/PsiData.hh:94-103 constructor: allocate and setToValue(0.0). *)
Definition new4 {T} (zero : T) (ng nv na nc : N) : buf T :=
  mkBuf (size4 ng nv na nc) (fun _ => zero).

Definition step4 {T} (ng nv na nc : N) (b : buf T) (o : op4 T) : option (buf T) :=
  match o with
  | WAt g v a c x =>
      match index4 ng nv na nc g v a c with
      | Some i => buf_write b i x
      | None => None
      end
  | WRaw i x => if i <? size4 ng nv na nc then buf_write b i x else None
  | WAll x => Some (mkBuf (blen b) (fun i => if i <? size4 ng nv na nc then x else bget b i))
  end.

Fixpoint run4 {T} (ng nv na nc : N) (b : buf T) (l : list (op4 T)) : option (buf T) :=
  match l with
  | [] => Some b
  | o :: l' => match step4 ng nv na nc b o with
               | Some b' => run4 ng nv na nc b' l'
               | None => None
               end
  end.

Definition read4 {T} (ng nv na nc : N) (b : buf T) (g v a c : N) : option T :=
  match index4 ng nv na nc g v a c with
  | Some i => buf_read b i
  | None => None
  end.
