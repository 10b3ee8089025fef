(** KeyValueReader and Main.cc readInput.

    Characters are byte codes ([N] below 256).  What is printed (printMessage, print) is in
    MessageModel.v; file access is the oracle [option content] given to readFile. *)
From Verif Require Import Prelude.
From Coq Require Import String Ascii.
Local Open Scope N_scope.

Notation chars := (list N).
(** C string literal as character codes. *)
Definition str (s : string) : chars := map N_of_ascii (list_ascii_of_string s).

(** std::string::find of one character in a literal, [!= npos]. *)
Definition member (c : N) (s : chars) : bool := existsb (N.eqb c) s.

(** src/KeyValueReader.cc:55-60 getRidOfComments. *)
Fixpoint getRidOfComments (line : chars) : chars :=
  match line with
  | [] => []
  | c :: t => if c =? 35 then [] else c :: getRidOfComments t
  end.

(** src/KeyValueReader.cc:70-81 deleteWhitespace: count of deleted characters, remaining line. *)
Definition whitespace : chars := [32; 9].
Fixpoint deleteWhitespace (line : chars) : nat * chars :=
  match line with
  | [] => (0%nat, [])
  | c :: t => if member c whitespace
              then let '(n, r) := deleteWhitespace t in (S n, r)
              else (0%nat, line)
  end.

(** toupper in the C locale. *)
Definition toupper (c : N) : N := if (97 <=? c) && (c <=? 122) then c - 32 else c.

(** src/KeyValueReader.cc:91-102 areStringsEqual. *)
Fixpoint eqLoop (s1 s2 : chars) : bool :=
  match s1, s2 with
  | a :: t1, b :: t2 => if toupper a =? toupper b then eqLoop t1 t2 else false
  | _, _ => true
  end.
Definition areStringsEqual (s1 s2 : chars) : bool :=
  if negb (Nat.eqb (List.length s1) (List.length s2)) then false else eqLoop s1 s2.

(** src/KeyValueReader.cc:112-127 popToken: token, remaining line. *)
Definition allowableChar : chars :=
  str "abcdefghijklmnopqrstuvwxyzABCDEFGHIJKLMNOPQRSTUVWXYZ0123456789+-_.".
Fixpoint popToken (line : chars) : chars * chars :=
  match line with
  | [] => ([], [])
  | c :: t => if member c allowableChar
              then let '(tok, r) := popToken t in (c :: tok, r)
              else ([], line)
  end.

Definition isEmpty (s : chars) : bool := match s with [] => true | _ => false end.

(** src/KeyValueReader.cc:144-196 parseLine: [None] = returns false; otherwise (outKey, outValue). *)
Definition parseLine (line : chars) : option (chars * chars) :=
  let parsedLine := getRidOfComments line in
  let '(_, parsedLine) := deleteWhitespace parsedLine in
  if isEmpty parsedLine then Some ([], []) else
  let '(key, parsedLine) := popToken parsedLine in
  if isEmpty key then None else
  let '(numWhitespace, parsedLine) := deleteWhitespace parsedLine in
  if Nat.eqb numWhitespace 0 then None else
  let '(value, parsedLine) := popToken parsedLine in
  if isEmpty value then None else
  let '(_, parsedLine) := deleteWhitespace parsedLine in
  if negb (isEmpty parsedLine) then None else
  Some (key, value).

(** src/KeyValueReader.cc:206-215 findKey. *)
Fixpoint findKey (keyVector : list chars) (key : chars) : option nat :=
  match keyVector with
  | [] => None
  | k :: t => if areStringsEqual key k then Some 0%nat else option_map S (findKey t key)
  end.

(** std::getline until end of file. *)
Fixpoint getlines_aux (cur : chars) (content : chars) : list chars :=
  match content with
  | [] => if isEmpty cur then [] else [rev cur]
  | c :: t => if c =? 10 then rev cur :: getlines_aux [] t else getlines_aux (c :: cur) t
  end.
Definition getlines (content : chars) : list chars := getlines_aux [] content.

(** src/KeyValueReader.cc:228-236 Private. *)
Record kvr := mkKvr { keyVector : list chars; valueVector : list chars; isFileRead : bool; filename : chars }.

(** src/KeyValueReader.cc:277-283 reset; also the constructor 261-265. *)
Definition kvr_reset : kvr := mkKvr [] [] false [].

(** src/KeyValueReader.hh:42-49. *)
Inductive exn := AlreadyReadAFile | FileNotRead | OpenFileError | ParseFileError | KeyNotFound
  | StringConversionError.

(** src/KeyValueReader.cc:323-350 one line. *)
Definition readLine (st : list chars * list chars * bool) (line : chars) : list chars * list chars * bool :=
  let '(ks, vs, ok) := st in
  match parseLine line with
  | None => (ks, vs, false)
  | Some (key, value) =>
      match findKey ks key with
      | Some _ => (ks, vs, false)
      | None => if isEmpty key then (ks, vs, ok) else (ks ++ [key], vs ++ [value], ok)
      end
  end.

(** src/KeyValueReader.cc:292-359 readFile.  [content = None]: the file cannot be opened.
    Returns the new state and the exception thrown, if any. *)
Definition readFile (s : kvr) (fname : chars) (content : option chars) : kvr * option exn :=
  if isFileRead s then (s, Some AlreadyReadAFile) else
  match content with
  | None => (s, Some OpenFileError)
  | Some txt =>
      let '(ks, vs, ok) := fold_left readLine (getlines txt) (keyVector s, valueVector s, true) in
      (mkKvr ks vs true fname, if ok then None else Some ParseFileError)
  end.

(** src/KeyValueReader.cc:369-391 getString. *)
Definition getString (s : kvr) (key : chars) : chars + exn :=
  if negb (isFileRead s) then inr FileNotRead else
  match findKey (keyVector s) key with
  | None => inr KeyNotFound
  | Some i => inl (nth i (valueVector s) [])
  end.

(** std::stoi, base 10: optional sign, longest digit prefix, trailing characters ignored;
    fails when there is no digit or the value does not fit an int.  Values come from
    popToken, so leading white space cannot occur and is not modelled. *)
Definition isDigit (c : N) : bool := (48 <=? c) && (c <=? 57).
Fixpoint digits (acc : Z) (s : chars) : Z :=
  match s with
  | c :: t => if isDigit c then digits (10 * acc + (Z.of_N c - 48))%Z t else acc
  | [] => acc
  end.
Definition stoi (s : chars) : option Z :=
  let '(neg, s') := match s with
                    | c :: t => if c =? 45 then (true, t) else if c =? 43 then (false, t) else (false, s)
                    | [] => (false, s) end in
  match s' with
  | c :: _ =>
      if isDigit c then
        let v := digits 0 s' in
        let v := if neg then (- v)%Z else v in
        if ((-2147483648 <=? v) && (v <=? 2147483647))%Z then Some v else None
      else None
  | [] => None
  end.

(** src/KeyValueReader.cc:401-419 getInt. *)
Definition getInt (s : kvr) (key : chars) : Z + exn :=
  match getString s key with
  | inr e => inr e
  | inl v => match stoi v with Some z => inl z | None => inr StringConversionError end
  end.

(** src/KeyValueReader.cc:429-447 getDouble; [stod] is the library conversion. *)
Definition getDouble {D} (stod : chars -> option D) (s : kvr) (key : chars) : D + exn :=
  match getString s key with
  | inr e => inr e
  | inl v => match stod v with Some d => inl d | None => inr StringConversionError end
  end.

(** src/KeyValueReader.cc:485-510 getBool. *)
Definition getBool (s : kvr) (key : chars) : bool + exn :=
  match getString s key with
  | inr e => inr e
  | inl v => if areStringsEqual v (str "true") then inl true
             else if areStringsEqual v (str "false") then inl false
             else inr StringConversionError
  end.

(** A client's calls and what it observes. *)
Inductive kop := KRead (fname : chars) (content : option chars) | KReset | KGet (key : chars).
Inductive kout := OUnit | OExn (e : exn) | OVal (v : chars).
Definition kstep (s : kvr) (o : kop) : kvr * kout :=
  match o with
  | KRead f c => let '(s', e) := readFile s f c in
                 (s', match e with None => OUnit | Some e => OExn e end)
  | KReset => (kvr_reset, OUnit)
  | KGet k => (s, match getString s k with inl v => OVal v | inr e => OExn e end)
  end.
Fixpoint krun (s : kvr) (l : list kop) : kvr * list kout :=
  match l with
  | [] => (s, [])
  | o :: l' => let '(s', r) := kstep s o in let '(s'', rs) := krun s' l' in (s'', r :: rs)
  end.

(** ---- Main.cc ---- *)

(** src/Global.hh:60-110 enumerations. *)
Inductive mpiType := TychoTwoSided | CapsaicinTwoSided.
Inductive sweepType := OriginalTycho1 | OriginalTycho2 | TraverseGraph | PBJ | PBJOuter | PBJSI
  | Schur | SchurOuter | SchurKrylov.
Inductive gaussElimT := GE_Original | GE_NoPivot | GE_CramerGlu | GE_CramerIntel.

Record config (D : Type) := mkConfig {
  cSnOrder : N; cIterMax : N; cErrMax : D; cMaxCellsPerStep : N; cIntraAngleP : N; cInterAngleP : N;
  cNGroups : N; cSigmaT1 : D; cSigmaS1 : D; cSigmaT2 : D; cSigmaS2 : D;
  cOutputFile : bool; cOutputFilename : chars; cDdIterMax : N; cDdErrMax : D; cUseSI : bool;
  cMpi : mpiType; cSweep : sweepType; cGauss : gaussElimT }.
Arguments mkConfig {D}. Arguments cSnOrder {D}. Arguments cIterMax {D}. Arguments cErrMax {D}.
Arguments cMaxCellsPerStep {D}. Arguments cIntraAngleP {D}. Arguments cInterAngleP {D}.
Arguments cNGroups {D}. Arguments cSigmaT1 {D}. Arguments cSigmaS1 {D}. Arguments cSigmaT2 {D}.
Arguments cSigmaS2 {D}. Arguments cOutputFile {D}. Arguments cOutputFilename {D}.
Arguments cDdIterMax {D}. Arguments cDdErrMax {D}. Arguments cUseSI {D}. Arguments cMpi {D}.
Arguments cSweep {D}. Arguments cGauss {D}.

(** int assigned to UINT. *)
Definition int_to_UINT (z : Z) : N := Z.to_N (z mod 18446744073709551616)%Z.

Definition chars_eqb (a b : chars) : bool := if list_eq_dec N.eq_dec a b then true else false.

(** src/Main.cc:133-140; [None] = Insist aborts. *)
Definition parseMpi (s : chars) : option mpiType :=
  if chars_eqb s (str "TychoTwoSided") then Some TychoTwoSided
  else if chars_eqb s (str "CapsaicinTwoSided") then Some CapsaicinTwoSided
  else None.
(** src/Main.cc:143-164. *)
Definition parseSweep (s : chars) : option sweepType :=
  if chars_eqb s (str "OriginalTycho1") then Some OriginalTycho1
  else if chars_eqb s (str "OriginalTycho2") then Some OriginalTycho2
  else if chars_eqb s (str "TraverseGraph") then Some TraverseGraph
  else if chars_eqb s (str "PBJ") then Some PBJ
  else if chars_eqb s (str "PBJOuter") then Some PBJOuter
  else if chars_eqb s (str "Schur") then Some Schur
  else if chars_eqb s (str "SchurOuter") then Some SchurOuter
  else if chars_eqb s (str "PBJSI") then Some PBJSI
  else if chars_eqb s (str "SchurKrylov") then Some SchurKrylov
  else None.
(** src/Main.cc:167-176: no else branch; g_gaussElim keeps its zero initialisation, the
    enumerator GaussElim_Original. *)
Definition parseGauss (s : chars) : gaussElimT :=
  if chars_eqb s (str "Original") then GE_Original
  else if chars_eqb s (str "NoPivot") then GE_NoPivot
  else if chars_eqb s (str "CramerGlu") then GE_CramerGlu
  else if chars_eqb s (str "CramerIntel") then GE_CramerIntel
  else GE_Original.

Definition bindE {A B E} (x : A + E) (f : A -> option B) : option B :=
  match x with inl a => f a | inr _ => None end.

(** src/Main.cc:92-178 readInput.  An uncaught exception and a failing Insist both end the
    program: outcome [None]. *)
Definition readInput {D} (stod : chars -> option D) (fname : chars) (content : option chars) : option (config D) :=
  let '(s, e) := readFile kvr_reset fname content in
  match e with
  | Some _ => None
  | None =>
    bindE (getInt s (str "snOrder")) (fun snOrder =>
    bindE (getInt s (str "iterMax")) (fun iterMax =>
    bindE (getDouble stod s (str "errMax")) (fun errMax =>
    bindE (getInt s (str "maxCellsPerStep")) (fun maxCellsPerStep =>
    bindE (getInt s (str "intraAngleP")) (fun intraAngleP =>
    bindE (getInt s (str "interAngleP")) (fun interAngleP =>
    bindE (getInt s (str "nGroups")) (fun nGroups =>
    bindE (getDouble stod s (str "sigmaT1")) (fun sigmaT1 =>
    bindE (getDouble stod s (str "sigmaS1")) (fun sigmaS1 =>
    bindE (getDouble stod s (str "sigmaT2")) (fun sigmaT2 =>
    bindE (getDouble stod s (str "sigmaS2")) (fun sigmaS2 =>
    bindE (getBool s (str "OutputFile")) (fun outputFile =>
    bindE (getString s (str "OutputFilename")) (fun outputFilename =>
    bindE (getInt s (str "DD_IterMax")) (fun ddIterMax =>
    bindE (getDouble stod s (str "DD_ErrMax")) (fun ddErrMax =>
    bindE (getBool s (str "SourceIteration")) (fun useSI =>
    bindE (getString s (str "MPIType")) (fun mpi =>
    match parseMpi mpi with None => None | Some mpi =>
    bindE (getString s (str "SweepType")) (fun sweep =>
    match parseSweep sweep with None => None | Some sweep =>
    bindE (getString s (str "GaussElim")) (fun ge =>
    Some (mkConfig (int_to_UINT snOrder) (int_to_UINT iterMax) errMax (int_to_UINT maxCellsPerStep)
            (int_to_UINT intraAngleP) (int_to_UINT interAngleP) (int_to_UINT nGroups)
            sigmaT1 sigmaS1 sigmaT2 sigmaS2 outputFile outputFilename (int_to_UINT ddIterMax)
            ddErrMax useSI mpi sweep (parseGauss ge)))
    end) end)))))))))))))))))
  end.
