(** What KeyValueReader (src/KeyValueReader.cc) prints: messages about errors, and print(). DeckModel has what it does. *)
From Verif Require Import Prelude DeckModel.
From Coq Require Import String Ascii.
Local Open Scope N_scope.

(** printf's %s of c_str(): the characters before the first zero. *)
Fixpoint cstr (s : chars) : chars := match s with [] => [] | c :: t => if c =? 0 then [] else c :: cstr t end.
(** 244-248. *)
Definition printMessage (fname message : chars) : chars :=
  str "KeyValueReader error in file " ++ cstr fname ++ [10] ++ str "   " ++ cstr message ++ [10].
(** errorString += lineNum, 332 and 340: the int is converted to char, and that character appended. *)
Definition asChar (n : N) : N := n mod 256.
(** 323-350, one line of the file: keys so far, lineNum, what has been printed. lineNum is an int, which overflows
    (undefined) after 2^31 - 1 lines; here it is unbounded and the theorems limit the number of lines. *)
Definition readLineText (fname : chars) (st : list chars * N * chars) (line : chars) : list chars * N * chars :=
  let '(ks, lineNum, out) := st in
  match parseLine line with
  | None => (ks, lineNum + 1, out ++ printMessage fname (str "Parse error on line " ++ [asChar lineNum]))
  | Some (key, _) =>
      match findKey ks key with
      | Some _ => (ks, lineNum + 1, out ++ printMessage fname (str "Duplicate key on line " ++ [asChar lineNum]))
      | None => if isEmpty key then (ks, lineNum + 1, out) else (ks ++ [key], lineNum + 1, out)
      end
  end.
(** 292-359 readFile. *)
Definition readFileText (s : kvr) (fname : chars) (content : option chars) : chars :=
  if isFileRead s then printMessage fname (str "Already read a file") else
  match content with
  | None => printMessage fname (str "Could not open file")
  | Some txt => snd (fold_left (readLineText fname) (getlines txt) (keyVector s, 1, []))
  end.
(** 369-391 getString. *)
Definition getStringText (s : kvr) (key : chars) : chars :=
  if negb (isFileRead s) then printMessage (filename s) (str "File not read.") else
  match findKey (keyVector s) key with
  | None => printMessage (filename s) (str "Key not found: " ++ key)
  | Some _ => []
  end.
(** 401-419 getInt, 429-447 getDouble, 485-510 getBool. *)
Definition getIntText (s : kvr) (key : chars) : chars :=
  match getString s key with
  | inr _ => getStringText s key
  | inl v => match stoi v with Some _ => [] | None => printMessage (filename s) (str "Error converting value to int") end
  end.
Definition getDoubleText {D : Type} (stod : chars -> option D) (s : kvr) (key : chars) : chars :=
  match getString s key with
  | inr _ => getStringText s key
  | inl v => match stod v with Some _ => [] | None => printMessage (filename s) (str "Error converting value to double") end
  end.
Definition getBoolText (s : kvr) (key : chars) : chars :=
  match getString s key with
  | inr _ => getStringText s key
  | inl v => if areStringsEqual v (str "true") then [] else if areStringsEqual v (str "false") then []
             else printMessage (filename s) (str "Error converting value to bool")
  end.
(** 519-535 print: what is printed, and the exception. The two vectors have the same length. *)
Definition printText (s : kvr) : chars * option exn :=
  let head := [10] ++ str "--- KeyValueReader Data (" ++ cstr (filename s) ++ str ") ---" ++ [10] in
  if negb (isFileRead s) then (head ++ printMessage (filename s) (str "File not read."), Some FileNotRead)
  else (head ++ List.concat (map (fun kv => str "    " ++ cstr (fst kv) ++ str " " ++ cstr (snd kv) ++ [10]) (combine (keyVector s) (valueVector s))) ++ [10], None).
