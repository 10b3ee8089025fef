(** The meaning of an input deck, stated as a grammar and independent of the parser
    (only the call and result types come from the model). *)
From Verif Require Import Prelude DeckModel.
From Coq Require Import String Ascii.
Local Open Scope N_scope.

(** blanks: spaces and tabs *)
Definition blanks (s : list N) : Prop := Forall (fun c => c = 32 \/ c = 9) s.
(** token characters: letters, digits and + - _ . *)
Definition tokchar (c : N) : Prop :=
  97 <= c <= 122 \/ 65 <= c <= 90 \/ 48 <= c <= 57 \/ c = 43 \/ c = 45 \/ c = 95 \/ c = 46.
Definition token (s : list N) : Prop := s <> [] /\ Forall tokchar s.
(** an optional comment: empty, or # followed by anything *)
Definition comment (s : list N) : Prop := s = [] \/ exists t, s = 35 :: t.

(** A line with nothing but blanks and a comment. *)
Definition line_blank (line : list N) : Prop :=
  exists w c, line = w ++ c /\ blanks w /\ comment c.
(** A line assigning value v to key k. *)
Definition line_kv (line k v : list N) : Prop :=
  exists w1 w2 w3 c, line = w1 ++ k ++ w2 ++ v ++ w3 ++ c /\
    blanks w1 /\ token k /\ blanks w2 /\ w2 <> [] /\ token v /\ blanks w3 /\ comment c.

(** Equality up to letter case. *)
Definition lower (c : N) : N := if (65 <=? c) && (c <=? 90) then c + 32 else c.
Definition same_key (a b : list N) : Prop := map lower a = map lower b.

(** The assignments of a deck (list of lines), in order; [None] for blank lines. *)
Inductive deck_lines : list (list N) -> list (list N * list N) -> Prop :=
| dl_nil : deck_lines [] []
| dl_blank line ls kvs : line_blank line -> deck_lines ls kvs -> deck_lines (line :: ls) kvs
| dl_kv line k v ls kvs : line_kv line k v -> deck_lines ls kvs -> deck_lines (line :: ls) ((k, v) :: kvs).

(** No two assignments to the same key. *)
Fixpoint distinct_keys (kvs : list (list N * list N)) : Prop :=
  match kvs with
  | [] => True
  | (k, _) :: t => (forall k' v', In (k', v') t -> ~ same_key k k') /\ distinct_keys t
  end.

(** File contents made of the given lines, each ended by a newline, the last one optionally not. *)
Fixpoint join_lines (ls : list (list N)) : list N :=
  match ls with [] => [] | l :: t => l ++ [10] ++ join_lines t end.
Definition content_of (txt : list N) (ls : list (list N)) : Prop :=
  Forall (fun l => ~ In 10 l) ls /\
  (txt = join_lines ls \/ exists ls' l, ls = ls' ++ [l] /\ l <> [] /\ txt = join_lines ls' ++ l).

(** [binds kvs k v]: the first assignment to k, up to case, gives v. *)
Inductive binds : list (list N * list N) -> list N -> list N -> Prop :=
| b_here k k' v t : same_key k k' -> binds ((k', v) :: t) k v
| b_later k k' v' v t : ~ same_key k k' -> binds t k v -> binds ((k', v') :: t) k v.
Definition mentions (kvs : list (list N * list N)) (k : list N) : Prop :=
  exists k' v', In (k', v') kvs /\ same_key k k'.

(** Scanning any file, well formed or not: a line that is neither blank nor an assignment, or
    that assigns a key already assigned, is skipped and makes the scan fail. *)
Inductive scan : list (list N * list N) -> list (list N) -> list (list N * list N) -> bool -> Prop :=
| sc_nil acc : scan acc [] acc true
| sc_blank acc line ls r ok : line_blank line -> scan acc ls r ok -> scan acc (line :: ls) r ok
| sc_kv acc line k v ls r ok : line_kv line k v -> ~ mentions acc k ->
    scan (acc ++ [(k, v)]) ls r ok -> scan acc (line :: ls) r ok
| sc_dup acc line k v ls r ok : line_kv line k v -> mentions acc k ->
    scan acc ls r ok -> scan acc (line :: ls) r false
| sc_bad acc line ls r ok : ~ line_blank line -> (forall k v, ~ line_kv line k v) ->
    scan acc ls r ok -> scan acc (line :: ls) r false.

(** Abstract reader: [None] = no file read, [Some kvs] = the assignments of the file read. *)
Inductive astep : option (list (list N * list N)) -> kop -> option (list (list N * list N)) -> kout -> Prop :=
| as_open f : astep None (KRead f None) None (OExn OpenFileError)
| as_read f txt ls kvs ok : content_of txt ls -> scan [] ls kvs ok ->
    astep None (KRead f (Some txt)) (Some kvs) (if ok then OUnit else OExn ParseFileError)
| as_again kvs f c : astep (Some kvs) (KRead f c) (Some kvs) (OExn AlreadyReadAFile)
| as_reset s : astep s KReset None OUnit
| as_unread k : astep None (KGet k) None (OExn FileNotRead)
| as_get kvs k v : binds kvs k v -> astep (Some kvs) (KGet k) (Some kvs) (OVal v)
| as_absent kvs k : ~ mentions kvs k -> astep (Some kvs) (KGet k) (Some kvs) (OExn KeyNotFound).
Inductive arun : option (list (list N * list N)) -> list kop -> list kout -> Prop :=
| ar_nil s : arun s [] []
| ar_cons s o s' r l rs : astep s o s' r -> arun s' l rs -> arun s (o :: l) (r :: rs).

(** ---- meaning of a deck as a run configuration (documented in docs/user_guide) ---- *)

Definition digit (c : N) : Prop := 48 <= c <= 57.
(** Decimal value of a digit string, most significant digit first. *)
Fixpoint dec_value (s : list N) : Z :=
  match s with [] => 0%Z | c :: t => ((Z.of_N c - 48) * 10 ^ Z.of_nat (List.length t) + dec_value t)%Z end.
(** What an integer token means: optional sign, digits, then anything (the tail is ignored);
    it must fit a 32-bit int. *)
Definition int_meaning (v : list N) (z : Z) : Prop :=
  exists sign digs rest, v = sign ++ digs ++ rest /\ digs <> [] /\ Forall digit digs /\
    (rest = [] \/ exists c t, rest = c :: t /\ ~ digit c) /\
    ((sign = [] \/ sign = [43]) /\ z = dec_value digs \/ sign = [45] /\ z = (- dec_value digs)%Z) /\
    (-2147483648 <= z <= 2147483647)%Z.

Definition mpi_names : list (list N * mpiType) :=
  [(str "TychoTwoSided", TychoTwoSided); (str "CapsaicinTwoSided", CapsaicinTwoSided)].
Definition sweep_names : list (list N * sweepType) :=
  [(str "OriginalTycho1", OriginalTycho1); (str "OriginalTycho2", OriginalTycho2);
   (str "TraverseGraph", TraverseGraph); (str "PBJ", PBJ); (str "PBJOuter", PBJOuter);
   (str "PBJSI", PBJSI); (str "Schur", Schur); (str "SchurOuter", SchurOuter);
   (str "SchurKrylov", SchurKrylov)].
Definition gauss_names : list (list N * gaussElimT) :=
  [(str "Original", GE_Original); (str "NoPivot", GE_NoPivot);
   (str "CramerGlu", GE_CramerGlu); (str "CramerIntel", GE_CramerIntel)].

Section Config.
  Context {D : Type} (stod : list N -> option D) (kvs : list (list N * list N)).
  (** unsigned option: the integer modulo 2^64 *)
  Definition int_opt (key : list N) (n : N) : Prop :=
    exists v z, binds kvs key v /\ int_meaning v z /\ Z.of_N n = (z mod 2 ^ 64)%Z.
  Definition dbl_opt (key : list N) (d : D) : Prop := exists v, binds kvs key v /\ stod v = Some d.
  Definition bool_opt (key : list N) (b : bool) : Prop :=
    exists v, binds kvs key v /\ same_key v (if b then str "true" else str "false").
  Definition config_of (c : config D) : Prop :=
    int_opt (str "snOrder") (cSnOrder c) /\ int_opt (str "iterMax") (cIterMax c) /\
    int_opt (str "maxCellsPerStep") (cMaxCellsPerStep c) /\ int_opt (str "intraAngleP") (cIntraAngleP c) /\
    int_opt (str "interAngleP") (cInterAngleP c) /\ int_opt (str "nGroups") (cNGroups c) /\
    int_opt (str "DD_IterMax") (cDdIterMax c) /\
    dbl_opt (str "errMax") (cErrMax c) /\ dbl_opt (str "sigmaT1") (cSigmaT1 c) /\
    dbl_opt (str "sigmaS1") (cSigmaS1 c) /\ dbl_opt (str "sigmaT2") (cSigmaT2 c) /\
    dbl_opt (str "sigmaS2") (cSigmaS2 c) /\ dbl_opt (str "DD_ErrMax") (cDdErrMax c) /\
    bool_opt (str "OutputFile") (cOutputFile c) /\ bool_opt (str "SourceIteration") (cUseSI c) /\
    binds kvs (str "OutputFilename") (cOutputFilename c) /\
    (exists v, binds kvs (str "MPIType") v /\ In (v, cMpi c) mpi_names) /\
    (exists v, binds kvs (str "SweepType") v /\ In (v, cSweep c) sweep_names) /\
    (exists v, binds kvs (str "GaussElim") v /\
       (In (v, cGauss c) gauss_names \/ ~ In v (map fst gauss_names) /\ cGauss c = GE_Original)).
End Config.
