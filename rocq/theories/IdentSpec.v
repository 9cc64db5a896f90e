(** What the names are supposed to look like. A specification. *)
From Verif Require Export Identifier.

(** Letters, digits and underscores. *)
Definition ident_chars (s : str) : Prop :=
  Forall (fun c => ascii_is_letter c = true \/ ascii_is_digit c = true \/ c = underscore) s.

(** No digit at the beginning or directly after an underscore: every word starts with a letter. *)
Fixpoint digit_starts_word (at_start : bool) (s : str) : bool :=
  match s with
  | [] => false
  | c :: s' => (at_start && ascii_is_digit c) || digit_starts_word (c =? underscore) s'
  end.
Definition words_start_with_letters (s : str) : Prop := digit_starts_word true s = false.

(** The Rust reference (2021 edition), "Keywords": strict and reserved ones. *)
Definition rust_reference_keywords : list str := map txt
  ["as"; "break"; "const"; "continue"; "crate"; "else"; "enum"; "extern"; "false"; "fn"; "for"; "if"; "impl";
   "in"; "let"; "loop"; "match"; "mod"; "move"; "mut"; "pub"; "ref"; "return"; "self"; "Self"; "static";
   "struct"; "super"; "trait"; "true"; "type"; "unsafe"; "use"; "where"; "while"; "async"; "await"; "dyn";
   "abstract"; "become"; "box"; "do"; "final"; "macro"; "override"; "priv"; "typeof"; "unsized"; "virtual";
   "yield"; "try"]%string.
(** The Rust reference, "Identifiers": raw identifiers may not be these. *)
Definition rust_not_raw : list str := map txt ["crate"; "self"; "super"; "Self"]%string.

(** IDENTIFIER_OR_KEYWORD, restricted to ASCII. *)
Definition ascii_identifier (s : str) : Prop :=
  ident_chars s /\
  match s with
  | [] => False
  | c :: s' => ascii_is_letter c = true \/ (c = underscore /\ s' <> [])
  end.
(** An identifier that is not a keyword, or [r#] before one that may be raw. *)
Definition legal_rust_identifier (s : str) : Prop :=
  (ascii_identifier s /\ ~ In s rust_reference_keywords) \/
  (exists s', s = txt "r#" ++ s' /\ ascii_identifier s' /\ ~ In s' rust_not_raw).

(** ** Spellings *)

(** A word: a lower-case letter, then lower-case letters and digits. *)
Definition lower_or_digit (c : N) : Prop := ascii_is_lower c = true \/ ascii_is_digit c = true.
Definition word (w : str) : Prop :=
  match w with [] => False | c :: w' => ascii_is_lower c = true /\ Forall lower_or_digit w' end.
Definition capitalized (w : str) : str := match w with [] => [] | c :: w' => c - 32 :: w' end.
Fixpoint separated (sep : N) (ws : list str) : str :=
  match ws with [] => [] | [w] => w | w :: ws' => w ++ sep :: separated sep ws' end.
(** The four styles of writing a list of words: foo_bar, foo-bar, fooBar, FooBar. *)
Inductive style := InSnake | InKebab | InCamel | InPascal.
Definition spelling (st : style) (ws : list str) : str :=
  match st, ws with
  | InSnake, _ => separated 95 ws
  | InKebab, _ => separated 45 ws
  | InPascal, _ => concat (map capitalized ws)
  | InCamel, [] => []
  | InCamel, w :: ws' => w ++ concat (map capitalized ws')
  end.

(** ** JavaScript *)

(** ECMA-262 12.7.2 "Keywords and Reserved Words", with those reserved in strict mode and in modules. *)
Definition ecma_reserved : list str := map txt
  ["await"; "break"; "case"; "catch"; "class"; "const"; "continue"; "debugger"; "default"; "delete"; "do"; "else";
   "enum"; "export"; "extends"; "false"; "finally"; "for"; "function"; "if"; "import"; "in"; "instanceof"; "new";
   "null"; "return"; "super"; "switch"; "this"; "throw"; "true"; "try"; "typeof"; "var"; "void"; "while"; "with";
   "yield"; "let"; "static"; "implements"; "interface"; "package"; "private"; "protected"; "public"]%string.
Definition legal_ts_identifier (s : str) : Prop :=
  match s with
  | [] => False
  | c :: s' => (ascii_is_letter c = true \/ c = underscore) /\ ident_chars s'
  end /\ ~ In s ecma_reserved.

Definition starts_with_letter (s : str) : Prop :=
  match s with [] => False | c :: _ => ascii_is_letter c = true end.
