(** Model of /repo/src/identifier.rs and of the naming functions of the code generators. Strings are lists
    of Unicode scalar values. Definitions only. *)
From Coq Require String Ascii.
Export Coq.Strings.String.StringSyntax.
Delimit Scope string_scope with string.
Bind Scope string_scope with String.string.
From Verif Require Export Base Utf8.

Definition str := list N.
(** Literals (ASCII only). *)
Definition txt (s : String.string) : str := map Ascii.N_of_ascii (String.list_ascii_of_string s).

Fixpoint str_eqb (a b : str) : bool :=
  match a, b with
  | [], [] => true
  | x :: a', y :: b' => (x =? y) && str_eqb a' b'
  | _, _ => false
  end.

(** The parts of Rust's Unicode tables that the code uses ([char::is_uppercase], [str::to_lowercase],
    [char::to_uppercase], [char::is_alphabetic], [char::is_alphanumeric], [char::is_whitespace]). They
    are a parameter of the model; theorems that need facts about them assume [ascii_agrees]. *)
Record unicode := mkUnicode {
  is_uppercase : N -> bool;
  str_lower : str -> str;
  char_upper : N -> str;
  is_alphabetic : N -> bool;
  is_alphanumeric : N -> bool;
  is_whitespace : N -> bool }.

(** ASCII tables. *)
Definition ascii_is_upper (c : N) : bool := (65 <=? c) && (c <=? 90).
Definition ascii_is_lower (c : N) : bool := (97 <=? c) && (c <=? 122).
Definition ascii_is_digit (c : N) : bool := (48 <=? c) && (c <=? 57).
Definition ascii_is_letter (c : N) : bool := ascii_is_upper c || ascii_is_lower c.
Definition ascii_is_white (c : N) : bool := ((9 <=? c) && (c <=? 13)) || (c =? 32).
Definition ascii_lower (c : N) : N := if ascii_is_upper c then c + 32 else c.
Definition ascii_upper (c : N) : N := if ascii_is_lower c then c - 32 else c.
Definition is_ascii (c : N) : bool := c <? 128.

(** What is assumed of Rust's tables: on ASCII they are the ASCII tables. *)
Record ascii_agrees (u : unicode) : Prop := mkAgrees {
  agrees_upper : forall c, is_ascii c = true -> is_uppercase u c = ascii_is_upper c;
  agrees_lower : forall s, forallb is_ascii s = true -> str_lower u s = map ascii_lower s;
  agrees_to_upper : forall c, is_ascii c = true -> char_upper u c = [ascii_upper c];
  agrees_alpha : forall c, is_ascii c = true -> is_alphabetic u c = ascii_is_letter c;
  agrees_alnum : forall c, is_ascii c = true -> is_alphanumeric u c = ascii_is_letter c || ascii_is_digit c;
  agrees_white : forall c, is_ascii c = true -> is_whitespace u c = ascii_is_white c }.

Definition underscore : N := 95.
Definition hyphen : N := 45.

(** [str::split] by one character. *)
Fixpoint split_on (sep : N) (s : str) : list str :=
  match s with
  | [] => [[]]
  | c :: s' =>
      if c =? sep then [] :: split_on sep s'
      else match split_on sep s' with w :: ws => (c :: w) :: ws | [] => [[c]] end
  end.

(** [[String]::join]. *)
Fixpoint join (sep : str) (ws : list str) : str :=
  match ws with
  | [] => []
  | [w] => w
  | w :: ws' => w ++ sep ++ join sep ws'
  end.

(** identifier.rs 131-152: [split_words]. *)
Definition snaked (u : unicode) (name : str) : str :=
  flat_map (fun c => if is_uppercase u c then [underscore; c] else [c]) name.
Definition is_nonempty {A} (l : list A) : bool := match l with [] => false | _ => true end.
Definition split_words (u : unicode) (name : str) : list str :=
  filter is_nonempty (flat_map (split_on hyphen) (split_on underscore (snaked u name))).

(** identifier.rs 18-23: [Identifier]. *)
Record ident := mkIdent { original : str; snake_case : str }.

(** identifier.rs 51-63: [From<&str>]. *)
Definition ident_from (u : unicode) (s : str) : ident :=
  mkIdent s (join [underscore] (map (str_lower u) (split_words u s))).

(** identifier.rs 25-29, 45-49: [PartialEq], and [Hash] (which hashes the same string). *)
Definition ident_eqb (a b : ident) : bool := str_eqb (snake_case a) (snake_case b).
Definition ident_hash {H} (hash_str : str -> H) (a : ident) : H := hash_str (snake_case a).

(** identifier.rs 33-43: [PartialOrd], [Ord]: Rust compares strings as byte strings. *)
Fixpoint bytes_cmp (a b : bytes) : comparison :=
  match a, b with
  | [], [] => Eq
  | [], _ :: _ => Lt
  | _ :: _, [] => Gt
  | x :: a', y :: b' => match x ?= y with Eq => bytes_cmp a' b' | c => c end
  end.
Definition ident_cmp (a b : ident) : comparison :=
  bytes_cmp (utf8_encode (snake_case a)) (utf8_encode (snake_case b)).

(** The closure in identifier.rs 92-103 and 111-121. *)
Definition capitalize (u : unicode) (word : str) : str :=
  match word with
  | [] => []
  | c :: rest => char_upper u c ++ str_lower u rest
  end.

(** identifier.rs 81-105: [camel_case]. *)
Definition camel_case (u : unicode) (i : ident) : str :=
  match split_words u (original i) with
  | [] => []
  | w :: ws => str_lower u w ++ flat_map (capitalize u) ws
  end.

(** identifier.rs 107-123: [pascal_case]. *)
Definition pascal_case (u : unicode) (i : ident) : str :=
  flat_map (capitalize u) (split_words u (original i)).

(** identifier.rs 125-128: [join]. *)
Definition ident_join (u : unicode) (a b : ident) : ident :=
  ident_from u (original a ++ [underscore] ++ original b).

(** ** Names in generated code *)

(** generate_rust.rs 19-74: [RUST_KEYWORDS]. *)
Definition RUST_KEYWORDS : list str := map txt
  ["Self"; "abstract"; "as"; "async"; "await"; "become"; "box"; "break"; "const"; "continue"; "crate"; "do";
   "dyn"; "else"; "enum"; "extern"; "false"; "final"; "fn"; "for"; "if"; "impl"; "in"; "let"; "loop"; "macro";
   "macro_rules"; "match"; "mod"; "move"; "mut"; "override"; "priv"; "pub"; "ref"; "return"; "self"; "static";
   "struct"; "super"; "trait"; "true"; "try"; "type"; "typeof"; "union"; "unsafe"; "unsized"; "use"; "virtual";
   "where"; "while"; "yield"]%string.

(** generate_typescript.rs 13-96: [TYPESCRIPT_KEYWORDS]. *)
Definition TYPESCRIPT_KEYWORDS : list str := map txt
  ["abstract"; "any"; "as"; "assert"; "asserts"; "async"; "await"; "bigint"; "boolean"; "break"; "case"; "catch";
   "class"; "const"; "constructor"; "continue"; "debugger"; "declare"; "default"; "delete"; "do"; "else"; "enum";
   "export"; "extends"; "false"; "finally"; "for"; "from"; "function"; "get"; "global"; "if"; "implements";
   "import"; "in"; "infer"; "instanceof"; "interface"; "intrinsic"; "is"; "keyof"; "let"; "module"; "namespace";
   "never"; "new"; "null"; "number"; "object"; "of"; "override"; "package"; "private"; "protected"; "public";
   "readonly"; "require"; "return"; "set"; "static"; "string"; "super"; "switch"; "symbol"; "this"; "throw";
   "true"; "try"; "type"; "typeof"; "undefined"; "unique"; "unknown"; "var"; "void"; "while"; "with";
   "yield"]%string.

Inductive casing := Snake | Camel | Pascal.
Inductive suffix := SAtlas | SIn | SOut.
Definition suffix_str (s : suffix) : str :=
  txt (match s with SAtlas => "Atlas" | SIn => "In" | SOut => "Out" end)%string.
Definition with_suffix (u : unicode) (i : ident) (s : option suffix) : ident :=
  match s with None => i | Some s => ident_join u i (ident_from u (suffix_str s)) end.
Definition in_case (u : unicode) (c : casing) (i : ident) : str :=
  match c with Snake => snake_case i | Camel => camel_case u i | Pascal => pascal_case u i end.

(** generate_rust.rs 1722-1757: [write_identifier]. *)
Definition rust_name (u : unicode) (i : ident) (c : casing) (s : option suffix) : str :=
  let converted := in_case u c (with_suffix u i s) in
  if existsb (str_eqb converted) RUST_KEYWORDS then txt "r#" ++ converted else converted.

(** generate_typescript.rs 1672-1707: [write_identifier]. *)
Definition ts_name (u : unicode) (i : ident) (c : casing) (s : option suffix) : str :=
  let converted := in_case u c (with_suffix u i s) in
  if existsb (str_eqb converted) TYPESCRIPT_KEYWORDS then txt "_" ++ converted else converted.

(** An example of tables satisfying [ascii_agrees]: ASCII only. *)
Definition ascii_unicode : unicode :=
  mkUnicode ascii_is_upper (map ascii_lower) (fun c => [ascii_upper c]) ascii_is_letter
    (fun c => ascii_is_letter c || ascii_is_digit c) ascii_is_white.
