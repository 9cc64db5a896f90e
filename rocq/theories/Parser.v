(** Model of /repo/src/parser.rs. Definitions only.

    The Rust functions index a slice of tokens by a position and push to a vector of errors; the model's work
    on the remaining tokens (position = number of tokens - number of remaining tokens) and return the errors
    they push. Error values keep only their kind. Indexing past the end is [PPanic]. *)
From Verif Require Export Tokenizer Schema.

Inductive perr := PeUnexpected | PeDuplicateImport | PeNoName | PeDuplicateDeleted | PeTrailing.
(** A value, the errors pushed, the remaining tokens; or a panic; or out of fuel. *)
Inductive pres (A : Type) := PRet (a : A) (es : list perr) (rest : list token) | PPanic | PLoop.
Arguments PRet {A} a es rest.
Arguments PPanic {A}.
Arguments PLoop {A}.
Definition pbind {A B} (r : pres A) (k : A -> list perr -> list token -> pres B) : pres B :=
  match r with PRet a es rest => k a es rest | PPanic => PPanic | PLoop => PLoop end.
(** Prepend errors already pushed. *)
Definition padd {A} (es : list perr) (r : pres A) : pres A :=
  match r with PRet a es' rest => PRet a (es ++ es') rest | PPanic => PPanic | PLoop => PLoop end.

Definition vis (v : tvariant) (l : list token) : bool :=
  match l with
  | [] => false
  | t :: _ =>
      match v, tvar t with
      | TkAs, TkAs | TkColon, TkColon | TkDot, TkDot | TkEquals, TkEquals | TkImport, TkImport
      | TkLeftCurly, TkLeftCurly | TkRightCurly, TkRightCurly | TkLeftSquare, TkLeftSquare
      | TkRightSquare, TkRightSquare | TkDeleted, TkDeleted => true
      | _, _ => false
      end
  end.
(** parser.rs 90-137: [consume_token_0!]: on a match continue after the token, otherwise push an error and
    return [err]. *)
Definition consume0 {A} (v : tvariant) (err : A) (l : list token) (k : list token -> pres A) : pres A :=
  if vis v l then k (tl l) else PRet err [PeUnexpected] l.
(** parser.rs 139-191: [consume_token_1!], for the three variants with an argument it is used with. *)
Definition consume_ident {A} (err : A) (l : list token) (k : ident -> list token -> pres A) : pres A :=
  match l with
  | t :: l' => match tvar t with TkIdentifier i => k i l' | _ => PRet err [PeUnexpected] l end
  | [] => PRet err [PeUnexpected] l
  end.
Definition consume_integer {A} (err : A) (l : list token) (k : N -> list token -> pres A) : pres A :=
  match l with
  | t :: l' => match tvar t with TkInteger n => k n l' | _ => PRet err [PeUnexpected] l end
  | [] => PRet err [PeUnexpected] l
  end.
Definition consume_path {A} (err : A) (l : list token) (k : str -> list token -> pres A) : pres A :=
  match l with
  | t :: l' => match tvar t with TkPath p => k p l' | _ => PRet err [PeUnexpected] l end
  | [] => PRet err [PeUnexpected] l
  end.

(** parser.rs 701-863: [parse_type]. [total] is [tokens.len()]; [tokens.len() - 2] panics on underflow. *)
Fixpoint parse_type (total : N) (l : list token) : pres (option sty) :=
  match l with
  | [] => PRet None [PeUnexpected] l
  | t :: l' =>
      match tvar t with
      | TkLeftSquare =>
          pbind (parse_type total l') (fun inner es r =>
            match inner with
            | Some ty => padd es (consume0 TkRightSquare None r (fun r' => PRet (Some (SyArray ty)) [] r'))
            | None => PRet None es r
            end)
      | TkBool => PRet (Some SyBool) [] l'
      | TkBytes => PRet (Some SyBytes) [] l'
      | TkF64 => PRet (Some SyF64) [] l'
      | TkS64 => PRet (Some SyS64) [] l'
      | TkString => PRet (Some SyString) [] l'
      | TkU64 => PRet (Some SyU64) [] l'
      | TkUnit => PRet (Some SyUnit) [] l'
      | _ =>
          if total <? 2 then PPanic
          else if (total - lenN l <? total - 2) && vis TkDot l' then
            consume_ident None l (fun import r =>
              consume_ident None (tl r) (fun name r' => PRet (Some (SyCustom (Some import) name)) [] r'))
          else consume_ident None l (fun name r => PRet (Some (SyCustom None name)) [] r)
      end
  end.

(** parser.rs 571-699: [parse_field]. *)
Definition parse_comment (l : list token) : list str * list token :=
  match l with
  | t :: l' => match tvar t with TkComment ps => (ps, l') | _ => ([], l) end
  | [] => ([], l)
  end.
Definition parse_rule (l : list token) : rule * list token :=
  match l with
  | t :: l' => match tvar t with TkAsymmetric => (Asymmetric, l') | TkOptional => (Optional, l') | _ => (Required, l) end
  | [] => (Required, l)
  end.
Definition parse_field (total : N) (l : list token) : pres (option sfield) :=
  let (comment, l1) := parse_comment l in
  let (r, l2) := parse_rule l1 in
  consume_ident None l2 (fun name l3 =>
    let finish (ty : sty) (l4 : list token) :=
      consume0 TkEquals None l4 (fun l5 =>
        consume_integer None l5 (fun index l6 => PRet (Some (mkSField comment r name ty index)) [] l6)) in
    if vis TkColon l3 then
      match tl l3 with
      | [] => PRet None [PeUnexpected] []
      | _ =>
          pbind (parse_type total (tl l3)) (fun ty es l4 =>
            match ty with
            | Some ty => padd es (finish ty l4)
            | None => PRet None es l4
            end)
      end
    else finish SyUnit l3).

(** parser.rs 390-398: jump to the closing brace. *)
Fixpoint skip_to_curly (l : list token) : list token :=
  match l with
  | [] => []
  | t :: l' => match tvar t with TkRightCurly => l | _ => skip_to_curly l' end
  end.
(** parser.rs 376-402: the fields of a declaration. *)
Fixpoint parse_fields (total : N) (fuel : nat) (l : list token) : pres (list sfield) :=
  match l with
  | [] => PRet [] [] l
  | _ =>
      if vis TkDeleted l || vis TkRightCurly l then PRet [] [] l
      else
        match fuel with
        | O => PLoop
        | S fuel' =>
            pbind (parse_field total l) (fun f es r =>
              match f with
              | Some f => padd es (pbind (parse_fields total fuel' r) (fun fs es' r' => PRet (f :: fs) es' r'))
              | None => PRet [] es (skip_to_curly r)
              end)
        end
  end.
(** parser.rs 404-434: the indices after [deleted]. *)
Fixpoint parse_deleted (acc : list N) (l : list token) : list N * list perr * list token :=
  match l with
  | [] => (acc, [], l)
  | t :: l' =>
      match tvar t with
      | TkInteger n =>
          let (acc', dup) := set_insert n acc in
          let '(s, es, r) := parse_deleted acc' l' in
          (s, (if dup then [PeDuplicateDeleted] else []) ++ es, r)
      | _ => (acc, [], l)
      end
  end.

(** parser.rs 476-569: [parse_import]. [stem] is [Path::file_stem] (with [to_string_lossy], which is the
    identity here). *)
Definition parse_import (u : unicode) (stem : str -> option str) (l : list token)
  : pres (option (ident * simport)) :=
  consume0 TkImport None l (fun l1 =>
    consume_path None l1 (fun path l2 =>
      if vis TkAs l2 then
        consume0 TkAs None l2 (fun l3 =>
          consume_ident None l3 (fun name l4 => PRet (Some (name, mkSImport path None)) [] l4))
      else
        match stem path with
        | Some s => PRet (Some (ident_from u s, mkSImport path None)) [] l2
        | None => PRet (Some (ident_from u [65533], mkSImport path None)) [PeNoName] l2
        end)).
(** parser.rs 271-297: the imports. *)
Fixpoint parse_imports (u : unicode) (stem : str -> option str) (fuel : nat) (m : list (ident * simport))
  (l : list token) : pres (list (ident * simport)) :=
  if vis TkImport l then
    match fuel with
    | O => PLoop
    | S fuel' =>
        pbind (parse_import u stem l) (fun i es r =>
          match i with
          | Some (name, import) =>
              let (m', dup) := map_insert name import m in
              padd (es ++ if dup then [PeDuplicateImport] else []) (parse_imports u stem fuel' m' r)
          | None => padd es (parse_imports u stem fuel' m r)
          end)
    end
  else PRet m [] l.

(** parser.rs 301-465: one declaration. [None]: the function returned early. *)
Definition parse_decl (total : N) (l : list token) : pres (option sdecl) :=
  let (comment, l1) := parse_comment l in
  match l1 with
  | [] => PPanic
  | t :: l2 =>
      let go kind :=
        consume_ident None l2 (fun name l3 =>
          consume0 TkLeftCurly None l3 (fun l4 =>
            pbind (parse_fields total (length l4) l4) (fun fields es l5 =>
              let '(deleted, es', l6) :=
                if vis TkDeleted l5 then parse_deleted [] (tl l5) else ([], [], l5) in
              padd (es ++ es') (consume0 TkRightCurly None l6 (fun l7 =>
                PRet (Some (mkSDecl comment kind name fields deleted)) [] l7))))) in
      match tvar t with
      | TkStruct => go SkStruct
      | TkChoice => go SkChoice
      | _ => PRet None [PeUnexpected] l1
      end
  end.
(** parser.rs 299-300: the loop. *)
Fixpoint parse_decls (total : N) (fuel : nat) (l : list token) : pres (list sdecl) :=
  match l with
  | [] => PRet [] [] l
  | _ =>
      match fuel with
      | O => PLoop
      | S fuel' =>
          pbind (parse_decl total l) (fun d es r =>
            match d with
            | Some d => padd es (pbind (parse_decls total fuel' r) (fun ds es' r' => PRet (d :: ds) es' r'))
            | None => PRet [] es r
            end)
      end
  end.

(** parser.rs 246-269: the comment of the schema. *)
Definition parse_schema_comment (l : list token) : list str * list token :=
  match l with
  | t :: l' =>
      match tvar t with
      | TkComment ps =>
          match l' with
          | t' :: _ =>
              match tvar t' with
              | TkStruct | TkChoice => if tend t + 1 <? tstart t' then (ps, l') else ([], l)
              | _ => (ps, l')
              end
          | [] => (ps, l')
          end
      | _ => ([], l)
      end
  | [] => ([], l)
  end.
(** parser.rs 233-474: [parse_schema]. *)
Definition parse_schema (u : unicode) (stem : str -> option str) (l : list token) : pres sschema :=
  let total := lenN l in
  let (comment, l1) := parse_schema_comment l in
  pbind (parse_imports u stem (length l1) [] l1) (fun imports es l2 =>
    padd es (pbind (parse_decls total (length l2) l2) (fun decls es' l3 =>
      PRet (mkSSchema comment imports decls) es' l3))).

(** parser.rs 194-231: [parse]. *)
Inductive parsed := ParseOk (s : sschema) | ParseErr (es : list perr) | ParsePanic | ParseLoop.
Definition parse (u : unicode) (stem : str -> option str) (tokens : list token) : parsed :=
  match parse_schema u stem tokens with
  | PPanic => ParsePanic
  | PLoop => ParseLoop
  | PRet s [] [] => ParseOk s
  | PRet s [] (_ :: _) => ParseErr [PeTrailing]
  | PRet s es _ => ParseErr es
  end.
