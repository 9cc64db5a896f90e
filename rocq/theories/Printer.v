(** Model of the schema printer, /repo/src/schema.rs 124-336 ([Display for Schema]). Definitions only.

    [wrap width paragraph] stands for [textwrap::fill(paragraph, width).lines()] (a dependency, not modelled);
    [stem] for [Path::file_stem]. *)
From Verif Require Export Schema Tokenizer.

Definition lf : str := [10].
Definition indent (n : nat) : str := repeat 32 n.

(** [{}] on a [usize]. *)
Fixpoint decimal_digits (fuel : nat) (n : N) (acc : str) : str :=
  match fuel with
  | O => acc
  | S fuel' =>
      let acc' := 48 + n mod 10 :: acc in
      if n / 10 =? 0 then acc' else decimal_digits fuel' (n / 10) acc'
  end.
Definition print_number (n : N) : str := decimal_digits (S (N.to_nat (N.log2 n))) n [].

(** schema.rs 124-136: [write_comment]; 79 is [MAX_COLUMNS] of line 18. *)
Definition print_paragraph (wrap : N -> str -> list str) (ind : nat) (p : str) : str :=
  flat_map (fun line => indent ind ++ txt "# " ++ line ++ lf) (wrap (79 - N.of_nat ind - 2) p).
Fixpoint print_comment_from (wrap : N -> str -> list str) (ind : nat) (first : bool) (ps : list str) : str :=
  match ps with
  | [] => []
  | p :: ps' => (if first then [] else indent ind ++ txt "#" ++ lf) ++ print_paragraph wrap ind p ++
                print_comment_from wrap ind false ps'
  end.
Definition print_comment (wrap : N -> str -> list str) (ind : nat) (ps : list str) : str :=
  print_comment_from wrap ind true ps.

(** schema.rs 270-307: [TypeVariant::write]. *)
Fixpoint print_type (u : unicode) (t : sty) : str :=
  match t with
  | SyArray t' => txt "[" ++ print_type u t' ++ txt "]"
  | SyBool => txt "Bool"
  | SyBytes => txt "Bytes"
  | SyCustom (Some import) name => snake_case import ++ txt "." ++ pascal_case u name
  | SyCustom None name => pascal_case u name
  | SyF64 => txt "F64"
  | SyS64 => txt "S64"
  | SyString => txt "String"
  | SyU64 => txt "U64"
  | SyUnit => txt "Unit"
  end.

(** schema.rs 236-262: [Field::write]. *)
Definition print_field (u : unicode) (wrap : N -> str -> list str) (f : sfield) : str :=
  print_comment wrap 4 (sf_comment f) ++
  match sf_rule f with
  | Asymmetric => indent 4 ++ txt "asymmetric "
  | Optional => indent 4 ++ txt "optional "
  | Required => indent 4
  end ++
  snake_case (sf_name f) ++
  match sf_type f with SyUnit => [] | t => txt ": " ++ print_type u t end ++
  txt " = " ++ print_number (sf_index f) ++ lf.

(** schema.rs 197-207: the loop over the fields; [prev]: [previous_field_has_comment]. *)
Fixpoint print_fields (u : unicode) (wrap : N -> str -> list str) (first prev : bool) (fs : list sfield) : str :=
  match fs with
  | [] => []
  | f :: fs' =>
      (if (prev || is_nonempty (sf_comment f)) && negb first then lf else []) ++
      print_field u wrap f ++ print_fields u wrap false (is_nonempty (sf_comment f)) fs'
  end.
(** schema.rs 189-225: [Declaration::write]; 227-234: [DeclarationVariant::write]. *)
Definition print_decl (u : unicode) (wrap : N -> str -> list str) (d : sdecl) : str :=
  print_comment wrap 0 (sd_comment d) ++
  match sd_kind d with SkStruct => txt "struct" | SkChoice => txt "choice" end ++
  txt " " ++ pascal_case u (sd_name d) ++ txt " {" ++ lf ++
  print_fields u wrap true false (sd_fields d) ++
  (if is_nonempty (sd_fields d) && is_nonempty (sd_deleted d) then lf else []) ++
  (if is_nonempty (sd_deleted d)
   then indent 4 ++ txt "deleted" ++ flat_map (fun i => txt " " ++ print_number i) (sd_deleted d) ++ lf else []) ++
  txt "}" ++ lf.

(** schema.rs 166-187: [Import::write]. [display] prints the path as it was written. *)
Definition print_import (u : unicode) (stem : str -> option str) (e : ident * simport) : str :=
  let (name, import) := e in
  if match stem (si_path import) with Some s => ident_eqb (ident_from u s) name | None => false end
  then txt "import '" ++ si_path import ++ txt "'" ++ lf
  else txt "import '" ++ si_path import ++ txt "' as " ++ snake_case name ++ lf.

(** schema.rs 150-160: the loop over the declarations; [skip]: [skip_blank_line]. *)
Fixpoint print_decls (u : unicode) (wrap : N -> str -> list str) (skip : bool) (ds : list sdecl) : str :=
  match ds with
  | [] => []
  | d :: ds' => (if skip then [] else lf) ++ print_decl u wrap d ++ print_decls u wrap false ds'
  end.
(** schema.rs 138-164: [Schema::write]. *)
Definition print_schema (u : unicode) (stem : str -> option str) (wrap : N -> str -> list str) (s : sschema) : str :=
  print_comment wrap 0 (ss_comment s) ++
  (if is_nonempty (ss_comment s) && (is_nonempty (ss_imports s) || is_nonempty (ss_decls s)) then lf else []) ++
  flat_map (print_import u stem) (ss_imports s) ++
  print_decls u wrap (negb (is_nonempty (ss_imports s))) (ss_decls s).
