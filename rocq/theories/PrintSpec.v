(** What formatting must preserve, and which names and comments it can print. A specification. *)
From Verif Require Export Printer ParseSpec TokenSpec.

(** ** The same schema *)

(** Names are the same when they compare equal, however they are spelled. *)
Definition same_name (a b : ident) : Prop := ident_eqb a b = true.
Inductive same_type : sty -> sty -> Prop :=
| same_array a b : same_type a b -> same_type (SyArray a) (SyArray b)
| same_bool : same_type SyBool SyBool
| same_bytes : same_type SyBytes SyBytes
| same_f64 : same_type SyF64 SyF64
| same_s64 : same_type SyS64 SyS64
| same_string : same_type SyString SyString
| same_u64 : same_type SyU64 SyU64
| same_unit : same_type SyUnit SyUnit
| same_local n n' : same_name n n' -> same_type (SyCustom None n) (SyCustom None n')
| same_imported i i' n n' : same_name i i' -> same_name n n' ->
    same_type (SyCustom (Some i) n) (SyCustom (Some i') n').

(** [C] says when two comments count as the same. *)
Section Same.
Context (C : list str -> list str -> Prop).
Definition same_field (a b : sfield) : Prop :=
  C (sf_comment a) (sf_comment b) /\ sf_rule a = sf_rule b /\ same_name (sf_name a) (sf_name b) /\
  same_type (sf_type a) (sf_type b) /\ sf_index a = sf_index b.
Definition same_decl (a b : sdecl) : Prop :=
  C (sd_comment a) (sd_comment b) /\ sd_kind a = sd_kind b /\ same_name (sd_name a) (sd_name b) /\
  Forall2 same_field (sd_fields a) (sd_fields b) /\ sd_deleted a = sd_deleted b.
Definition same_import (a b : ident * simport) : Prop :=
  same_name (fst a) (fst b) /\ si_path (snd a) = si_path (snd b).
Definition same_schema (a b : sschema) : Prop :=
  C (ss_comment a) (ss_comment b) /\ Forall2 same_import (ss_imports a) (ss_imports b) /\
  Forall2 same_decl (ss_decls a) (ss_decls b).
End Same.

(** ** What can be printed *)

(** ASCII names that start with a letter ... *)
Definition ascii_name (u : unicode) (i : ident) : Prop :=
  i = ident_from u (original i) /\ ident_chars (original i) /\ starts_with_letter (original i).
(** ... and are not a keyword in the case they are printed in: [foo_bar] for fields and imports, [FooBar] for
    types, where moreover no word may start with a digit. *)
Definition snake_printable (u : unicode) (i : ident) : Prop :=
  ascii_name u i /\ ~ In (snake_case i) (map fst reserved).
Definition pascal_printable (u : unicode) (i : ident) : Prop :=
  ascii_name u i /\ words_start_with_letters (original i) /\ ~ In (pascal_case u i) (map fst reserved).
Fixpoint printable_type (u : unicode) (t : sty) : Prop :=
  match t with
  | SyArray t' => printable_type u t'
  | SyCustom i n => pascal_printable u n /\ match i with Some i => snake_printable u i | None => True end
  | _ => True
  end.
Definition printable_field (u : unicode) (f : sfield) : Prop :=
  snake_printable u (sf_name f) /\ printable_type u (sf_type f).
Definition printable_decl (u : unicode) (d : sdecl) : Prop :=
  pascal_printable u (sd_name d) /\ Forall (printable_field u) (sd_fields d).
(** An import named like its file is printed without the name. *)
Definition printable_import (u : unicode) (stem : str -> option str) (e : ident * simport) : Prop :=
  snake_printable u (fst e) \/ exists s, stem (si_path (snd e)) = Some s /\ same_name (fst e) (ident_from u s).
Definition printable_schema (u : unicode) (stem : str -> option str) (s : sschema) : Prop :=
  Forall (printable_import u stem) (ss_imports s) /\ Forall (printable_decl u) (ss_decls s).

(** ** Wrapping *)

(** The lines of a wrapped text contain no line break. *)
Definition makes_lines (wrap : N -> str -> list str) : Prop := forall w p, Forall no_newline (wrap w p).
(** A paragraph that is only broken at single spaces: no spaces dropped, no word split. *)
Definition tidy (u : unicode) (l : str) : Prop :=
  l <> [] /\ is_whitespace u (hd 0 l) = false /\ is_whitespace u (last l 0) = false.
Definition wraps_cleanly (u : unicode) (wrap : N -> str -> list str) (width : N) (p : str) : Prop :=
  wrap width p <> [] /\ Forall (tidy u) (wrap width p) /\ separated 32 (wrap width p) = p.
(** The comments of a schema: 77 columns after [# ], 73 inside a declaration. *)
Definition comments_wrap_cleanly (u : unicode) (wrap : N -> str -> list str) (s : sschema) : Prop :=
  Forall (wraps_cleanly u wrap 77) (ss_comment s) /\
  Forall (fun d => Forall (wraps_cleanly u wrap 77) (sd_comment d) /\
                   Forall (fun f => Forall (wraps_cleanly u wrap 73) (sf_comment f)) (sd_fields d)) (ss_decls s).
