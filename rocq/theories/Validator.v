(** Model of /repo/src/validator.rs. Definitions only. Error values keep their kind and subject; messages and source
    listings are left out, and with them the source path and contents that the map also holds. *)
From Verif Require Export Schema.

(** The key of the map of schemas, and [==] on it (schema.rs 86: derived). *)
Fixpoint ns_eqb (a b : namespace) : bool :=
  match a, b with
  | [], [] => true
  | x :: a', y :: b' => ident_eqb x y && ns_eqb a' b'
  | _, _ => false
  end.
(** Qualified type names. *)
Definition qname := (namespace * ident)%type.
Definition q_eqb (a b : qname) : bool := ns_eqb (fst a) (fst b) && ident_eqb (snd a) (snd b).

Inductive verr :=
| VDupDecl (n : ident) | VDupField (n : ident) | VDupIndex (i : N) | VDeleted (i : N) | VTooLarge (i : N)
| VNoImport (n : ident) | VNoType (n : ident) | VGap (i : N) | VCycle (path : list qname).

(** [HashSet::contains] and [HashSet::remove]; a set is the list of its elements. *)
Definition contains {A} (eqb : A -> A -> bool) (x : A) (l : list A) : bool := existsb (eqb x) l.
Definition remove_from {A} (eqb : A -> A -> bool) (x : A) (l : list A) : list A := filter (fun y => negb (eqb x y)) l.

(** validator.rs 26-36: [all_types]. A later declaration with the same name replaces an earlier one. *)
Definition types_map := list (qname * (sschema * sdecl)).
Definition all_types (schemas : list (namespace * sschema)) : types_map :=
  rev (flat_map (fun e => map (fun d => ((fst e, sd_name d), (snd e, d))) (ss_decls (snd e))) schemas).
Definition types_get (q : qname) (types : types_map) : option (sschema * sdecl) :=
  match find (fun e => q_eqb (fst e) q) types with Some e => Some (snd e) | None => None end.

(** The namespace a type reference leads to (validator.rs 204-228 and 356-370): [None] if there is no such import,
    [Some None] if its namespace has not been filled in (the [unwrap] panics). *)
Definition type_namespace (ns : namespace) (s : sschema) (import : option ident) : option (option namespace) :=
  match import with
  | None => Some (Some ns)
  | Some i => match map_get i (ss_imports s) with Some im => Some (si_namespace im) | None => None end
  end.

(** validator.rs 174-245: [validate_type]; the result is [None] if the code panics. *)
Fixpoint validate_type (types : types_map) (ns : namespace) (s : sschema) (t : sty) : option (list verr) :=
  match t with
  | SyArray t' => validate_type types ns s t'
  | SyCustom import n =>
      match type_namespace ns s import with
      | None => Some [VNoImport (match import with Some i => i | None => n end)]
      | Some None => None
      | Some (Some ns') => Some (match types_get (ns', n) types with Some _ => [] | None => [VNoType n] end)
      end
  | _ => Some []
  end.

(** validator.rs 61-125: the loop over the fields; [names], [idxs]: [field_names] and [field_indices]. Returns the
    errors and the final [field_indices]. *)
Fixpoint validate_fields (types : types_map) (ns : namespace) (s : sschema) (deleted : list N)
    (names : list ident) (idxs : list N) (fs : list sfield) : option (list verr * list N) :=
  match fs with
  | [] => Some ([], idxs)
  | f :: fs' =>
      let dup_name := contains ident_eqb (sf_name f) names in
      let dup_index := contains N.eqb (sf_index f) idxs in
      let idxs' := if dup_index then idxs else sf_index f :: idxs in
      match validate_type types ns s (sf_type f), validate_fields types ns s deleted (sf_name f :: names) idxs' fs' with
      | Some es, Some (es', idxs'') =>
          Some ((if dup_name then [VDupField (sf_name f)] else []) ++
                (if dup_index then [VDupIndex (sf_index f)] else []) ++
                (if contains N.eqb (sf_index f) deleted then [VDeleted (sf_index f)] else []) ++
                (if max_index <? sf_index f then [VTooLarge (sf_index f)] else []) ++
                es ++ es', idxs'')
      | _, _ => None
      end
  end.

(** validator.rs 127-140: the gaps. *)
Fixpoint count_from (start : N) (n : nat) : list N :=
  match n with O => [] | S n' => start :: count_from (start + 1) n' end.
Definition gaps (idxs deleted : list N) : list N :=
  filter (fun i => negb (contains N.eqb i idxs) && negb (contains N.eqb i deleted))
    (count_from 0 (length idxs + length deleted)).

(** validator.rs 43-141: the loop over the declarations; [names]: [declaration_names]. *)
Fixpoint validate_decls (types : types_map) (ns : namespace) (s : sschema) (names : list ident) (ds : list sdecl)
    : option (list verr) :=
  match ds with
  | [] => Some []
  | d :: ds' =>
      match validate_fields types ns s (sd_deleted d) [] [] (sd_fields d),
            validate_decls types ns s (sd_name d :: names) ds' with
      | Some (es, idxs), Some es' =>
          Some ((if contains ident_eqb (sd_name d) names then [VDupDecl (sd_name d)] else []) ++ es ++
                map VGap (gaps idxs (sd_deleted d)) ++ es')
      | _, _ => None
      end
  end.
(** validator.rs 38-142: the loop over the files. *)
Fixpoint validate_files (types : types_map) (files : list (namespace * sschema)) : option (list verr) :=
  match files with
  | [] => Some []
  | (ns, s) :: files' =>
      match validate_decls types ns s [] (ss_decls s), validate_files types files' with
      | Some es, Some es' => Some (es ++ es')
      | _, _ => None
      end
  end.

(** ** Cycles *)

(** The mutable arguments of the two functions: [types_checked], [types_visited_set], [types_visited_vec], [errors]. *)
Record cstate := mkC { c_checked : list qname; c_visited : list qname; c_path : list qname; c_errors : list verr }.
(** A [panic] by [unwrap]; [CLoop] means that the fuel of the model ran out (C32 shows it does not). *)
Inductive cres := CDone (st : cstate) | CPanic | CLoop.

(** validator.rs 322-381: [check_type_for_cycles]; [rec] is [check_declaration_for_cycles]. *)
Fixpoint check_type (rec : qname -> cstate -> cres) (ns : namespace) (s : sschema) (t : sty) (st : cstate) : cres :=
  match t with
  | SyArray t' => check_type rec ns s t' st
  | SyCustom import n =>
      match type_namespace ns s import with
      | Some (Some ns') => rec (ns', n) st
      | _ => CPanic
      end
  | _ => CDone st
  end.
(** validator.rs 301-312: the loop over the fields. *)
Fixpoint check_fields (rec : qname -> cstate -> cres) (ns : namespace) (s : sschema) (fs : list sfield) (st : cstate) : cres :=
  match fs with
  | [] => CDone st
  | f :: fs' =>
      match check_type rec ns s (sf_type f) st with
      | CDone st' => check_fields rec ns s fs' st'
      | r => r
      end
  end.
(** validator.rs 247-320: [check_declaration_for_cycles]. *)
Fixpoint check_decl (types : types_map) (fuel : nat) (q : qname) (st : cstate) : cres :=
  match fuel with
  | O => CLoop
  | S fuel' =>
      if contains q_eqb q (c_checked st) then CDone st
      else
        let path' := c_path st ++ [q] in
        if contains q_eqb q (c_visited st)
        then CDone (mkC (q :: c_checked st) (c_visited st) (c_path st) (c_errors st ++ [VCycle path']))
        else
          match types_get q types with
          | None => CPanic
          | Some (s, d) =>
              match check_fields (check_decl types fuel') (fst q) s (sd_fields d)
                      (mkC (c_checked st) (q :: c_visited st) path' (c_errors st)) with
              | CDone st' => CDone (mkC (q :: c_checked st') (remove_from q_eqb q (c_visited st'))
                                        (removelast (c_path st')) (c_errors st'))
              | r => r
              end
          end
  end.
(** validator.rs 146-164: the loop over all declarations. *)
Fixpoint check_all (types : types_map) (qs : list qname) (st : cstate) : cres :=
  match qs with
  | [] => CDone st
  | q :: qs' =>
      match check_decl types (S (length types)) q st with
      | CDone st' => check_all types qs' st'
      | r => r
      end
  end.

(** validator.rs 18-172: [validate]. *)
Inductive vres := VOk | VErr (es : list verr) | VPanic | VLoop.
Definition type_names (schemas : list (namespace * sschema)) : list qname :=
  flat_map (fun e => map (fun d => (fst e, sd_name d)) (ss_decls (snd e))) schemas.
Definition validate (schemas : list (namespace * sschema)) : vres :=
  let types := all_types schemas in
  match validate_files types schemas with
  | None => VPanic
  | Some [] =>
      match check_all types (type_names schemas) (mkC [] [] [] []) with
      | CDone st => match c_errors st with [] => VOk | es => VErr es end
      | CPanic => VPanic
      | CLoop => VLoop
      end
  | Some es => VErr es
  end.
