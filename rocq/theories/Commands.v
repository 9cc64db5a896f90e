(** Model of the commands in main.rs: what they write, in which order. Definitions only. *)
From Verif Require Export Loader Printer.

(** What a command does that can be observed: a line on the standard output, a directory made, a file written. Progress
    messages on the standard error output are left out. *)
Inductive output := ToSchema (p : path) | ToFile (f : str).
Inductive effect := ListSchema (p : path) | MakeDir (dir : str) | Write (o : output) (contents : str).
(** main.rs 405-411: [exit(1)] after an error. [Crashed]: a panic. *)
Inductive outcome := Succeeded | Failed | Crashed.
(** An output file and its [parent]. *)
Record target := mkTarget { t_file : str; t_parent : option str }.

Section Commands.
(** [works before e]: whether the operating system performs [e] after what has been tried before. *)
Context (works : list effect -> effect -> bool).
(** An operation followed by [?]. *)
Definition try (e : effect) (before : list effect) (continue : list effect -> list effect * outcome) : list effect * outcome :=
  if works before e then continue (before ++ [e]) else (before ++ [e], Failed).

Context (u : unicode) (stem : str -> option str) (wrap : N -> str -> list str).
(** main.rs 247-273: the loop over the schemas; [any]: [any_schema_updated]. *)
Fixpoint format_loop (check : bool) (l : list (namespace * lfile)) (any : bool) (before : list effect) : list effect * outcome :=
  match l with
  | [] => (before, if check && any then Failed else Succeeded)
  | (_, f) :: rest =>
      let contents := print_schema u stem wrap (lf_schema f) in
      let updated := negb (str_eqb (lf_contents f) contents) in
      if updated && negb check
      then try (Write (ToSchema (lf_path f)) contents) before (format_loop check rest (any || updated))
      else format_loop check rest (any || updated) before
  end.
(** main.rs 228-291: [format_schema]. *)
Definition format_schema (fs : files) (check : bool) : list effect * outcome :=
  match load_schemas u stem fs with
  | LoadOk l => format_loop check l false []
  | LoadErr _ => ([], Failed)
  | LoadPanic | LoadLoop => ([], Crashed)
  end.

(** The generators, of which only the result matters here; [None] is a panic. *)
Context (rust_code ts_code : list (namespace * sschema) -> option str).
(** main.rs 155-157. [println!] is taken to succeed. *)
Definition list_effects (l : list (namespace * lfile)) : list effect := map (fun e => ListSchema (lf_path (snd e))) l.
(** main.rs 161-186, 189-219: one output. The code is generated after the directory has been made. *)
Definition emit (t : option target) (code : option str) (before : list effect) (continue : list effect -> list effect * outcome)
    : list effect * outcome :=
  match t with
  | None => continue before
  | Some t =>
      let write before := match code with Some code => try (Write (ToFile (t_file t)) code) before continue | None => (before, Crashed) end in
      match t_parent t with Some dir => try (MakeDir dir) before write | None => write before end
  end.
(** main.rs 127-225: [generate_code]. *)
Definition generate_code (fs : files) (list_schemas : bool) (rust typescript : option target) : list effect * outcome :=
  match load_schemas u stem fs with
  | LoadOk l =>
      match validate (schemas_of l) with
      | VOk =>
          emit rust (rust_code (schemas_of l)) (if list_schemas then list_effects l else []) (fun before =>
          emit typescript (ts_code (schemas_of l)) before (fun before => (before, Succeeded)))
      | VErr _ => ([], Failed)
      | VPanic | VLoop => ([], Crashed)
      end
  | LoadErr _ => ([], Failed)
  | LoadPanic | LoadLoop => ([], Crashed)
  end.
End Commands.
