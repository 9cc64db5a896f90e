(** Model of /repo/src/main.rs 36-125 and 293-411: the command line, the choice of the command, the script for shells, and
    the end of the process. Definitions only.

    Simplified: help texts and settings that only change them are left out. The library that reads the command line (clap)
    is a parameter; CliSpec.v says what is expected of it. It may end the process itself, as it does for [--help] and if the
    command line is wrong. *)
From Coq Require Import String.
From Verif Require Export Reporting.
From Verif Require RustText TsText.
Open Scope N_scope. Open Scope list_scope.

(** ** The command line *)
(** [clap::Arg]: its name, what [long], [value_name] and [required] were given. *)
Record arg := mkArg { a_name : str; a_long : option str; a_value_name : option str; a_required : bool }.
(** [clap::SubCommand]. *)
Record command := mkCommand { k_name : str; k_args : list arg }.
(** [clap::App]; the flag is [AppSettings::SubcommandRequiredElseHelp]. *)
Record clap_app := mkApp { ap_required : bool; ap_commands : list command }.

(** main.rs 40-50. *)
Definition GENERATE_SUBCOMMAND := txt "generate".
Definition GENERATE_SUBCOMMAND_PATH_OPTION := txt "generate-path".
Definition GENERATE_SUBCOMMAND_RUST_OPTION := txt "rust".
Definition GENERATE_SUBCOMMAND_TYPESCRIPT_OPTION := txt "typescript".
Definition GENERATE_SUBCOMMAND_LIST_SCHEMAS_OPTION := txt "list-schemas".
Definition FORMAT_SUBCOMMAND := txt "format".
Definition FORMAT_SUBCOMMAND_PATH_OPTION := txt "format-path".
Definition FORMAT_SUBCOMMAND_CHECK_OPTION := txt "check".
Definition SHELL_COMPLETION_SUBCOMMAND := txt "shell-completion".
Definition SHELL_COMPLETION_SUBCOMMAND_SHELL_OPTION := txt "shell-completion-shell".

(** main.rs 53-125: [cli]. *)
Definition cli : clap_app := mkApp true
  [mkCommand GENERATE_SUBCOMMAND
     [mkArg GENERATE_SUBCOMMAND_PATH_OPTION None (Some (txt "SCHEMA_PATH")) true;
      mkArg GENERATE_SUBCOMMAND_LIST_SCHEMAS_OPTION (Some GENERATE_SUBCOMMAND_LIST_SCHEMAS_OPTION) None false;
      mkArg GENERATE_SUBCOMMAND_RUST_OPTION (Some GENERATE_SUBCOMMAND_RUST_OPTION) (Some (txt "PATH")) false;
      mkArg GENERATE_SUBCOMMAND_TYPESCRIPT_OPTION (Some GENERATE_SUBCOMMAND_TYPESCRIPT_OPTION) (Some (txt "PATH")) false];
   mkCommand FORMAT_SUBCOMMAND
     [mkArg FORMAT_SUBCOMMAND_PATH_OPTION None (Some (txt "SCHEMA_PATH")) true;
      mkArg FORMAT_SUBCOMMAND_CHECK_OPTION (Some FORMAT_SUBCOMMAND_CHECK_OPTION) None false];
   mkCommand SHELL_COMPLETION_SUBCOMMAND
     [mkArg SHELL_COMPLETION_SUBCOMMAND_SHELL_OPTION None (Some (txt "SHELL")) true]].

(** [clap::ArgMatches] of a subcommand: the names of the arguments that are present, with their values if they have one. *)
Definition matches := list (str * option str).
Fixpoint given (m : matches) (n : str) : option (option str) :=
  match m with
  | [] => None
  | (k, v) :: m' => if str_eqb k n then Some v else given m' n
  end.
(** [ArgMatches::value_of], [ArgMatches::is_present]. *)
Definition value_of (m : matches) (n : str) : option str := match given m n with Some v => v | None => None end.
Definition is_present (m : matches) (n : str) : bool := match given m n with Some _ => true | None => false end.
(** [clap::ArgMatches] of the whole command line: the subcommand, if there is one. *)
Definition app_matches := option (str * matches).
(** [ArgMatches::subcommand_name], [ArgMatches::subcommand_matches]. *)
Definition subcommand_name (m : app_matches) : option str := option_map fst m.
Definition subcommand_matches (m : app_matches) (n : str) : option matches :=
  match m with Some (k, s) => if str_eqb k n then Some s else None | None => None end.
(** What [App::get_matches] does with the words of the command line. *)
Inductive reading := Matches (m : app_matches) | Exits (code : N).

(** ** The process *)
(** [clap::Shell]. *)
Inductive shell := Bash | Fish | Zsh | PowerShell | Elvish.
(** What the process does: what a command does, or [gen_completions_to] on the standard output. *)
Inductive deed := Deed (e : event) | Script (s : shell).

Section Cli.
Context (u : unicode) (pal : palette) (grapheme : str -> N -> str) (stem : str -> option str)
  (works : list effect -> effect -> bool) (wrap : N -> str -> list str) (version : str).
(** The files around the schema at a path and the texts about them, and [Path::parent]. *)
Context (files_at : str -> files) (texts_at : str -> texts) (parent : str -> option str).

(** The result of a [fn() -> Result<(), Error>], or a panic; with what was done. Errors of the commands are already
    written ([stop], in Reporting.v), which [main] does last. *)
Definition deeds : Type := list deed * outcome.
Definition of_events (r : list event * outcome) : deeds := (map Deed (fst r), snd r).
Definition panics : deeds := ([], Crashed).

(** main.rs 293-319: [shell_completion]. *)
Definition shell_variant (name : str) : option shell :=
  let s := str_lower u (trim u name) in
  if str_eqb s (txt "bash") then Some Bash
  else if str_eqb s (txt "fish") then Some Fish
  else if str_eqb s (txt "zsh") then Some Zsh
  else if str_eqb s (txt "powershell") then Some PowerShell
  else if str_eqb s (txt "elvish") then Some Elvish
  else None.
Definition shell_completion (name : str) : deeds :=
  match shell_variant name with
  | Some s => ([Script s], Succeeded)
  | None =>
      of_events (stop pal []
        (mkError (txt "Unknown shell " ++ code_str pal name ++ txt ". Must be one of Bash, Fish, Zsh, PowerShell, or Elvish.") None))
  end.

(** main.rs 127-134, 228-231: the parameters of the two commands. *)
Definition target_at (p : str) : target := mkTarget p (parent p).
Definition run_generate (p : str) (list_schemas : bool) (rust typescript : option str) : deeds :=
  of_events (xgenerate_code u pal grapheme stem (files_at p) (texts_at p) works (RustText.rust_code u version) (TsText.ts_code u version)
    list_schemas (option_map target_at rust) (option_map target_at typescript)).
Definition run_format (p : str) (check : bool) : deeds :=
  of_events (xformat_schema u pal grapheme stem (files_at p) (texts_at p) works wrap check).

(** [unwrap]. *)
Definition unwrap {A} (o : option A) (f : A -> deeds) : deeds := match o with Some x => f x | None => panics end.
(** main.rs 322-402: [entry], after the command line is read. *)
Definition entry (m : app_matches) : deeds :=
  match subcommand_name m with
  | Some subcommand =>
      if str_eqb subcommand GENERATE_SUBCOMMAND then
        unwrap (subcommand_matches m GENERATE_SUBCOMMAND) (fun sub =>
        unwrap (value_of sub GENERATE_SUBCOMMAND_PATH_OPTION) (fun path =>
        let list_schemas := is_present sub GENERATE_SUBCOMMAND_LIST_SCHEMAS_OPTION in
        let rust := value_of sub GENERATE_SUBCOMMAND_RUST_OPTION in
        let typescript := value_of sub GENERATE_SUBCOMMAND_TYPESCRIPT_OPTION in
        run_generate path list_schemas rust typescript))
      else if str_eqb subcommand FORMAT_SUBCOMMAND then
        unwrap (subcommand_matches m FORMAT_SUBCOMMAND) (fun sub =>
        unwrap (value_of sub FORMAT_SUBCOMMAND_PATH_OPTION) (fun path =>
        let check := is_present sub FORMAT_SUBCOMMAND_CHECK_OPTION in
        run_format path check))
      else if str_eqb subcommand SHELL_COMPLETION_SUBCOMMAND then
        unwrap (subcommand_matches m SHELL_COMPLETION_SUBCOMMAND) (fun sub =>
        unwrap (value_of sub SHELL_COMPLETION_SUBCOMMAND_SHELL_OPTION) shell_completion)
      else panics
  | None => panics
  end.
(** main.rs 405-411: [main]; 101 is the exit status after a panic. *)
Definition exit_status (o : outcome) : N := match o with Succeeded => 0 | Failed => 1 | Crashed => 101 end.
Definition main (get_matches : clap_app -> list str -> reading) (words : list str) : list deed * N :=
  match get_matches cli words with
  | Exits code => ([], code)
  | Matches m => let r := entry m in (fst r, exit_status (snd r))
  end.
End Cli.
