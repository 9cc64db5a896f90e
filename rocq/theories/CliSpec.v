(** What is expected of the library that reads the command line, and what the command lines of typical mean. A specification,
    independent of main.rs. *)
From Coq Require Import String.
From Verif Require Export Cli TokenSpec.
Open Scope N_scope. Open Scope list_scope.

(** ** The library: clap, as documented *)
(** An argument without [long] is a word of its own; one with it has a value if [value_name] was used, and is a flag if
    not. *)
Definition positional (a : arg) : Prop := a_long a = None.
Definition option_arg (a : arg) (long : str) : Prop := a_long a = Some long /\ a_value_name a <> None.
Definition flag_arg (a : arg) (long : str) : Prop := a_long a = Some long /\ a_value_name a = None.
(** A word that is not an option. *)
Definition plain_word (w : str) : Prop := w <> [] /\ hd 0 w <> 45.
(** The words [--name value], [--name=value], [--flag], and others, in any order. *)
Inductive words_of (args : list arg) : list str -> matches -> Prop :=
| words_end : words_of args [] []
| words_positional a w ws m : In a args -> positional a -> plain_word w -> words_of args ws m ->
    words_of args (w :: ws) ((a_name a, Some w) :: m)
| words_option a long v ws m : In a args -> option_arg a long -> plain_word v -> words_of args ws m ->
    words_of args ((txt "--" ++ long) :: v :: ws) ((a_name a, Some v) :: m)
| words_option_eq a long v ws m : In a args -> option_arg a long -> v <> [] -> words_of args ws m ->
    words_of args ((txt "--" ++ long ++ txt "=" ++ v) :: ws) ((a_name a, Some v) :: m)
| words_flag a long ws m : In a args -> flag_arg a long -> words_of args ws m ->
    words_of args ((txt "--" ++ long) :: ws) ((a_name a, None) :: m).
(** Each argument at most once, and those that are required. *)
Definition complete (args : list arg) (m : matches) : Prop :=
  NoDup (map fst m) /\ forall a, In a args -> a_required a = true -> In (a_name a) (map fst m).
(** Present arguments are arguments of the command; the flags have no value, and the others have one. *)
Definition declared_args (args : list arg) (m : matches) : Prop :=
  forall n v, In (n, v) m -> exists a, In a args /\ a_name a = n /\ (v = None <-> exists long, flag_arg a long).
(** The arguments of a command can be told apart. *)
Definition distinct_args (args : list arg) : Prop :=
  NoDup (map a_name args) /\
  (forall a b, In a args -> In b args -> a_long a = a_long b -> a = b) /\
  (forall a long, In a args -> a_long a = Some long -> ~ In 61 long).
Record reads_command_lines (get_matches : clap_app -> list str -> reading) : Prop := mkReads {
  (** A well-formed command line is read as what it says. *)
  reads_words : forall ap k words m, NoDup (map k_name (ap_commands ap)) -> In k (ap_commands ap) -> distinct_args (k_args k) ->
    words_of (k_args k) words m -> complete (k_args k) m ->
    exists m', get_matches ap (k_name k :: words) = Matches (Some (k_name k, m')) /\ forall n, given m' n = given m n;
  (** Of any other command line, only this is known. *)
  reads_subcommand : forall ap words m, get_matches ap words = Matches m -> ap_required ap = true -> m <> None;
  reads_arguments : forall ap words n m, get_matches ap words = Matches (Some (n, m)) ->
    exists k, In k (ap_commands ap) /\ k_name k = n /\ complete (k_args k) m /\ declared_args (k_args k) m }.

(** ** The command lines of typical *)
Inductive request :=
| Generate (schema : str) (list_schemas : bool) (rust typescript : option str)
| Format (schema : str) (check : bool)
| Completion (name : str).
(** What is asked for by the words after [generate] and [format]. *)
Inductive generate_words : list str -> option str -> bool -> option str -> option str -> Prop :=
| gw_end : generate_words [] None false None None
| gw_schema w ws l r t : plain_word w -> generate_words ws None l r t -> generate_words (w :: ws) (Some w) l r t
| gw_list ws s r t : generate_words ws s false r t -> generate_words (txt "--list-schemas" :: ws) s true r t
| gw_rust v ws s l t : plain_word v -> generate_words ws s l None t -> generate_words (txt "--rust" :: v :: ws) s l (Some v) t
| gw_rust_eq v ws s l t : v <> [] -> generate_words ws s l None t -> generate_words ((txt "--rust=" ++ v) :: ws) s l (Some v) t
| gw_ts v ws s l r : plain_word v -> generate_words ws s l r None -> generate_words (txt "--typescript" :: v :: ws) s l r (Some v)
| gw_ts_eq v ws s l r : v <> [] -> generate_words ws s l r None -> generate_words ((txt "--typescript=" ++ v) :: ws) s l r (Some v).
Inductive format_words : list str -> option str -> bool -> Prop :=
| fw_end : format_words [] None false
| fw_schema w ws c : plain_word w -> format_words ws None c -> format_words (w :: ws) (Some w) c
| fw_check ws s : format_words ws s false -> format_words (txt "--check" :: ws) s true.
Inductive command_line : list str -> request -> Prop :=
| line_generate ws s l r t : generate_words ws (Some s) l r t -> command_line (txt "generate" :: ws) (Generate s l r t)
| line_format ws s c : format_words ws (Some s) c -> command_line (txt "format" :: ws) (Format s c)
| line_completion w : plain_word w -> command_line [txt "shell-completion"; w] (Completion w).

(** What is asked for by what the library has read. *)
Inductive asked : app_matches -> request -> Prop :=
| asked_generate m s : given m (txt "generate-path") = Some (Some s) ->
    asked (Some (txt "generate", m)) (Generate s (is_present m (txt "list-schemas")) (value_of m (txt "rust")) (value_of m (txt "typescript")))
| asked_format m s : given m (txt "format-path") = Some (Some s) -> asked (Some (txt "format", m)) (Format s (is_present m (txt "check")))
| asked_completion m w : given m (txt "shell-completion-shell") = Some (Some w) -> asked (Some (txt "shell-completion", m)) (Completion w).
(** The process does what a command does, and ends with the status that goes with it. *)
Definition performed (r : list event * outcome) (process : list deed * N) : Prop :=
  fst process = map Deed (fst r) /\ snd process = match snd r with Succeeded => 0 | Failed => 1 | Crashed => 101 end.

(** ** Shells *)
Definition shell_name (s : shell) : str :=
  match s with Bash => txt "Bash" | Fish => txt "Fish" | Zsh => txt "Zsh" | PowerShell => txt "PowerShell" | Elvish => txt "Elvish" end.
(** The same text but for the case of its ASCII letters. *)
Definition same_letter (a b : N) : Prop := a = b \/ (65 <= a <= 90 /\ b = a + 32) \/ (65 <= b <= 90 /\ a = b + 32).
(** [w] names the shell [s]: white space around the name and the case of letters do not count. *)
Definition names_shell (u : unicode) (w : str) (s : shell) : Prop := exists t, trimmed u w t /\ Forall2 same_letter t (shell_name s).
(** No text in which there are other characters than ASCII becomes one of the names of shells when it is made lower-case. The
    Unicode tables know just one character that becomes an ASCII letter, the Kelvin sign, and it becomes a "k". *)
Definition no_lookalikes (u : unicode) : Prop :=
  forall t s, forallb is_ascii t = false -> ~ Forall2 same_letter (str_lower u t) (shell_name s).
