(** Property theorems about the command line of typical: C83. See MANIFEST.json. [get_matches] stands for the library that reads
    the command line, [files_at] and [texts_at] for the files around a schema and the texts about them, [parent] for the
    directory of a path, [u] for Rust's Unicode tables. *)
From Coq Require Import String.
From Verif Require Import CliSpec CliFacts ReportingFacts5 Properties12 Properties17.
Open Scope N_scope. Open Scope list_scope.

(** C83: a command line does what it says: the command with the schema, the outputs and the flags that are given, in any
    order; ... *)
Theorem generate_command_line : forall u pal grapheme stem works wrap version files_at texts_at parent get_matches words s l rust ts,
  reads_command_lines get_matches -> command_line words (Generate s l rust ts) ->
  performed
    (xgenerate_code u pal grapheme stem (files_at s) (texts_at s) works (RustText.rust_code u version) (TsText.ts_code u version) l
      match rust with Some p => Some (mkTarget p (parent p)) | None => None end
      match ts with Some p => Some (mkTarget p (parent p)) | None => None end)
    (main u pal grapheme stem works wrap version files_at texts_at parent get_matches words).
Proof.
  intros u pal g stem works wrap version fa ta par gm words s l rust ts R H.
  destruct (line_asked gm words _ R H) as (m & E & A). rewrite (main_runs u pal g stem works wrap version fa ta par gm words m _ E A).
  split; reflexivity.
Qed.
Print Assumptions generate_command_line.
Theorem format_command_line : forall u pal grapheme stem works wrap version files_at texts_at parent get_matches words s check,
  reads_command_lines get_matches -> command_line words (Format s check) ->
  performed (xformat_schema u pal grapheme stem (files_at s) (texts_at s) works wrap check)
    (main u pal grapheme stem works wrap version files_at texts_at parent get_matches words).
Proof.
  intros u pal g stem works wrap version fa ta par gm words s c R H.
  destruct (line_asked gm words _ R H) as (m & E & A). rewrite (main_runs u pal g stem works wrap version fa ta par gm words m _ E A).
  split; reflexivity.
Qed.
Print Assumptions format_command_line.
(** ... a shell is recognised whatever the case of its name and the space around it, and then the script for it is written,
    and otherwise an error. *)
Theorem completion_command_line : forall u pal grapheme stem works wrap version files_at texts_at parent get_matches words name,
  ascii_agrees u -> no_lookalikes u -> reads_command_lines get_matches -> command_line words (Completion name) ->
  let process := main u pal grapheme stem works wrap version files_at texts_at parent get_matches words in
  (forall s, names_shell u name s -> process = ([Script s], 0)) /\
  ((forall s, ~ names_shell u name s) ->
    process = ([Deed (Say (txt "Unknown shell " ++ code_str pal name ++ txt ". Must be one of Bash, Fish, Zsh, PowerShell, or Elvish."))], 1)).
Proof.
  intros u pal g stem works wrap version fa ta par gm words name Hu Hl R H. cbv zeta.
  destruct (line_asked gm words _ R H) as (m & E & A). rewrite (main_runs u pal g stem works wrap version fa ta par gm words m _ E A).
  cbn [runs]. unfold shell_completion. split.
  - intros s Hs. apply (variant_iff u Hu Hl) in Hs. rewrite Hs. reflexivity.
  - intros Hn. rewrite (variant_none u Hu Hl name Hn). unfold of_events, stop, display. cbn [fst snd e_message e_reason map app exit_status].
    reflexivity.
Qed.
Print Assumptions completion_command_line.

(** Whatever the words are: if the library does not end the process, one of the commands is run, ... *)
Theorem every_command_line_is_a_request : forall u pal grapheme stem works wrap version files_at texts_at parent get_matches words m,
  reads_command_lines get_matches -> get_matches cli words = Matches m ->
  let process := main u pal grapheme stem works wrap version files_at texts_at parent get_matches words in
  exists r, asked m r /\
    match r with
    | Generate s l rust ts => performed
        (xgenerate_code u pal grapheme stem (files_at s) (texts_at s) works (RustText.rust_code u version) (TsText.ts_code u version) l
          match rust with Some p => Some (mkTarget p (parent p)) | None => None end
          match ts with Some p => Some (mkTarget p (parent p)) | None => None end) process
    | Format s check => performed (xformat_schema u pal grapheme stem (files_at s) (texts_at s) works wrap check) process
    | Completion name => (exists s, process = ([Script s], 0)) \/ exists text, process = ([Deed (Say (txt "Unknown shell " ++ text))], 1)
    end.
Proof.
  intros u pal g stem works wrap version fa ta par gm words m R E. cbv zeta. destruct (matches_ask gm R words m E) as (r & A). exists r. split; [exact A|].
  rewrite (main_runs u pal g stem works wrap version fa ta par gm words m r E A). destruct r as [s l rust ts|s c|w]; [split; reflexivity..|].
  cbn [runs]. unfold shell_completion. destruct (shell_variant u w) as [s|].
  - left. now exists s.
  - right. eexists. unfold of_events, stop, display. cbn [fst snd e_message e_reason map app exit_status]. reflexivity.
Qed.
Print Assumptions every_command_line_is_a_request.
(** ... and the process panics only if the parser does (C34). *)
Theorem command_lines_panic_only_in_the_parser : forall u pal grapheme stem works wrap version files_at texts_at parent get_matches words m,
  ascii_agrees u -> white_not_alphabetic u -> (forall s, files_ok u (files_at s)) ->
  reads_command_lines get_matches -> get_matches cli words = Matches m ->
  snd (main u pal grapheme stem works wrap version files_at texts_at parent get_matches words) = 101 ->
  exists s, (exists l rust ts, asked m (Generate s l rust ts) \/ exists check, asked m (Format s check)) /\
    load_schemas u stem (files_at s) = LoadPanic.
Proof.
  intros u pal g stem works wrap version fa ta par gm words m Hu Hw Hfs R E H. destruct (matches_ask gm R words m E) as (r & A).
  rewrite (main_runs u pal g stem works wrap version fa ta par gm words m r E A) in H. cbn [snd] in H. destruct r as [s l rust ts|s c|w]; cbn [runs] in H.
  - unfold run_generate, of_events in H. cbn [snd] in H. exists s. split; [exists l, rust, ts; now left|].
    destruct (reporting_changes_nothing u pal g stem (fa s) (ta s) works wrap (RustText.rust_code u version) (TsText.ts_code u version) Hu Hw (Hfs s)) as [_ K].
    specialize (K l (option_map (target_at par) rust) (option_map (target_at par) ts)). cbv zeta in K.
    apply (generating_code_crashes_only_in_the_parser works u stem version (fa s) l (option_map (target_at par) rust) (option_map (target_at par) ts) Hu (Hfs s)).
    rewrite K. cbn [snd]. destruct (snd (xgenerate_code _ _ _ _ _ _ _ _ _ _ _ _)); [discriminate H|discriminate H|reflexivity].
  - unfold run_format, of_events in H. cbn [snd] in H. exists s. split; [exists false, None, None; right; now exists c|].
    destruct (reporting_changes_nothing u pal g stem (fa s) (ta s) works wrap (fun _ => None) (fun _ => None) Hu Hw (Hfs s)) as [K _].
    specialize (K c). cbv zeta in K.
    assert (snd (format_schema works u stem wrap (fa s) c) = Crashed) as K'.
    { rewrite K. cbn [snd]. destruct (snd (xformat_schema _ _ _ _ _ _ _ _ _)); [discriminate H|discriminate H|reflexivity]. }
    clear - K' Hu Hfs. unfold format_schema in K'. destruct (load_schemas u stem (fa s)) as [fl|es| |] eqn:El; [|discriminate K'|reflexivity|now destruct (LoadFacts.load_terminates u stem (fa s) Hu (Hfs s))].
    clear El. exfalso. revert K'. generalize (@nil effect) as before. generalize false as any. induction fl as [|[ns f] fl IH]; intros any before; cbn [format_loop].
    + destruct (c && any); discriminate.
    + cbv zeta. unfold try. repeat match goal with |- context [if ?b then _ else _] => destruct b end; try discriminate; apply IH.
  - unfold shell_completion in H. destruct (shell_variant u w); discriminate H.
Qed.
Print Assumptions command_lines_panic_only_in_the_parser.

(** The exit status is 1 exactly if the last thing that is written is an error, and 0 exactly if it is [Done.] or the
    script. *)
Theorem exit_status_tells : forall u pal grapheme stem works wrap version files_at texts_at parent get_matches words m,
  ascii_agrees u -> white_not_alphabetic u -> (forall s, files_ok u (files_at s)) -> palette_ok pal ->
  reads_command_lines get_matches -> get_matches cli words = Matches m ->
  let process := main u pal grapheme stem works wrap version files_at texts_at parent get_matches words in
  (snd process = 0 <-> (exists before, fst process = before ++ [Deed (Say (txt "Done."))]) \/ exists s, fst process = [Script s]) /\
  (snd process = 1 -> exists before text, fst process = before ++ [Deed (Say text)] /\ text <> txt "Done.").
Proof.
  intros u pal g stem works wrap version fa ta par gm words m Hu Hw Hfs Hp R E. cbv zeta. destruct (matches_ask gm R words m E) as (r & A).
  rewrite (main_runs u pal g stem works wrap version fa ta par gm words m r E A). cbn [fst snd].
  assert (forall s (x : list event * outcome),
    (exists check, x = xformat_schema u pal g stem (fa s) (ta s) works wrap check) \/
    (exists list_schemas rust typescript, x = xgenerate_code u pal g stem (fa s) (ta s) works (RustText.rust_code u version) (TsText.ts_code u version) list_schemas rust typescript) ->
    (exit_status (snd x) = 0 <-> (exists before, map Deed (fst x) = before ++ [Deed (Say (txt "Done."))]) \/ exists s, map Deed (fst x) = [Script s]) /\
    (exit_status (snd x) = 1 -> exists before text, map Deed (fst x) = before ++ [Deed (Say text)] /\ text <> txt "Done.")) as K.
  { intros s x Hx.
    pose proof (success_is_announced u pal g stem (fa s) (ta s) works wrap (RustText.rust_code u version) (TsText.ts_code u version) x Hu Hw (Hfs s) Hp Hx) as K1.
    pose proof (failures_are_explained u pal g stem (fa s) (ta s) works wrap (RustText.rust_code u version) (TsText.ts_code u version) x Hu Hw (Hfs s) Hx) as K2.
    split; [split|].
    - intros H. left. destruct (snd x); try discriminate H. destruct (proj1 K1 eq_refl) as (before & ->). exists (map Deed before). now rewrite map_app.
    - intros [(before & H)|(sh & H)].
      + assert (snd x = Succeeded) as ->; [|reflexivity]. apply K1. destruct (fst x) as [|e l _] using rev_ind; [destruct before; discriminate H|].
        rewrite map_app in H. cbn [map] in H. apply app_inj_tail in H as [_ H]. injection H as ->. now exists l.
      + destruct (fst x) as [|e l]; discriminate H.
    - intros H. destruct (snd x) eqn:Eo; try discriminate H. destruct (K2 eq_refl) as (before & text & Ef & _). exists (map Deed before), text. rewrite Ef, map_app. split; [reflexivity|].
      intros ->. assert (Failed = Succeeded); [|discriminate]. apply K1. now exists before. }
  destruct r as [s l rust ts|s c|w]; cbn [runs].
  - apply (K s). right. now exists l, (option_map (target_at par) rust), (option_map (target_at par) ts).
  - apply (K s). left. now exists c.
  - unfold shell_completion. destruct (shell_variant u w) as [sh|]; cbn [fst snd exit_status].
    + split; [split; [intros _; right; now exists sh|reflexivity]|discriminate].
    + unfold of_events, stop, display. cbn [fst snd e_message e_reason map app exit_status]. split; [split; [discriminate|]|].
      * intros [(before & H)|(sh & H)]; [|discriminate H]. change ([?x]) with (@nil deed ++ [x]) in H. apply (app_inj_tail [] before) in H as [_ H]. discriminate H.
      * intros _. eexists [], _. split; [reflexivity|discriminate].
Qed.
Print Assumptions exit_status_tells.
