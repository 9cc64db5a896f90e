(** Facts about Cli.v. *)
From Coq Require Import String.
From Verif Require Import CliSpec TokenFacts IdentFacts.
Open Scope N_scope. Open Scope list_scope.

Lemma given_none m n : given m n = None <-> ~ In n (map fst m).
Proof.
  induction m as [|[k v] m IH]; cbn [given map fst In]; [tauto|]. destruct (str_eqb k n) eqn:E.
  - apply str_eqb_eq in E. subst. split; [discriminate|]. intros H. exfalso. auto.
  - rewrite IH. assert (k <> n) by (intros ->; now rewrite str_eqb_refl in E). tauto.
Qed.
Lemma given_some m n v : given m n = Some v -> In (n, v) m.
Proof.
  induction m as [|[k x] m IH]; cbn [given]; [discriminate|]. destruct (str_eqb k n) eqn:E.
  - apply str_eqb_eq in E. subst. injection 1 as ->. now left.
  - intros H. right. auto.
Qed.
Lemma given_eq n v m : given ((n, v) :: m) n = Some v.
Proof. cbn [given]. now rewrite str_eqb_refl. Qed.
Lemma given_neq k n v m : str_eqb k n = false -> given ((k, v) :: m) n = given m n.
Proof. intros E. cbn [given]. now rewrite E. Qed.

(** ** Command lines *)
Definition gargs := k_args (nth 0 (ap_commands cli) (mkCommand [] [])).
Definition fargs := k_args (nth 1 (ap_commands cli) (mkCommand [] [])).
Definition sargs := k_args (nth 2 (ap_commands cli) (mkCommand [] [])).
Definition gp := GENERATE_SUBCOMMAND_PATH_OPTION.
Definition gl := GENERATE_SUBCOMMAND_LIST_SCHEMAS_OPTION.
Definition gr := GENERATE_SUBCOMMAND_RUST_OPTION.
Definition gt := GENERATE_SUBCOMMAND_TYPESCRIPT_OPTION.
Definition fp := FORMAT_SUBCOMMAND_PATH_OPTION.
Definition fc := FORMAT_SUBCOMMAND_CHECK_OPTION.
Definition flagged (b : bool) : option (option str) := if b then Some None else None.
Ltac giv := repeat first [rewrite given_eq | rewrite given_neq by reflexivity].
Lemma generate_read ws s l r t : generate_words ws s l r t -> exists m, words_of gargs ws m /\ NoDup (map fst m) /\
  given m gp = option_map Some s /\ given m gl = flagged l /\ given m gr = option_map Some r /\ given m gt = option_map Some t.
Proof.
  induction 1 as [|w ws l r t Hw H (m & A & B & C1 & C2 & C3 & C4)|ws s r t H (m & A & B & C1 & C2 & C3 & C4)|v ws s l t Hv H (m & A & B & C1 & C2 & C3 & C4)
                 |v ws s l t Hv H (m & A & B & C1 & C2 & C3 & C4)|v ws s l r Hv H (m & A & B & C1 & C2 & C3 & C4)|v ws s l r Hv H (m & A & B & C1 & C2 & C3 & C4)].
  - exists []. repeat split; constructor.
  - exists ((gp, Some w) :: m). split; [|split].
    + apply (words_positional gargs (nth 0 gargs (mkArg [] None None false))); [now left|reflexivity|exact Hw|exact A].
    + cbn [map fst]. constructor; [now apply given_none|exact B].
    + giv. now repeat split.
  - exists ((gl, None) :: m). split; [|split].
    + apply (words_flag gargs (nth 1 gargs (mkArg [] None None false)) gl); [right; now left|now split|exact A].
    + cbn [map fst]. constructor; [now apply given_none|exact B].
    + giv. now repeat split.
  - exists ((gr, Some v) :: m). split; [|split].
    + apply (words_option gargs (nth 2 gargs (mkArg [] None None false)) gr); [do 2 right; now left|now split|exact Hv|exact A].
    + cbn [map fst]. constructor; [now apply given_none|exact B].
    + giv. now repeat split.
  - exists ((gr, Some v) :: m). split; [|split].
    + apply (words_option_eq gargs (nth 2 gargs (mkArg [] None None false)) gr v); [do 2 right; now left|now split|exact Hv|exact A].
    + cbn [map fst]. constructor; [now apply given_none|exact B].
    + giv. now repeat split.
  - exists ((gt, Some v) :: m). split; [|split].
    + apply (words_option gargs (nth 3 gargs (mkArg [] None None false)) gt); [do 3 right; now left|now split|exact Hv|exact A].
    + cbn [map fst]. constructor; [now apply given_none|exact B].
    + giv. now repeat split.
  - exists ((gt, Some v) :: m). split; [|split].
    + apply (words_option_eq gargs (nth 3 gargs (mkArg [] None None false)) gt v); [do 3 right; now left|now split|exact Hv|exact A].
    + cbn [map fst]. constructor; [now apply given_none|exact B].
    + giv. now repeat split.
Qed.
Lemma format_read ws s c : format_words ws s c -> exists m, words_of fargs ws m /\ NoDup (map fst m) /\
  given m fp = option_map Some s /\ given m fc = flagged c.
Proof.
  induction 1 as [|w ws c Hw H (m & A & B & C1 & C2)|ws s H (m & A & B & C1 & C2)].
  - exists []. repeat split; constructor.
  - exists ((fp, Some w) :: m). split; [|split].
    + apply (words_positional fargs (nth 0 fargs (mkArg [] None None false))); [now left|reflexivity|exact Hw|exact A].
    + cbn [map fst]. constructor; [now apply given_none|exact B].
    + giv. now repeat split.
  - exists ((fc, None) :: m). split; [|split].
    + apply (words_flag fargs (nth 1 fargs (mkArg [] None None false)) fc); [right; now left|now split|exact A].
    + cbn [map fst]. constructor; [now apply given_none|exact B].
    + giv. now repeat split.
Qed.
(** Names that are different. *)
Fixpoint nodupb (l : list str) : bool :=
  match l with [] => true | x :: l' => negb (existsb (fun y => str_eqb y x) l') && nodupb l' end.
Lemma nodupb_spec l : nodupb l = true -> NoDup l.
Proof.
  induction l as [|x l IH]; cbn [nodupb]; [constructor|]. intros H. apply andb_prop in H as [H1 H2]. constructor; [|auto].
  intros Hin. apply negb_true_iff in H1. assert (existsb (fun y => str_eqb y x) l = true); [|congruence]. apply existsb_exists. exists x. split; [exact Hin|apply str_eqb_refl].
Qed.
Section Reads.
Context (get_matches : clap_app -> list str -> reading) (R : reads_command_lines get_matches).
Lemma commands_nodup : NoDup (map k_name (ap_commands cli)).
Proof. apply nodupb_spec. vm_compute. reflexivity. Qed.
Lemma cli_distinct k : In k (ap_commands cli) -> distinct_args (k_args k).
Proof.
  intros Hk. cbn [ap_commands cli In] in Hk. decompose sum Hk; try contradiction; subst k; (split; [apply nodupb_spec; vm_compute; reflexivity|]); cbn [k_args]; split.
  all: try (intros a b Ha Hb; cbn [In] in Ha, Hb; decompose sum Ha; subst; try contradiction; decompose sum Hb; subst; try contradiction; cbn [a_long]; first [reflexivity|discriminate]).
  all: intros a long Ha; cbn [In] in Ha; decompose sum Ha; subst; try contradiction; cbn [a_long]; try discriminate; intros [= <-]; vm_compute;
    intros H; decompose sum H; try contradiction; discriminate.
Qed.
Lemma reads_generate ws s l r t : generate_words ws (Some s) l r t -> exists m, get_matches cli (txt "generate" :: ws) = Matches (Some (txt "generate", m)) /\
  given m gp = Some (Some s) /\ given m gl = flagged l /\ given m gr = option_map Some r /\ given m gt = option_map Some t.
Proof.
  intros H. apply generate_read in H as (m & A & B & C1 & C2 & C3 & C4).
  destruct (reads_words _ R cli (nth 0 (ap_commands cli) (mkCommand [] [])) ws m) as (m' & E & Hm).
  - apply commands_nodup.
  - now left.
  - apply cli_distinct. now left.
  - exact A.
  - split; [exact B|]. intros a Ha Hr. change (In a gargs) in Ha. cbn [gargs nth ap_commands cli k_args In] in Ha. decompose sum Ha; subst; try contradiction; try discriminate.
    apply given_some in C1. cbn [a_name]. apply in_map_iff. now exists (gp, Some s).
  - exists m'. rewrite !Hm. now repeat split.
Qed.
Lemma reads_format ws s c : format_words ws (Some s) c -> exists m, get_matches cli (txt "format" :: ws) = Matches (Some (txt "format", m)) /\
  given m fp = Some (Some s) /\ given m fc = flagged c.
Proof.
  intros H. apply format_read in H as (m & A & B & C1 & C2).
  destruct (reads_words _ R cli (nth 1 (ap_commands cli) (mkCommand [] [])) ws m) as (m' & E & Hm).
  - apply commands_nodup.
  - right. now left.
  - apply cli_distinct. right. now left.
  - exact A.
  - split; [exact B|]. intros a Ha Hr. change (In a fargs) in Ha. cbn [fargs nth ap_commands cli k_args In] in Ha. decompose sum Ha; subst; try contradiction; try discriminate.
    apply given_some in C1. cbn [a_name]. apply in_map_iff. now exists (fp, Some s).
  - exists m'. rewrite !Hm. now repeat split.
Qed.
Definition sp := SHELL_COMPLETION_SUBCOMMAND_SHELL_OPTION.
Lemma reads_completion w : plain_word w -> exists m, get_matches cli [txt "shell-completion"; w] = Matches (Some (txt "shell-completion", m)) /\ given m sp = Some (Some w).
Proof.
  intros Hw.
  destruct (reads_words _ R cli (nth 2 (ap_commands cli) (mkCommand [] [])) [w] [(sp, Some w)]) as (m' & E & Hm).
  - apply commands_nodup.
  - do 2 right. now left.
  - apply cli_distinct. do 2 right. now left.
  - change [(sp, Some w)] with [(a_name (nth 0 sargs (mkArg [] None None false)), Some w)]. apply words_positional; [now left|reflexivity|exact Hw|constructor].
  - split; [apply nodupb_spec; vm_compute; reflexivity|]. intros a Ha Hr. change (In a sargs) in Ha. cbn [sargs nth ap_commands cli k_args In] in Ha. decompose sum Ha; subst; try contradiction.
    cbn [a_name map fst]. now left.
  - exists m'. rewrite !Hm. split; [exact E|]. now rewrite given_eq.
Qed.

(** ** Every reading *)
Lemma has_value args m n : complete args m -> declared_args args m -> NoDup (map a_name args) ->
  (exists a, In a args /\ a_name a = n /\ a_required a = true /\ positional a) -> exists v, given m n = Some (Some v).
Proof.
  intros (H1 & H2) H3 Hd (a & Ha & <- & Hr & Hp). pose proof (H2 a Ha Hr) as Hin. destruct (given m (a_name a)) as [v|] eqn:E.
  - destruct v as [v|]; [now exists v|]. exfalso. apply given_some in E. destruct (H3 _ _ E) as (b & Hb & Hn & Hv).
    assert (a = b) as <-.
    { clear - Ha Hb Hn Hd. induction args as [|c args IH]; [destruct Ha|]. cbn [map] in Hd. inversion_clear Hd as [|x y Hx Hy].
      destruct Ha as [->|Ha], Hb as [->|Hb]; auto; exfalso; apply Hx; apply in_map_iff; eauto. }
    destruct (proj1 Hv eq_refl) as (long & Hl & _). unfold positional in Hp. congruence.
  - apply given_none in E. contradiction.
Qed.
Lemma matches_ask words m : get_matches cli words = Matches m -> exists r, asked m r.
Proof.
  intros E. pose proof (reads_subcommand _ R cli words m E eq_refl) as Hs. destruct m as [[n m]|]; [|congruence].
  destruct (reads_arguments _ R cli words n m E) as (k & Hk & <- & Hc & Hd). cbn [ap_commands cli In] in Hk. decompose sum Hk; try contradiction; subst k.
  - destruct (has_value gargs m gp Hc Hd) as (s & Es).
    + apply nodupb_spec. vm_compute. reflexivity.
    + exists (nth 0 gargs (mkArg [] None None false)). repeat split. now left.
    + exists (Generate s (is_present m gl) (value_of m gr) (value_of m gt)). now constructor.
  - destruct (has_value fargs m fp Hc Hd) as (s & Es).
    + apply nodupb_spec. vm_compute. reflexivity.
    + exists (nth 0 fargs (mkArg [] None None false)). repeat split. now left.
    + exists (Format s (is_present m fc)). now constructor.
  - destruct (has_value sargs m sp Hc Hd) as (w & Es).
    + apply nodupb_spec. vm_compute. reflexivity.
    + exists (nth 0 sargs (mkArg [] None None false)). repeat split. now left.
    + exists (Completion w). now constructor.
Qed.
End Reads.

Section Entry.
Context (u : unicode) (pal : palette) (grapheme : str -> N -> str) (stem : str -> option str)
  (works : list effect -> effect -> bool) (wrap : N -> str -> list str) (version : str)
  (files_at : str -> files) (texts_at : str -> texts) (parent : str -> option str).
Definition runs (r : request) : deeds :=
  match r with
  | Generate s l rust ts => run_generate u pal grapheme stem works version files_at texts_at parent s l rust ts
  | Format s c => run_format u pal grapheme stem works wrap files_at texts_at s c
  | Completion w => shell_completion u pal w
  end.
Lemma entry_runs m r : asked m r -> entry u pal grapheme stem works wrap version files_at texts_at parent m = runs r.
Proof.
  destruct 1 as [m s E|m s E|m w E]; unfold entry; cbn [subcommand_name option_map fst].
  - change (str_eqb (txt "generate") GENERATE_SUBCOMMAND) with true. cbv iota. cbn [subcommand_matches].
    change (str_eqb (txt "generate") GENERATE_SUBCOMMAND) with true. cbn [unwrap]. unfold value_of at 1. change GENERATE_SUBCOMMAND_PATH_OPTION with (txt "generate-path"). rewrite E. reflexivity.
  - change (str_eqb (txt "format") GENERATE_SUBCOMMAND) with false. change (str_eqb (txt "format") FORMAT_SUBCOMMAND) with true. cbv iota. cbn [subcommand_matches].
    change (str_eqb (txt "format") FORMAT_SUBCOMMAND) with true. cbn [unwrap]. unfold value_of at 1. change FORMAT_SUBCOMMAND_PATH_OPTION with (txt "format-path"). rewrite E. reflexivity.
  - change (str_eqb (txt "shell-completion") GENERATE_SUBCOMMAND) with false. change (str_eqb (txt "shell-completion") FORMAT_SUBCOMMAND) with false.
    change (str_eqb (txt "shell-completion") SHELL_COMPLETION_SUBCOMMAND) with true. cbv iota. cbn [subcommand_matches].
    change (str_eqb (txt "shell-completion") SHELL_COMPLETION_SUBCOMMAND) with true. cbn [unwrap]. unfold value_of at 1. change SHELL_COMPLETION_SUBCOMMAND_SHELL_OPTION with (txt "shell-completion-shell"). rewrite E. reflexivity.
Qed.
Lemma main_runs get_matches words m r : get_matches cli words = Matches m -> asked m r ->
  main u pal grapheme stem works wrap version files_at texts_at parent get_matches words = (fst (runs r), exit_status (snd (runs r))).
Proof. intros E A. unfold main. rewrite E. cbv zeta. now rewrite (entry_runs m r A). Qed.
Lemma line_asked get_matches words r : reads_command_lines get_matches -> command_line words r -> exists m, get_matches cli words = Matches m /\ asked m r.
Proof.
  intros R. destruct 1 as [ws s l rr t H|ws s c H|w H].
  - apply (reads_generate get_matches R) in H as (m & E & C1 & C2 & C3 & C4). eexists. split; [exact E|].
    assert (Generate s l rr t = Generate s (is_present m gl) (value_of m gr) (value_of m gt)) as ->; [|now constructor].
    unfold is_present, value_of. rewrite C2, C3, C4. destruct l, rr, t; reflexivity.
  - apply (reads_format get_matches R) in H as (m & E & C1 & C2). eexists. split; [exact E|].
    assert (Format s c = Format s (is_present m fc)) as ->; [|now constructor]. unfold is_present. rewrite C2. destruct c; reflexivity.
  - apply (reads_completion get_matches R) in H as (m & E & C1). eexists. split; [exact E|]. now constructor.
Qed.
End Entry.

(** ** Shells *)
Section Shells.
Context (u : unicode) (Hu : ascii_agrees u) (Hl : no_lookalikes u).
Lemma same_letter_lower a b : same_letter a b -> ascii_lower a = ascii_lower b.
Proof.
  intros [->|[(H & ->)|(H & ->)]]; [reflexivity| |]; unfold ascii_lower, ascii_is_upper.
  - destruct (N.leb_spec 65 a), (N.leb_spec a 90), (N.leb_spec 65 (a + 32)), (N.leb_spec (a + 32) 90); cbn [andb]; lia.
  - destruct (N.leb_spec 65 b), (N.leb_spec b 90), (N.leb_spec 65 (b + 32)), (N.leb_spec (b + 32) 90); cbn [andb]; lia.
Qed.
Lemma lower_same_letter a b : ascii_lower a = ascii_lower b -> same_letter a b.
Proof.
  unfold ascii_lower, ascii_is_upper, same_letter.
  destruct (N.leb_spec 65 a), (N.leb_spec a 90), (N.leb_spec 65 b), (N.leb_spec b 90); cbn [andb]; lia.
Qed.
Lemma lower_letter a : same_letter (ascii_lower a) a.
Proof. unfold same_letter, ascii_lower, ascii_is_upper. destruct (N.leb_spec 65 a), (N.leb_spec a 90); cbn [andb]; lia. Qed.
Lemma letters_iff t n : Forall2 same_letter t n <-> map ascii_lower t = map ascii_lower n.
Proof.
  split.
  - induction 1 as [|a b t n H _ IH]; [reflexivity|]. cbn [map]. f_equal; [now apply same_letter_lower|exact IH].
  - revert n. induction t as [|a t IH]; intros [|b n]; cbn [map]; try discriminate; [constructor|]. intros [= H1 H2]. constructor; [now apply lower_same_letter|auto].
Qed.
Lemma same_letter_ascii a b : same_letter a b -> is_ascii b = true -> is_ascii a = true.
Proof. unfold same_letter, is_ascii. rewrite !N.ltb_lt. lia. Qed.
Lemma letters_ascii t n : Forall2 same_letter t n -> forallb is_ascii n = true -> forallb is_ascii t = true.
Proof. induction 1 as [|a b t n H _ IH]; [reflexivity|]. cbn [forallb]. rewrite !andb_true_iff. intros [H1 H2]. split; [now apply same_letter_ascii with b|auto]. Qed.
Lemma shell_ascii s : forallb is_ascii (shell_name s) = true.
Proof. destruct s; reflexivity. Qed.
(** The lower-case name. *)
Definition low (s : shell) : str := map ascii_lower (shell_name s).
Lemma lower_name t s : str_lower u t = low s <-> Forall2 same_letter t (shell_name s).
Proof.
  unfold low. destruct (forallb is_ascii t) eqn:E.
  - rewrite (agrees_lower u Hu t E). symmetry. apply letters_iff.
  - split; intros H; exfalso.
    + apply (Hl t s E). rewrite H. apply letters_iff. rewrite map_map. apply map_ext. intros a. apply same_letter_lower, lower_letter.
    + apply letters_ascii in H; [congruence|apply shell_ascii].
Qed.
Lemma variant_iff w s : shell_variant u w = Some s <-> names_shell u w s.
Proof.
  assert (names_shell u w s <-> str_lower u (trim u w) = low s) as ->.
  { unfold names_shell. split.
    - intros (t & Ht & H). apply trim_iff in Ht. subst t. now apply lower_name.
    - intros H. exists (trim u w). split; [now apply trim_iff|now apply lower_name]. }
  unfold shell_variant. cbv zeta. set (x := str_lower u (trim u w)).
  change (txt "bash") with (low Bash). change (txt "fish") with (low Fish). change (txt "zsh") with (low Zsh).
  change (txt "powershell") with (low PowerShell). change (txt "elvish") with (low Elvish).
  assert (forall a b, low a = low b -> a = b) as Hinj by (intros [] []; vm_compute; congruence).
  repeat match goal with
  | |- context [if str_eqb x ?y then _ else _] => let E := fresh in destruct (str_eqb x y) eqn:E; [apply str_eqb_eq in E; rewrite E; split; [now intros [= <-]|intros E'; f_equal; now apply Hinj]|]
  end.
  split; [discriminate|]. intros ->. destruct s;
    match goal with H : str_eqb (low ?s) (low ?s) = false |- _ => rewrite str_eqb_refl in H; discriminate H end.
Qed.
Lemma variant_none w : (forall s, ~ names_shell u w s) -> shell_variant u w = None.
Proof. intros H. destruct (shell_variant u w) as [s|] eqn:E; [|reflexivity]. apply variant_iff in E. now destruct (H s). Qed.
End Shells.
