(** How a run ends. *)
From Verif Require Import IdentFacts TokenFacts TokenFacts2 ReportFacts LexErrFacts LocatedFacts2 PrinterFacts.
From Verif Require Export ReportingFacts4.

(** ** Messages begin with a bracket, or with an escape *)
Definition announces (s : str) : Prop := hd 0 s = 91 \/ hd 0 s = 27.
Section Announce.
Context (u : unicode) (Hu : ascii_agrees u) (pal : palette) (Hp : palette_ok pal).
Lemma announce_white s : announces s -> is_whitespace u (hd 0 s) = false.
Proof. intros [H|H]; rewrite H; apply (white_ascii u Hu); (lia || reflexivity). Qed.
Lemma throw_announces m p l r : announces (display pal (throw pal m p l r)).
Proof.
  assert (forall s, announces (paint pal RedBold (txt "[Error]") ++ s)) as K.
  { intros s. unfold announces, paint. destruct pal as [f|]; [|now left]. destruct Hp as [s' E]. rewrite E. now right. }
  unfold display, throw. cbn [e_reason e_message]. destruct r; rewrite <- ?app_assoc; apply K.
Qed.
Lemma announces_not_done s : announces s -> s <> txt "Done.".
Proof. intros [H|H] ->; discriminate. Qed.
Lemma merged_announces e es text : announces (display pal e) -> merged u pal (e :: es) text -> announces text.
Proof.
  intros He (t & J & (a & b & E & Ha & Hb & Ht)). assert (announces t) as Hat.
  { assert (exists s, t = display pal e ++ s) as (s & ->).
    { cbn [map] in J. inversion J; subst; [exists []; now rewrite app_nil_r|eexists; reflexivity|eexists; reflexivity]. }
    unfold announces in *. destruct (display pal e) as [|c d]; [destruct He; discriminate|exact He]. }
  pose proof (announce_white t Hat) as Hw. destruct a as [|c a].
  - destruct Ht as [->|_].
    + cbn [app] in E. subst t. destruct b as [|c b]; [destruct Hat; discriminate|]. inversion Hb; subst. cbn [hd] in Hw. congruence.
    + destruct text as [|c text]; [|unfold announces in *; rewrite E in Hat; exact Hat]. cbn [app] in E. subst t. destruct b as [|c b]; [destruct Hat; discriminate|]. inversion Hb; subst. cbn [hd] in Hw. congruence.
  - subst t. inversion Ha; subst. cbn [app hd] in Hw. congruence.
Qed.
End Announce.

Section Runs.
Context (u : unicode) (pal : palette) (x : texts) (works : list effect -> effect -> bool).
(** After [before] come [more] and the outcome [o], as they should. *)
Record after (before more : list event) (o : outcome) : Prop := mkAfter {
  af_fails : forall m1 e m2, more = m1 ++ Do e :: m2 -> fails works (before ++ m1) e ->
    o = Failed /\ exists err, failure pal x e err /\ m2 = [Say (display pal err)];
  af_failed : o = Failed -> (exists m1 e err, more = m1 ++ [Do e; Say (display pal err)] /\ fails works (before ++ m1) e /\ failure pal x e err) \/
    (exists m1, more = m1 ++ [Say (display pal (mismatch pal x))]);
  af_done : o = Succeeded -> exists m1, more = m1 ++ [Say (txt "Done.")];
  af_not_done : palette_ok pal -> (exists m1, more = m1 ++ [Say (txt "Done.")]) -> o = Succeeded }.
Definition fine (before : list event) (r : list event * outcome) : Prop := exists more, fst r = before ++ more /\ after before more (snd r).
Lemma fine_step before ev r : ev <> Say (txt "Done.") -> (forall e, ev = Do e -> ~ fails works before e) -> fine (before ++ [ev]) r -> fine before r.
Proof.
  intros Hd Hf (more & E & [A1 A2 A3 A4]). exists (ev :: more). split; [rewrite E; now rewrite <- app_assoc|]. constructor.
  - intros [|c m1] e m2 Em Hx; cbn [app] in Em; injection Em as -> Em.
    + rewrite app_nil_r in Hx. now apply Hf in Hx.
    + apply (A1 m1 e m2 Em). now rewrite <- app_assoc.
  - intros Ho. destruct (A2 Ho) as [(m1 & e & err & -> & H1 & H2)|(m1 & ->)].
    + left. exists (ev :: m1), e, err. split; [reflexivity|]. rewrite <- app_assoc in H1. now split.
    + right. now exists (ev :: m1).
  - intros Ho. destruct (A3 Ho) as (m1 & ->). now exists (ev :: m1).
  - intros Hp (m1 & Em). apply A4; [exact Hp|]. destruct m1 as [|c m1]; cbn [app] in Em; injection Em as Ec Em; [congruence|]. now exists m1.
Qed.
Lemma fine_say before text r : hd 0 text <> 68 -> fine (before ++ [Say text]) r -> fine before r.
Proof. intros H. apply fine_step; [|discriminate]. intros [= ->]. now apply H. Qed.
Lemma fine_success before : fine before (before ++ [Say (txt "Done.")], Succeeded).
Proof.
  eexists. split; [reflexivity|]. constructor; cbn [snd].
  - intros [|c m1] e m2 Em; [discriminate|]. injection Em as _ Em. now destruct m1.
  - discriminate.
  - intros _. now exists [].
  - auto.
Qed.
Lemma fine_crash before : fine before (before, Crashed).
Proof.
  exists []. cbn [fst snd]. split; [now rewrite app_nil_r|]. constructor.
  - intros m1 e m2 Em. now apply app_cons_not_nil in Em.
  - discriminate.
  - discriminate.
  - intros _ (m1 & Em). now apply app_cons_not_nil in Em.
Qed.
Lemma fine_mismatch before : fine before (stop pal before (mismatch pal x)).
Proof.
  eexists. split; [reflexivity|]. constructor; cbn [snd stop].
  - intros [|c m1] e m2 Em; [discriminate|]. injection Em as _ Em. now destruct m1.
  - intros _. right. now exists [].
  - discriminate.
  - intros Hp (m1 & Em). exfalso. destruct m1 as [|c m1]; cbn [app] in Em; injection Em; [|intros Em2 _; now apply app_cons_not_nil in Em2].
    intros E. revert E. apply announces_not_done. now apply throw_announces.
Qed.
Lemma fine_try e err before k : (forall p, e <> ListSchema p) -> failure pal x e (err (x_failure x e)) -> (forall b, fine b (k b)) -> fine before (xtry pal x works e err before k).
Proof.
  intros Hn He Hk. unfold xtry. destruct (works (effects_of before) e) eqn:Ew.
  - apply fine_step with (Do e); [discriminate| |apply Hk]. intros e' [= <-] [H _]. congruence.
  - exists [Do e; Say (display pal (err (x_failure x e)))]. unfold stop. cbn [fst snd]. split; [now rewrite <- app_assoc|]. constructor.
    + intros [|c [|c2 m1]] e' m2 Em _; cbn [app] in Em; [injection Em as <- <-; eauto|discriminate|]. injection Em as _ _ Em. now apply app_cons_not_nil in Em.
    + intros _. left. exists [], e, (err (x_failure x e)). rewrite app_nil_r. repeat split; auto.
    + discriminate.
    + intros Hp (m1 & Em). exfalso. destruct m1 as [|c [|c2 m1]]; cbn [app] in Em; [discriminate| |injection Em as _ _ Em; now apply app_cons_not_nil in Em].
      injection Em as _ E. revert E; intros E. revert E. apply announces_not_done. inversion He; now apply throw_announces.
Qed.
Context (stem : str -> option str) (wrap : N -> str -> list str).
Lemma fine_format check l : forall any before, fine before (xformat_loop u pal stem x works wrap check l any before).
Proof.
  induction l as [|[ns f] l IH]; intros any before; cbn [xformat_loop].
  - destruct (check && any); [apply fine_mismatch|apply fine_success].
  - apply fine_say with (txt "  " ++ code_str pal (x_full x (xl_path f))); [discriminate|].
    destruct (negb (str_eqb (xl_contents f) (print_schema u stem wrap (bare_schema (xl_schema f)))) && negb check); [|apply IH].
    apply fine_try; [discriminate|constructor|]. intros b. apply IH.
Qed.
Lemma fine_emit language t text before k : (forall b, fine b (k b)) -> fine before (xemit pal x works language t text before k).
Proof.
  intros Hk. unfold xemit. destruct t as [t|]; [|apply Hk]. apply fine_say with (txt "Generating " ++ language ++ dots); [discriminate|].
  assert (forall b, fine b (match text with
        | Some text => xtry pal x works (Write (ToFile (t_file t)) text)
              (fun why => throw pal (txt "Unable to write " ++ code_str pal (t_file t) ++ txt ".") None None (Some why)) (b ++ [Say (txt "Writing " ++ code_str pal (t_file t) ++ dots)]) k
        | None => (b ++ [Say (txt "Writing " ++ code_str pal (t_file t) ++ dots)], Crashed)
        end)) as K.
  { intros b. apply fine_say with (txt "Writing " ++ code_str pal (t_file t) ++ dots); [discriminate|]. destruct text as [text|]; [|apply fine_crash].
    apply fine_try; [discriminate|constructor|exact Hk]. }
  destruct (t_parent t) as [dir|]; [|apply K]. apply fine_try; [discriminate|constructor|exact K].
Qed.
Lemma fine_list l : forall before r, fine (before ++ xlist l) r -> fine before r.
Proof.
  induction l as [|[ns f] l IH]; intros before r H; cbn [xlist map] in H; [now rewrite app_nil_r in H|].
  apply fine_step with (Do (ListSchema (xl_path f))); [discriminate|intros e [= <-] [_ K]; now apply (K (xl_path f))|]. apply IH. now rewrite <- app_assoc.
Qed.
End Runs.

Section Sane.
Context (u : unicode) (pal : palette) (Hu : ascii_agrees u) (Hw : white_not_alphabetic u).
Context (grapheme : str -> N -> str) (stem : str -> option str) (fs : files) (x : texts) (Hfs : files_ok u fs).
Notation xload_imports := (xload_imports u pal fs x).
Notation xload_file := (xload_file u pal grapheme stem fs x).
Notation xload_loop := (xload_loop u pal grapheme stem fs x).
Notation xload_schemas := (xload_schemas u pal grapheme stem fs x).

(** ** Each error has a text *)
Definition spoken (st : xlstate) : Prop := Forall (fun e => snd e <> []) (y_errors st).
Lemma spoken_fail k es st : es <> [] -> spoken st -> spoken (xfail k es st).
Proof. intros H1 H2. unfold spoken, xfail. cbn [y_errors]. apply Forall_app. split; [exact H2|]. now constructor. Qed.
Lemma spoken_imports p dir contents ims : forall st ims' st', xload_imports p dir contents ims st = Some (ims', st') -> spoken st -> spoken st'.
Proof.
  induction ims as [|[k im] ims IH]; intros st ims' st' E Hs; cbn [Reporting.xload_imports] in E; [now injection E as <- <-|].
  destruct (listing u pal contents (xi_range im)) as [text|]; [|discriminate].
  destruct (fs_locate fs dir (xi_path im)) as [| |q].
  - destruct (xload_imports p dir contents ims _) as [[ims1 st2]|] eqn:E1 in E; [|discriminate]. injection E as <- <-. apply IH in E1; [exact E1|]. now apply spoken_fail.
  - destruct (xload_imports p dir contents ims _) as [[ims1 st2]|] eqn:E1 in E; [|discriminate]. injection E as <- <-. apply IH in E1; [exact E1|]. now apply spoken_fail.
  - destruct (xload_imports p dir contents ims _) as [[ims1 st2]|] eqn:E1 in E; [|discriminate]. injection E as <- <-. apply IH in E1; [exact E1|].
    now destruct (contains ns_eqb (path_to_namespace u q) (y_visited st)).
Qed.
Lemma all_listed_length p contents es errors : all_listed u pal p contents es = Some errors -> length errors = length es.
Proof.
  revert errors. induction es as [|[r m] es IH]; intros errors E; cbn [all_listed] in E; [now injection E as <-|].
  destruct (at_range u pal p contents r m); [|discriminate]. destruct (all_listed u pal p contents es); [|discriminate]. injection E as <-. cbn. now rewrite IH.
Qed.
Lemma spoken_file ns p o st st' : xload_file ns p o st = XsNext st' -> spoken st -> spoken st'.
Proof.
  intros E Hs. unfold Reporting.xload_file in E. destruct (fs_read fs p) as [contents|]; [|injection E as <-; now apply spoken_fail].
  destruct (tokenize_loc u pal (grapheme contents) contents) as [ts|es|] eqn:El; [| |discriminate].
  - destruct (parse_loc u stem pal ts) as [s|es| |] eqn:Ep; [| |discriminate|discriminate].
    + destruct p as [|p1 p']; [discriminate|]. destruct (xload_imports (p1 :: p') (removelast (p1 :: p')) contents (xs_imports s) st) as [[ims st1]|] eqn:Ei; [|discriminate].
      apply spoken_imports in Ei; [|exact Hs]. destruct (ns_insert ns _ (y_schemas st1)) as [m old]. injection E as <-. destruct old; [now apply spoken_fail|exact Ei].
    + destruct (all_listed u pal p contents _) as [errors|] eqn:Ea; [|discriminate]. injection E as <-. apply spoken_fail; [|exact Hs]. apply all_listed_length in Ea. rewrite map_length in Ea.
      apply parse_complaints in Ep as [_ Hne]. intros ->. now destruct es.
  - destruct (all_listed u pal p contents _) as [errors|] eqn:Ea; [|discriminate]. injection E as <-. apply spoken_fail; [|exact Hs]. apply all_listed_length in Ea. rewrite map_length in Ea.
    apply tokenize_faults in El as [_ Hne]; auto. intros ->. now destruct es.
Qed.
Lemma spoken_loop fuel : forall st es, spoken st -> xload_loop fuel st = XLoadErr es -> pushed_errors es <> [].
Proof.
  assert (forall st es, spoken st -> match y_errors st with [] => XLoadOk (y_schemas st) | es => XLoadErr es end = XLoadErr es -> pushed_errors es <> []) as K.
  { intros st es Hs E. unfold spoken in Hs. destruct (y_errors st) as [|e es']; [discriminate|]. injection E as <-. inversion Hs as [|? ? H _]; subst. unfold pushed_errors. cbn [flat_map]. now destruct (snd e). }
  induction fuel as [|fuel IH]; intros st es Hs E; cbn [Reporting.xload_loop] in E.
  - destruct (y_stack st) as [|[[ns p] o] stack]; [now apply (K st)|discriminate].
  - destruct (y_stack st) as [|[[ns p] o] stack]; [now apply (K st)|].
    destruct (xload_file ns p o _) as [st'| |] eqn:Ef in E; [|discriminate|discriminate]. apply (IH st' es); [|exact E]. now apply spoken_file in Ef.
Qed.
Lemma load_speaks es : xload_schemas = XLoadErr es -> pushed_errors es <> [].
Proof.
  unfold Reporting.xload_schemas. destruct (fs_main fs) as [name|]; [|intros [= <-]; discriminate]. apply spoken_loop. constructor.
Qed.
Lemma load_fault_announces (Hp : palette_ok pal) p e : load_fault u pal grapheme stem fs x p e -> announces (display pal e).
Proof. intros []; try (now apply throw_announces). all: match goal with H : reported_at _ _ _ _ _ _ _ |- _ => destruct H as (? & _ & ->) end; now apply throw_announces. Qed.
Lemma load_announces (Hp : palette_ok pal) es text : xload_schemas = XLoadErr es -> merged u pal (pushed_errors es) text -> announces text.
Proof.
  intros E. pose proof (load_speaks es E) as Hne. destruct (pushed_errors es) as [|e rest] eqn:Ee; [congruence|]. apply merged_announces; [exact Hu|].
  destruct (fs_main fs) as [name|] eqn:Em.
  - destruct (load_errors_said u pal Hu Hw grapheme stem fs x Hfs es E) as [H _]; [congruence|]. destruct (H e) as (p & _ & Hf); [rewrite Ee; now left|]. now apply (load_fault_announces Hp p).
  - unfold Reporting.xload_schemas in E. rewrite Em in E. injection E as <-. injection Ee as <- _. now apply throw_announces.
Qed.

Lemma push_announces (Hp : palette_ok pal) b f r k m es : push_if u pal b f r k m = Some es -> Forall (fun e => announces (display pal (snd e))) es.
Proof.
  unfold push_if. destruct b; [|intros [= <-]; constructor]. destruct (at_range u pal (xl_path f) (xl_contents f) r m) as [e|] eqn:E; [|discriminate]. intros [= <-]. constructor; [|constructor].
  apply at_range_reported in E as (text & _ & ->). now apply throw_announces.
Qed.
Lemma valid_announces (Hp : palette_ok pal) l es text : xload_schemas = XLoadOk l -> xvalidate u pal l = XVErr es -> merged u pal (map snd es) text -> announces text.
Proof.
  intros E Ev Hm.
  assert (exists e rest, map snd es = e :: rest /\ announces (display pal e)) as (e & rest & Ee & He).
  { assert (forall e, In e (map snd es) -> announces (display pal e)) as K.
    { unfold xvalidate in Ev. set (schemas := schemas_of (bare_files l)) in *.
      destruct (xvalidate_files u pal (all_types schemas) l) as [[|e0 es0]|] eqn:Ex; [| |discriminate].
      - destruct (check_all (all_types schemas) (type_names schemas) (mkC [] [] [] [])) as [st| |]; [|discriminate|discriminate].
        destruct (c_errors st) as [|e1 es1]; [discriminate|]. injection Ev as <-. intros e He. change ((e1, cycle_error u pal e1) :: map (fun e => (e, cycle_error u pal e)) es1) with (map (fun e => (e, cycle_error u pal e)) (e1 :: es1)) in He.
        rewrite map_map in He. apply in_map_iff in He as (k & <- & _). now apply throw_announces.
      - injection Ev as <-. intros e He.
        assert (loaded schemas) as HL. { apply (loaded_loaded u stem fs Hu Hfs). rewrite <- (xload_forget u pal Hu Hw stem grapheme fs x). now rewrite E. }
        assert (forall ns f, In (ns, f) l -> imports_ok (bare_schema (xl_schema f))) as Hi.
        { intros ns f Hin. destruct HL as (_ & L2 & _). apply (L2 ns). unfold schemas, schemas_of, bare_files. rewrite map_map. apply in_map_iff. exists (ns, f). now split. }
        apply (xfiles_faults u pal schemas l Hi _ Ex e) in He as (ns & f & _ & r & m & _ & text' & _ & ->). now apply throw_announces. }
    destruct es as [|e es].
    - exfalso. unfold xvalidate in Ev. destruct (xvalidate_files u pal _ l) as [[|e0 es0]|]; [|discriminate|discriminate].
      destruct (check_all _ _ _) as [st| |]; [|discriminate|discriminate]. destruct (c_errors st); discriminate.
    - exists (snd e), (map snd es). split; [reflexivity|]. apply K. now left. }
  rewrite Ee in Hm. now apply (merged_announces u Hu pal e rest).
Qed.
(** Either the run goes as it should, or loading or validation failed, and it only speaks. *)
Context (works : list effect -> effect -> bool) (wrap : N -> str -> list str) (rust_code ts_code : list (namespace * sschema) -> option str).
Lemma run_fine r :
  (exists check, r = xformat_schema u pal grapheme stem fs x works wrap check) \/
  (exists list_schemas rust typescript, r = xgenerate_code u pal grapheme stem fs x works rust_code ts_code list_schemas rust typescript) ->
  fine pal x works [] r \/
  exists texts text, fst r = map Say (texts ++ [text]) /\ snd r = Failed /\
    ((exists es, xload_schemas = XLoadErr es /\ merged u pal (pushed_errors es) text) \/
     (exists l es, xload_schemas = XLoadOk l /\ xvalidate u pal l = XVErr es /\ merged u pal (map snd es) text)).
Proof.
  assert (forall n, hd 0 (count n (txt "schema") ++ txt " loaded.") <> 68) as Hcount.
  { intros n. unfold count. assert (hd 0 (print_number n) <> 68 /\ print_number n <> []) as [H1 H2].
    { pose proof (number_decimal (fun _ => None) n) as [Hd Hne]. split; [|exact Hne]. apply decimal_value in Hd as [_ Hd]. destruct (print_number n) as [|c s]; [congruence|]. inversion Hd; subst. cbn [hd]. intros ->. discriminate. }
    destruct (n =? 1); destruct (print_number n); try congruence; exact H1. }
  intros [(check & ->)|(ls & rust & ts & ->)].
  - unfold xformat_schema, xload. destruct xload_schemas as [l|es| |] eqn:El.
    + left. apply fine_say with (txt "Loading schemas" ++ dots); [discriminate|]. apply fine_say with (count (lenN l) (txt "schema") ++ txt " loaded."); [apply Hcount|].
      apply fine_say with ((if check then txt "Checking" else txt "Formatting") ++ txt " schemas" ++ dots); [now destruct check|]. apply fine_format.
    + right. exists [txt "Loading schemas" ++ dots]. eexists. split; [reflexivity|]. split; [reflexivity|]. left. exists es. split; [reflexivity|].
      apply merge_merged; [apply (newline_white u Hu)|]. now apply load_speaks.
    + left. apply fine_say with (txt "Loading schemas" ++ dots); [discriminate|]. apply fine_crash.
    + left. apply fine_say with (txt "Loading schemas" ++ dots); [discriminate|]. apply fine_crash.
  - unfold xgenerate_code, xload. destruct xload_schemas as [l|es| |] eqn:El.
    + destruct (xvalidate u pal l) as [|es| |] eqn:Ev.
      * left. apply fine_say with (txt "Loading schemas" ++ dots); [discriminate|]. apply fine_say with (count (lenN l) (txt "schema") ++ txt " loaded."); [apply Hcount|].
        apply fine_say with (txt "Validating schemas" ++ dots); [discriminate|].
        assert (forall b, fine pal x works b (xemit pal x works (txt "Rust") rust (rust_code (schemas_of (bare_files l))) b (fun before =>
          xemit pal x works (txt "TypeScript") ts (ts_code (schemas_of (bare_files l))) before (fun before => (before ++ [Say (txt "Done.")], Succeeded))))) as K.
        { intros b. apply fine_emit. intros b'. apply fine_emit. intros b''. apply fine_success. }
        destruct ls; [|apply K]. apply fine_say with (txt "Listing schemas" ++ dots); [discriminate|]. apply (fine_list pal x works l). rewrite <- app_assoc. apply K.
      * right. exists [txt "Loading schemas" ++ dots; count (lenN l) (txt "schema") ++ txt " loaded."; txt "Validating schemas" ++ dots]. eexists.
        split; [reflexivity|]. split; [reflexivity|]. right. exists l, es. split; [reflexivity|]. split; [exact Ev|].
        apply merge_merged; [apply (newline_white u Hu)|]. unfold xvalidate in Ev. intros H. apply map_eq_nil in H. subst es.
        destruct (xvalidate_files u pal _ l) as [[|e0 es0]|]; [|discriminate|discriminate].
        destruct (check_all _ _ _) as [st| |]; [|discriminate|discriminate]. destruct (c_errors st); discriminate.
      * left. apply fine_say with (txt "Loading schemas" ++ dots); [discriminate|]. apply fine_say with (count (lenN l) (txt "schema") ++ txt " loaded."); [apply Hcount|].
        apply fine_say with (txt "Validating schemas" ++ dots); [discriminate|]. apply fine_crash.
      * left. apply fine_say with (txt "Loading schemas" ++ dots); [discriminate|]. apply fine_say with (count (lenN l) (txt "schema") ++ txt " loaded."); [apply Hcount|].
        apply fine_say with (txt "Validating schemas" ++ dots); [discriminate|]. apply fine_crash.
    + right. exists [txt "Loading schemas" ++ dots]. eexists. split; [reflexivity|]. split; [reflexivity|]. left. exists es. split; [reflexivity|].
      apply merge_merged; [apply (newline_white u Hu)|]. now apply load_speaks.
    + left. apply fine_say with (txt "Loading schemas" ++ dots); [discriminate|]. apply fine_crash.
    + left. apply fine_say with (txt "Loading schemas" ++ dots); [discriminate|]. apply fine_crash.
Qed.
End Sane.
