(** Errors merged, and the commands with what they write on the standard error output. *)
From Verif Require Import IdentFacts TokenFacts TokenFacts2 ReportFacts CommandFacts.
From Verif Require Export ReportingFacts3.

(** ** merge_errors *)
Lemma last_split a b : last (split_on 10 (a ++ 10 :: b)) [] = last (split_on 10 b) [].
Proof.
  induction a as [|c a IH]; cbn [app].
  - change (10 :: b) with ([] ++ 10 :: b). rewrite split_more by (intros []). destruct (split_on 10 b) as [|l ls] eqn:E; [now apply split_on_nonnil in E|]. reflexivity.
  - destruct (N.eq_dec c 10) as [->|Hc].
    + change (10 :: a ++ 10 :: b) with ([] ++ 10 :: (a ++ 10 :: b)). rewrite split_more by (intros []). rewrite <- IH.
      destruct (split_on 10 (a ++ 10 :: b)) as [|l ls] eqn:E; [now apply split_on_nonnil in E|]. reflexivity.
    + rewrite split_on_cons by exact Hc. rewrite <- IH. destruct (split_on 10 (a ++ 10 :: b)) as [|l ls] eqn:E; [now apply split_on_nonnil in E|]. cbn [cons_hd].
      destruct ls as [|l2 ls]; [|reflexivity]. exfalso. clear -E. revert l E. induction a as [|d a IH]; cbn [app]; intros l E.
      * change (10 :: b) with ([] ++ 10 :: b) in E. rewrite split_more in E by (intros []). injection E as _ E. now apply split_on_nonnil in E.
      * destruct (N.eq_dec d 10) as [->|Hd].
        -- change (10 :: a ++ 10 :: b) with ([] ++ 10 :: (a ++ 10 :: b)) in E. rewrite split_more in E by (intros []). injection E as _ E. now apply split_on_nonnil in E.
        -- rewrite split_on_cons in E by exact Hd. destruct (split_on 10 (a ++ 10 :: b)) as [|l1 [|l2 ls]] eqn:E1; cbn [cons_hd] in E; [now apply split_on_nonnil in E1| |discriminate E]. now apply (IH l1).
Qed.
Lemma last_line s : exists a b, s = a ++ b /\ (a = [] \/ exists a', a = a' ++ [10]) /\ no_newline b /\ last (split_on 10 s) [] = b.
Proof.
  induction s as [|c s IH] using rev_ind; [exists [], []; repeat split; auto; intros []|]. destruct (N.eq_dec c 10) as [->|Hc].
  - exists (s ++ [10]), []. split; [now rewrite app_nil_r|]. split; [right; now exists s|]. split; [intros []|]. now rewrite last_split.
  - destruct IH as (a & b & E & Ha & Hb & _). exists a, (b ++ [c]). assert (no_newline (b ++ [c])) as Hn by (intros H; apply in_app_iff in H as [H|[H|[]]]; [now apply Hb|congruence]).
    split; [rewrite E; now rewrite app_assoc|]. split; [exact Ha|]. split; [exact Hn|]. rewrite E, <- app_assoc. destruct Ha as [->|[a' ->]]; cbn [app].
    + now rewrite split_last.
    + rewrite <- app_assoc. cbn [app]. rewrite last_split. now rewrite split_last.
Qed.
Lemma looks_ends s : looks_empty s = true <-> ends_blank s.
Proof.
  unfold looks_empty. destruct (last_line s) as (a & b & E & Ha & Hb & ->). split.
  - intros H. exists a, b. repeat split; auto. apply Forall_forall. intros c Hc. rewrite forallb_forall in H. specialize (H c Hc). apply orb_true_iff in H. rewrite !N.eqb_eq in H. exact H.
  - intros (a2 & b2 & E2 & Ha2 & Hb2). assert (b2 = b) as ->.
    { assert (no_newline b2) as Hn. { intros H. rewrite Forall_forall in Hb2. apply Hb2 in H. destruct H; discriminate. }
      destruct (last_line s) as (_ & _ & _). pose proof (f_equal (fun s => last (split_on 10 s) []) E) as L1. pose proof (f_equal (fun s => last (split_on 10 s) []) E2) as L2. cbv beta in L1, L2.
      assert (forall a b, a = [] \/ (exists a', a = a' ++ [10]) -> no_newline b -> last (split_on 10 (a ++ b)) [] = b) as K.
      { intros a0 b0 [->|[a' ->]] H0; cbn [app]; [now rewrite split_last|]. rewrite <- app_assoc. cbn [app]. rewrite last_split. now rewrite split_last. }
      rewrite K in L1, L2 by assumption. congruence. }
    apply forallb_forall. intros c Hc. rewrite Forall_forall in Hb2. apply orb_true_iff. rewrite !N.eqb_eq. now apply Hb2.
Qed.
Lemma looks_after a d : looks_empty (a ++ 10 :: d) = looks_empty d.
Proof. unfold looks_empty. now rewrite last_split. Qed.
Lemma merge_fold p es : forall pre d, exists t, joined (d :: map (display p) es) t /\
  fold_left (fun acc e => acc ++ [10] ++ (if looks_empty acc then [] else [10]) ++ display p e) es (pre ++ 10 :: d) = pre ++ 10 :: t.
Proof.
  induction es as [|e es IH]; intros pre d; cbn [map fold_left]; [exists d; split; [constructor|reflexivity]|]. rewrite looks_after.
  destruct (looks_empty d) eqn:El.
  - destruct (IH (pre ++ 10 :: d) (display p e)) as (t & J & E). exists (d ++ [10] ++ t). split; [apply joined_blank; [now apply looks_ends|exact J]|].
    cbn [app] in *. rewrite E. now rewrite <- app_assoc.
  - destruct (IH ((pre ++ 10 :: d) ++ [10]) (display p e)) as (t & J & E). exists (d ++ [10; 10] ++ t). split; [apply joined_text; [rewrite <- looks_ends; congruence|exact J]|].
    rewrite <- app_assoc in E. cbn [app] in *. rewrite E. rewrite <- !app_assoc. reflexivity.
Qed.
Theorem merge_merged u p es : is_whitespace u 10 = true -> es <> [] -> merged u p es (display p (merge_errors u p es)).
Proof.
  intros Hn Hne. destruct es as [|e es]; [congruence|]. unfold merge_errors, display at 1. cbn [e_reason e_message fold_left app]. change (looks_empty []) with true. cbn [app].
  destruct (merge_fold p es [] (display p e)) as (t & J & E). cbn [app] in E. rewrite E. exists t. split; [exact J|].
  apply trim_iff. unfold trim. cbn [trim_start]. now rewrite Hn.
Qed.

(** ** The commands *)
Lemma effects_app a b : effects_of (a ++ b) = effects_of a ++ effects_of b.
Proof. apply flat_map_app. Qed.
Definition observed (r : list event * outcome) : list effect * outcome := (effects_of (fst r), snd r).
Lemma observed_say before text o : observed (before ++ [Say text], o) = (effects_of before, o).
Proof. unfold observed. cbn [fst snd]. now rewrite effects_app, app_nil_r. Qed.
Lemma said_app before text : effects_of (before ++ [Say text]) = effects_of before.
Proof. rewrite effects_app. apply app_nil_r. Qed.
Lemma done_app before e : effects_of (before ++ [Do e]) = effects_of before ++ [e].
Proof. now rewrite effects_app. Qed.

Section Sane.
Context (u : unicode) (pal : palette) (Hu : ascii_agrees u) (Hw : white_not_alphabetic u).
Context (grapheme : str -> N -> str) (stem : str -> option str) (fs : files) (x : texts) (Hfs : files_ok u fs).
Context (works : list effect -> effect -> bool) (wrap : N -> str -> list str).
Notation xload_schemas := (xload_schemas u pal grapheme stem fs x).
Notation xformat_loop := (xformat_loop u pal stem x works wrap).
Notation xtry := (xtry pal x works).
Lemma xtry_observed e err before k k' : (forall b, observed (k b) = k' (effects_of b)) ->
  observed (xtry e err before k) = try works e (effects_of before) k'.
Proof.
  intros H. unfold Reporting.xtry, try. destruct (works (effects_of before) e).
  - rewrite H. now rewrite done_app.
  - unfold stop. rewrite observed_say. now rewrite done_app.
Qed.
Lemma format_observed check l : forall any before, observed (xformat_loop check l any before) = format_loop works u stem wrap check (bare_files l) any (effects_of before).
Proof.
  induction l as [|[ns f] l IH]; intros any before; cbn [Reporting.xformat_loop bare_files map format_loop fst snd].
  - destruct (check && any); [unfold stop|]; now rewrite observed_say.
  - cbn [bare_file lf_schema lf_contents lf_path].
    destruct (negb (str_eqb (xl_contents f) (print_schema u stem wrap (bare_schema (xl_schema f)))) && negb check).
    + rewrite <- (said_app before (txt "  " ++ code_str pal (x_full x (xl_path f)))). apply xtry_observed. intros b. apply IH.
    + rewrite IH. now rewrite said_app.
Qed.
Theorem xformat_observed check : observed (xformat_schema u pal grapheme stem fs x works wrap check) = format_schema works u stem wrap fs check.
Proof.
  unfold xformat_schema, xload, format_schema. rewrite <- (xload_forget u pal Hu Hw stem grapheme fs x).
  destruct xload_schemas as [l|es| |]; cbn [forget_load]; try reflexivity. now rewrite format_observed.
Qed.
Context (rust_code ts_code : list (namespace * sschema) -> option str).
Lemma emit_observed language t text before k k' : (forall b, observed (k b) = k' (effects_of b)) ->
  observed (xemit pal x works language t text before k) = emit works t text (effects_of before) k'.
Proof.
  intros H. unfold xemit, emit. destruct t as [t|]; [|apply H].
  assert (forall b, observed (match text with
        | Some text => xtry (Write (ToFile (t_file t)) text)
              (fun why => throw pal (txt "Unable to write " ++ code_str pal (t_file t) ++ txt ".") None None (Some why)) (b ++ [Say (txt "Writing " ++ code_str pal (t_file t) ++ dots)]) k
        | None => (b ++ [Say (txt "Writing " ++ code_str pal (t_file t) ++ dots)], Crashed)
        end) = match text with Some code => try works (Write (ToFile (t_file t)) code) (effects_of b) k' | None => (effects_of b, Crashed) end) as K.
  { intros b. destruct text as [text|]; [|apply observed_say]. rewrite <- (said_app b (txt "Writing " ++ code_str pal (t_file t) ++ dots)). now apply xtry_observed. }
  destruct (t_parent t) as [dir|].
  - rewrite <- (said_app before (txt "Generating " ++ language ++ dots)). apply xtry_observed. exact K.
  - rewrite K. now rewrite said_app.
Qed.
Lemma xlist_effects l : effects_of (xlist l) = list_effects (bare_files l).
Proof. unfold xlist, list_effects, bare_files. rewrite map_map. induction l as [|[ns f] l IH]; [reflexivity|]. cbn [map fst snd bare_file lf_path]. cbn. now f_equal. Qed.
Theorem xgenerate_observed list_schemas rust typescript :
  observed (xgenerate_code u pal grapheme stem fs x works rust_code ts_code list_schemas rust typescript) =
  generate_code works u stem rust_code ts_code fs list_schemas rust typescript.
Proof.
  unfold xgenerate_code, xload, generate_code. rewrite <- (xload_forget u pal Hu Hw stem grapheme fs x).
  destruct xload_schemas as [l|es| |] eqn:El; cbn [forget_load]; try reflexivity.
  rewrite <- (xvalidate_forget u pal l) by (now apply (loaded_listable u pal Hu Hw grapheme stem fs x Hfs)).
  destruct (xvalidate u pal l) as [|es| |]; cbn [forget_valid]; try reflexivity.
  rewrite (emit_observed (txt "Rust") rust (rust_code (schemas_of (bare_files l))) _ _ (fun before => emit works typescript (ts_code (schemas_of (bare_files l))) before (fun before => (before, Succeeded)))).
  - f_equal. destruct list_schemas; [|reflexivity]. rewrite effects_app. cbn. apply xlist_effects.
  - intros b. apply emit_observed. intros b'. apply observed_say.
Qed.
End Sane.
