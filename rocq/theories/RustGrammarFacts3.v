(** The same for patterns, expressions, statements and items. *)
From Verif Require Import BaseFacts IdentFacts NamesFacts PrinterFacts.
From Verif Require Export RustGrammarFacts2.
Local Open Scope string_scope.
Local Open Scope list_scope.
Local Open Scope N_scope.

(** *** Numbers *)
Lemma decimal_digit ds n : decimal ds n -> Forall (fun c => ascii_is_digit c = true) ds.
Proof.
  induction 1 as [|ds n d H IH Hd]; [constructor|]. apply Forall_app. split; [exact IH|]. constructor; [|constructor].
  unfold ascii_is_digit. lia.
Qed.
Lemma digit_word c : ascii_is_digit c = true -> word_char c = true.
Proof. intros H. unfold word_char. rewrite H. now rewrite orb_true_r. Qed.
Definition suffix_ok (x : str) : Prop := In x (map txt [""; "u64"; "usize"]).
Lemma suffix_words x : suffix_ok x -> Forall (fun c => word_char c = true) (suffix_of x).
Proof. intros H. cbn in H. repeat (destruct H as [<-|H]; [now apply Forall_forall, forallb_forall|]). destruct H. Qed.
Lemma number_text n sfx t : number n sfx t -> word_text t.
Proof.
  intros (ds & d & rest & H1 & H2 & H3 & -> & H5). split; [discriminate|]. apply Forall_app. split; [|now apply suffix_words].
  apply decimal_digit in H1. rewrite H2 in H1. apply Forall_forall. intros c Hc. destruct (N.eqb_spec c 95) as [->|E]; [reflexivity|].
  apply digit_word. rewrite Forall_forall in H1. apply H1. apply filter_In. split; [exact Hc|]. apply N.eqb_neq in E. now rewrite E.
Qed.
Lemma print_number_is n sfx : suffix_ok sfx -> number n sfx (print_number n ++ suffix_of sfx).
Proof.
  intros Hs. destruct (number_decimal (fun _ => None) n) as [H1 H2]. pose proof (decimal_digit _ _ H1) as H3.
  destruct (print_number n) as [|d rest] eqn:E; [now destruct H2|]. exists (d :: rest), d, rest. split; [exact H1|]. split.
  - symmetry. assert (forall l, Forall (fun c => ascii_is_digit c = true) l -> filter (fun c => negb (c =? 95)) l = l) as K; [|now apply K].
    induction l as [|c l IH]; [reflexivity|]. intros H. inversion H as [|? ? Hc Hl]; subst. cbn [filter].
    destruct (N.eqb_spec c 95) as [->|_]; [discriminate Hc|]. cbn [negb]. now rewrite IH.
  - split; [now inversion H3|]. split; [reflexivity|exact Hs].
Qed.
Lemma print_number_text n : word_text (print_number n).
Proof.
  apply (number_text n []). replace (print_number n) with (print_number n ++ suffix_of []) by apply app_nil_r. apply print_number_is. now left.
Qed.

(** *** Patterns *)
Definition RP (p : pat) : Prop := rd (pat_str p) (fun ts => gpat ts p).
Lemma rp_wild : RP PWild.
Proof. exists [w "_"]. split; [constructor|]. intros s Hs. cbn [pat_str]. assert (word_text (txt "_")) by (split; [discriminate|now repeat constructor]). lx. Qed.
Lemma rp_var r x : is_name x -> RP (PVar r x).
Proof.
  intros H. pose proof (is_name_text x H). destruct r.
  - exists [w "ref"; Word x]. split; [now constructor|]. intros s Hs. cbn [pat_str]. lx.
  - exists [Word x]. split; [now constructor|]. intros s Hs. cbn [pat_str]. lx.
Qed.
Lemma rp_int n sfx : suffix_ok sfx -> RP (PInt n sfx).
Proof.
  intros H. apply (print_number_is n) in H. pose proof (number_text _ _ _ H) as Hw. exists [Word (print_number n ++ suffix_of sfx)]. split; [now constructor|].
  intros s Hs. cbn [pat_str]. now rewrite lex_word.
Qed.
Lemma lex_range s : word_start s -> lex [] (txt "..=" ++ s) = y "..=" :: lex [] s.
Proof. intros H. now rewrite (lex_sym (txt "..=") s eq_refl H). Qed.
Lemma rp_range lo hi sfx : number lo sfx (print_grouped lo ++ suffix_of sfx) -> number hi sfx (print_grouped hi ++ suffix_of sfx) -> RP (PRange lo hi sfx).
Proof.
  intros H1 H2. exists [Word (print_grouped lo ++ suffix_of sfx); y "..="; Word (print_grouped hi ++ suffix_of sfx)]. split; [now constructor|].
  intros s Hs. cbn [pat_str]. pose proof (number_text _ _ _ H1) as W1. pose proof (number_text _ _ _ H2) as W2.
  set (a := print_grouped lo) in *. set (b := print_grouped hi) in *. set (x := suffix_of sfx) in *.
  rewrite <- !app_assoc. rewrite (app_assoc a x), (app_assoc b x). rewrite lex_word; [|exact W1|].
  - rewrite lex_range; [|now apply word_start_app, word_text_start]. now rewrite lex_word.
  - split; [reflexivity|]. split; [discriminate|]. reflexivity.
Qed.
Lemma rp_const p : (2 <= length p)%nat -> Forall is_segment p -> RP (PCon p []).
Proof.
  intros H1 H2. exists (with_colons p). split; [now constructor|]. intros s Hs. cbn [pat_str]. apply lex_path; [|exact H2|exact Hs].
  intros ->. cbn in H1. lia.
Qed.
Lemma rp_con p args : (2 <= length p)%nat \/ (p <> [] /\ args <> []) -> Forall is_segment p -> Forall RP args -> RP (PCon p args).
Proof.
  intros H0 H2 H3. destruct args as [|a args].
  - apply rp_const; [|exact H2]. destruct H0 as [H0|[_ H0]]; [exact H0|now destruct H0].
  - assert (p <> []) as H1 by (destruct H0 as [H0|[H0 _]]; [intros ->; cbn in H0; lia|exact H0]).
    destruct (rd_parens gpat pat_str (a :: args) H3) as (ts & (ts' & H4 & ->) & H5).
    exists (with_colons p ++ [y "("] ++ ts' ++ [y ")"]). split; [now constructor|].
    intros s Hs. change (pat_str (PCon p (a :: args))) with (path_str p ++ parens (map pat_str (a :: args))). rewrite <- !app_assoc.
    rewrite lex_path; [|exact H1|exact H2|fol]. rewrite H5. now rewrite <- !app_assoc.
Qed.
Lemma rp_pair a b : RP a -> RP b -> RP (PPair a b).
Proof.
  intros (ts & H2 & H3) (ts' & H4 & H5). exists ([y "("] ++ ts ++ [y ","] ++ ts' ++ [y ")"]). split; [now constructor|].
  intros s Hs. cbn [pat_str]. unfold parens. cbn [join_with]. lx.
Qed.

(** *** Expressions *)
Definition RE (bare : bool) (l : nat) (e : expr) : Prop :=
  forall ind, ((9 <= l)%nat -> operand_start (expr_str ind e)) /\ rd (expr_str ind e) (fun ts => gexpr bare l ts e).
Definition RB (b : block) : Prop := forall ind, operand_start (block_str ind b) /\ rdl (block_str ind b) (fun ts => gblock ts b).
Definition RS (s : stmt) : Prop := forall ind, rd (stmt_str ind s) (fun ts => gstmt ts s).
Definition RF (f : fndef) : Prop := forall ind, rdl (fn_str ind f) (fun ts => gfn ts f).
Definition RA (a : arm) : Prop := match a with Arm p e => RP p /\ RE false 0 e /\ stands e = true end.

Section Expr.
Context (bare : bool).
Local Notation RE' := (RE bare).
Lemma re_weaken l l' e : RE' l e -> (l' <= l)%nat -> RE' l' e.
Proof.
  intros H Hl ind. destruct (H ind) as [H1 (ts & H2 & H3)]. split; [intros H4; apply H1; lia|]. exists ts. split; [now apply (g_weaken bare l)|exact H3].
Qed.
Lemma re_rd l e : RE' l e -> forall ind, rd (expr_str ind e) (fun ts => gexpr bare l ts e).
Proof. intros H ind. apply H. Qed.
Ltac atom := intros ind; split; [intros _; first [left; reflexivity | right; cbn; tauto]|].
Lemma re_name_text x ts e : name_text x -> (forall ind, expr_str ind e = x) -> gexpr bare 9 ts e -> ts = [Word x] -> RE' 9 e.
Proof.
  intros H E G -> ind. rewrite E. split; [intros _; now apply word_operand, name_text_start|]. exists [Word x]. split; [exact G|]. intros s Hs. now rewrite lex_name.
Qed.
Lemma re_var x : is_name x \/ x = txt "self" -> RE' 9 (EVar x).
Proof.
  intros H. apply (re_name_text x [Word x]); auto; [|now constructor]. destruct H as [H | ->]; [now apply is_name_text|].
  apply is_segment_text. right. cbn. tauto.
Qed.
Lemma re_word_text x e : word_text x -> (forall ind, expr_str ind e = x) -> gexpr bare 9 [Word x] e -> RE' 9 e.
Proof.
  intros H E G ind. rewrite E. split; [intros _; now apply word_operand, word_text_start|]. exists [Word x]. split; [exact G|]. intros s Hs. now rewrite lex_word.
Qed.
Lemma re_int n sfx : suffix_ok sfx -> RE' 9 (EInt n sfx).
Proof.
  intros H. apply (print_number_is n) in H. apply (re_word_text (print_number n ++ suffix_of sfx)); [now apply number_text in H|reflexivity|now constructor].
Qed.
Lemma fixed_word l : l <> [] -> forallb word_char l = true -> word_text l.
Proof. intros H1 H2. split; [exact H1|]. now apply Forall_forall, forallb_forall. Qed.
Lemma re_bool b : RE' 9 (EBool b).
Proof. destruct b; [apply (re_word_text (txt "true"))|apply (re_word_text (txt "false"))]; [now apply fixed_word|reflexivity|constructor|now apply fixed_word|reflexivity|constructor]. Qed.
Lemma re_unit : RE' 9 EUnit.
Proof. atom. exists [y "("; y ")"]. split; [constructor|]. intros s Hs. cbn [expr_str]. lx. Qed.
Lemma re_zero : RE' 9 EZeroF64.
Proof.
  atom. exists [w "0.0_f64"]. split; [constructor|]. intros s Hs. cbn [expr_str]. rewrite lex_app; [reflexivity|discriminate|].
  now apply follow_no_join.
Qed.
Lemma re_none : RE' 9 ENone.
Proof. apply (re_word_text (txt "None")); [now apply fixed_word|reflexivity|constructor]. Qed.
Lemma re_break : RE' 9 EBreak.
Proof. apply (re_word_text (txt "break")); [now apply fixed_word|reflexivity|constructor]. Qed.
Lemma re_missing n : RE' 9 (EMissingFields n).
Proof.
  intros ind. cbn [expr_str]. assert (is_name (txt "MISSING_FIELDS_ERROR_MESSAGE")) as Hn by now apply nameb_name.
  pose proof (supers_segments n _ Hn) as Hs. pose proof (supers_nonempty n (txt "MISSING_FIELDS_ERROR_MESSAGE")) as He.
  split; [intros _; rewrite supers_path; now apply path_operand|].
  destruct (rd_gpath_relative _ He Hs) as (ts & H1 & H2). rewrite <- supers_path in H2. exists ts. split; [now constructor|exact H2].
Qed.
Lemma re_invalid : RE' 9 EInvalidData.
Proof.
  atom. destruct (rd_gpath_global (map txt ["std"; "io"; "ErrorKind"; "InvalidData"]) ltac:(discriminate) ltac:(cbn [map]; segs)) as (ts & H1 & H2).
  exists ts. split; [now constructor|exact H2].
Qed.
Lemma re_variant t v : is_segment t -> is_name v -> RE' 9 (EVariant t v).
Proof.
  intros Ht Hv ind. assert (Forall is_segment [t; v]) as H by (constructor; [exact Ht|]; constructor; [now left|constructor]).
  change (expr_str ind (EVariant t v)) with (path_str [t; v]).
  split; [intros _; apply path_operand; [discriminate|exact H]|]. exists [Word t; y "::"; Word v]. split; [now constructor|].
  intros s Hs. now rewrite (lex_path [t; v] ltac:(discriminate) H).
Qed.
Lemma re_field e x : RE' 9 e -> is_name x -> RE' 9 (EField e x).
Proof.
  intros He Hx ind. destruct (He ind) as [H1 (ts & H2 & H3)]. pose proof (is_name_text x Hx) as Ht. cbn [expr_str].
  split; [intros _; apply operand_app, H1; lia|]. exists (ts ++ [y "."; Word x]). split; [now constructor|]. intros s Hs. rewrite <- !app_assoc.
  rewrite H3 by exact (follow_point x s Ht). change (txt "." ++ x ++ s) with (46 :: x ++ s). rewrite lex_dot by now apply word_start_app, name_text_start.
  now rewrite lex_name.
Qed.
(** Parts of pairs; only variables are taken apart. *)
Lemma re_index v x n : is_name v -> decimal x n -> x <> [] -> RE' 9 (EField (EVar v) x).
Proof.
  intros Hv Hx Hn ind. pose proof (is_name_text v Hv) as Ht. cbn [expr_str].
  assert (word_text x) as Hw.
  { split; [exact Hn|]. eapply Forall_impl; [|exact (decimal_digit x n Hx)]. intros c. apply digit_word. }
  split; [intros _; now apply operand_app, word_operand, name_text_start|].
  exists ([Word v] ++ [y "."; Word x]). split; [apply (g_index bare [Word v] (EVar v) x n); auto; constructor; now left|]. intros s Hs. rewrite <- !app_assoc.
  rewrite (lex_name' v _ Ht) by (split; [reflexivity|discriminate]). change (txt "." ++ x ++ s) with (46 :: x ++ s).
  rewrite lex_dot by now apply word_start_app, word_text_start. now rewrite lex_word.
Qed.
Lemma re_call f args : callee_ok f -> Forall (RE false 0) args -> RE' 9 (ECall f args).
Proof.
  intros Hf Ha ind. destruct (callee_reads f Hf) as [(ts & H1 & H2) H3]. cbn [expr_str].
  split; [intros _; now apply operand_app|].
  destruct (rd_parens (gexpr false 0) (expr_str ind) args) as (ts' & (ts'' & H4 & ->) & H5).
  { eapply Forall_impl; [|exact Ha]. intros a H. apply H. }
  exists (ts ++ [y "("] ++ ts'' ++ [y ")"]). split; [now constructor|]. intros s Hs. rewrite <- !app_assoc. rewrite H2 by fol. rewrite H5. now rewrite <- !app_assoc.
Qed.
Lemma lex_comma_nl s : lex [] ((txt "," ++ nl) ++ s) = y "," :: lex [] s.
Proof. now rewrite (lex_lit (txt "," ++ nl) s eq_refl). Qed.
Lemma re_call_lines f args : callee_ok f -> Forall (RE false 0) args -> RE' 9 (ECallLines f args).
Proof.
  intros Hf Ha ind. destruct (callee_reads f Hf) as [(ts & H1 & H2) H3]. cbn [expr_str].
  split; [intros _; now apply operand_app|].
  destruct (rd_lines (gexpr false 0) (expr_str (S ind)) (indent (S ind)) (txt "," ++ nl) args) as (ts' & H4 & H5).
  { apply lex_spaces. } { apply lex_comma_nl. } { intros s. fol. }
  { eapply Forall_impl; [|exact Ha]. intros a H. apply H. }
  exists (ts ++ [y "("] ++ ts' ++ [y ")"]). split; [now constructor|]. intros s Hs. set (lines := concat _) in *. lx.
Qed.
Lemma meth_reads m : exists ts, gmeth ts m /\ name_text (match m with MCollect => txt "collect" | _ => meth_str m end) /\
  (exists q, meth_str m = match m with MCollect => txt "collect" ++ q | _ => meth_str m end) /\
  forall s, lex [] (meth_str m ++ txt "(" ++ s) = ts ++ y "(" :: lex [] s.
Proof.
  assert (forall x, nameb x = true -> is_name x /\ name_text x) as K. { intros x H. apply nameb_name in H. split; [exact H|now apply is_name_text]. }
  destruct m;
  match goal with
  | |- context [MCollect] =>
      exists [w "collect"; y "::"; y "<"; w "Vec"; y "<"; w "_"; y ">"; y ">"]; split; [reflexivity|]; split; [now apply K|];
      split; [exists (txt "::<Vec<_>>"); reflexivity|]; intros s; rewrite app_assoc; rewrite (lex_lit (meth_str MCollect ++ txt "(") s eq_refl); reflexivity
  | |- context [gmeth _ ?m] =>
      exists [Word (meth_word m)]; split; [split; [reflexivity|now apply K]|]; split; [now apply K|]; split; [exists []; reflexivity|]; intros s;
      rewrite app_assoc; rewrite (lex_lit (meth_str m ++ txt "(") s eq_refl); reflexivity
  end.
Qed.
Lemma meth_start m : match meth_str m with [] => False | d :: _ => word_char d = true /\ ascii_is_digit d = false end.
Proof. destruct m; split; reflexivity. Qed.
Lemma re_method e m args : RE' 9 e -> Forall (RE false 0) args -> RE' 9 (EMethod e m args).
Proof.
  intros He Ha ind. destruct (He ind) as [H1 (ts & H2 & H3)]. cbn [expr_str].
  split; [intros _; apply operand_app, H1; lia|].
  destruct (rd_commas (gexpr false 0) (expr_str ind) args) as (ts' & H4 & H5).
  { eapply Forall_impl; [|exact Ha]. intros a H. apply H. }
  destruct (meth_reads m) as (tm & H6 & _ & _ & H7). pose proof (meth_start m) as H8.
  exists (ts ++ [y "."] ++ tm ++ [y "("] ++ ts' ++ [y ")"]). split; [now constructor|]. intros s Hs. unfold parens. set (l := join_with _ _) in *. rewrite <- !app_assoc.
  rewrite H3.
  - change (txt "." ++ meth_str m ++ txt "(" ++ l ++ txt ")" ++ s) with (46 :: meth_str m ++ txt "(" ++ l ++ txt ")" ++ s). rewrite lex_dot.
    + rewrite H7, H5 by fol. now rewrite (lex_lit (txt ")") s eq_refl).
    + apply word_start_app. destruct (meth_str m); [exact H8|]. apply H8.
  - split; [reflexivity|]. split; [discriminate|]. intros _. destruct (meth_str m); [destruct H8|]. apply H8.
Qed.
Lemma re_ref_mut e : RE' 8 e -> RE' 8 (ERef true e).
Proof.
  intros He ind. destruct (He ind) as [H1 (ts & H2 & H3)]. split; [lia|]. exists ([y "&"; w "mut"] ++ ts). split; [now constructor|]. intros s Hs. cbn [expr_str]. lx.
Qed.
Lemma re_ref e : RE' 9 e -> RE' 8 (ERef false e).
Proof.
  intros He ind. destruct (He ind) as [H1 (ts & H2 & H3)]. split; [lia|]. exists ([y "&"] ++ ts). split; [constructor; apply (g_weaken bare 9); auto; lia|].
  intros s Hs. change (lex [] (38 :: expr_str ind e ++ s) = y "&" :: ts ++ lex [] s).
  rewrite lex_prefix; [now rewrite H3|now left|]. apply operand_app, H1. lia.
Qed.
Lemma re_deref e : RE' 9 e -> RE' 8 (EDeref e).
Proof.
  intros He ind. destruct (He ind) as [H1 (ts & H2 & H3)]. split; [lia|]. exists ([y "*"] ++ ts). split; [constructor; apply (g_weaken bare 9); auto; lia|].
  intros s Hs. change (lex [] (42 :: expr_str ind e ++ s) = y "*" :: ts ++ lex [] s).
  rewrite lex_prefix; [now rewrite H3|now right|]. apply operand_app, H1. lia.
Qed.
Lemma re_bin op a b : (match op with OpAdd | OpMul => RE' (bin_level op) a | _ => RE' (S (bin_level op)) a end) -> RE' (S (bin_level op)) b ->
  RE' (bin_level op) (EBin op a b).
Proof.
  intros Ha Hb ind. destruct (Hb ind) as [_ (ts' & H3 & H4)]. cbn [expr_str]. split; [destruct op; cbn; lia|].
  assert (exists ts, (match op with OpAdd | OpMul => gexpr bare (bin_level op) ts a | _ => gexpr bare (S (bin_level op)) ts a end) /\
    forall s, follow s -> lex [] (expr_str ind a ++ s) = ts ++ lex [] s) as (ts & H1 & H2).
  { destruct op; destruct (Ha ind) as [_ (ts & H1 & H2)]; exists ts; auto. }
  exists (ts ++ [bin_symbol op] ++ ts'). split; [destruct op; first [solve [apply g_add_mul; auto]|solve [apply g_compare; auto]]|]. intros s Hs.
  destruct op; cbn [binop_str bin_symbol]; lx.
Qed.
Lemma re_cast e t : RE' 7 e -> is_name t -> RE' 7 (ECast e t).
Proof.
  intros He Ht ind. destruct (He ind) as [H1 (ts & H2 & H3)]. apply is_name_text in Ht as Ht'. split; [lia|]. exists (ts ++ [w "as"; Word t]). split; [now constructor|].
  intros s Hs. cbn [expr_str]. lx.
Qed.
Lemma re_paren e : RE false 0 e -> RE' 9 (EParen e).
Proof.
  intros He. atom. destruct (He ind) as [_ (ts & H2 & H3)]. exists ([y "("] ++ ts ++ [y ")"]). split; [now constructor|]. intros s Hs. cbn [expr_str]. lx.
Qed.
Lemma re_pair a b : RE false 0 a -> RE false 0 b -> RE' 9 (EPair a b).
Proof.
  intros Ha Hb. atom. destruct (Ha ind) as [_ (ts & H1 & H2)]. destruct (Hb ind) as [_ (ts' & H3 & H4)].
  exists ([y "("] ++ ts ++ [y ","] ++ ts' ++ [y ")"]). split; [now constructor|]. intros s Hs. cbn [expr_str]. unfold parens. cbn [join_with]. lx.
Qed.
Lemma re_closure xs e : xs <> [] -> Forall is_name xs -> RE' 0 e -> RE' 0 (EClosure xs e).
Proof.
  intros H1 H2 He ind. split; [lia|]. destruct (He ind) as [_ (ts & H3 & H4)].
  destruct (rd_commas (fun ts x => is_name x /\ ts = [Word x]) (fun x => x) xs) as (ts' & H5 & H6).
  { eapply Forall_impl; [|exact H2]. intros x Hx. exists [Word x]. split; [now split|]. intros s Hs. apply lex_name; [now apply is_name_text|exact Hs]. }
  rewrite map_id in H6. exists ([y "|"] ++ ts' ++ [y "|"] ++ ts). split; [now constructor|]. intros s Hs. cbn [expr_str].
  assert (word_start (join_with (txt ", ") xs)) as Hx.
  { destruct xs as [|x xs]; [now destruct H1|]. inversion H2 as [|? ? Hn _]; subst. apply is_name_text, name_text_start in Hn. destruct xs; [exact Hn|]. now apply word_start_app. }
  set (l := join_with _ _) in *. rewrite <- !app_assoc. rewrite (lex_sym (txt "|") _ eq_refl) by now apply word_start_app.
  rewrite H6 by fol. rewrite (lex_lit (txt "| ") _ eq_refl), H4 by exact Hs. reflexivity.
Qed.
Lemma re_try e : RE' 9 e -> RE' 9 (ETry e).
Proof.
  intros He ind. destruct (He ind) as [H1 (ts & H2 & H3)]. cbn [expr_str]. split; [intros _; apply operand_app, H1; lia|].
  exists (ts ++ [y "?"]). split; [now constructor|]. intros s Hs. lx.
Qed.
Lemma re_block b : RB b -> RE' 9 (EBlock b).
Proof.
  intros Hb ind. destruct (Hb ind) as [H1 (ts & H2 & H3)]. cbn [expr_str]. split; [intros _; exact H1|]. exists ts. split; [now constructor|]. intros s _. apply H3.
Qed.
Lemma re_if c a b : RE true 0 c -> RB a -> RB b -> RE' 9 (EIf c a b).
Proof.
  intros Hc Ha Hb. atom. destruct (Hc ind) as [_ (ts & H1 & H2)]. destruct (Ha ind) as [_ (ts' & H3 & H4)]. destruct (Hb ind) as [_ (ts'' & H5 & H6)].
  exists ([w "if"] ++ ts ++ ts' ++ [w "else"] ++ ts''). split; [now constructor|]. intros s Hs. cbn [expr_str]. lx.
Qed.
Lemma arms_inline ind arms : Forall RA arms ->
  rd (join_with (txt ", ") (map (fun a => match a with Arm p e => pat_str p ++ txt " => " ++ expr_str ind e end) arms)) (fun ts => garms ts arms).
Proof.
  induction 1 as [|[p e] arms (H1 & H2 & H3) _ (tss & H4 & H5)].
  - exists []. split; [constructor|reflexivity].
  - destruct H1 as (ts & P1 & P2). destruct (H2 ind) as [_ (ts' & E1 & E2)]. destruct arms as [|b arms].
    + exists (ts ++ [y "=>"] ++ ts'). split; [now constructor|]. intros s Hs. cbn [map join_with]. lx.
    + exists (ts ++ [y "=>"] ++ ts' ++ [y ","] ++ tss). split; [now constructor|]. intros s Hs.
      cbn [map join_with]. cbn [map join_with] in H5. set (more := match map _ arms with [] => _ | _ => _ end) in *. lx.
Qed.
Lemma arms_lines ind arms : Forall RA arms ->
  rdl (concat (map (fun a => match a with Arm p e => indent (S ind) ++ pat_str p ++ txt " => " ++ expr_str (S ind) e ++
        match e with EBlock _ => [] | _ => txt "," end ++ nl end) arms)) (fun ts => garms ts arms).
Proof.
  induction 1 as [|[p e] arms (H1 & H2 & H3) _ (tss & H4 & H5)].
  - exists []. split; [constructor|reflexivity].
  - destruct H1 as (ts & P1 & P2). destruct (H2 (S ind)) as [_ (ts' & E1 & E2)].
    assert (forall t, (exists b, e = EBlock b) \/ (match e with EBlock _ => [] | _ => txt "," end = t -> t = txt ",")) as K.
    { intros t. destruct e; try (right; intros <-; reflexivity). left. now eexists. }
    destruct (K (match e with EBlock _ => [] | _ => txt "," end)) as [(b & ->)|E].
    + exists (ts ++ [y "=>"] ++ ts' ++ tss). split.
      * constructor; auto. assert (forall bare l ts e, gexpr bare l ts e -> forall b, e = EBlock b -> gblock ts b) as I.
        { clear. induction 1; intros b0 E0; try discriminate E0; auto. now injection E0 as ->. }
        now apply (I _ _ _ _ E1).
      * intros s. cbn [map concat]. set (more := concat _) in *. lx.
    + specialize (E eq_refl). exists (ts ++ [y "=>"] ++ ts' ++ [y ","] ++ tss). split; [now constructor|].
      intros s. cbn [map concat].
      assert (@eq (list N) match e with EBlock _ => [] | _ => txt "," end (txt ",")) as E' by exact E. rewrite E'. set (more := concat _) in *. lx.
Qed.
Lemma re_match inline e arms : RE true 0 e -> Forall RA arms -> RE' 9 (EMatch inline e arms).
Proof.
  intros He Ha ind. split; [intros _; destruct inline; left; reflexivity|]. destruct (He ind) as [_ (ts & H1 & H2)]. destruct inline; cbn [expr_str].
  - destruct (arms_inline ind arms Ha) as (ts' & H3 & H4). exists ([w "match"] ++ ts ++ [y "{"] ++ ts' ++ [y "}"]). split; [now constructor|].
    intros s Hs. set (l := join_with _ _) in *. lx.
  - destruct (arms_lines ind arms Ha) as (ts' & H3 & H4). exists ([w "match"] ++ ts ++ [y "{"] ++ ts' ++ [y "}"]). split; [now constructor|].
    intros s Hs. set (l := concat _) in *. lx.
Qed.
Lemma re_no_sum : RE' 9 (ESum []).
Proof. apply (re_word_text (txt "0")); [now apply fixed_word|reflexivity|constructor]. Qed.
Lemma re_sum es : es <> [] -> Forall (RE' 6) es -> RE' 5 (ESum es).
Proof.
  intros H1 H2 ind. split; [lia|]. destruct (rd_chain (gexpr bare 6) (expr_str ind) (nl ++ indent (S ind) ++ txt "+ ") (y "+") es H1) as (ts & H3 & H4).
  - intros s. lx.
  - intros s. fol.
  - eapply Forall_impl; [|exact H2]. intros e H. apply H.
  - exists ts. split; [now constructor|]. intros s Hs. destruct es as [|e es]; [now destruct H1|]. cbn [expr_str].
    set (l := join_with _ _) in *. lx.
Qed.
Lemma re_ors es : es <> [] -> Forall (RE' 2) es -> RE' 1 (EOrs es).
Proof.
  intros H1 H2 ind. split; [lia|]. destruct (rd_chain (gexpr bare 2) (expr_str ind) (nl ++ indent (S ind) ++ txt "|| ") (y "||") es H1) as (ts & H3 & H4).
  - intros s. lx.
  - intros s. fol.
  - eapply Forall_impl; [|exact H2]. intros e H. apply H.
  - exists ts. split; [now constructor|]. exact H4.
Qed.
Lemma re_zeros n : RE' 9 (EZeros n).
Proof.
  atom. pose proof (print_number_text n) as Hw. exists [y "["; w "0"; y ";"; Word (print_number n); y "]"]. split.
  - constructor. rewrite <- (app_nil_r (print_number n)). apply (print_number_is n []). now left.
  - intros s Hs. cbn [expr_str]. set (t := print_number n) in *. lx.
Qed.
Lemma re_whole e : RE' 9 e -> RE' 9 (EWhole e).
Proof.
  intros He ind. destruct (He ind) as [H1 (ts & H2 & H3)]. cbn [expr_str]. split; [intros _; apply operand_app, H1; lia|].
  exists (ts ++ [y "["; y ".."; y "]"]). split; [now constructor|]. intros s Hs. lx.
Qed.
Lemma re_vec_empty : RE' 9 EVecEmpty.
Proof. atom. exists [w "vec"; y "!"; y "["; y "]"]. split; [constructor|]. intros s Hs. cbn [expr_str]. lx. Qed.
Lemma re_vec_units e : RE false 0 e -> RE' 9 (EVecUnits e).
Proof.
  intros He. atom. destruct (He ind) as [_ (ts & H2 & H3)]. exists ([w "vec"; y "!"; y "["; y "("; y ")"; y ";"] ++ ts ++ [y "]"]). split; [now constructor|].
  intros s Hs. cbn [expr_str]. lx.
Qed.
Lemma re_panic : RE' 9 EPanic.
Proof. atom. exists [w "panic"; y "!"; y "("; y ")"]. split; [constructor|]. intros s Hs. cbn [expr_str]. lx. Qed.
Lemma re_return e : RE' 0 e -> RE' 0 (EReturn e).
Proof.
  intros He ind. split; [lia|]. destruct (He ind) as [_ (ts & H2 & H3)]. exists ([w "return"] ++ ts). split; [now constructor|]. intros s Hs. cbn [expr_str]. lx.
Qed.
End Expr.
Lemma re_struct t fs : is_segment t -> Forall (fun f => is_name (fst f) /\ RE false 0 (snd f)) fs -> RE false 9 (EStruct t fs).
Proof.
  intros Ht Hf ind. apply is_segment_text in Ht as Ht'. cbn [expr_str]. split; [intros _; now apply operand_app, word_operand, name_text_start|].
  destruct (rd_lines (fun ts f => is_name (fst f) /\ exists ts', gexpr false 0 ts' (snd f) /\ ts = [Word (fst f); y ":"] ++ ts')
    (fun f => fst f ++ txt ":" ++ match snd f with ESum (_ :: _) => [] | _ => txt " " end ++ expr_str (S ind) (snd f)) (indent (S ind)) (txt "," ++ nl) fs)
    as (ts & H1 & H2).
  { apply lex_spaces. } { apply lex_comma_nl. } { intros s. fol. }
  { eapply Forall_impl; [|exact Hf]. intros [x e] [Hx He]. cbn [fst snd] in *. destruct (He (S ind)) as [_ (ts' & E1 & E2)].
    exists ([Word x; y ":"] ++ ts'). split; [split; [exact Hx|now exists ts']|]. intros s Hs. apply is_name_text in Hx. rewrite <- !app_assoc. rewrite lex_name; [|exact Hx|fol].
    assert (forall p, @eq (list N) match e with ESum (_ :: _) => [] | _ => txt " " end p -> lex [] (txt ":" ++ p ++ expr_str (S ind) e ++ s) = y ":" :: lex [] (expr_str (S ind) e ++ s)) as K.
    { intros p E. assert (p = txt " " \/ exists a l, e = ESum (a :: l) /\ p = []) as [-> | (a & l & -> & ->)].
      - destruct e; try (left; now rewrite <- E). destruct terms; [left; now rewrite <- E|right; now exists e, terms].
      - rewrite app_assoc. now rewrite (lex_lit (txt ":" ++ txt " ") _ eq_refl).
      - cbn [app]. cbn [expr_str]. set (r := join_with _ _). change (nl ++ indent (S (S ind)) ++ r) with (nl ++ (indent (S (S ind)) ++ r)). rewrite <- !app_assoc.
        rewrite app_assoc. now rewrite (lex_lit (txt ":" ++ nl) _ eq_refl). }
    etransitivity; [apply f_equal, (K _ eq_refl)|]. rewrite E2 by exact Hs. reflexivity. }
  exists ([Word t; y "{"] ++ ts ++ [y "}"]). split; [now constructor|]. intros s Hs.
  assert (concat (map (fun f => indent (S ind) ++ fst f ++ txt ":" ++ match snd f with ESum (_ :: _) => [] | _ => txt " " end ++ expr_str (S ind) (snd f) ++ txt "," ++ nl) fs) =
    concat (map (fun a => indent (S ind) ++ (fst a ++ txt ":" ++ match snd a with ESum (_ :: _) => [] | _ => txt " " end ++ expr_str (S ind) (snd a)) ++ txt "," ++ nl) fs)) as ->.
  { apply f_equal. apply map_ext. intros a. now rewrite <- !app_assoc. }
  set (l := concat _) in *. lx.
Qed.
