(** Lexing printed pieces one after the other. *)
From Verif Require Import BaseFacts IdentFacts NamesFacts PrinterFacts.
From Verif Require Export RustGrammar.
Local Open Scope string_scope.
Local Open Scope list_scope.
Local Open Scope N_scope.

(** The token [p] does not go on with [s]. *)
Definition no_join (p s : str) : Prop := match s with [] => True | c :: s' => goes_on p c s' = false end.
Lemma goes_on_nil c s : goes_on [] c s = false.
Proof. reflexivity. Qed.
Lemma lex_no_join p s : no_join p s -> lex p s = token_of p ++ lex [] s.
Proof.
  destruct s as [|c s]; cbn [no_join lex].
  - intros _. cbn. now rewrite app_nil_r.
  - intros ->. reflexivity.
Qed.
(** What has been read of a token after [s]. *)
Fixpoint pend (p s : str) : str :=
  match s with
  | [] => p
  | c :: s' => if goes_on p c s' then pend (p ++ [c]) s' else if ascii_is_white c then pend [] s' else pend [c] s'
  end.
Lemma goes_on_ahead p c s s' : c <> 46 \/ (exists d t t', s = d :: t /\ s' = d :: t') -> goes_on p c s = goes_on p c s'.
Proof.
  intros H. unfold goes_on. destruct p as [|d p]; [reflexivity|]. destruct (word_char d); [|reflexivity]. f_equal.
  destruct H as [H|(d' & t & t' & -> & ->)]; [|reflexivity]. apply N.eqb_neq in H. rewrite H. now rewrite !andb_false_r, !andb_false_l.
Qed.
Lemma lex_app a : forall p b, last a 0 <> 46 -> no_join (pend p a) b -> lex p (a ++ b) = lex p a ++ lex [] b.
Proof.
  induction a as [|c a IH]; intros p b Hl Hj; [now apply lex_no_join|].
  cbn [lex pend app] in *.
  assert (goes_on p c (a ++ b) = goes_on p c a) as E.
  { apply goes_on_ahead. destruct a as [|d a]; [left; exact Hl|right; now exists d, (a ++ b), a]. }
  assert (a = [] \/ last a 0 <> 46) as Ha. { destruct a; [now left|right; exact Hl]. }
  assert (forall q, no_join (pend q a) b -> lex q (a ++ b) = lex q a ++ lex [] b) as IH'.
  { intros q Hq. destruct Ha as [->|Ha]; [|now apply IH]. cbn. now apply lex_no_join. }
  rewrite E. destruct (goes_on p c a); [now apply IH'|]. rewrite <- app_assoc. apply f_equal.
  destruct (ascii_is_white c); now apply IH'.
Qed.

(** *** Literal text *)

(** Tokens that nothing joins. *)
Definition complete (p : str) : bool :=
  match p with [] => true | c :: _ => negb (word_char c) && forallb (fun k => negb (starts_with p k) || str_eqb p k) compounds end.
Lemma starts_longer p d : forall k, starts_with (p ++ [d]) k = true -> starts_with p k = true /\ p <> k.
Proof.
  induction p as [|c p IH]; intros [|e k]; cbn; try discriminate; [intros _; now split|].
  intros H. apply andb_true_iff in H as [H1 H2]. apply IH in H2 as [H2 H3]. rewrite H1, H2. split; [reflexivity|congruence].
Qed.
Lemma complete_no_join p s : complete p = true -> no_join p s.
Proof.
  destruct s as [|d s]; [intros _; exact I|]. destruct p as [|c p]; [intros _; reflexivity|]. cbn [complete no_join goes_on].
  intros H. apply andb_true_iff in H as [H1 H2]. apply negb_true_iff in H1. rewrite H1.
  destruct (existsb _ compounds) eqn:E; [|reflexivity]. apply existsb_exists in E as (k & Hk & E).
  rewrite forallb_forall in H2. specialize (H2 k Hk). apply starts_longer in E as [E1 E2]. rewrite E1 in H2. cbn [negb orb] in H2.
  now apply str_eqb_eq in H2.
Qed.
Definition ends_token (l : str) : bool := complete (pend [] l) && negb (last l 0 =? 46).
Lemma lex_lit l s : ends_token l = true -> lex [] (l ++ s) = lex [] l ++ lex [] s.
Proof.
  intros H. apply andb_true_iff in H as [H1 H2]. apply lex_app; [|now apply complete_no_join].
  apply negb_true_iff in H2. now apply N.eqb_neq.
Qed.

(** *** Symbols before something that is not one *)
Definition plain_start (s : str) : Prop :=
  match s with [] => False | c :: _ => word_char c = true \/ In c (txt "([{: ") \/ c = 10 end.
Lemma compound_char p c k : starts_with (p ++ [c]) k = true -> In c k.
Proof.
  revert k. induction p as [|d p IH]; intros [|e k]; cbn; try discriminate.
  - intros H. apply andb_true_iff in H as [H _]. apply N.eqb_eq in H. now left.
  - intros H. apply andb_true_iff in H as [_ H]. right. now apply IH.
Qed.
(** The characters in compounds. *)
Lemma compound_chars c : In c (concat compounds) -> In c (txt ":->=!.&|+*/%^").
Proof. intros H. vm_compute in H. repeat (destruct H as [<-|H]; [vm_compute; tauto|]). destruct H. Qed.
Lemma symbol_no_join p s : (match p with [] => True | c :: _ => word_char c = false end) ->
  (match s with [] => True | c :: _ => ~ In c (txt ":->=!.&|+*/%^") end) -> no_join p s.
Proof.
  destruct p as [|d p]; [intros _ _; destruct s; [exact I|reflexivity]|]. intros Hp. destruct s as [|c s]; [intros; exact I|]. intros Hc.
  cbn [no_join goes_on]. rewrite Hp. destruct (existsb _ compounds) eqn:E; [|reflexivity]. exfalso. apply Hc.
  apply existsb_exists in E as (k & Hk & E). apply compound_chars. apply in_concat. exists k. split; [exact Hk|]. now apply compound_char in E.
Qed.
Lemma word_not_symbol c : word_char c = true -> ~ In c (txt ":->=!.&|+*/%^").
Proof. intros H Hi. cbn [txt] in Hi. repeat (destruct Hi as [<-|Hi]; [discriminate H|]). destruct Hi. Qed.
Definition word_start (s : str) : Prop := match s with [] => False | c :: _ => word_char c = true end.
(** [.] and other symbols before a word. *)
Definition symbol_end (l : str) : bool := match pend [] l with [] => true | c :: _ => negb (word_char c) end && negb (last l 0 =? 46).
Lemma lex_sym l s : symbol_end l = true -> word_start s -> lex [] (l ++ s) = lex [] l ++ lex [] s.
Proof.
  intros H Hs. apply andb_true_iff in H as [H1 H2]. apply lex_app.
  - apply negb_true_iff in H2. now apply N.eqb_neq.
  - apply symbol_no_join.
    + destruct (pend [] l); [exact I|]. now apply negb_true_iff in H1.
    + destruct s; [exact I|]. now apply word_not_symbol.
Qed.
Lemma lex_dot s : word_start s -> lex [] (46 :: s) = y "." :: lex [] s.
Proof.
  intros Hs. cbn [lex goes_on]. change (ascii_is_white 46) with false. cbv iota. cbn [token_of app]. rewrite lex_no_join; [reflexivity|].
  apply symbol_no_join; [reflexivity|]. destruct s; [exact I|]. now apply word_not_symbol.
Qed.
(** [&] and [*] before the beginning of an operand. *)
Definition operand_start (s : str) : Prop := match s with [] => False | c :: _ => word_char c = true \/ In c (txt "([{:") end.
Lemma lex_prefix c s : c = 38 \/ c = 42 -> operand_start s -> lex [] (c :: s) = Sym [c] :: lex [] s.
Proof.
  intros Hc Hs. assert (word_char c = false) as Hw by (destruct Hc as [-> | ->]; reflexivity).
  cbn [lex goes_on]. replace (ascii_is_white c) with false by (destruct Hc as [-> | ->]; reflexivity). cbv iota. cbn [token_of app].
  rewrite lex_no_join; [cbn; rewrite Hw; reflexivity|]. destruct s as [|d s]; [exact I|]. cbn [no_join goes_on]. rewrite Hw. cbn [app].
  destruct Hs as [Hs|Hs].
  - destruct (existsb _ compounds) eqn:E; [|reflexivity]. exfalso. apply (word_not_symbol d Hs).
    apply existsb_exists in E as (k & Hk & E). apply compound_chars. apply in_concat. exists k. split; [exact Hk|]. now apply (compound_char [c]) in E.
  - cbn [txt] in Hs. destruct Hc as [-> | ->]; repeat (destruct Hs as [<-|Hs]; [reflexivity|]); destruct Hs.
Qed.

(** *** Words *)
Definition follow (s : str) : Prop :=
  match s with
  | [] => True
  | c :: s' => word_char c = false /\ c <> 35 /\ (c = 46 -> match s' with [] => True | d :: _ => ascii_is_digit d = false end)
  end.
Lemma follow_no_join p s : word_start p -> follow s -> no_join p s.
Proof.
  destruct p as [|d p]; [intros []|]. intros Hp. destruct s as [|c s]; [intros; exact I|]. intros (H1 & H2 & H3).
  cbn [no_join goes_on]. cbn in Hp. rewrite Hp, H1. apply N.eqb_neq in H2. rewrite H2, andb_false_r. cbn [orb].
  destruct (N.eqb_spec c 46) as [Ec|Ec]; [|now rewrite andb_false_r].
  specialize (H3 Ec). destruct s as [|n s]; [now rewrite andb_false_r|]. rewrite H3. now rewrite andb_false_r.
Qed.
(** A word that is not a number may be followed by a point and a digit. *)
Lemma name_no_join p s : (match p with [] => False | d :: _ => word_char d = true /\ ascii_is_digit d = false end) ->
  (match s with [] => True | c :: _ => word_char c = false /\ c <> 35 end) -> no_join p s.
Proof.
  destruct p as [|d p]; [intros []|]. intros [Hp Hd]. destruct s as [|c s]; [intros; exact I|]. intros (H1 & H2).
  cbn [no_join goes_on]. rewrite Hp, H1, Hd. apply N.eqb_neq in H2. rewrite H2, andb_false_r. reflexivity.
Qed.
Lemma lex_chars q : forall p, word_start p -> Forall (fun c => word_char c = true) q ->
  forall s, lex p (q ++ s) = lex (p ++ q) s.
Proof.
  induction q as [|c q IH]; intros p Hp Hq s; [now rewrite app_nil_r|]. inversion Hq as [|? ? H1 H2]; subst. cbn [app lex].
  destruct p as [|d p]; [destruct Hp|]. cbn in Hp. unfold goes_on. rewrite Hp, H1. cbn [orb].
  rewrite (IH ((d :: p) ++ [c])); [|exact Hp|exact H2]. now rewrite <- app_assoc.
Qed.
Definition word_text (x : str) : Prop := x <> [] /\ Forall (fun c => word_char c = true) x.
Lemma white_no_word c : word_char c = true -> ascii_is_white c = false.
Proof. unfold ascii_is_white, word_char, ascii_is_letter, ascii_is_upper, ascii_is_lower, ascii_is_digit. lia. Qed.
Lemma lex_word_open x s : word_text x -> lex [] (x ++ s) = lex x s.
Proof.
  intros [H1 H2]. destruct x as [|c x]; [now destruct H1|]. inversion H2 as [|? ? Hc Hx]; subst. cbn [app lex goes_on].
  rewrite (white_no_word c Hc). cbn [token_of app]. now rewrite (lex_chars x [c] Hc Hx).
Qed.
Lemma word_text_start x : word_text x -> word_start x.
Proof. intros [H1 H2]. destruct x; [now destruct H1|]. now inversion H2. Qed.
Lemma word_text_token x : word_start x -> token_of x = [Word x].
Proof. destruct x; [intros []|]. intros H. cbn in *. now rewrite H. Qed.
Lemma lex_word x s : word_text x -> follow s -> lex [] (x ++ s) = Word x :: lex [] s.
Proof.
  intros H Hs. rewrite lex_word_open by exact H. pose proof (word_text_start x H) as H'. rewrite lex_no_join by now apply follow_no_join.
  now rewrite word_text_token.
Qed.
(** Names, also raw ones. *)
Definition name_text (x : str) : Prop := (word_text x \/ exists q, x = txt "r#" ++ q /\ word_text q) /\
  match x with [] => False | d :: _ => ascii_is_digit d = false end.
Lemma name_text_start x : name_text x -> word_start x.
Proof. intros [[H|(q & -> & _)] _]; [now apply word_text_start|reflexivity]. Qed.
Lemma lex_name_open x s : name_text x -> lex [] (x ++ s) = lex x s.
Proof.
  intros [[H|(q & -> & H)] _]; [now apply lex_word_open|]. rewrite <- app_assoc. cbn [txt app].
  change (lex [] (txt "r#" ++ q ++ s) = lex (txt "r#" ++ q) s).
  assert (lex [] (txt "r#" ++ q ++ s) = lex (txt "r#") (q ++ s)) as -> by reflexivity.
  apply lex_chars; [reflexivity|apply H].
Qed.
Lemma lex_name' x s : name_text x -> (match s with [] => True | c :: _ => word_char c = false /\ c <> 35 end) ->
  lex [] (x ++ s) = Word x :: lex [] s.
Proof.
  intros H Hs. rewrite lex_name_open by exact H. pose proof (name_text_start x H) as H'. rewrite lex_no_join.
  - now rewrite word_text_token.
  - apply name_no_join; [|exact Hs]. destruct H as [_ H]. destruct x; [destruct H|]. now split.
Qed.
Lemma lex_name x s : name_text x -> follow s -> lex [] (x ++ s) = Word x :: lex [] s.
Proof. intros H Hs. apply lex_name'; [exact H|]. destruct s; [exact I|]. now destruct Hs as (? & ? & ?). Qed.
Lemma ident_word x : ident_chars x -> Forall (fun c => word_char c = true) x.
Proof.
  intros H. eapply Forall_impl; [|exact H]. cbv beta. intros c [E|[E|E]]; unfold word_char; rewrite E; rewrite ?orb_true_r; reflexivity.
Qed.
Lemma letter_not_digit c : ascii_is_letter c = true -> ascii_is_digit c = false.
Proof. unfold ascii_is_letter, ascii_is_upper, ascii_is_lower, ascii_is_digit. lia. Qed.
Lemma ascii_identifier_text x : ascii_identifier x -> word_text x /\ match x with [] => False | d :: _ => ascii_is_digit d = false end.
Proof.
  intros [H1 H2]. destruct x as [|c x]; [destruct H2|]. split; [split; [discriminate|now apply ident_word]|].
  destruct H2 as [H2|[-> _]]; [now apply letter_not_digit|reflexivity].
Qed.
Lemma is_name_text x : is_name x -> name_text x.
Proof.
  intros [[H _]|(q & -> & H & _)].
  - apply ascii_identifier_text in H as [H1 H2]. split; [now left|exact H2].
  - apply ascii_identifier_text in H as [H1 H2]. split; [|reflexivity]. right. now exists q.
Qed.
Lemma is_segment_text x : is_segment x -> name_text x.
Proof.
  intros [H|H]; [now apply is_name_text|]. cbn [map] in H.
  assert (forall l : str, match l with [] => False | d :: _ => ascii_is_digit d = false end -> forallb word_char l = true -> name_text l) as K.
  { intros l H1 H2. split; [|exact H1]. left. split; [now destruct l|]. now apply Forall_forall, forallb_forall. }
  repeat (destruct H as [<-|H]; [now apply K|]). destruct H.
Qed.
Lemma name_segment x : is_name x -> is_segment x.
Proof. now left. Qed.

(** Deciding whether literal text is a name. *)
Definition nameb (x : str) : bool :=
  forallb word_char x && match x with [] => false | c :: x' => ascii_is_letter c || ((c =? 95) && negb (str_eqb x' [])) end &&
  negb (existsb (str_eqb x) rust_reference_keywords).
Lemma nameb_name x : nameb x = true -> is_name x.
Proof.
  unfold nameb. intros H. apply andb_true_iff in H as [H H3]. apply andb_true_iff in H as [H1 H2]. left. split; [split|].
  - rewrite forallb_forall in H1. apply Forall_forall. intros c Hc. specialize (H1 c Hc). unfold word_char in H1.
    apply orb_true_iff in H1 as [H1|H1]; [apply orb_true_iff in H1; tauto|]. right. right. now apply N.eqb_eq.
  - destruct x as [|c x]; [discriminate|]. apply orb_true_iff in H2 as [H2|H2]; [now left|]. right. apply andb_true_iff in H2 as [H4 H5].
    split; [now apply N.eqb_eq|]. intros ->. discriminate.
  - intros H. apply existsb_In in H. rewrite H in H3. discriminate.
Qed.
Lemma path_self_cases x : In x (map txt ["self"; "super"; "Self"; "crate"]) -> is_segment x.
Proof. intros H. now right. Qed.
