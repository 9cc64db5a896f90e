(** Lexing printed pieces of TypeScript one after the other. *)
From Verif Require Import BaseFacts IdentFacts NamesFacts PrinterFacts ReportFacts.
From Verif Require Export TsGrammar.
Local Open Scope string_scope.
Local Open Scope list_scope.
Local Open Scope N_scope.

Notation lx := (lex false []).
(** What has been read of a token after [s], and the tokens before it. *)
Definition next_r (r : bool) (p : str) : bool := match p with [] => r | _ => restricted p end.
Fixpoint state (r : bool) (p s : str) : bool * str :=
  match s with
  | [] => (r, p)
  | c :: s' =>
      if goes_on p c then state r (p ++ [c]) s'
      else if (c =? 10) || (c =? 13) then state false [] s'
      else if ascii_is_white c then state (next_r r p) [] s' else state false [c] s'
  end.
Fixpoint out (r : bool) (p s : str) : list jtok :=
  match s with
  | [] => []
  | c :: s' =>
      if goes_on p c then out r (p ++ [c]) s'
      else token_of p ++
        (if (c =? 10) || (c =? 13) then (if next_r r p then [JSym (txt ";")] else []) ++ out false [] s'
         else if ascii_is_white c then out (next_r r p) [] s' else out false [c] s')
  end.
Lemma lex_app a : forall r p b, lex r p (a ++ b) = out r p a ++ lex (fst (state r p a)) (snd (state r p a)) b.
Proof.
  induction a as [|c a IH]; intros r p b; [reflexivity|]. cbn [app lex out state]. fold (next_r r p). destruct (goes_on p c); [apply IH|].
  rewrite <- app_assoc. apply f_equal. destruct ((c =? 10) || (c =? 13)); [rewrite <- app_assoc; apply f_equal; apply IH|].
  destruct (ascii_is_white c); apply IH.
Qed.
Lemma lex_out a r p : lex r p a = out r p a ++ token_of (snd (state r p a)).
Proof. rewrite <- (app_nil_r a) at 1. rewrite lex_app. reflexivity. Qed.

Definition no_join (p s : str) : Prop := match s with [] => True | c :: _ => goes_on p c = false end.
Lemma lex_no_join r p s : no_join p s -> next_r r p = false -> lex r p s = token_of p ++ lx s.
Proof.
  destruct s as [|c s]; cbn [no_join lex]; [intros _ _; cbn; now rewrite app_nil_r|]. intros -> E. fold (next_r r p). rewrite E. reflexivity.
Qed.

(** *** Literal text *)

(** Tokens that nothing joins. *)
Definition complete (p : str) : bool :=
  match p with
  | [] => true
  | c :: _ => if c =? 39 then closed p else negb (word_char c) && forallb (fun k => negb (starts_with p k) || str_eqb p k) punctuators
  end.
Lemma starts_longer p d : forall k, starts_with (p ++ [d]) k = true -> starts_with p k = true /\ p <> k.
Proof.
  induction p as [|c p IH]; intros [|e k]; cbn; try discriminate; [intros _; now split|].
  intros H. apply andb_true_iff in H as [H1 H2]. apply IH in H2 as [H2 H3]. rewrite H1, H2. split; [reflexivity|congruence].
Qed.
Lemma complete_no_join p s : complete p = true -> no_join p s.
Proof.
  destruct s as [|d s]; [intros _; exact I|]. destruct p as [|c p]; [intros _; reflexivity|]. cbn [complete no_join goes_on].
  destruct (c =? 39); [intros ->; reflexivity|].
  intros H. apply andb_true_iff in H as [H1 H2]. apply negb_true_iff in H1. rewrite H1.
  destruct (existsb _ punctuators) eqn:E; [|reflexivity]. apply existsb_exists in E as (k & Hk & E).
  rewrite forallb_forall in H2. specialize (H2 k Hk). apply starts_longer in E as [E1 E2]. rewrite E1 in H2. cbn [negb orb] in H2.
  now apply str_eqb_eq in H2.
Qed.
Definition ends_token (l : str) : bool := complete (snd (state false [] l)) && negb (next_r (fst (state false [] l)) (snd (state false [] l))).
Lemma lex_lit l s : ends_token l = true -> lx (l ++ s) = lx l ++ lx s.
Proof.
  intros H. apply andb_true_iff in H as [H1 H2]. rewrite lex_app, (lex_out l), <- app_assoc. apply f_equal.
  apply lex_no_join; [now apply complete_no_join|now apply negb_true_iff].
Qed.

(** *** The beginning of an operand *)
Definition head_ok (s : str) : Prop := match s with [] => False | c :: _ => word_char c = true \/ In c (txt "([{'-") end.
Lemma head_app s t : head_ok s -> head_ok (s ++ t).
Proof. now destruct s. Qed.
Lemma lex_after s : head_ok s -> lex true [] s = lx s.
Proof.
  destruct s as [|c s]; [intros []|]. intros H. cbn [lex goes_on token_of app].
  assert ((c =? 10) || (c =? 13) = false /\ ascii_is_white c = false) as [-> ->]; [|reflexivity].
  destruct H as [H|H].
  - unfold ascii_is_white, word_char, ascii_is_letter, ascii_is_upper, ascii_is_lower, ascii_is_digit in *. lia.
  - cbn [txt] in H. repeat (destruct H as [<-|H]; [now split|]). destruct H.
Qed.
Lemma lex_keyword l s : state false [] l = (true, []) -> head_ok s -> lx (l ++ s) = lx l ++ lx s.
Proof. intros E H. rewrite lex_app, (lex_out l), E, <- app_assoc. apply f_equal. cbn [fst snd token_of app]. now apply lex_after. Qed.

(** *** Symbols before a word *)
Definition word_start (s : str) : Prop := match s with [] => False | c :: _ => word_char c = true end.
Lemma word_start_app x s : word_start x -> word_start (x ++ s).
Proof. now destruct x. Qed.
Lemma punctuator_char p c k : starts_with (p ++ [c]) k = true -> In c k.
Proof.
  revert k. induction p as [|d p IH]; intros [|e k]; cbn; try discriminate.
  - intros H. apply andb_true_iff in H as [H _]. apply N.eqb_eq in H. now left.
  - intros H. apply andb_true_iff in H as [_ H]. right. now apply IH.
Qed.
Lemma punctuator_word c k : In k punctuators -> In c k -> word_char c = false.
Proof.
  intros Hk Hc. assert (In c (concat punctuators)) as H by (apply in_concat; now exists k).
  assert (forallb (fun c => negb (word_char c)) (concat punctuators) = true) as K by reflexivity.
  rewrite forallb_forall in K. apply K in H. now apply negb_true_iff.
Qed.
Lemma sym_no_join d p s : d <> 39 -> word_char d = false -> word_start s -> no_join (d :: p) s.
Proof.
  intros H1 H2. destruct s as [|c s]; [intros []|]. intros Hc. cbn [no_join goes_on]. apply N.eqb_neq in H1. rewrite H1, H2.
  destruct (existsb _ punctuators) eqn:E; [|reflexivity]. apply existsb_exists in E as (k & Hk & E). apply punctuator_char in E.
  apply (punctuator_word c k Hk) in E. cbn in Hc. congruence.
Qed.
Lemma lex_sym1 c s : c = 46 \/ c = 45 -> word_start s -> lx (c :: s) = JSym [c] :: lx s.
Proof.
  intros Hc Hs. cbn [lex goes_on token_of app].
  assert ((c =? 10) || (c =? 13) = false /\ ascii_is_white c = false /\ word_char c = false /\ (c =? 39) = false) as (E1 & E2 & E3 & E4) by (destruct Hc as [-> | ->]; repeat split).
  rewrite E1, E2. rewrite lex_no_join.
  - cbn [token_of]. now rewrite E4, E3.
  - apply sym_no_join; [now apply N.eqb_neq|exact E3|exact Hs].
  - destruct Hc as [-> | ->]; reflexivity.
Qed.
Lemma lex_dot s : word_start s -> lx (txt "." ++ s) = y "." :: lx s.
Proof. intros H. apply (lex_sym1 46); auto. Qed.
Lemma lex_minus s : word_start s -> lx (txt "-" ++ s) = y "-" :: lx s.
Proof. intros H. apply (lex_sym1 45); auto. Qed.

(** *** Words *)
Definition follow (dot : bool) (s : str) : Prop :=
  match s with [] => True | c :: _ => word_char c = false /\ (c = 46 -> dot = true) end.
Lemma follow_weaken s : follow false s -> follow true s.
Proof. destruct s; [auto|]. intros [H1 H2]. split; auto. Qed.
Definition word_text (x : str) : Prop := x <> [] /\ Forall (fun c => word_char c = true) x /\ restricted x = false.
Lemma word_text_start x : word_text x -> word_start x.
Proof. intros (H1 & H2 & _). destruct x; [now destruct H1|]. now inversion H2. Qed.
Lemma word_not_quote c : word_char c = true -> (c =? 39) = false /\ (c =? 10) || (c =? 13) = false /\ ascii_is_white c = false.
Proof. unfold ascii_is_white, word_char, ascii_is_letter, ascii_is_upper, ascii_is_lower, ascii_is_digit. lia. Qed.
Lemma lex_chars q : forall p, word_start p -> Forall (fun c => word_char c = true) q -> forall s, lex false p (q ++ s) = lex false (p ++ q) s.
Proof.
  induction q as [|c q IH]; intros p Hp Hq s; [now rewrite app_nil_r|]. inversion Hq as [|? ? H1 H2]; subst. cbn [app lex].
  destruct p as [|d p]; [destruct Hp|]. cbn in Hp. unfold goes_on. destruct (word_not_quote d Hp) as (-> & _). rewrite Hp, H1. cbn [orb].
  rewrite (IH ((d :: p) ++ [c])); [|exact Hp|exact H2]. now rewrite <- app_assoc.
Qed.
Lemma lex_word dot x s : word_text x -> (dot = true -> match x with [] => True | c :: _ => ascii_is_digit c = false end) -> follow dot s ->
  lx (x ++ s) = JWord x :: lx s.
Proof.
  intros (H1 & H2 & H3) Hd Hs. destruct x as [|c x]; [now destruct H1|]. inversion H2 as [|? ? Hc Hx]; subst.
  destruct (word_not_quote c Hc) as (E1 & E2 & E3).
  cbn [app lex goes_on token_of]. rewrite E2, E3. rewrite (lex_chars x [c] Hc Hx). cbn [app]. rewrite lex_no_join; [|clear -E1 Hc Hd Hs|exact H3].
  - cbn [token_of]. now rewrite E1, Hc.
  - destruct s as [|e s]; [exact I|]. destruct Hs as [H4 H5]. cbn [no_join goes_on]. rewrite E1, Hc, H4. cbn [orb].
    destruct (N.eqb_spec e 46) as [E|E]; [|now rewrite andb_false_r]. now rewrite (Hd (H5 E)).
Qed.
Lemma restricted_reserved x : restricted x = true -> In x ecma_reserved.
Proof.
  unfold restricted. intros H. apply existsb_exists in H as (k & Hk & E). apply str_eqb_eq in E. subst k. revert Hk. apply sublist. reflexivity.
Qed.
Lemma ident_text x : is_ident x -> word_text x.
Proof.
  intros (H1 & H2 & H3). split; [now destruct x|]. split; [exact H2|]. destruct (restricted x) eqn:E; [|reflexivity]. now apply restricted_reserved in E.
Qed.
Lemma lex_ident x s : is_ident x -> follow true s -> lx (x ++ s) = JWord x :: lx s.
Proof. intros H Hs. apply (lex_word true); [now apply ident_text| |exact Hs]. intros _. destruct H as [H _]. now destruct x. Qed.
Lemma ident_start x : is_ident x -> word_start x.
Proof. intros H. now apply word_text_start, ident_text. Qed.

(** Deciding whether literal text is an identifier. *)
Definition identb (x : str) : bool :=
  match x with [] => false | c :: _ => negb (ascii_is_digit c) end && forallb word_char x && negb (existsb (str_eqb x) ecma_reserved).
Lemma identb_ident x : identb x = true -> is_ident x.
Proof.
  unfold identb. intros H. apply andb_true_iff in H as [H H3]. apply andb_true_iff in H as [H1 H2]. split; [|split].
  - destruct x; [discriminate|]. now apply negb_true_iff.
  - now apply Forall_forall, forallb_forall.
  - intros H. apply existsb_In in H. rewrite H in H3. discriminate.
Qed.
Lemma ident_chars_words x : ident_chars x -> Forall (fun c => word_char c = true) x.
Proof.
  intros H. eapply Forall_impl; [|exact H]. cbv beta. intros c [E|[E|E]]; unfold word_char; rewrite E; rewrite ?orb_true_r; reflexivity.
Qed.
Lemma letter_start c : ascii_is_letter c = true \/ c = underscore -> ascii_is_digit c = false /\ word_char c = true.
Proof. unfold word_char, underscore, ascii_is_letter, ascii_is_upper, ascii_is_lower, ascii_is_digit. lia. Qed.
Lemma legal_ident x : legal_ts_identifier x -> is_ident x.
Proof.
  intros [H1 H2]. destruct x as [|c x]; [destruct H1|]. destruct H1 as [H1 H3]. apply letter_start in H1 as [H1 H4]. split; [exact H1|]. split; [|exact H2].
  constructor; [exact H4|now apply ident_chars_words].
Qed.
Lemma dollar_ident x : legal_ts_identifier x -> is_ident (txt "$" ++ x).
Proof.
  intros H. apply legal_ident in H as (H1 & H2 & _). split; [reflexivity|]. split; [constructor; [reflexivity|exact H2]|].
  cbn [txt app]. intros H. unfold ecma_reserved in H. apply in_map_iff in H as (k & E & Hin).
  repeat (destruct Hin as [<-|Hin]; [discriminate E|]). destruct Hin.
Qed.
Lemma ident_plain x : is_ident x -> plain x.
Proof.
  intros (_ & H & _). eapply Forall_impl; [|exact H]. cbv beta. intros c. unfold word_char, ascii_is_letter, ascii_is_upper, ascii_is_lower, ascii_is_digit. lia.
Qed.

(** *** Strings *)
Lemma closed_open p : p <> [] -> closed (39 :: p) = (last p 0 =? 39).
Proof. destruct p; [congruence|]. reflexivity. Qed.
Lemma lex_quoted x s : plain x -> lx (quoted x ++ s) = JString x :: lx s.
Proof.
  intros Hx. assert (forall p, Forall (fun c => c <> 39) p -> lex false (39 :: p) (x ++ txt "'" ++ s) = JString (p ++ x) :: lx s) as K.
  { revert Hx. induction x as [|c x IH]; intros Hx p Hp.
    - change (txt "'" ++ s) with (39 :: s). cbn [app lex goes_on]. change (39 =? 39) with true. cbv iota.
      assert (closed (39 :: p) = false) as E.
      { destruct p as [|c p]; [reflexivity|]. rewrite closed_open by discriminate. apply N.eqb_neq. intros E. rewrite Forall_forall in Hp.
        apply (Hp 39); [|reflexivity]. rewrite <- E. destruct (exists_last (l := c :: p) ltac:(discriminate)) as (l & a & ->).
        rewrite last_last. apply in_or_app. right. now left. }
      rewrite E. cbn [negb]. rewrite lex_no_join; [|apply complete_no_join|reflexivity].
      + cbn [token_of app]. change (39 =? 39) with true. cbv iota. rewrite closed_open by (destruct p; discriminate). rewrite last_last, removelast_last, app_nil_r. reflexivity.
      + cbn [complete]. change (39 =? 39) with true. cbv iota. cbn [app]. rewrite closed_open by (destruct p; discriminate). now rewrite last_last.
    - inversion Hx as [|? ? H1 H2]; subst. cbn [app lex goes_on]. change (39 =? 39) with true. cbv iota.
      assert (closed (39 :: p) = false) as E.
      { destruct p as [|d p]; [reflexivity|]. rewrite closed_open by discriminate. apply N.eqb_neq. intros E. rewrite Forall_forall in Hp.
        apply (Hp 39); [|reflexivity]. rewrite <- E. destruct (exists_last (l := d :: p) ltac:(discriminate)) as (l & a & ->).
        rewrite last_last. apply in_or_app. right. now left. }
      rewrite E. cbn [negb]. change ((39 :: p) ++ [c]) with (39 :: (p ++ [c])). rewrite IH; [now rewrite <- app_assoc|exact H2|]. apply Forall_app. split; [exact Hp|].
      constructor; [apply H1|constructor]. }
  unfold quoted. rewrite <- !app_assoc. change (lex false [39] (x ++ txt "'" ++ s) = JString x :: lx s). exact (K [] (Forall_nil _)).
Qed.

(** *** Numbers *)
Lemma decimal_digit ds n : decimal ds n -> Forall (fun c => ascii_is_digit c = true) ds.
Proof.
  induction 1 as [|ds n d H IH Hd]; [constructor|]. apply Forall_app. split; [exact IH|]. constructor; [|constructor].
  unfold ascii_is_digit. lia.
Qed.
Lemma digit_word c : ascii_is_digit c = true -> word_char c = true.
Proof. intros H. unfold word_char. rewrite H. now rewrite orb_true_r. Qed.
Lemma spread_self d : d <> [] -> spread d d.
Proof. induction d as [|c d IH]; [congruence|]. intros _. destruct d; constructor. apply IH. discriminate. Qed.
Lemma spread_head ds t : spread ds t -> exists d ds' t', ds = d :: ds' /\ t = d :: t'.
Proof. destruct 1; repeat eexists. Qed.
Lemma spread_words ds t : spread ds t -> Forall (fun c => ascii_is_digit c = true) ds -> Forall (fun c => word_char c = true) t.
Proof.
  induction 1 as [d|d ds t H IH|d ds t H IH]; intros Hd; inversion Hd as [|? ? H1 H2]; subst; apply digit_word in H1.
  - now repeat constructor.
  - constructor; auto.
  - constructor; [exact H1|]. constructor; [reflexivity|auto].
Qed.
Lemma digits_not_restricted c x : ascii_is_digit c = true -> restricted (c :: x) = false.
Proof.
  intros H. destruct (restricted (c :: x)) eqn:E; [|reflexivity]. exfalso. unfold restricted in E. apply existsb_exists in E as (k & Hk & E).
  apply str_eqb_eq in E. subst k. cbn [map] in Hk.
  assert (forall s : str, s = c :: x -> match s with [] => True | d :: _ => ascii_is_digit d = true end) as K by (intros s ->; exact H).
  repeat (destruct Hk as [Hk|Hk]; [now apply K in Hk|]). destruct Hk.
Qed.
Lemma decimal_literal_text n t sfx : decimal_literal n t -> Forall (fun c => word_char c = true) sfx -> word_text (t ++ sfx).
Proof.
  intros (ds & H1 & H2 & _) Hs. apply decimal_digit in H1. pose proof (spread_words _ _ H2 H1) as H3. destruct (spread_head _ _ H2) as (d & ds' & t' & -> & ->).
  inversion H1; subst. split; [discriminate|]. split; [now apply Forall_app|now apply digits_not_restricted].
Qed.
Lemma print_number_lead n : forall t, print_number n = 48 :: t -> t = [].
Proof.
  intros t E. destruct (N.eq_dec n 0) as [->|Hn]; [now injection E as <-|]. exfalso. revert E. apply (number_numeral n). lia.
Qed.
Lemma print_number_literal n : decimal_literal n (print_number n).
Proof.
  destruct (number_decimal (fun _ => None) n) as [H1 H2]. exists (print_number n). split; [exact H1|]. split; [now apply spread_self|].
  intros ds' E. split; [reflexivity|exact (print_number_lead n ds' E)].
Qed.
Lemma group_spread rev : forall k ds t, spread ds t -> spread (List.rev rev ++ ds) (group_digits k rev t).
Proof.
  induction rev as [|d rest IH]; intros k ds t H; [exact H|]. cbn [List.rev]. rewrite <- app_assoc. cbn [group_digits app].
  destruct k; apply IH; now constructor.
Qed.
Lemma print_grouped_literal n : decimal_literal n (print_grouped n).
Proof.
  destruct (number_decimal (fun _ => None) n) as [H1 H2]. exists (print_number n). split; [exact H1|].
  destruct (exists_last H2) as (l & a & E). split.
  - unfold print_grouped. rewrite E, rev_app_distr. cbn [List.rev app group_digits]. change (l ++ [a]) with (l ++ [a]).
    pose proof (group_spread (List.rev l) 2 [a] [a] (spread_one a)) as K. now rewrite rev_involutive in K.
  - intros ds' E'. pose proof (print_number_lead n ds' E') as ->. split; [|reflexivity]. unfold print_grouped. now rewrite E'.
Qed.
Lemma bit_shift n k : bit (n / 2) k = bit n (N.succ k).
Proof. unfold bit. now rewrite <- N.div2_div, N.div2_spec, N.shiftr_spec, N.add_1_r by lia. Qed.
Lemma binary_bit s n : binary s (n / 2) -> binary (s ++ bit n 0) n.
Proof.
  intros H. assert (bit n 0 = [48 + n mod 2] /\ n mod 2 < 2) as [-> Hd].
  { split; [|lia]. unfold bit. rewrite N.bit0_odd. rewrite <- (N.bit0_odd n). rewrite N.bit0_eqb. destruct (N.eqb_spec (n mod 2) 1) as [->|E]; [reflexivity|].
    assert (n mod 2 = 0) as -> by lia. reflexivity. }
  replace n with (2 * (n / 2) + n mod 2) at 2 by lia. now constructor.
Qed.
Lemma binary_bits k : forall n, n < 2 ^ N.of_nat k -> binary (concat (map (fun i => bit n (N.of_nat i)) (List.rev (seq 0 k)))) n.
Proof.
  induction k as [|k IH]; intros n Hn.
  - cbn in *. assert (n = 0) as -> by lia. constructor.
  - rewrite <- cons_seq. cbn [List.rev]. rewrite map_app, concat_app. cbn [map concat]. rewrite app_nil_r. apply binary_bit.
    rewrite <- seq_shift, <- map_rev, map_map.
    replace (map (fun i => bit n (N.of_nat (S i))) (List.rev (seq 0 k))) with (map (fun i => bit (n / 2) (N.of_nat i)) (List.rev (seq 0 k))).
    + apply IH. rewrite Nat2N.inj_succ, N.pow_succ_r' in Hn. apply N.div_lt_upper_bound; lia.
    + apply map_ext. intros i. rewrite bit_shift. f_equal. lia.
Qed.
Lemma bit_char n k : exists c, bit n k = [c] /\ ascii_is_digit c = true.
Proof. unfold bit. destruct (N.testbit n k); eexists; split; reflexivity. Qed.
Lemma binary8_literal n : n < 256 -> binary_literal n (num_str Binary8 n) /\ word_text (num_str Binary8 n).
Proof.
  intros Hn. pose proof (binary_bits 8 n Hn) as H. change (List.rev (seq 0 8)) with [7; 6; 5; 4; 3; 2; 1; 0]%nat in H. cbn [map concat] in H.
  change (N.of_nat 7) with 7 in H. change (N.of_nat 6) with 6 in H. change (N.of_nat 5) with 5 in H. change (N.of_nat 4) with 4 in H.
  change (N.of_nat 3) with 3 in H. change (N.of_nat 2) with 2 in H. change (N.of_nat 1) with 1 in H. change (N.of_nat 0) with 0 in H.
  unfold num_str.
  destruct (bit_char n 7) as (c7 & E7 & D7), (bit_char n 6) as (c6 & E6 & D6), (bit_char n 5) as (c5 & E5 & D5), (bit_char n 4) as (c4 & E4 & D4),
    (bit_char n 3) as (c3 & E3 & D3), (bit_char n 2) as (c2 & E2 & D2), (bit_char n 1) as (c1 & E1 & D1), (bit_char n 0) as (c0 & E0 & D0).
  rewrite E7, E6, E5, E4, E3, E2, E1, E0 in *. cbn [app] in *. split.
  - exists [c7; c6; c5; c4; c3; c2; c1; c0], [c7; c6; c5; c4; 95; c3; c2; c1; c0]. split; [reflexivity|]. split; [exact H|].
    do 3 apply spread_digit. apply spread_underscore. do 3 apply spread_digit. apply spread_one.
  - split; [discriminate|]. split.
    + cbn [txt app]. repeat (constructor; [solve [reflexivity | now apply digit_word]|]). constructor.
    + reflexivity.
Qed.
