From Verif Require Export IdentFacts TsNames.

Lemma eqb_equivalence : (forall a, ident_eqb a a = true) /\
  (forall a b, ident_eqb a b = ident_eqb b a) /\
  (forall a b c, ident_eqb a b = true -> ident_eqb b c = true -> ident_eqb a c = true).
Proof.
  split; [intros a; apply str_eqb_refl|split].
  - intros a b. destruct (ident_eqb a b) eqn:E1, (ident_eqb b a) eqn:E2; auto.
    + apply ident_eqb_eq in E1. symmetry in E1. apply ident_eqb_eq in E1. congruence.
    + apply ident_eqb_eq in E2. symmetry in E2. apply ident_eqb_eq in E2. congruence.
  - intros a b c H1 H2. rewrite ident_eqb_eq in *. congruence.
Qed.

Lemma utf8_injective s t : str_ok s -> str_ok t -> utf8_encode s = utf8_encode t -> s = t.
Proof.
  intros Hs Ht E. pose proof (utf8_decode_encode s Hs) as H1. pose proof (utf8_decode_encode t Ht) as H2. congruence.
Qed.
Lemma eqb_cmp a b : str_ok (snake_case a) -> str_ok (snake_case b) ->
  ident_eqb a b = true <-> ident_cmp a b = Eq.
Proof.
  intros Ha Hb. rewrite ident_eqb_eq. unfold ident_cmp. rewrite bytes_cmp_eq. split; [now intros ->|].
  now apply utf8_injective.
Qed.
Lemma eqb_hash H (h : str -> H) a b : ident_eqb a b = true -> ident_hash h a = ident_hash h b.
Proof. rewrite ident_eqb_eq. unfold ident_hash. now intros ->. Qed.

(** ** Spellings *)
Lemma word_lower w : word w -> alower w = w.
Proof.
  destruct w as [|c w]; [intros []|]. intros [H1 H2]. unfold alower. cbn [map]. f_equal.
  - unfold ascii_lower, ascii_is_upper, ascii_is_lower in *. destruct ((65 <=? c) && (c <=? 90)) eqn:E; lia.
  - induction H2 as [|d w H3 H4 IH]; [reflexivity|]. cbn [map]. f_equal; [|exact IH].
    unfold lower_or_digit, ascii_lower, ascii_is_upper, ascii_is_lower, ascii_is_digit in *. destruct ((65 <=? d) && (d <=? 90)) eqn:E; lia.
Qed.
Lemma words_lower ws : Forall word ws -> map alower ws = ws.
Proof. induction 1; [reflexivity|]. cbn. f_equal; auto using word_lower. Qed.
Lemma word_cap w : word w -> acap w = capitalized w.
Proof.
  destruct w as [|c w]; [intros []|]. intros [H1 H2]. unfold acap, capitalized. f_equal.
  - unfold ascii_upper. now rewrite H1.
  - pose proof (word_lower (c :: w) (conj H1 H2)) as H. now injection H.
Qed.
Lemma separated_join sep ws : separated sep ws = join [sep] ws.
Proof. induction ws as [|w [|w2 ws] IH]; [reflexivity..|]. cbn [separated join] in *. now rewrite IH. Qed.
Lemma word_asciis w : word w -> asciis w.
Proof.
  destruct w as [|c w]; [intros []|]. intros [H1 H2]. apply asciis_cons. split.
  - unfold is_ascii, ascii_is_lower in *. lia.
  - induction H2 as [|d w H3 H4 IH]; [reflexivity|]. apply asciis_cons. split; [|exact IH].
    unfold lower_or_digit, is_ascii, ascii_is_lower, ascii_is_digit in *. lia.
Qed.

Section Ascii.
Context (u : unicode) (Hu : ascii_agrees u).

Lemma low_clean c : lower_or_digit c -> is_sep c = false /\ is_uppercase u c = false.
Proof.
  unfold lower_or_digit, ascii_is_lower, ascii_is_digit. intros H. split.
  - unfold is_sep, underscore, hyphen. lia.
  - rewrite (agrees_upper u Hu); unfold is_ascii, ascii_is_upper; lia.
Qed.
Lemma word_shape w : word w -> shape u w.
Proof.
  intros Hw. pose proof (word_asciis w Hw) as Ha. destruct w as [|c w]; [destruct Hw|]. destruct Hw as [H1 H2].
  apply asciis_cons in Ha as [Ha1 Ha2]. repeat split; auto.
  - apply low_clean. now left.
  - unfold clean. eapply Forall_impl; [|exact H2]. apply low_clean.
Qed.
Lemma word_proper w : word w -> proper u w.
Proof.
  intros Hw. rewrite <- (word_lower w Hw). apply alower_shape; [exact Hu|]. now apply word_shape.
Qed.
Lemma word_head w : word w -> letter_head w.
Proof.
  destruct w as [|c w]; [intros []|]. intros [H1 H2]. cbn. unfold ascii_is_letter. rewrite H1. apply orb_true_r.
Qed.

Lemma words_join_sep sep ws : is_sep sep = true -> Forall (proper u) ws -> split_words u (join [sep] ws) = ws.
Proof.
  intros Hsep H. rewrite (words_raw u Hu).
  assert (ws <> [] -> raw u (join [sep] ws) = ws) as Hr.
  { induction ws as [|w ws IH]; [congruence|]. intros _. inversion H as [|? ? [_ H1] H2]; subst.
    destruct ws as [|w2 ws].
    - cbn [join]. now apply raw_clean.
    - change (join [sep] (w :: w2 :: ws)) with (w ++ [sep] ++ join [sep] (w2 :: ws)).
      rewrite raw_app, raw_clean by exact H1. cbn [app raw]. rewrite Hsep.
      rewrite IH by (auto; discriminate). cbn [glue]. now rewrite app_nil_r. }
  destruct ws as [|w ws]; [reflexivity|]. rewrite Hr by discriminate.
  apply filter_nonempty. eapply Forall_impl; [|exact H]. now intros x [Hx _].
Qed.

Lemma caps_words ws : Forall word ws -> map capitalized ws = map acap ws.
Proof. intros H. apply map_ext_in. intros w Hw. rewrite Forall_forall in H. symmetry. apply word_cap. auto. Qed.
Lemma words_shapes ws : Forall word ws -> Forall (shape u) ws.
Proof. intros H. eapply Forall_impl; [|exact H]. apply word_shape. Qed.
Lemma words_heads ws : Forall word ws -> Forall letter_head ws.
Proof. intros H. eapply Forall_impl; [|exact H]. apply word_head. Qed.
Lemma words_propers ws : Forall word ws -> Forall (proper u) ws.
Proof. intros H. eapply Forall_impl; [|exact H]. apply word_proper. Qed.

Lemma sep_asciis sep ws : is_ascii sep = true -> Forall word ws -> asciis (separated sep ws).
Proof.
  intros Hs H. induction H as [|w ws H1 H2 IH]; [reflexivity|]. destruct ws as [|w2 ws]; [now apply word_asciis|].
  change (separated sep (w :: w2 :: ws)) with (w ++ [sep] ++ separated sep (w2 :: ws)).
  apply asciis_app. split; [now apply word_asciis|]. apply asciis_app. split; [|exact IH].
  apply asciis_cons. split; [exact Hs|reflexivity].
Qed.
Lemma spelling_words st ws : Forall word ws ->
  asciis (spelling st ws) /\ map alower (split_words u (spelling st ws)) = ws.
Proof.
  intros H. destruct st; cbn [spelling].
  - split; [now apply sep_asciis|]. rewrite separated_join, words_join_sep by (auto using words_propers).
    now apply words_lower.
  - split; [now apply sep_asciis|]. rewrite separated_join, words_join_sep by (auto using words_propers).
    now apply words_lower.
  - destruct H as [|w ws H1 H2]; [split; reflexivity|]. rewrite caps_words by exact H2. split.
    + apply asciis_app. split; [now apply word_asciis|]. now apply (caps_asciis u), words_shapes.
    + rewrite (words_camel u Hu); [|now apply word_proper|now apply (caps_capital u Hu); [apply words_shapes|apply words_heads]].
      cbn [map]. rewrite map_alower_acap, word_lower, words_lower by assumption. reflexivity.
  - rewrite caps_words by exact H. split; [now apply (caps_asciis u), words_shapes|].
    rewrite (words_capitals u Hu); [|now apply (caps_capital u Hu); [apply words_shapes|apply words_heads]].
    rewrite map_alower_acap. now apply words_lower.
Qed.

Lemma spellings_equal st1 st2 ws1 ws2 : Forall word ws1 -> Forall word ws2 ->
  ident_eqb (ident_from u (spelling st1 ws1)) (ident_from u (spelling st2 ws2)) = true <-> ws1 = ws2.
Proof.
  intros H1 H2. destruct (spelling_words st1 ws1 H1) as [A1 W1]. destruct (spelling_words st2 ws2 H2) as [A2 W2].
  rewrite ident_eqb_eq. split.
  - intros E. apply (words_of_snake u Hu) in E; congruence.
  - intros ->. apply (snake_of_words u Hu); congruence.
Qed.
Definition style_of (c : casing) : style := match c with Snake => InSnake | Camel => InCamel | Pascal => InPascal end.
Lemma spelling_converted st c ws : Forall word ws ->
  in_case u c (ident_from u (spelling st ws)) = spelling (style_of c) ws.
Proof.
  intros H. destruct (spelling_words st ws H) as [A W].
  destruct (spelling_words InSnake ws H) as [A' W'].
  assert (snake_case (ident_from u (spelling st ws)) = separated 95 ws) as Hs.
  { cbn [snake_case ident_from]. rewrite (lower_words u Hu) by exact A. rewrite W. symmetry. apply separated_join. }
  assert (split_words u (spelling InSnake ws) = ws) as W''.
  { cbn [spelling]. rewrite separated_join. apply words_join_sep; auto using words_propers. }
  assert (snake_case (ident_from u (spelling st ws)) = snake_case (ident_from u (spelling InSnake ws))) as E
    by (apply (snake_of_words u Hu); congruence).
  destruct (snake_determines u Hu _ _ A A' E) as [Ep Ec].
  destruct c; cbn [in_case style_of].
  - exact Hs.
  - rewrite Ec, (camel_words u Hu) by exact A'. rewrite W''. destruct H as [|w ws H1 H2]; [reflexivity|].
    cbn [spelling]. now rewrite word_lower, caps_words by assumption.
  - rewrite Ep, (pascal_words u Hu) by exact A'. rewrite W''. cbn [spelling]. now rewrite caps_words.
Qed.

(** ** Legal names *)
Lemma words_start c s : ascii_is_letter c = true ->
  exists w ws, split_words u (c :: s) = (c :: w) :: ws.
Proof.
  intros Hc. rewrite (words_raw u Hu). cbn [raw]. 
  assert (is_sep c = false) as -> by
    (unfold is_sep, underscore, hyphen, ascii_is_letter, ascii_is_upper, ascii_is_lower in *; lia).
  pose proof (raw_nonnil u s) as Hn. destruct (raw u s) as [|h t]; [congruence|]. cbn [cons_hd].
  exists h, (filter is_nonempty t). destruct (is_uppercase u c); reflexivity.
Qed.
Lemma lower_letter c : ascii_is_letter c = true -> ascii_is_letter (ascii_lower c) = true.
Proof. unfold ascii_is_letter, ascii_lower, ascii_is_upper, ascii_is_lower. destruct ((65 <=? c) && (c <=? 90)) eqn:E; lia. Qed.
Lemma upper_letter c : ascii_is_letter c = true -> ascii_is_letter (ascii_upper c) = true.
Proof. unfold ascii_is_letter, ascii_upper, ascii_is_upper, ascii_is_lower. destruct ((97 <=? c) && (c <=? 122)) eqn:E; lia. Qed.
Lemma starts_orig s x : starts_with_letter s -> starts_with_letter (orig_suffix s x).
Proof. destruct s as [|c s]; [intros []|]. now destruct x. Qed.
Lemma converted_starts c x s : ident_chars s -> starts_with_letter s ->
  starts_with_letter (in_case u c (with_suffix u (ident_from u s) x)).
Proof.
  intros Hc Hs. rewrite with_suffix_from. pose proof (starts_orig s x Hs) as Ho.
  destruct (orig_suffix_words u Hu s x (ident_chars_asciis s Hc)) as [A _].
  destruct (orig_suffix s x) as [|d r]; [destruct Ho|]. cbn [starts_with_letter] in Ho.
  destruct (words_start d r Ho) as (w & ws & E). destruct c; cbn [in_case].
  - cbn [snake_case ident_from]. rewrite (lower_words u Hu) by exact A. rewrite E. cbn [map join].
    destruct (map alower ws); cbn; now apply lower_letter.
  - rewrite (camel_words u Hu) by exact A. rewrite E. cbn. now apply lower_letter.
  - rewrite (pascal_words u Hu) by exact A. rewrite E. cbn. now apply upper_letter.
Qed.
Lemma converted_ident_chars c x s : ident_chars s -> ident_chars (in_case u c (with_suffix u (ident_from u s) x)).
Proof.
  intros Hc. pose proof (converted_chars u Hu c x s Hc) as H. cbv zeta in H. destruct c; [exact H| |];
    (eapply Forall_impl; [|exact H]; unfold word_char; cbv beta; tauto).
Qed.
Lemma existsb_In s l : existsb (str_eqb s) l = true <-> In s l.
Proof.
  rewrite existsb_exists. split.
  - intros (x & Hx & E). apply str_eqb_eq in E. now subst.
  - intros H. exists s. split; [exact H|apply str_eqb_refl].
Qed.
Lemma sublist (a b : list str) : forallb (fun s => existsb (str_eqb s) b) a = true -> forall s, In s a -> In s b.
Proof. intros H s Hs. rewrite forallb_forall in H. now apply existsb_In, H. Qed.
Lemma not_ident_hash s : ~ ident_chars (txt "r#" ++ s).
Proof.
  intros H. inversion H as [|? ? _ H2]; subst. inversion H2 as [|? ? H3 _]; subst. vm_compute in H3.
  destruct H3 as [H3|[H3|H3]]; discriminate.
Qed.

Lemma rust_name_legal s c x : ident_chars s -> starts_with_letter s ->
  legal_rust_identifier (rust_name u (ident_from u s) c x) <->
  ~ In (in_case u c (with_suffix u (ident_from u s) x)) rust_not_raw.
Proof.
  intros Hc Hs. unfold rust_name. cbv zeta.
  pose proof (converted_starts c x s Hc Hs) as H1. pose proof (converted_ident_chars c x s Hc) as H2.
  set (w := in_case u c _) in *.
  assert (ascii_identifier w) as Hw.
  { split; [exact H2|]. destruct w as [|d w']; [destruct H1|]. now left. }
  destruct (existsb (str_eqb w) RUST_KEYWORDS) eqn:E.
  - unfold legal_rust_identifier. split.
    + intros [[[H _] _]|(s' & Hs' & _ & H)]; [now apply not_ident_hash in H|].
      apply app_inv_head in Hs'. now subst s'.
    + intros H. right. now exists w.
  - assert (~ In w RUST_KEYWORDS) as Hn by (rewrite <- existsb_In; congruence).
    split.
    + intros _ H. apply Hn. revert H. apply sublist. reflexivity.
    + intros _. left. split; [exact Hw|]. intros H. apply Hn. revert H. apply sublist. reflexivity.
Qed.

Lemma ts_name_legal s c x : ident_chars s -> starts_with_letter s ->
  legal_ts_identifier (ts_name u (ident_from u s) c x).
Proof.
  intros Hc Hs. unfold ts_name. cbv zeta.
  pose proof (converted_starts c x s Hc Hs) as H1. pose proof (converted_ident_chars c x s Hc) as H2.
  set (w := in_case u c _) in *.
  destruct (existsb (str_eqb w) TYPESCRIPT_KEYWORDS) eqn:E.
  - split.
    + cbn [txt]. split; [now right|exact H2].
    + intros H. unfold ecma_reserved in H. apply in_map_iff in H as (k & Hk & Hin).
      repeat (destruct Hin as [<-|Hin]; [discriminate Hk|]). destruct Hin.
  - assert (~ In w TYPESCRIPT_KEYWORDS) as Hn by (rewrite <- existsb_In; congruence).
    split.
    + destruct w as [|d w']; [destruct H1|]. inversion H2; subst. split; [now left|assumption].
    + intros H. apply Hn. revert H. apply sublist. reflexivity.
Qed.

(** ** TypeScript objects *)
Lemma js_own_notin V (o : jsobj V) n : ~ In n (map fst o) -> js_own o n = None.
Proof.
  induction o as [|[m v] o IH]; [reflexivity|]. cbn. intros H. destruct (str_eqb m n) eqn:E.
  - apply str_eqb_eq in E. tauto.
  - apply IH. tauto.
Qed.
Lemma js_own_in V (o : jsobj V) n v : NoDup (map fst o) -> In (n, v) o -> js_own o n = Some v.
Proof.
  induction o as [|[m w] o IH]; intros Hd Hin; [destruct Hin|]. cbn in *. inversion Hd; subst.
  destruct Hin as [[= -> ->]|Hin]; [now rewrite str_eqb_refl|]. destruct (str_eqb m n) eqn:E; [|now apply IH].
  apply str_eqb_eq in E. subst. exfalso. apply H1. apply in_map_iff. now exists (n, v).
Qed.

(** Field names that are as validation and the tokenizer leave them. *)
Definition good_names (fields : list ident) : Prop :=
  Forall (fun i => ident_chars (original i) /\ words_start_with_letters (original i) /\ i = ident_from u (original i)) fields /\
  ForallOrdPairs (fun i j => ident_eqb i j = false) fields.

Lemma props_nodup fields : good_names fields -> NoDup (map (prop u) fields).
Proof.
  intros [H1 H2]. induction H2 as [|i l H3 H4 IH]; [constructor|]. inversion H1 as [|? ? (A & B & C) H5]; subst.
  cbn. constructor; [|now apply IH]. intros Hin. apply in_map_iff in Hin as (j & Ej & Hj).
  rewrite Forall_forall in H3, H5. destruct (H5 j Hj) as (A' & B' & C'). specialize (H3 j Hj).
  unfold prop in Ej. rewrite C, C' in Ej. rewrite C, C' in H3.
  apply (ts_names_injective u Hu) in Ej; auto; [|discriminate]. destruct Ej as [Ej _].
  destruct eqb_equivalence as (_ & Hsym & _). rewrite Hsym in Ej. congruence.
Qed.

Definition seen {V} (v : option V) : jsread V := match v with Some v => RdOwn v | None => RdUndefined end.
Lemma struct_read V (ms : list (ident * option V)) i v : good_names (map fst ms) -> In (i, v) ms ->
  ts_struct_field u (struct_object u ms) i = seen v.
Proof.
  intros Hg Hin. unfold ts_struct_field, js_get.
  assert (map fst (struct_object u ms) = map (prop u) (map fst ms)) as E
    by (unfold struct_object; rewrite !map_map; reflexivity).
  rewrite (js_own_in V (struct_object u ms) (prop u i) v).
  - destruct v; reflexivity.
  - rewrite E. now apply props_nodup.
  - unfold struct_object. apply in_map_iff. now exists (i, v).
Qed.

Lemma prop_no_dollar i : ident_chars (original i) -> i = ident_from u (original i) -> ~ In 36 (prop u i).
Proof.
  intros Hc E. unfold prop, ts_name. cbv zeta. rewrite E.
  pose proof (converted_ident_chars Camel None _ Hc) as H. set (w := in_case u Camel _) in *.
  assert (~ In 36 w) as Hn.
  { intros Hin. unfold ident_chars in H. rewrite Forall_forall in H. apply H in Hin. vm_compute in Hin.
    destruct Hin as [Hin|[Hin|Hin]]; discriminate. }
  destruct (existsb (str_eqb w) TYPESCRIPT_KEYWORDS); [|exact Hn]. intros [Hin|Hin]; [discriminate|now apply Hn].
Qed.
Lemma choice_own_other V (i j : ident) (v : V) fd fb : ~ In 36 (prop u j) -> prop u j <> prop u i ->
  js_own (choice_object u i v fd fb) (prop u j) = None.
Proof.
  intros Hd Hne. apply js_own_notin. unfold choice_object. rewrite !map_app. rewrite !in_app_iff. cbn.
  intros [H|[[H|[]]|H]].
  - destruct fd; cbn in H; [|destruct H]. destruct H as [H|[]]. apply Hd. rewrite <- H. now left.
  - congruence.
  - destruct fb; cbn in H; [|destruct H]. destruct H as [H|[]]. apply Hd. rewrite <- H. now left.
Qed.
Lemma choice_own_self V (i : ident) (v : V) fd fb : ~ In 36 (prop u i) ->
  js_own (choice_object u i v fd fb) (prop u i) = Some (Some v).
Proof.
  intros Hd. unfold choice_object. destruct fd; cbn [app js_own].
  - destruct (str_eqb (txt "$field") (prop u i)) eqn:E.
    + apply str_eqb_eq in E. exfalso. apply Hd. rewrite <- E. now left.
    + now rewrite str_eqb_refl.
  - now rewrite str_eqb_refl.
Qed.
Lemma choice_read V fields i (v : V) fd fb : good_names fields -> In i fields ->
  (forall j, In j fields -> ~ In (prop u j) object_prototype) ->
  ts_choice_case u (choice_object u i v fd fb) fields = Some (i, RdOwn v).
Proof.
  intros Hg Hin Hp. pose proof (props_nodup fields Hg) as Hn. destruct Hg as [Hg _].
  assert (forall j, In j fields -> ~ In 36 (prop u j)) as Hd.
  { intros j Hj. rewrite Forall_forall in Hg. destruct (Hg j Hj) as (A & _ & C). now apply prop_no_dollar. }
  clear Hg. induction fields as [|j fields IH]; [destruct Hin|]. cbn [ts_choice_case]. cbn [map] in Hn.
  inversion Hn as [|? ? Hn1 Hn2]; subst. destruct Hin as [->|Hin].
  - unfold js_in, js_get. rewrite choice_own_self by (apply Hd; now left). reflexivity.
  - assert (prop u j <> prop u i) as Hne.
    { intros E. apply Hn1. rewrite E. now apply in_map. }
    unfold js_in. rewrite choice_own_other by (auto; apply Hd; now left).
    assert (js_inherited (prop u j) = false) as ->.
    { unfold js_inherited. destruct (existsb _ _) eqn:E; [|reflexivity]. apply existsb_In in E.
      exfalso. revert E. apply Hp. now left. }
    apply IH; auto; intros k Hk; [apply Hp|apply Hd]; now right.
Qed.
End Ascii.
