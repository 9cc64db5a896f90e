(** Property theorems about names: C36, C37, C47, C52, C55. See MANIFEST.json. *)
From Verif Require Import NamesFacts.

(** C36: equality is an equivalence, agrees with ordering and hashing; the ordering is total. *)
Theorem ident_equality_is_an_equivalence : (forall a, ident_eqb a a = true) /\
  (forall a b, ident_eqb a b = ident_eqb b a) /\
  (forall a b c, ident_eqb a b = true -> ident_eqb b c = true -> ident_eqb a c = true).
Proof. exact eqb_equivalence. Qed.
Print Assumptions ident_equality_is_an_equivalence.
Theorem ident_equality_agrees_with_order : forall a b, str_ok (snake_case a) -> str_ok (snake_case b) ->
  (ident_eqb a b = true <-> ident_cmp a b = Eq).
Proof. exact eqb_cmp. Qed.
Print Assumptions ident_equality_agrees_with_order.
Theorem ident_equality_agrees_with_hash : forall H (hash : str -> H) a b,
  ident_eqb a b = true -> ident_hash hash a = ident_hash hash b.
Proof. exact eqb_hash. Qed.
Print Assumptions ident_equality_agrees_with_hash.
Theorem ident_order_antisymmetric : forall a b, ident_cmp b a = CompOpp (ident_cmp a b).
Proof. intros a b. apply bytes_cmp_antisym. Qed.
Print Assumptions ident_order_antisymmetric.
Theorem ident_order_transitive : forall a b c r, r <> Eq ->
  ident_cmp a b = r -> ident_cmp b c = r -> ident_cmp a c = r.
Proof. intros a b c r Hr H1 H2. now apply (bytes_cmp_trans _ (utf8_encode (snake_case b))). Qed.
Print Assumptions ident_order_transitive.
(** Equality does not depend on the style in which the words are written: it compares the words. *)
Theorem ident_equality_ignores_case_style : forall u st1 st2 ws1 ws2, ascii_agrees u ->
  Forall word ws1 -> Forall word ws2 ->
  (ident_eqb (ident_from u (spelling st1 ws1)) (ident_from u (spelling st2 ws2)) = true <-> ws1 = ws2).
Proof. intros u st1 st2 ws1 ws2 Hu. now apply spellings_equal. Qed.
Print Assumptions ident_equality_ignores_case_style.
(** The conversions produce the three spellings. *)
Theorem ident_conversions : forall u st ws, ascii_agrees u -> Forall word ws ->
  in_case u Snake (ident_from u (spelling st ws)) = spelling InSnake ws /\
  in_case u Camel (ident_from u (spelling st ws)) = spelling InCamel ws /\
  in_case u Pascal (ident_from u (spelling st ws)) = spelling InPascal ws.
Proof.
  intros u st ws Hu H. split; [|split].
  - exact (spelling_converted u Hu st Snake ws H).
  - exact (spelling_converted u Hu st Camel ws H).
  - exact (spelling_converted u Hu st Pascal ws H).
Qed.
Print Assumptions ident_conversions.

(** C37: distinct identifiers get distinct names, also when suffixes are added; different suffixes give
    different names. *)
Theorem rust_names_distinct : forall u c x y s t, ascii_agrees u -> ident_chars s -> ident_chars t ->
  words_start_with_letters s -> words_start_with_letters t ->
  (x = y \/ (x <> None /\ y <> None)) ->
  rust_name u (ident_from u s) c x = rust_name u (ident_from u t) c y ->
  ident_eqb (ident_from u s) (ident_from u t) = true /\ x = y.
Proof. intros u c x y s t Hu. now apply rust_names_injective. Qed.
Print Assumptions rust_names_distinct.
Theorem ts_names_distinct : forall u c x y s t, ascii_agrees u -> ident_chars s -> ident_chars t ->
  words_start_with_letters s -> words_start_with_letters t -> c <> Snake ->
  (x = y \/ (x <> None /\ y <> None)) ->
  ts_name u (ident_from u s) c x = ts_name u (ident_from u t) c y ->
  ident_eqb (ident_from u s) (ident_from u t) = true /\ x = y.
Proof. intros u c x y s t Hu. now apply ts_names_injective. Qed.
Print Assumptions ts_names_distinct.
(** Without the condition on words this is false. *)
Theorem names_distinct_refuted :
  let u := ascii_unicode in
  let a := ident_from u (txt "foo_1") in let b := ident_from u (txt "foo1") in
  ident_eqb a b = false /\ (forall x, rust_name u a Pascal x = rust_name u b Pascal x) /\
  (forall x, ts_name u a Pascal x = ts_name u b Pascal x) /\ (forall x, ts_name u a Camel x = ts_name u b Camel x).
Proof. cbv zeta. repeat split; try (intros [[]|]); reflexivity. Qed.
Print Assumptions names_distinct_refuted.

(** C47: escaping of Rust keywords. *)
Theorem rust_names_legal : forall u s c x, ascii_agrees u -> ident_chars s -> starts_with_letter s ->
  (legal_rust_identifier (rust_name u (ident_from u s) c x) <->
   ~ In (in_case u c (with_suffix u (ident_from u s) x)) (map txt ["crate"; "self"; "super"; "Self"]%string)).
Proof. intros u s c x Hu. now apply rust_name_legal. Qed.
Print Assumptions rust_names_legal.
Theorem rust_names_legal_refuted :
  let u := ascii_unicode in
  rust_name u (ident_from u (txt "self")) Snake None = txt "r#self" /\ ~ legal_rust_identifier (txt "r#self").
Proof.
  cbv zeta. split; [reflexivity|]. intros H.
  pose proof (rust_name_legal ascii_unicode) as L.
  assert (ascii_agrees ascii_unicode) as Ha by (constructor; intros; reflexivity).
  specialize (L Ha (txt "self") Snake None). change (txt "r#self") with (rust_name ascii_unicode (ident_from ascii_unicode (txt "self")) Snake None) in H.
  apply L in H.
  - apply H. right. now left.
  - repeat constructor.
  - reflexivity.
Qed.
Print Assumptions rust_names_legal_refuted.

(** C55: escaping of TypeScript keywords. *)
Theorem ts_names_legal : forall u s c x, ascii_agrees u -> ident_chars s -> starts_with_letter s ->
  legal_ts_identifier (ts_name u (ident_from u s) c x).
Proof. intros u s c x Hu. now apply ts_name_legal. Qed.
Print Assumptions ts_names_legal.

(** C52: what a TypeScript message object says is what is read. [fields] are as validation leaves them: pairwise
    different identifiers. *)
Theorem ts_struct_fields_read : forall u V (ms : list (ident * option V)) i v, ascii_agrees u ->
  Forall (fun i => ident_chars (original i) /\ words_start_with_letters (original i) /\
                   i = ident_from u (original i)) (map fst ms) ->
  ForallOrdPairs (fun i j => ident_eqb i j = false) (map fst ms) ->
  In (i, v) ms ->
  ts_struct_field u (struct_object u ms) i = match v with Some v => RdOwn v | None => RdUndefined end.
Proof. intros u V ms i v Hu H1 H2. now apply struct_read. Qed.
Print Assumptions ts_struct_fields_read.
Theorem ts_choice_case_selected : forall u V fields i (v : V) fd fb, ascii_agrees u ->
  Forall (fun i => ident_chars (original i) /\ words_start_with_letters (original i) /\
                   i = ident_from u (original i)) fields ->
  ForallOrdPairs (fun i j => ident_eqb i j = false) fields ->
  (forall j, In j fields -> ~ In (ts_name u j Camel None) object_prototype) ->
  In i fields ->
  ts_choice_case u (choice_object u i v fd fb) fields = Some (i, RdOwn v).
Proof. intros u V fields i v fd fb Hu H1 H2 Hp Hin. now apply choice_read. Qed.
Print Assumptions ts_choice_case_selected.
(** Without the condition on [Object.prototype] it is false: every case after [to_string] is serialized as
    [to_string], with an inherited function as payload. *)
Theorem ts_choice_case_refuted :
  let u := ascii_unicode in
  let a := ident_from u (txt "to_string") in let b := ident_from u (txt "other") in
  forall V (v : V), ts_choice_case u (choice_object u b v None None) [a; b] = Some (a, RdInherited).
Proof. reflexivity. Qed.
Print Assumptions ts_choice_case_refuted.
(** No property name is [constructor]: it is escaped. *)
Theorem ts_constructor_escaped :
  ts_name ascii_unicode (ident_from ascii_unicode (txt "constructor")) Camel None = txt "_constructor".
Proof. reflexivity. Qed.
Print Assumptions ts_constructor_escaped.
