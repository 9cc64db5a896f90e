(** Each construct's text reads as the construct if its parts do. *)
From Verif Require Import BaseFacts IdentFacts NamesFacts PrinterFacts.
From Verif Require Export RustGrammarFacts.
Local Open Scope string_scope.
Local Open Scope list_scope.
Local Open Scope N_scope.

(** The text is that of tokens with the property. *)
Definition rd (t : str) (P : list rtok -> Prop) : Prop :=
  exists ts, P ts /\ forall s, follow s -> lex [] (t ++ s) = ts ++ lex [] s.
(** The same, whatever comes next. *)
Definition rdl (t : str) (P : list rtok -> Prop) : Prop :=
  exists ts, P ts /\ forall s, lex [] (t ++ s) = ts ++ lex [] s.

Lemma lex_spaces n s : lex [] (indent n ++ s) = lex [] s.
Proof.
  induction n as [|n IH]; [reflexivity|]. unfold indent in *. cbn [repeat concat]. rewrite <- app_assoc. rewrite (lex_lit (txt "    ") _ eq_refl), IH. reflexivity.
Qed.
Lemma lex_nl s : lex [] (nl ++ s) = lex [] s.
Proof. reflexivity. Qed.
Lemma follow_point x s : name_text x -> follow (46 :: x ++ s).
Proof. intros [_ H]. destruct x; [destruct H|]. split; [reflexivity|]. split; [discriminate|]. intros _. exact H. Qed.

Ltac fol := solve [assumption | exact I | split; [reflexivity|split; [discriminate|let E := fresh in intros E; discriminate E]]
                  | apply follow_point; auto].
Ltac lx1 :=
  match goal with
  | |- context [lex [] ([] ++ ?s)] => rewrite (app_nil_l s)
  | |- context [lex [] (indent ?n ++ ?s)] => rewrite (lex_spaces n s)
  | |- context [lex [] (nl ++ ?s)] => rewrite (lex_nl s)
  | H : forall s, follow s -> lex [] (?t ++ s) = _ |- context [lex [] (?t ++ ?s)] => rewrite (H s) by fol
  | H : forall s, lex [] (?t ++ s) = _ |- context [lex [] (?t ++ ?s)] => rewrite (H s)
  | H : name_text ?x |- context [lex [] (?x ++ ?s)] => rewrite (lex_name x s H) by fol
  | H : word_text ?x |- context [lex [] (?x ++ ?s)] => rewrite (lex_word x s H) by fol
  | |- context [lex [] (?t ++ ?s)] => rewrite (lex_lit t s eq_refl)
  end.
Ltac lx := rewrite <- ?app_assoc; repeat lx1; rewrite <- ?app_assoc; try reflexivity.

Lemma rd_impl t (P Q : list rtok -> Prop) : (forall ts, P ts -> Q ts) -> rd t P -> rd t Q.
Proof. intros H (ts & H1 & H2). exists ts. auto. Qed.

(** *** Paths *)
Lemma word_start_app x s : word_start x -> word_start (x ++ s).
Proof. now destruct x. Qed.
Lemma path_str_cons x p : p <> [] -> path_str (x :: p) = x ++ colons ++ path_str p.
Proof. now destruct p. Qed.
Lemma with_colons_cons x p : p <> [] -> with_colons (x :: p) = [Word x; y "::"] ++ with_colons p.
Proof. now destruct p. Qed.
Lemma path_start p : p <> [] -> Forall is_segment p -> word_start (path_str p).
Proof.
  intros Hp H. destruct p as [|x p]; [now destruct Hp|]. inversion H as [|? ? Hx _]; subst.
  apply is_segment_text, name_text_start in Hx. destruct p; [exact Hx|]. now apply word_start_app.
Qed.
Lemma lex_colons s : word_start s -> lex [] (colons ++ s) = y "::" :: lex [] s.
Proof. intros H. now rewrite (lex_sym colons s eq_refl H). Qed.
Lemma lex_path p : p <> [] -> Forall is_segment p -> forall s, follow s -> lex [] (path_str p ++ s) = with_colons p ++ lex [] s.
Proof.
  induction p as [|x p IH]; intros Hp H s Hs; [now destruct Hp|]. inversion H as [|? ? Hx Hp']; subst. apply is_segment_text in Hx.
  destruct p as [|x' p].
  - cbn [path_str join_with with_colons]. now rewrite lex_name.
  - rewrite path_str_cons, with_colons_cons by discriminate. set (p0 := x' :: p) in *. rewrite <- !app_assoc.
    rewrite lex_name; [|exact Hx|fol]. rewrite lex_colons; [|apply word_start_app, path_start; [discriminate|exact Hp']].
    rewrite IH; [reflexivity|discriminate|exact Hp'|exact Hs].
Qed.
Lemma rd_gpath_relative p : p <> [] -> Forall is_segment p -> rd (path_str p) (fun ts => gpath ts (path_str p)).
Proof. intros H1 H2. exists (with_colons p). split; [now apply gpath_relative|now apply lex_path]. Qed.
Lemma rd_gpath_global p : p <> [] -> Forall is_segment p -> rd (colons ++ path_str p) (fun ts => gpath ts (colons ++ path_str p)).
Proof.
  intros H1 H2. exists (y "::" :: with_colons p). split; [now apply gpath_global|]. intros s Hs. rewrite <- app_assoc, lex_colons; [|now apply word_start_app, path_start].
  now rewrite lex_path.
Qed.
(** What a path may start with. *)
Lemma word_operand s : word_start s -> operand_start s.
Proof. destruct s; [intros []|]. intros H. now left. Qed.
Lemma operand_app t s : operand_start t -> operand_start (t ++ s).
Proof. now destruct t. Qed.
Lemma path_operand p : p <> [] -> Forall is_segment p -> operand_start (path_str p).
Proof. intros H1 H2. now apply word_operand, path_start. Qed.

Ltac segs := repeat (apply Forall_cons; [solve [left; apply nameb_name; reflexivity | right; cbn; tauto]|]); apply Forall_nil.
(** A path given as text. *)
Ltac fixed_relative p := exact (rd_gpath_relative (map txt p) ltac:(discriminate) ltac:(cbn [map]; segs)).
Ltac fixed_global p := exact (rd_gpath_global (map txt p) ltac:(discriminate) ltac:(cbn [map]; segs)).

Lemma std_path f : rd (std_fn_str f) (fun ts => gpath ts (std_fn_str f)).
Proof.
  destruct f;
  [ fixed_relative ["Ok"] | fixed_relative ["Err"] | fixed_relative ["Some"] | fixed_relative ["Box"; "new"] | fixed_relative ["Vec"; "new"]
  | fixed_relative ["String"; "new"] | fixed_relative ["usize"; "from"] | fixed_relative ["u64"; "from"] | fixed_relative ["f64"; "from_le_bytes"]
  | fixed_relative ["u64"; "from_le_bytes"] | fixed_global ["std"; "io"; "Read"; "take"] | fixed_global ["std"; "io"; "Read"; "read_exact"]
  | fixed_global ["std"; "io"; "Read"; "read_to_end"] | fixed_global ["std"; "io"; "Read"; "read_to_string"] | fixed_global ["std"; "io"; "Error"; "new"] ].
Qed.
Lemma std_operand f : operand_start (std_fn_str f).
Proof. destruct f; first [left; reflexivity | right; cbn; tauto]. Qed.
Lemma supers_path n x : supers_str n ++ x = path_str (repeat (txt "super") n ++ [x]).
Proof.
  unfold supers_str. induction n as [|n IH]; [reflexivity|]. cbn [repeat concat app]. rewrite <- app_assoc, IH.
  rewrite path_str_cons; [reflexivity|]. now destruct n.
Qed.
Lemma supers_segments n x : is_name x -> Forall is_segment (repeat (txt "super") n ++ [x]).
Proof.
  intros H. apply Forall_app. split; [|constructor; [now left|constructor]]. apply Forall_forall. intros z Hz. apply repeat_spec in Hz. subst.
  right. cbn. tauto.
Qed.
Lemma supers_nonempty n (x : str) : repeat (txt "super") n ++ [x] <> [].
Proof. now destruct n. Qed.
Lemma top_name f : is_name (top_fn_str f).
Proof. destruct f; now apply nameb_name. Qed.
Definition callee_ok (f : callee) : Prop :=
  match f with
  | CTop _ _ | CStd _ => True
  | CDeserialize p => p <> [] /\ Forall is_segment p
  | CVariant t v => is_segment t /\ is_segment v
  | CLocal f => is_segment f
  end.
Lemma path_snoc p x : p <> [] -> path_str (p ++ [x]) = path_str p ++ colons ++ x.
Proof.
  induction p as [|a p IH]; [intros H; now destruct H|]. intros _. destruct p as [|b p]; [reflexivity|].
  cbn [app]. rewrite (path_str_cons a (b :: p ++ [x])) by discriminate. change (b :: p ++ [x]) with ((b :: p) ++ [x]).
  rewrite IH by discriminate. rewrite (path_str_cons a (b :: p)) by discriminate. now rewrite <- !app_assoc.
Qed.
Lemma callee_spelled f : callee_ok f -> callee_words f = callee_str f.
Proof.
  destruct f as [n f|f|p|t v|x]; cbn [callee_ok callee_str callee_words]; intros H.
  - unfold from_top. rewrite supers_path. now destruct f.
  - now destruct f.
  - now rewrite path_snoc by apply H.
  - reflexivity.
  - reflexivity.
Qed.
Lemma callee_reads f : callee_ok f -> rd (callee_str f) (fun ts => gpath ts (callee_words f)) /\ operand_start (callee_str f).
Proof.
  intros H. rewrite (callee_spelled f H). revert H. destruct f as [n f|f|p|t v|x]; cbn [callee_ok callee_str].
  - intros _. rewrite supers_path. split; [apply rd_gpath_relative|apply path_operand]; try apply supers_nonempty; apply supers_segments, top_name.
  - intros _. split; [apply std_path|apply std_operand].
  - intros [H1 H2].
    replace (path_str p ++ txt "::deserialize_from_reader_ref") with (path_str (p ++ [txt "deserialize_from_reader_ref"])) by now rewrite path_snoc.
    assert (Forall is_segment (p ++ [txt "deserialize_from_reader_ref"])).
    { apply Forall_app. split; [exact H2|]. segs. }
    split; [apply rd_gpath_relative|apply path_operand]; auto; now destruct p.
  - intros [H1 H2]. change (t ++ colons ++ v) with (path_str [t; v]).
    assert (Forall is_segment [t; v]) by repeat (constructor; auto).
    split; [apply rd_gpath_relative|apply path_operand]; auto; discriminate.
  - intros H. change x with (path_str [x]). assert (Forall is_segment [x]) by repeat (constructor; auto).
    split; [apply rd_gpath_relative|apply path_operand]; auto; discriminate.
Qed.

(** *** Lists *)
Section Lists.
Context {A : Type} (G : list rtok -> A -> Prop) (f : A -> str).
Lemma rd_commas l : Forall (fun a => rd (f a) (fun ts => G ts a)) l -> rd (join_with (txt ", ") (map f l)) (fun ts => commas G ts l).
Proof.
  induction 1 as [|a l (ts & H1 & H2) _ (tss & H3 & H4)].
  - exists []. split; [constructor|reflexivity].
  - destruct l as [|b l].
    + exists ts. split; [now constructor|exact H2].
    + exists (ts ++ [y ","] ++ tss). split; [now constructor|]. intros s Hs. cbn [map join_with].
      cbn [map join_with] in H4. set (more := match map f l with [] => f b | _ => _ end) in *. lx.
Qed.
Lemma rd_parens l : Forall (fun a => rd (f a) (fun ts => G ts a)) l ->
  rdl (parens (map f l)) (fun ts => exists ts', commas G ts' l /\ ts = [y "("] ++ ts' ++ [y ")"]).
Proof.
  intros H. apply rd_commas in H as (ts & H1 & H2). exists ([y "("] ++ ts ++ [y ")"]). split; [now exists ts|].
  intros s. unfold parens. set (t := join_with _ _) in *. lx.
Qed.
Lemma rd_lines (before after : str) l : (forall s, lex [] (before ++ s) = lex [] s) -> (forall s, lex [] (after ++ s) = y "," :: lex [] s) ->
  (forall s, follow (after ++ s)) ->
  Forall (fun a => rd (f a) (fun ts => G ts a)) l -> rdl (concat (map (fun a => before ++ f a ++ after) l)) (fun ts => commas G ts l).
Proof.
  intros Hb Ha Hf. induction 1 as [|a l (ts & H1 & H2) _ (tss & H3 & H4)].
  - exists []. split; [constructor|reflexivity].
  - exists (ts ++ [y ","] ++ tss). split; [now constructor|]. intros s. cbn [map concat]. rewrite <- !app_assoc, Hb, H2, Ha, H4; [reflexivity|apply Hf].
Qed.
Lemma rd_many (g : A -> str) l : Forall (fun a => rdl (g a) (fun ts => G ts a)) l -> rdl (concat (map g l)) (fun ts => many G ts l).
Proof.
  induction 1 as [|a l (ts & H1 & H2) _ (tss & H3 & H4)].
  - exists []. split; [constructor|reflexivity].
  - exists (ts ++ tss). split; [now constructor|]. intros s. cbn [map concat]. now rewrite <- !app_assoc, H2, H4.
Qed.
Lemma rd_chain (sep : str) op l : l <> [] -> (forall s, lex [] (sep ++ s) = op :: lex [] s) -> (forall s, follow (sep ++ s)) ->
  Forall (fun a => rd (f a) (fun ts => G ts a)) l -> rd (join_with sep (map f l)) (fun ts => chain G op ts l).
Proof.
  intros Hl Hs Hf H. induction H as [|a l (ts & H1 & H2) _ IH]; [now destruct Hl|]. destruct l as [|b l].
  - exists ts. split; [now constructor|exact H2].
  - destruct (IH ltac:(discriminate)) as (tss & H3 & H4). exists (ts ++ [op] ++ tss). split; [now constructor|]. intros s Hs'. cbn [map join_with].
    cbn [map join_with] in H4. set (more := match map f l with [] => f b | _ => _ end) in *. rewrite <- !app_assoc. rewrite H2 by apply Hf. rewrite Hs, H4 by exact Hs'. reflexivity.
Qed.
End Lists.

(** *** Types *)
Definition RT (t : rtype) : Prop := operand_start (type_str t) /\ rd (type_str t) (fun ts => gtype ts t).
Lemma rt_path p : p <> [] -> Forall is_segment p -> RT (TyPath p).
Proof. intros H1 H2. split; [now apply path_operand|]. exists (with_colons p). split; [now constructor|now apply lex_path]. Qed.
Lemma rt_app name t : operand_start name -> rd name (fun ts => gpath ts name) -> RT t -> RT (TyApp name t).
Proof.
  intros H1 (ts & H2 & H3) [_ (ts' & H4 & H5)]. split; [now apply operand_app|]. exists (ts ++ [y "<"] ++ ts' ++ [y ">"]). split; [now constructor|].
  intros s Hs. cbn [type_str]. lx.
Qed.
Lemma rt_unit : RT TyUnit.
Proof. split; [right; cbn; tauto|]. exists [y "("; y ")"]. split; [constructor|]. intros s _. cbn [type_str]. lx. Qed.
Lemma rt_pair a b : RT a -> RT b -> RT (TyPair a b).
Proof.
  intros [_ (ts & H2 & H3)] [_ (ts' & H4 & H5)]. split; [right; cbn; tauto|]. exists ([y "("] ++ ts ++ [y ","] ++ ts' ++ [y ")"]). split; [now constructor|].
  intros s Hs. cbn [type_str]. lx.
Qed.
Lemma rt_ref m t : RT t -> rd (type_str (TyRef m t)) (fun ts => gtype ts (TyRef m t)).
Proof.
  intros [H1 (ts & H2 & H3)]. destruct m; cbn [type_str].
  - exists ([y "&"; w "mut"] ++ ts). split; [now constructor|]. intros s Hs. lx.
  - exists ([y "&"] ++ ts). split; [now constructor|]. intros s Hs.
    change (lex [] (38 :: type_str t ++ s) = y "&" :: ts ++ lex [] s). rewrite lex_prefix; [now rewrite H3|now left|now apply operand_app].
Qed.
Lemma rt_name x : is_segment x -> RT (TyPath [x]).
Proof. intros H. apply rt_path; [discriminate|]. constructor; [exact H|constructor]. Qed.
