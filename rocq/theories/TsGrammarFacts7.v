(** The generated TypeScript file reads as its syntax trees, if the names in it are identifiers. *)
From Verif Require Import BaseFacts IdentFacts NamesFacts ParserFacts TreeFacts CodeFacts CycleFacts.
From Verif Require Export TsGrammarFacts6 RustSpec.
Local Open Scope string_scope.
Local Open Scope list_scope.
Local Open Scope N_scope.

(** The names that appear in the generated file are identifiers: those of namespaces, of types (with and without the
    suffixes [In], [Out] and [Atlas]) and of fields. C47 says which names in a schema give identifiers. *)
Definition legal_ts_names (u : unicode) (schemas : list (namespace * sschema)) : Prop :=
  forall ns s, In (ns, s) schemas ->
    (forall k, In k ns -> legal_ts_identifier (ts_name u k Pascal None)) /\
    forall d, In d (ss_decls s) ->
      (forall x : option suffix, legal_ts_identifier (ts_name u (sd_name d) Pascal x)) /\
      forall f, In f (sd_fields d) -> legal_ts_identifier (ts_name u (sf_name f) Camel None).

Section Program.
Context (u : unicode) (schemas : list (namespace * sschema)) (Ha : accepted u schemas) (Hn : legal_ts_names u schemas).
Let tree := module_tree schemas.
Let Hu : ascii_agrees u := ac_unicode u schemas Ha.
Let Hl : loaded schemas := ac_loaded u schemas Ha.
Let Hg : forall ns s, In (ns, s) schemas -> good_file u ns s := fun ns s H => proj1 (ac_names u schemas Ha ns s H).

Lemma valid_schemas' : valid schemas.
Proof. pose proof (validate_spec schemas Hl) as H. rewrite (ac_validated u schemas Ha) in H. apply H. Qed.
Lemma namespace_names : tree_keys (fun k => is_ident (ts_name u k Pascal None)) tree.
Proof. apply module_tree_keys. apply Forall_forall. intros [ns s] Hin. apply Forall_forall. intros k Hk. apply legal_ident. exact (proj1 (Hn ns s Hin) k Hk). Qed.
Lemma good_keys : tree_keys (good_ident u) tree.
Proof. apply module_tree_keys. apply Forall_forall. intros [ns s] Hin. exact (proj1 (Hg ns s Hin)). Qed.
Lemma held_there ns s d : holds tree ns s -> In d (ss_decls s) -> exists ns0, In (ns0, s) schemas /\ same_ns ns0 ns.
Proof.
  intros Hh Hd. destruct (schemas_tree u Hu schemas Hl Hg) as (_ & _ & K). destruct (K ns s Hh) as [(ns0 & Hin & Hs)|(-> & _)]; [now exists ns0|destruct Hd].
Qed.
Lemma mentioned_ts_paths ns s d f i n x : holds tree ns s -> In d (ss_decls s) -> In f (sd_fields d) -> mentions (sf_type f) i n ->
  ttype_path u ns s i n x <> [] /\ Forall is_ident (ttype_path u ns s i n x).
Proof.
  intros Hh Hd Hf Hm. destruct (held_there ns s d Hh Hd) as (ns0 & Hin & Hs).
  destruct (mention_target u Hu schemas Hl valid_schemas' Hg ns0 s d f i n ns (conj Hin Hd) Hf Hm Hs (keys_held _ _ good_keys _ _ Hh))
    as (tns & ns2 & s2 & d2 & there & A & B1 & B2 & C & _ & E & F & F' & G & H & J & K).
  unfold ttype_path, ts_path. rewrite A. destruct (names_same_ns u Hu tns there B1 H G) as [_ ->].
  rewrite (ts_name_same u Hu Pascal x n (sd_name d2)) by (auto; now apply same_ident_sym).
  split; [now destruct there|]. apply Forall_app. split.
  - apply Forall_map. exact (keys_held _ _ namespace_names _ _ F).
  - constructor; [|constructor]. apply legal_ident. exact (proj1 (proj2 (Hn ns2 s2 (proj1 C)) d2 F') x).
Qed.
Lemma ts_paths_of ns s d f : holds tree ns s -> In d (ss_decls s) -> In f (sd_fields d) -> tpaths_ok u ns s (sf_type f).
Proof.
  intros Hh Hd Hf. assert (forall i n, mentions (sf_type f) i n -> forall x, ttype_path u ns s i n x <> [] /\ Forall is_ident (ttype_path u ns s i n x)) as H.
  { intros i n Hm x. now apply (mentioned_ts_paths ns s d f). }
  revert H. induction (sf_type f) as [t IH| | |i n| | | | |]; intros H; cbn [tpaths_ok]; try exact I.
  - apply IH. intros i n Hm. apply H. now constructor.
  - apply H. constructor.
Qed.
Lemma module_wf : forall m ns, (forall p s, holds m p s -> holds tree (ns ++ p) s) -> tree_keys (fun k => is_ident (ts_name u k Pascal None)) m ->
  wmod (tgen_module u ns m).
Proof.
  fix IH 1. intros [children s] ns Hh Hk. cbn [tgen_module wmod].
  assert (holds tree ns s) as Hs by (specialize (Hh [] s (holds_here _ _)); now rewrite app_nil_r in Hh).
  inversion Hk as [? ? Hc]; subst. split.
  - assert (forall k m p s', In (k, m) children -> holds m p s' -> holds tree ((ns ++ [k]) ++ p) s') as Hb.
    { intros k m p s' Hin Hm. rewrite <- app_assoc. apply Hh. now apply (holds_below children s k m). }
    clear Hh Hk Hs. induction children as [|[k m] children IHc]; [exact I|].
    inversion Hc as [|? ? [K1 K2] K3]; subst. cbn [map allP fst snd]. split.
    + split; [exact K1|]. apply IH; [|exact K2]. intros p s' Hm. apply (Hb k m p s'); [now left|exact Hm].
    + apply IHc; [exact K3|]. intros k' m' p s' H1 H2. apply (Hb k' m'); [now right|exact H2].
  - apply allP_map. apply allP_in. intros d Hd. destruct (held_there ns s d Hs Hd) as (ns0 & Hin & _).
    destruct (proj2 (Hn ns0 s Hin) d Hd) as [N1 N2]. apply (decl_wf u ns s (sd_name d)); [| |reflexivity|].
    + intros x. apply legal_ident. exact (N1 (Some x)).
    + apply legal_ident. exact (N1 None).
    + apply allP_in. intros f Hf. split; [|split].
      * apply legal_ident. exact (N2 f Hf).
      * apply dollar_ident. exact (N2 f Hf).
      * exact (ts_paths_of ns s d f Hs Hd Hf).
Qed.
Lemma ts_program_wf : wmod (ts_program u schemas).
Proof. apply module_wf; [auto|exact namespace_names]. Qed.
End Program.

(** *** The whole file *)
Definition alternatives : list str := map txt
  ["ArrayBuffer"; "DataView"; "Int8Array"; "Uint8Array"; "Uint8ClampedArray"; "Int16Array"; "Uint16Array"; "Int32Array";
   "Uint32Array"; "Float32Array"; "Float64Array"; "BigInt64Array"; "BigUint64Array"]%string.
Lemma alternatives_chain : TsGrammar.chain gident (y "|") (tl (removelast (skipn 4 (tokens deserializable)))) alternatives.
Proof.
  assert (tl (removelast (skipn 4 (tokens deserializable))) = flat_map (fun x => [JWord x; y "|"]) (removelast alternatives) ++ [JWord (last alternatives [])]) as -> by (vm_compute; reflexivity).
  unfold alternatives. cbn [map removelast flat_map app last].
  repeat match goal with
  | |- TsGrammar.chain _ _ [?a] [?b] => apply TsGrammar.chain_one; split; [idn|reflexivity]
  | |- TsGrammar.chain _ _ (?a :: ?c :: ?ts) (?b :: ?l) => apply (TsGrammar.chain_more _ _ [a] b ts l); [split; [idn|reflexivity]|]
  end.
Qed.

Lemma fns_join : many gfn (lx (join_with nl (map (jfn_str 0) prelude_fns))) prelude_fns /\
  forall s, lx (join_with nl (map (jfn_str 0) prelude_fns) ++ s) = lx (join_with nl (map (jfn_str 0) prelude_fns)) ++ lx s.
Proof.
  destruct (join_nl gfn (jfn_str 0) prelude_fns) as (ts & H1 & H2).
  { eapply allP_Forall; [exact prelude_fns_wf|]. intros f _. apply fn_reads. }
  pose proof (H2 []) as H3. rewrite app_nil_r in H3. rewrite H3. change (lx []) with (@nil jtok). rewrite app_nil_r. auto.
Qed.
Lemma consts_join : many gstmt (lx (body_str 0 prelude_consts)) prelude_consts /\
  forall s, lx (body_str 0 prelude_consts ++ s) = lx (body_str 0 prelude_consts) ++ lx s.
Proof.
  destruct (body_wf 0 _ prelude_consts_wf) as (ts & H1 & H2).
  pose proof (H2 []) as H3. rewrite app_nil_r in H3. rewrite H3. change (lx []) with (@nil jtok). rewrite app_nil_r. auto.
Qed.
(** What follows the comments at the top. *)
Definition ts_body (u : unicode) (schemas : list (namespace * sschema)) : str :=
  deserializable ++ nl ++ join_with nl (map (jfn_str 0) prelude_fns) ++ nl ++ body_str 0 prelude_consts ++ nl ++ tmod_str 0 (ts_program u schemas).
Lemma deserializable_lex s : lx (deserializable ++ s) =
  [w "export"; w "type"; w "Deserializable"; y "="; y "|"] ++ tl (removelast (skipn 4 (tokens deserializable))) ++ [y ";"] ++ lx s.
Proof. rewrite (lex_lit deserializable) by (vm_compute; reflexivity). rewrite !app_assoc. f_equal. Qed.
Lemma body_file u schemas : accepted u schemas -> legal_ts_names u schemas ->
  gfile (tokens (ts_body u schemas)) alternatives prelude_fns prelude_consts (ts_program u schemas).
Proof.
  intros Ha Hn. destruct (mod_reads _ 0 (ts_program_wf u schemas Ha Hn)) as (tm & M1 & M2). destruct fns_join as [F1 F2]. destruct consts_join as [C1 C2].
  pose proof alternatives_chain as A1. unfold gfile.
  eexists _, _, _, tm. split; [exact A1|]. split; [exact F1|]. split; [exact C1|]. split; [exact M1|].
  change (tokens (ts_body u schemas)) with (lx (ts_body u schemas)). unfold ts_body. rewrite deserializable_lex. do 3 apply f_equal.
  rewrite lex_nl, F2, lex_nl. apply f_equal. rewrite C2, lex_nl. apply f_equal.
  specialize (M2 []). rewrite app_nil_r in M2. rewrite M2. change (lx []) with (@nil jtok). apply app_nil_r.
Qed.
