(** Every part of a generated file reads as its syntax tree, if the names in it are identifiers. *)
From Verif Require Import BaseFacts IdentFacts NamesFacts ParserFacts TreeFacts CodeFacts RustLinkFacts CycleFacts.
From Verif Require Export RustGrammarFacts5 RustSpec RustText.
Local Open Scope list_scope.
Local Open Scope N_scope.

(** The names that appear in the generated file are identifiers: those of modules, of types, of the fields of structs (as
    fields and as local variables) and of the cases of choices. C47 and C58 say which names in a schema give identifiers. *)
Definition legal_names (u : unicode) (schemas : list (namespace * sschema)) : Prop :=
  forall ns s, In (ns, s) schemas ->
    (forall k, In k ns -> legal_rust_identifier (rust_name u k Snake None)) /\
    forall d, In d (ss_decls s) ->
      (forall x, legal_rust_identifier (rust_name u (sd_name d) Pascal (Some x))) /\
      forall f, In f (sd_fields d) ->
        match sd_kind d with
        | SkStruct => legal_rust_identifier (rust_name u (sf_name f) Snake None) /\ legal_rust_identifier (rust_local u (sf_name f))
        | SkChoice => legal_rust_identifier (rust_name u (sf_name f) Pascal None)
        end.

Section Program.
Context (u : unicode) (schemas : list (namespace * sschema)) (Ha : accepted u schemas) (Hn : legal_names u schemas).
Let tree := module_tree schemas.
Let Hu : ascii_agrees u := ac_unicode u schemas Ha.
Let Hl : loaded schemas := ac_loaded u schemas Ha.
Let Hg : forall ns s, In (ns, s) schemas -> good_file u ns s := fun ns s H => proj1 (ac_names u schemas Ha ns s H).

Lemma valid_schemas : valid schemas.
Proof. pose proof (validate_spec schemas Hl) as H. rewrite (ac_validated u schemas Ha) in H. apply H. Qed.
Lemma module_names : tree_keys (fun k => is_name (rust_name u k Snake None)) tree.
Proof. apply module_tree_keys. apply Forall_forall. intros [ns s] Hin. apply Forall_forall. exact (proj1 (Hn ns s Hin)). Qed.
Lemma held_here ns s d : holds tree ns s -> In d (ss_decls s) -> exists ns0, In (ns0, s) schemas /\ same_ns ns0 ns.
Proof.
  intros Hh Hd. destruct (schemas_tree u Hu schemas Hl Hg) as (_ & _ & K). destruct (K ns s Hh) as [(ns0 & Hin & Hs)|(-> & _)]; [now exists ns0|destruct Hd].
Qed.
Lemma resolved_segments ns path there d x : rust_resolves u tree ns path there d x -> path <> [] /\ Forall is_segment path.
Proof.
  induction 1 as [ns k path there d x _ [_ IH]|ns k path there d x [s Hm] _ [_ IH]|ns s d x Hh Hd]; (split; [discriminate|]).
  - constructor; [right; cbn; tauto|exact IH].
  - constructor; [left|exact IH]. pose proof (keys_held _ _ module_names _ _ Hm) as K. apply Forall_app in K as [_ K]. now inversion K.
  - constructor; [left|constructor]. destruct (held_here ns s d Hh Hd) as (ns0 & Hin & _). exact (proj1 (proj2 (Hn ns0 s Hin) d Hd) x).
Qed.
Lemma mentioned_paths ns s d f i n x : holds tree ns s -> In d (ss_decls s) -> In f (sd_fields d) -> mentions (sf_type f) i n ->
  type_path u ns s i n x <> [] /\ Forall is_segment (type_path u ns s i n x).
Proof.
  intros Hh Hd Hf Hm. destruct (held_here ns s d Hh Hd) as (ns0 & Hin & Hs).
  destruct (rust_path_resolves u Hu schemas Hl valid_schemas Hg ns0 s d f i n x (conj Hin Hd) Hf Hm) as (here & path & ns2 & s2 & d2 & there & ns' & A & B & C & _ & _ & _ & _ & _ & D & _).
  rewrite <- (type_path_same u s ns0 ns Hs), (type_path_same u s ns0 here A). unfold type_path. rewrite C. exact (resolved_segments _ _ _ _ _ D).
Qed.
Lemma paths_of ns s d f : holds tree ns s -> In d (ss_decls s) -> In f (sd_fields d) -> paths_ok u ns s (sf_type f).
Proof.
  intros Hh Hd Hf. assert (forall i n, mentions (sf_type f) i n -> forall x, type_path u ns s i n x <> [] /\ Forall is_segment (type_path u ns s i n x)) as H.
  { intros i n Hm x. now apply (mentioned_paths ns s d f). }
  revert H. induction (sf_type f) as [t IH| | |i n| | | | |]; intros H; cbn [paths_ok]; try exact I.
  - apply IH. intros i n Hm. apply H. now constructor.
  - apply H. constructor.
Qed.
Lemma module_grammar : forall m ind ns, (forall p s, holds m p s -> holds tree (ns ++ p) s) -> tree_keys (fun k => is_name (rust_name u k Snake None)) m ->
  RM (gen_module u ind ns m).
Proof.
  fix IH 1. intros [children s] ind ns Hh Hk. cbn [gen_module].
  assert (holds tree ns s) as Hs by (specialize (Hh [] s (holds_here _ _)); now rewrite app_nil_r in Hh).
  inversion Hk as [? ? Hc]; subst. constructor.
  - assert (forall k m p s', In (k, m) children -> holds m p s' -> holds tree ((ns ++ [k]) ++ p) s') as Hb.
    { intros k m p s' Hin Hm. rewrite <- app_assoc. apply Hh. now apply (holds_below children s k m). }
    clear Hh Hk Hs. induction children as [|[k m] children IHc]; intros c Hin; [destruct Hin|].
    inversion Hc as [|? ? [K1 K2] K3]; subst. destruct Hin as [<-|Hin].
    + split; [exact K1|]. cbn [fst snd]. apply IH; [|exact K2]. intros p s' Hm. apply (Hb k m p s'); [now left|exact Hm].
    + apply IHc; [exact K3| |exact Hin]. intros k' m' p s' H1 H2. apply (Hb k' m'); [now right|exact H2].
  - apply forall_flat_map. apply Forall_forall. intros d Hd. destruct (held_here ns s d Hs Hd) as (ns0 & Hin & _).
    destruct (proj2 (Hn ns0 s Hin) d Hd) as [N1 N2]. apply decl_reads; [exact N1|]. apply Forall_forall. intros f Hf. specialize (N2 f Hf).
    pose proof (paths_of ns s d f Hs Hd Hf) as P. destruct (sd_kind d).
    + destruct N2. now repeat split.
    + now split.
Qed.
Lemma program_reads : gmod (tokens (mod_str 0 (rust_program u schemas))) (rust_program u schemas).
Proof.
  assert (RM (rust_program u schemas)) as H by (apply module_grammar; [auto|exact module_names]).
  destruct (module_reads _ H 0) as (ts & H1 & H2). specialize (H2 []). rewrite app_nil_r in H2. unfold tokens. rewrite H2. cbn [lex]. now rewrite app_nil_r.
Qed.
End Program.
