(** Lemmas for C38 and C39: what is read back from a printed schema. *)
From Verif Require Import TokenFacts2 ParserFacts2 IdentFacts NamesFacts.
From Verif Require Export PrinterFacts.

(** ** What is known of a parsed schema *)
Definition tok_ok (v : tvariant) : Prop :=
  match v with TkInteger n => n < 2 ^ 64 | TkPath p => ~ In 39 p | _ => True end.
Lemma reserved_ok k v : In (k, v) reserved -> tok_ok v.
Proof. intros H. repeat (destruct H as [[= _ <-]|H]; [exact I|]). destruct H. Qed.
Lemma symbols_ok c v : In (c, v) symbols -> tok_ok v.
Proof. intros H. repeat (destruct H as [[= _ <-]|H]; [exact I|]). destruct H. Qed.
Lemma lexed_tok_ok u i s ts : lexed u i s ts -> Forall tok_ok (vars ts).
Proof.
  induction 1 as [|i c s ts Hc H IH|i text v rest ts Hl H IH]; [constructor|exact IH|]. cbn [vars map tvar]. constructor; [|exact IH].
  destruct Hl as [c v rest Hs|k v rest Hk|c name rest|name rest|digits n rest Hd Hdec Hn|p rest Hp|lines body ps rest]; cbn; auto.
  - now apply symbols_ok in Hs.
  - now apply reserved_ok in Hk.
Qed.
Lemma field_index_ok f ts : field_tokens f ts -> Forall tok_ok ts -> sf_index f < 2 ^ 64.
Proof.
  destruct 1 as [c r n t i cs rs ts Hc Hr Ht]. intros H. cbn [sf_index]. rewrite !Forall_app in H.
  destruct H as (_ & _ & _ & _ & H). inversion H as [|? ? _ H']; subst. inversion H' as [|? ? H'' _]; subst. exact H''.
Qed.
Lemma many_forall {A} (P : A -> list tvariant -> Prop) (Q : A -> Prop) xs ts :
  (forall x t, P x t -> Forall tok_ok t -> Q x) -> many P xs ts -> Forall tok_ok ts -> Forall Q xs.
Proof.
  intros HPQ. induction 1 as [|x xs t ts H1 H2 IH]; intros H; [constructor|]. apply Forall_app in H as [Ha Hb].
  constructor; [now apply (HPQ x t)|now apply IH].
Qed.
Lemma deleted_ok d ds : deleted_tokens d ds -> Forall tok_ok ds -> Forall (fun n => n < 2 ^ 64) d /\ StronglySorted N.lt d.
Proof.
  destruct 1 as [|d ns H1 H2 H3]; intros H; [repeat constructor|]. split; [|exact H3].
  inversion H as [|? ? _ H']; subst. apply Forall_forall. intros n Hn. rewrite Forall_forall in H'.
  apply (H' (TkInteger n)). apply in_map. now apply (Permutation_in n (Permutation_sym H2)).
Qed.
Definition decl_wf (d : sdecl) : Prop :=
  Forall (fun f => sf_index f < 2 ^ 64) (sd_fields d) /\ Forall (fun n => n < 2 ^ 64) (sd_deleted d) /\
  StronglySorted N.lt (sd_deleted d).
Lemma decl_tokens_wf d ts : decl_tokens d ts -> Forall tok_ok ts -> decl_wf d.
Proof.
  destruct 1 as [c k n fs d cs fts ds Hc Hf Hd]. intros H. rewrite !Forall_app in H. destruct H as (_ & _ & H1 & H2 & _).
  unfold decl_wf. cbn [sd_fields sd_deleted]. split; [|now apply (deleted_ok d ds)].
  now apply (many_forall field_tokens _ fs fts field_index_ok).
Qed.
Lemma import_path_ok u stem e ts : import_tokens u stem e ts -> Forall tok_ok ts -> ~ In 39 (si_path (snd e)).
Proof.
  destruct 1 as [p s Hs|p n]; intros H; inversion H as [|? ? _ H1]; subst; inversion H1 as [|? ? H2 _]; subst; exact H2.
Qed.
Lemma parsed_schema_ok u stem i text ts s : lexed u i text ts -> schema_grammar u stem s ts -> printable_schema u stem s ->
  schema_ok u stem s.
Proof.
  intros Hl Hg Hp. apply lexed_tok_ok in Hl. destruct Hg as [c listed stored ds ct it dt Hc Hi (S1 & S2 & S3) Hd].
  unfold vars in Hl. rewrite !map_app, !Forall_app in Hl. destruct Hl as (_ & Hli & Hld).
  unfold schema_ok. cbn [ss_imports ss_decls ss_comment] in *. destruct Hp as [Hp1 Hp2]. cbn [ss_imports ss_decls] in *.
  split; [now split|]. split; [|split; [exact S3|]].
  - apply Forall_forall. intros e He. apply (Permutation_in e (Permutation_sym S2)) in He. revert e He. apply Forall_forall.
    now apply (many_forall _ _ listed (vars it) (import_path_ok u stem)).
  - pose proof (many_forall decl_tokens _ ds (vars dt) decl_tokens_wf Hd Hld) as Hw.
    clear - Hw Hp2. induction Hw as [|d ds H1 H2 IH]; [constructor|]. inversion Hp2 as [|? ? P1 P2]; subst.
    constructor; [split; [exact P1|exact H1]|now apply IH].
Qed.

Section Again.
Context (u : unicode) (Hu : ascii_agrees u) (stem : str -> option str) (wrap : N -> str -> list str).

(** ** It is the same schema *)
Lemma snake_again_name i : snake_printable u i -> same_name i (snake_again u i).
Proof. intros [H _]. apply ident_eqb_eq. symmetry. now apply snake_again_same. Qed.
Lemma pascal_again_name i : pascal_printable u i -> same_name i (pascal_again u i).
Proof. intros H. apply ident_eqb_eq. symmetry. now apply pascal_again_same. Qed.
Lemma type_again_same t : printable_type u t -> same_type t (type_again u t).
Proof.
  induction t as [t IH| | |[i|] n| | | | |]; cbn [printable_type type_again]; intros H; constructor; auto.
  - destruct H. now apply snake_again_name.
  - destruct H. now apply pascal_again_name.
  - destruct H. now apply pascal_again_name.
Qed.
Context (C : list str -> list str -> Prop).
Definition kept (ind : nat) (ps : list str) : Prop := C ps (comment_again u wrap ind ps).
Definition all_kept (s : sschema) : Prop :=
  kept 0 (ss_comment s) /\
  Forall (fun d => kept 0 (sd_comment d) /\ Forall (fun f => kept 4 (sf_comment f)) (sd_fields d)) (ss_decls s).
Lemma schema_again_same s : printable_schema u stem s -> all_kept s -> same_schema C s (schema_again u stem wrap s).
Proof.
  intros [Hi Hd] [Kc Kd]. split; [exact Kc|]. split.
  - cbn [schema_again ss_imports]. clear Kc Kd Hd. induction Hi as [|e l H1 H2 IH]; [constructor|]. cbn [map]. constructor; [|exact IH].
    split; [|reflexivity]. apply ident_eqb_eq. symmetry. now apply import_again_same.
  - cbn [schema_again ss_decls]. clear Kc Hi. induction Hd as [|d ds H1 H2 IH]; [constructor|]. inversion Kd as [|? ? [K1 K2] K3]; subst.
    cbn [map]. constructor; [|now apply IH]. destruct H1 as [Hn Hf]. unfold same_decl, decl_again. cbn.
    split; [exact K1|]. split; [reflexivity|]. split; [now apply pascal_again_name|]. split; [|reflexivity].
    clear -Hu Hf K2. induction Hf as [|f fs [F1 F2] F3 IH]; [constructor|]. inversion K2 as [|? ? L1 L2]; subst. cbn [map].
    constructor; [|now apply IH]. unfold same_field, field_again. cbn. split; [exact L1|]. split; [reflexivity|].
    split; [now apply snake_again_name|]. split; [now apply type_again_same|reflexivity].
Qed.
End Again.

Section Reprint.
Context (u : unicode) (Hu : ascii_agrees u) (stem : str -> option str) (wrap : N -> str -> list str).
Lemma clean_kept s : comments_wrap_cleanly u wrap s -> all_kept u wrap (fun a b => b = a) s.
Proof.
  intros [H1 H2]. split; [now apply comment_again_clean|].
  eapply Forall_impl; [|exact H2]. cbv beta. intros d [K1 K2]. split; [now apply comment_again_clean|].
  eapply Forall_impl; [|exact K2]. intros f K. now apply comment_again_clean.
Qed.
(** ** Printed again *)
Lemma pascal_twice i : pascal_printable u i -> pascal_case u (pascal_again u i) = pascal_case u i.
Proof.
  intros H. pose proof (pascal_again_same u Hu i H) as E. destruct H as [(Ei & H1 & H2) H3].
  unfold pascal_again in *. rewrite Ei in *. cbn [original ident_from] in *.
  apply (snake_determines u Hu); [| |exact E].
  - apply ident_chars_asciis. apply (converted_ident_chars u Hu Pascal None _ H1).
  - now apply ident_chars_asciis.
Qed.
Lemma type_twice t : printable_type u t -> print_type u (type_again u t) = print_type u t.
Proof.
  induction t as [t IH| | |[i|] n| | | | |]; cbn [printable_type type_again print_type]; intros H; try reflexivity.
  - now rewrite IH.
  - destruct H as [H1 [H2 H3]]. now rewrite snake_again_same, pascal_twice.
  - destruct H as [H1 _]. now rewrite pascal_twice.
Qed.
Lemma field_twice f : printable_field u f -> comment_again u wrap 4 (sf_comment f) = sf_comment f ->
  print_field u wrap (field_again u wrap f) = print_field u wrap f.
Proof.
  intros [[Hn _] Ht] Hc. unfold print_field, field_again. cbn [sf_comment sf_rule sf_name sf_type sf_index]. rewrite Hc, snake_again_same by assumption.
  f_equal. f_equal. f_equal. f_equal. apply type_twice in Ht.
  destruct (sf_type f) as [t| | |[i|] n| | | | |]; cbn [type_again] in *; try reflexivity; now rewrite Ht.
Qed.
Lemma fields_twice fs : Forall (printable_field u) fs -> Forall (fun f => comment_again u wrap 4 (sf_comment f) = sf_comment f) fs ->
  forall first prev, print_fields u wrap first prev (map (field_again u wrap) fs) = print_fields u wrap first prev fs.
Proof.
  induction 1 as [|f fs H1 H2 IH]; intros Hc first prev; [reflexivity|]. inversion Hc as [|? ? C1 C2]; subst. cbn [map print_fields].
  rewrite field_twice by assumption. cbn [sf_comment field_again]. rewrite C1. now rewrite IH.
Qed.
Lemma decl_twice d : printable_decl u d -> comment_again u wrap 0 (sd_comment d) = sd_comment d ->
  Forall (fun f => comment_again u wrap 4 (sf_comment f) = sf_comment f) (sd_fields d) ->
  print_decl u wrap (decl_again u wrap d) = print_decl u wrap d.
Proof.
  intros [Hn Hf] Hc Hcf. unfold print_decl, decl_again. cbn [sd_comment sd_kind sd_name sd_fields sd_deleted].
  rewrite Hc, pascal_twice, fields_twice by assumption. now destruct (sd_fields d).
Qed.
Lemma import_twice e : printable_import u stem e -> print_import u stem (import_again u stem e) = print_import u stem e.
Proof.
  intros H. pose proof (import_again_same u Hu stem e H) as E. destruct e as [n im]. unfold print_import.
  remember (import_again u stem (n, im)) as e' eqn:Ee. destruct e' as [n' im']. cbn [fst] in E.
  assert (si_path im' = si_path im) as -> by (unfold import_again in Ee; injection Ee as _ ->; reflexivity).
  unfold ident_eqb. rewrite E. reflexivity.
Qed.
Lemma schema_twice s : printable_schema u stem s -> all_kept u wrap (fun a b => b = a) s ->
  print_schema u stem wrap (schema_again u stem wrap s) = print_schema u stem wrap s.
Proof.
  intros [Hi Hd] [Kc Kd]. unfold kept in *. unfold print_schema, schema_again. cbn [ss_comment ss_imports ss_decls]. rewrite Kc.
  assert (flat_map (print_import u stem) (map (import_again u stem) (ss_imports s)) = flat_map (print_import u stem) (ss_imports s)) as ->.
  { clear -Hi Hu. induction Hi as [|e l H1 H2 IH]; [reflexivity|]. cbn [map flat_map]. now rewrite import_twice, IH. }
  assert (forall A B (f : A -> B) l, is_nonempty (map f l) = is_nonempty l) as Hne by now destruct l.
  rewrite !Hne. f_equal. f_equal. f_equal. generalize (negb (is_nonempty (ss_imports s))) as sk. clear -Hd Kd Hu.
  induction Hd as [|d ds H1 H2 IH]; intros sk; [reflexivity|]. inversion Kd as [|? ? [K1 K2] K3]; subst. cbn [map print_decls].
  now rewrite decl_twice, IH.
Qed.
End Reprint.

(** ** Together *)
Lemma format_parses u stem wrap text ts s : ascii_agrees u -> white_not_alphabetic u -> makes_lines wrap ->
  tokenize u text = LexOk ts -> parse u stem ts = ParseOk s -> printable_schema u stem s ->
  exists ts', tokenize u (print_schema u stem wrap s) = LexOk ts' /\ parse u stem ts' = ParseOk (schema_again u stem wrap s).
Proof.
  intros Hu Hw Hl Ht Hp Hs. apply (tokenize_iff u Hu Hw) in Ht. apply parse_iff in Hp.
  pose proof (parsed_schema_ok u stem 0 text ts s Ht Hp Hs) as Hok.
  destruct (schema_lexed u Hu stem wrap Hl s Hok) as (ts' & H1 & H2). exists ts'. split; [now apply tokenize_iff|now apply parse_iff].
Qed.
