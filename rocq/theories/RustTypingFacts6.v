(** A module [std] in the module of a struct: the generated program has no types. *)
From Verif Require Import CodeFacts CycleFacts RustLinkFacts RustTop.
From Verif Require Export RustTypingFacts5.

Section Program.
Context (prog : rmod).
Lemma stmts_in c ss : forall G G' d s, stmts_have prog c G ss G' d -> In s ss -> exists G1 G2 d', stmt_has prog c G1 s G2 d'.
Proof.
  induction ss as [|s0 ss IH]; intros G G' d s H Hin; [destruct Hin|]. inversion H; subst. destruct Hin as [<-|Hin]; [eauto|]. eapply IH; eassumption.
Qed.
Lemma block_stmts c G i ss e t Gb s : block_has prog c G (Blk i ss e) t Gb -> In s ss -> exists G1 G2 d', stmt_has prog c G1 s G2 d'.
Proof. intros H. inversion H; subst; intros Hin; eapply stmts_in; eassumption. Qed.
Definition eof_path : list str := map txt ["std"; "io"; "ErrorKind"; "UnexpectedEof"]%string.
Lemma eof_pattern h a t G : pattern prog h a t (PCon eof_path []) G -> find_module (h ++ [txt "std"]) prog = None.
Proof.
  intros H. remember (PCon eof_path []) as p eqn:E. induction H; try discriminate E.
  - injection E as -> ->. match goal with K : makes _ _ eof_path _ _ |- _ => inversion K; subst; try discriminate end. assumption.
  - auto.
Qed.
Lemma match_arms c G i e arms r G' : has prog c G (EMatch i e arms) r G' -> exists G1 a t, arms_have prog c G1 a t arms r G'.
Proof.
  intros H. inversion H; subst; try (match goal with K : path_place _ _ (EMatch _ _ _) _ _ |- _ => inversion K end); eauto.
Qed.
Lemma eof_arms_typed c G a t ok e b r G' : arms_have prog c G a t (eof_arms ok e b) r G' -> find_module (here (sc c) ++ [txt "std"]) prog = None.
Proof.
  intros H. unfold eof_arms in H. inversion H; subst. match goal with K : arms_have _ _ _ _ _ [_] _ _ |- _ => inversion K; subst end.
  match goal with K : has _ _ _ (EBlock _) _ _ |- _ => inversion K; subst; try (match goal with K : path_place _ _ (EBlock _) _ _ |- _ => inversion K end) end.
  match goal with K : block_has _ _ _ _ _ _ |- _ => rename K into Hb end.
  eapply (block_stmts _ _ _ _ _ _ _ (SIfLet (PCon eof_path []) _ _)) in Hb; [|now left]. destruct Hb as (Ga & Gb & dd & Hb).
  inversion Hb; subst. match goal with K : binds _ _ _ _ (PCon eof_path []) _ |- _ => destruct K as [Hp _] end. now apply eof_pattern in Hp.
Qed.
Lemma struct_deser_typed h self u ns s ind name fields : fn_has prog h self (struct_deser u ns s ind name fields) ->
  find_module (h ++ [txt "std"]) prog = None.
Proof.
  intros H. unfold struct_deser, deserialize_fn in H. inversion H; subst. match goal with K : block_has _ _ _ _ _ _ |- _ => rename K into Hfn end.
  eapply (block_stmts _ _ _ _ _ _ _ (SLoop (struct_loop_block u ns s ind fields))) in Hfn; [|apply in_or_app; right; now left].
  destruct Hfn as (Ga & Gb & dd & Hfn).
  assert (exists c G3 G6, here (sc c) = h /\ block_has prog c G3 (struct_loop_block u ns s ind fields) KUnit G6) as (c & G3 & G6 & Eh & H2)
    by (inversion Hfn; subst; eexists; eexists; eexists; (split; [|eassumption]); reflexivity).
  eapply (block_stmts _ _ _ _ _ _ _ (SLet false _ None _)) in H2; [|now left]. destruct H2 as (G4 & G5 & d' & H3).
  inversion H3; subst. match goal with K : has _ _ _ _ ?t _ |- _ => apply match_arms in K as (Gm & ac & ta & Harms) end.
  now apply eof_arms_typed in Harms.
Qed.
End Program.

Lemma struct_beside_std u schemas : accepted u schemas -> well_typed (rust_program u schemas) ->
  forall ns s d, In (ns, s) schemas -> In d (ss_decls s) -> sd_kind d = SkStruct -> find_module (mods u ns ++ [txt "std"]) (rust_program u schemas) = None.
Proof.
  intros Ha Hw ns s d Hin Hd Hk. pose proof (ac_unicode u schemas Ha) as Hu. pose proof (ac_loaded u schemas Ha) as Hl. pose proof (ac_names u schemas Ha) as Hg.
  destruct (schema_module u Hu schemas Hl Hg ns s Hin) as (ch & E). specialize (Hw _ _ E) as [_ Hw]. rewrite Forall_forall in Hw.
  specialize (Hw (IImpl None (type_name u (sd_name d) SIn) [struct_deser u ns s (length ns) (sd_name d) (sd_fields d)])).
  destruct Hw as (_ & H & _).
  - apply in_flat_map. exists d. split; [exact Hd|]. unfold gen_decl. cbv zeta. rewrite Hk. do 7 right. now left.
  - inversion H; subst. eapply struct_deser_typed; eassumption.
Qed.
