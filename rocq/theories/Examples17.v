(** Cases that meet the hypotheses of C81, and texts that read otherwise. *)
From Verif Require Import Examples10 Properties19.
Local Open Scope string_scope.
Local Open Scope list_scope.
Local Open Scope N_scope.

Definition legal_b (u : unicode) (schemas : list (namespace * sschema)) : bool :=
  forallb (fun e => forallb (fun k => nameb (rust_name u k Snake None)) (fst e) &&
    forallb (fun d => forallb (fun x => nameb (rust_name u (sd_name d) Pascal (Some x))) [SAtlas; SIn; SOut] &&
      forallb (fun f => match sd_kind d with
        | SkStruct => nameb (rust_name u (sf_name f) Snake None) && nameb (rust_local u (sf_name f))
        | SkChoice => nameb (rust_name u (sf_name f) Pascal None) end) (sd_fields d)) (ss_decls (snd e))) schemas.
Lemma legal_b_ok u schemas : legal_b u schemas = true -> legal_names u schemas.
Proof.
  intros H ns s Hin. unfold legal_b in H. rewrite forallb_forall in H. specialize (H _ Hin). cbn [fst snd] in H. apply andb_true_iff in H as [H1 H2].
  rewrite forallb_forall in H1, H2. split; [intros k Hk; apply nameb_name; auto|]. intros d Hd. specialize (H2 d Hd). apply andb_true_iff in H2 as [H2 H3].
  rewrite forallb_forall in H2, H3. split; [intros x; apply nameb_name, H2; destruct x; cbn; tauto|]. intros f Hf. specialize (H3 f Hf). destruct (sd_kind d).
  - apply andb_true_iff in H3 as [H3 H4]. split; now apply nameb_name.
  - now apply nameb_name.
Qed.
(** Two files, with a struct, two choices, all rules, nested arrays, and a case called [type]. *)
Example files2_legal : legal_names au files2.
Proof. apply legal_b_ok. vm_compute. reflexivity. Qed.
Example files2_reads : exists code, rust_code au (txt "0.12.1") files2 = Some code /\ code <> [] /\
  exists body, code = prelude_text (txt "0.12.1") ++ nl ++ body /\ gmod (tokens body) (rust_program au files2).
Proof.
  destruct (rust_code au (txt "0.12.1") files2) as [code|] eqn:E.
  - exists code. assert (code <> []) as Hne.
    { intros ->. assert (match rust_code au (txt "0.12.1") files2 with Some (_ :: _) => true | _ => false end = true) as K by (vm_compute; reflexivity). rewrite E in K. discriminate. }
    split; [reflexivity|]. split; [exact Hne|]. exact (rust_text_reads_as_the_program au _ files2 code files2_accepted files2_legal E Hne).
  - assert (match rust_code au (txt "0.12.1") files2 with Some _ => true | _ => false end = true) as K by (vm_compute; reflexivity). rewrite E in K. discriminate.
Qed.
(** Tokens. *)
Example some_tokens : tokens (txt "x.0 += 1_024_u64..=8?&&mut r#type::<T>") =
  [Word (txt "x"); Sym (txt "."); Word (txt "0"); Sym (txt "+="); Word (txt "1_024_u64"); Sym (txt "..="); Word (txt "8"); Sym (txt "?");
   Sym (txt "&&"); Word (txt "mut"); Word (txt "r#type"); Sym (txt "::"); Sym (txt "<"); Word (txt "T"); Sym (txt ">")].
Proof. reflexivity. Qed.
(** The local variable of a field called [type] is not one word. *)
Example type_local_tokens : tokens (rust_local au (ident_from au (txt "type"))) = [Word (txt "_r"); Sym (txt "#"); Word (txt "type")].
Proof. vm_compute. reflexivity. Qed.
(** A sum is not a factor. *)
Example sum_is_not_a_factor ts a b : ~ gexpr false 6 ts (EBin OpAdd a b).
Proof.
  intros H. assert (forall bare l e, gexpr bare l ts e -> e = EBin OpAdd a b -> (l <= 5)%nat) as K.
  { clear. intros bare l e H. induction H; intros E0; try discriminate E0.
    - injection E0 as -> _ _. cbn. lia.
    - injection E0 as -> _ _. destruct H as [H|H]; discriminate H.
    - specialize (IHgexpr E0). lia. }
  specialize (K _ _ _ H eq_refl). lia.
Qed.
