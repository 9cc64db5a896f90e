(** Cases that meet the hypotheses of C82, and texts that read otherwise. *)
From Verif Require Import Examples10 Properties20.
Local Open Scope string_scope.
Local Open Scope list_scope.
Local Open Scope N_scope.

Definition letter_b (s : str) : bool := match s with [] => false | c :: _ => ascii_is_letter c end.
Definition letters_b (schemas : list (namespace * sschema)) : bool :=
  forallb (fun e => forallb (fun k => letter_b (original k)) (fst e) &&
    forallb (fun d => letter_b (original (sd_name d)) && forallb (fun f => letter_b (original (sf_name f))) (sd_fields d)) (ss_decls (snd e))) schemas.
Lemma letter_b_ok s : letter_b s = true -> starts_with_letter s.
Proof. destruct s; [discriminate|auto]. Qed.
Lemma letters_b_ok u schemas : accepted u schemas -> letters_b schemas = true -> legal_ts_names u schemas.
Proof.
  intros Ha H. unfold letters_b in H. rewrite forallb_forall in H. apply usual_ts_names_are_legal; [exact Ha| | |].
  - intros ns s k Hin Hk. specialize (H _ Hin). cbn [fst snd] in H. apply andb_true_iff in H as [H _]. rewrite forallb_forall in H. apply letter_b_ok. auto.
  - intros ns s d Hin Hd. specialize (H _ Hin). cbn [fst snd] in H. apply andb_true_iff in H as [_ H]. rewrite forallb_forall in H. specialize (H d Hd).
    apply andb_true_iff in H as [H _]. now apply letter_b_ok.
  - intros ns s d f Hin Hd Hf. specialize (H _ Hin). cbn [fst snd] in H. apply andb_true_iff in H as [_ H]. rewrite forallb_forall in H. specialize (H d Hd).
    apply andb_true_iff in H as [_ H]. rewrite forallb_forall in H. apply letter_b_ok. auto.
Qed.
(** Two files, with a struct, two choices, all rules, nested arrays, and a case called [type]. *)
Example files2_ts_legal : legal_ts_names au files2.
Proof. apply letters_b_ok; [exact files2_accepted|]. vm_compute. reflexivity. Qed.
Example files2_ts_reads : exists code, ts_code au (txt "0.12.1") files2 = Some code /\ code <> [] /\
  exists body, code = ts_header (txt "0.12.1") ++ body /\
    gfile (tokens body) alternatives prelude_fns prelude_consts (ts_program au files2).
Proof.
  destruct (ts_code au (txt "0.12.1") files2) as [code|] eqn:E.
  - exists code. assert (code <> []) as Hne.
    { intros ->. assert (match ts_code au (txt "0.12.1") files2 with Some (_ :: _) => true | _ => false end = true) as K by (vm_compute; reflexivity). rewrite E in K. discriminate. }
    split; [reflexivity|]. split; [exact Hne|]. exact (ts_text_reads_as_the_program au _ files2 code files2_accepted files2_ts_legal E Hne).
  - assert (match ts_code au (txt "0.12.1") files2 with Some _ => true | _ => false end = true) as K by (vm_compute; reflexivity). rewrite E in K. discriminate.
Qed.
(** Tokens. *)
Example some_ts_tokens : tokens (txt "a.b >>= 1_024n;[x]=f('y z')!==0b101||c") =
  [JWord (txt "a"); JSym (txt "."); JWord (txt "b"); JSym (txt ">>="); JWord (txt "1_024n"); JSym (txt ";"); JSym (txt "["); JWord (txt "x"); JSym (txt "]");
   JSym (txt "="); JWord (txt "f"); JSym (txt "("); JString (txt "y z"); JSym (txt ")"); JSym (txt "!=="); JWord (txt "0b101"); JSym (txt "||"); JWord (txt "c")].
Proof. reflexivity. Qed.
(** A line break after [return] ends the statement. *)
Example return_on_its_own_line : tokens (txt "return" ++ nl ++ txt "x;") = [JWord (txt "return"); JSym (txt ";"); JWord (txt "x"); JSym (txt ";")] /\
  tokens (txt "return x;") = [JWord (txt "return"); JWord (txt "x"); JSym (txt ";")].
Proof. split; reflexivity. Qed.
(** A sum is not a factor. *)
Example ts_sum_is_not_a_factor ts a b n : ~ gexpr 12 ts (XBin n BAdd a b).
Proof.
  intros H. assert (forall l e, gexpr l ts e -> e = XBin n BAdd a b -> (l <= 11)%nat) as K.
  { clear. intros l e H. induction H; intros E0; try discriminate E0.
    - injection E0 as _ -> _ _. cbn. lia.
    - specialize (IHgexpr E0). lia. }
  specialize (K _ _ H eq_refl). lia.
Qed.
