(** The syntax trees of the generated code are well-formed, if the names in them are identifiers. *)
From Verif Require Import BaseFacts IdentFacts.
From Verif Require Export TsGrammarFacts5 TsText.
Local Open Scope string_scope.
Local Open Scope list_scope.
Local Open Scope N_scope.
Notation allP := TsGrammarFacts2.allP.

#[local] Arguments wparam p /.
#[local] Arguments wfn f /.
#[local] Arguments is_ident : simpl never.
#[local] Arguments plain : simpl never.
#[local] Arguments wpath : simpl never.
#[local] Arguments txt : simpl never.
#[local] Arguments N.ltb : simpl never.
Ltac idn := first [assumption | apply identb_ident; vm_compute; reflexivity].
Ltac wleaf :=
  first
    [ exact I | assumption | reflexivity
    | match goal with
      | |- is_ident _ => idn
      | |- plain _ => apply ident_plain; idn
      | |- Forall _ [] => constructor
      | |- Forall is_ident [_] => constructor; [idn|constructor]
      | |- wpath [_] => first [right; split; [discriminate|constructor; [idn|constructor]] | left; reflexivity]
      | |- _ <> txt "undefined" => discriminate
      | |- _ <> [] => discriminate
      | |- _ <> None => discriminate
      end ].
Ltac wf := cbn; repeat (match goal with |- _ /\ _ => split | |- TsGrammarFacts2.allP _ (_ ++ _) => apply TsGrammarFacts2.allP_app end; cbn); try wleaf.

Lemma allP_impl {A : Type} (P Q : A -> Prop) l : allP P l -> (forall a, In a l -> P a -> Q a) -> allP Q l.
Proof. rewrite !allP_in. auto. Qed.

Section Schema.
Context (u : unicode) (ns : namespace) (s : sschema).
Notation path := (ttype_path u ns s).
Fixpoint tpaths_ok (t : sty) : Prop :=
  match t with
  | SyArray t => tpaths_ok t
  | SyCustom i n => forall x, path i n x <> [] /\ Forall is_ident (path i n x)
  | _ => True
  end.
Lemma path_wf i n x : (forall x, path i n x <> [] /\ Forall is_ident (path i n x)) -> wpath (path i n x).
Proof. intros H. right. apply H. Qed.
Lemma type_wf' t x l : tpaths_ok t -> wty l (tgen_type u ns s t x).
Proof.
  revert l. induction t as [t IH| | |i n| | | | |]; intros l H; cbn [tgen_type tpaths_ok] in *.
  - destruct x; [|apply IH; exact H|apply IH; exact H]. destruct (sized_sty t); wf. apply IH. exact H.
  - destruct x; wf.
  - destruct x; wf.
  - cbn. apply path_wf, H.
  - wf.
  - destruct x; wf.
  - destruct x; wf.
  - destruct x; wf.
  - destruct x; wf.
Qed.
Lemma lookup_wf t l : (l <=? 18)%nat = true -> we l (tgen_lookup t).
Proof. intros H. destruct t; cbn [tgen_lookup]; try destruct (sized_sty _); wf. Qed.
Lemma atlas_u64_wf b : allP ws (tgen_atlas_u64 b).
Proof. destruct b; wf. Qed.
Lemma ser_u64_wf b : allP ws (tgen_ser_u64 b).
Proof. destruct b; wf. Qed.
Lemma deser_u64_wf b : allP ws (tgen_deser_u64 b).
Proof. destruct b; wf. Qed.
#[local] Arguments tgen_atlas_u64 : simpl never.
#[local] Arguments tgen_ser_u64 : simpl never.
#[local] Arguments tgen_deser_u64 : simpl never.
#[local] Arguments tgen_lookup : simpl never.
#[local] Arguments tgen_type : simpl never.
Ltac leaf' := first [apply lookup_wf; reflexivity | apply atlas_u64_wf | apply ser_u64_wf | apply deser_u64_wf | apply type_wf'; assumption].
Ltac wf' := wf; try leaf'.
Lemma atlas_wf t : tpaths_ok t -> forall b, allP ws (tgen_atlas u ns s t b).
Proof.
  induction t as [t IH| | |i n| | | | |]; intros H b; cbn [tpaths_ok] in H.
  - cbn [tgen_atlas]. specialize (IH H false). destruct t; (match type of IH with allP _ ?a => set (inner := a) in * end); try destruct b; wf'; try apply H.
  - destruct b; wf'.
  - wf'.
  - wf'; apply H.
  - destruct b; wf'.
  - destruct b; wf'.
  - destruct b; wf'.
  - apply atlas_u64_wf.
  - wf'.
Qed.
Lemma ser_wf t : tpaths_ok t -> forall b, allP ws (tgen_ser u ns s t b).
Proof.
  induction t as [t IH| | |i n| | | | |]; intros H b; cbn [tpaths_ok] in H.
  - cbn [tgen_ser]. specialize (IH H false). destruct t; (match type of IH with allP _ ?a => set (inner := a) in * end); wf'; try apply H.
  - wf'.
  - wf'.
  - wf'; apply H.
  - destruct b; wf'.
  - wf'.
  - wf'.
  - wf'.
  - wf'.
Qed.
Lemma deser_wf t : tpaths_ok t -> forall b, allP ws (tgen_deser u ns s t b).
Proof.
  induction t as [t IH| | |i n| | | | |]; intros H b; cbn [tpaths_ok] in H.
  - cbn [tgen_deser]. specialize (IH H false). destruct t; (match type of IH with allP _ ?a => set (inner := a) in * end); wf'; try apply H.
  - wf'.
  - wf'.
  - wf'; apply H.
  - destruct b; wf'.
  - wf'.
  - wf'.
  - wf'.
  - wf'.
Qed.

(** *** Fields and declarations *)
Definition wfield (f : sfield) : Prop := is_ident (tfield_name u f) /\ is_ident (tlocal_name u f) /\ tpaths_ok (sf_type f).
Context (name : ident) (Hname : forall x, is_ident (ttype_name u name x)) (Hspace : is_ident (ts_name u name Pascal None)).
#[local] Arguments tgen_atlas : simpl never.
#[local] Arguments tgen_ser : simpl never.
#[local] Arguments tgen_deser : simpl never.
#[local] Arguments tfield_name : simpl never.
#[local] Arguments tlocal_name : simpl never.
#[local] Arguments ttype_name : simpl never.
Lemma local_defined f : tlocal_name u f <> txt "undefined".
Proof. unfold tlocal_name. discriminate. Qed.
Ltac leaf2 := first
  [ apply lookup_wf; reflexivity | apply atlas_wf; assumption | apply ser_wf; assumption | apply deser_wf; assumption | apply type_wf'; assumption
  | apply Hname | apply local_defined | match goal with |- wpath [_] => right; split; [discriminate|constructor; [apply Hname|constructor]] end ].
Ltac wf2 := wf; try leaf2.
Lemma struct_wf fields x : allP wfield fields -> wdef (tgen_struct u ns s name fields x).
Proof.
  intros H. unfold tgen_struct. cbn [wdef]. split; [apply Hname|]. apply allP_app. split; [destruct x; wf|].
  apply allP_map. eapply allP_impl; [exact H|]. intros f _ (H1 & H2 & H3). split; [exact H1|]. cbn [snd].
  destruct (sf_rule f), x; wf2.
Qed.
Lemma choice_wf fields x : allP wfield fields -> wdef (tgen_choice u ns s name fields x).
Proof.
  intros H. unfold tgen_choice. cbn [wdef]. split; [apply Hname|]. apply allP_app. split.
  - apply allP_map. eapply allP_impl; [exact H|]. intros f _ (H1 & H2 & H3). unfold tgen_case. apply allP_app. split; [destruct x; wf|].
    apply allP_app. split; [wf2|]. destruct (sf_rule f), x; wf2.
  - destruct x; try exact I. destruct fields as [|? [|? ?]]; wf.
Qed.
Lemma size_wf fields : wfn (tgen_size u name fields).
Proof. destruct fields; wf2. Qed.
Lemma serialize_wf d : sd_name d = name -> wfn (tgen_serialize u d).
Proof. intros E. unfold tgen_serialize. rewrite E. destruct (sd_kind d), (sd_fields d); wf2. Qed.
Lemma deserialize_wf : wfn (tgen_deserialize u name).
Proof. wf2. Qed.
Lemma atlas_fn_wf body : allP ws body -> wfn (atlas_fn u name body).
Proof. intros H. wf2. Qed.
Lemma ser_fn_wf body : allP ws body -> wfn (ser_fn u name body).
Proof. intros H. wf2. Qed.
Lemma deser_fn_wf body : allP ws body -> wfn (deser_fn u name body).
Proof. intros H. wf2. Qed.
Lemma guarded_wf f c b : we 1 c -> allP ws b -> allP ws (guarded f c b).
Proof. intros H1 H2. unfold guarded. destruct (is_optional f); wf. Qed.
Lemma locals_wf fields : fields <> [] -> allP wfield fields -> ws (tstruct_locals u fields).
Proof.
  intros Hne H. unfold tstruct_locals. cbn [ws]. split; [destruct fields; [congruence|discriminate]|]. apply allP_map. eapply allP_impl; [exact H|]. intros f _ (_ & H2 & _). exact H2.
Qed.
Lemma props_wf fields : allP wfield fields ->
  allP (fun p : str * option jexpr => is_ident (fst p) /\ match snd p with Some e => we 1 e | None => True end) (tstruct_props u fields).
Proof. intros H. apply allP_map. eapply allP_impl; [exact H|]. intros f _ (H1 & H2 & _). wf2. Qed.
Lemma struct_atlas_wf fields : allP wfield fields -> wfn (tstruct_atlas u ns s name fields).
Proof.
  intros H. apply atlas_fn_wf. apply allP_app. split; [wf|]. apply allP_app. split.
  { destruct fields as [|f l] eqn:E; [exact I|]. rewrite <- E in *. cbn [TsGrammarFacts2.allP]. split; [exact I|]. split; [|exact I]. apply locals_wf; [rewrite E; discriminate|exact H]. }
  apply allP_app. split.
  - apply allP_flat_map. eapply allP_impl; [exact H|]. intros f _ (H1 & H2 & H3). unfold tstruct_atlas_field. cbn [TsGrammarFacts2.allP ws].
    split; [exact I|]. split; [|exact I]. apply allP_app. split; [wf|]. apply guarded_wf; [wf|]. wf2.
  - cbn [TsGrammarFacts2.allP ws we]. split; [exact I|]. split; [|exact I]. split; [reflexivity|]. split; [wf|]. now apply props_wf.
Qed.
Lemma struct_ser_wf fields : allP wfield fields -> wfn (tstruct_ser u ns s name fields).
Proof.
  intros H. apply ser_fn_wf. apply allP_app. split; [|wf].
  apply allP_flat_map. eapply allP_impl; [exact H|]. intros f _ (H1 & H2 & H3). unfold tstruct_ser_field. cbn [TsGrammarFacts2.allP ws].
  split; [|split; exact I]. apply allP_app. split; [wf|]. apply guarded_wf; [wf|]. wf2.
Qed.
Lemma missing_wf fields : allP wfield fields -> allP ws (tmissing_check u fields).
Proof.
  intros H. unfold tmissing_check. destruct (existsb required_field fields) eqn:E; [|exact I]. cbn [TsGrammarFacts2.allP ws jif fst snd we]. split; [|split; exact I].
  split; [discriminate|]. split; [|exact I]. split; [|exact I]. split; [|wf]. split; [reflexivity|]. split.
  - apply existsb_exists in E as (f & Hf & Hr). intros C. apply map_eq_nil in C. assert (In f (filter required_field fields)) as K by (apply filter_In; tauto). rewrite C in K. destruct K.
  - apply allP_map. apply allP_in. intros f Hf. apply filter_In in Hf as [Hf _]. rewrite allP_in in H. destruct (H f Hf) as (H1 & H2 & H3). wf2.
Qed.
Lemma struct_deser_wf fields : allP wfield fields -> wfn (tstruct_deser u ns s name fields).
Proof.
  intros H. apply deser_fn_wf. apply allP_app. split; [wf|]. apply allP_app. split.
  { destruct fields as [|f l] eqn:E; [exact I|]. rewrite <- E in *. cbn [TsGrammarFacts2.allP]. split; [|split; exact I]. apply locals_wf; [rewrite E; discriminate|exact H]. }
  apply allP_app. split; [|apply allP_app; split; [now apply missing_wf|]].
  - cbn [TsGrammarFacts2.allP ws]. split; [|split; exact I]. split; [wf|]. unfold tstruct_loop. cbn [TsGrammarFacts2.allP]. do 4 (split; [solve [wf]|]). split; [|exact I].
    cbn [ws]. split; [wf|]. split; [|wf]. apply allP_map. eapply allP_impl; [exact H|]. intros f _ (H1 & H2 & H3). unfold tstruct_deser_case. cbn [fst snd]. split; [wf|].
    apply allP_app. split; [wf|]. apply allP_app. split; [leaf2|wf].
  - cbn [TsGrammarFacts2.allP ws we]. split; [|exact I]. split; [reflexivity|]. now apply props_wf.
Qed.
Lemma choice_atlas_wf fields : allP wfield fields -> wfn (tchoice_atlas u ns s name fields).
Proof.
  intros H. apply atlas_fn_wf. apply allP_app. split; [|wf].
  apply allP_map. eapply allP_impl; [exact H|]. intros f _ (H1 & H2 & H3). unfold tchoice_atlas_case. cbn [ws jif TsGrammarFacts2.allP fst snd].
  split; [discriminate|]. split; [|exact I]. split; [|exact I]. split; [wf; apply ident_plain; exact H1|].
  apply allP_app. split; [wf|]. apply allP_app. split; [leaf2|]. apply allP_app. split; [wf2|]. destruct (has_fallback_out f); wf2.
Qed.
Lemma choice_ser_wf fields : allP wfield fields -> wfn (tchoice_ser u ns s name fields).
Proof.
  intros H. apply ser_fn_wf. apply allP_app. split; [|wf].
  apply allP_map. eapply allP_impl; [exact H|]. intros f _ (H1 & H2 & H3). unfold tchoice_ser_case. cbn [ws jif TsGrammarFacts2.allP fst snd].
  split; [discriminate|]. split; [|exact I]. split; [|exact I]. split; [wf; apply ident_plain; exact H1|].
  apply allP_app. split; [wf2|]. apply allP_app. split; [leaf2|]. apply allP_app. split; [destruct (has_fallback_out f); wf2|wf].
Qed.
Lemma choice_deser_wf fields : allP wfield fields -> wfn (tchoice_deser u ns s name fields).
Proof.
  intros H. apply deser_fn_wf. cbn [TsGrammarFacts2.allP]. do 4 (split; [solve [wf]|]). split; [|exact I]. cbn [ws]. split; [wf|].
  unfold tchoice_loop. cbn [TsGrammarFacts2.allP]. do 3 (split; [solve [wf]|]). split; [|exact I]. cbn [ws]. split; [wf|]. split; [|wf].
  apply allP_map. eapply allP_impl; [exact H|]. intros f _ (H1 & H2 & H3). unfold tchoice_deser_case. cbn [fst snd]. split; [wf|].
  apply allP_app. split; [wf|]. apply allP_app. split; [leaf2|]. destruct (is_optional f); wf2.
Qed.
Lemma decl_wf d : sd_name d = name -> allP wfield (sd_fields d) -> wdecl (tgen_decl u ns s d).
Proof.
  intros E H. unfold tgen_decl. rewrite E. set (fields := sd_fields d) in *. destruct (sd_kind d); (split; [exact Hspace|]; split; cbn [td_types td_fns map app TsGrammarFacts2.allP]).
  - auto using struct_wf.
  - auto 10 using size_wf, serialize_wf, deserialize_wf, struct_atlas_wf, struct_ser_wf, struct_deser_wf.
  - auto using choice_wf.
  - auto 10 using size_wf, serialize_wf, deserialize_wf, choice_atlas_wf, choice_ser_wf, choice_deser_wf.
Qed.
End Schema.

(** *** The constant part of the file *)
Lemma offset_plus_wf n : we 1 (offset_plus n).
Proof. unfold offset_plus. destruct (n =? 0); wf. Qed.
Lemma tag_of_wf n : we 1 (tag_of n).
Proof. unfold tag_of. destruct (n =? 0); wf. Qed.
#[local] Arguments tag_of : simpl never.
#[local] Arguments offset_plus : simpl never.
Lemma prelude_fns_wf : allP wfn prelude_fns.
Proof. cbn [TsGrammarFacts2.allP prelude_fns]. repeat (split; [solve [wf; first [apply offset_plus_wf|apply tag_of_wf]]|]). exact I. Qed.
Lemma plainb s : forallb (fun c => negb (c =? 39) && negb (c =? 92) && negb (c =? 10) && negb (c =? 13) && (c <? 128)) s = true -> plain s.
Proof.
  intros H. apply Forall_forall. intros c Hc. rewrite forallb_forall in H. specialize (H c Hc). rewrite !andb_true_iff, !negb_true_iff, !N.eqb_neq, N.ltb_lt in H. tauto.
Qed.
Lemma prelude_consts_wf : allP ws prelude_consts.
Proof. wf. apply plainb. reflexivity. Qed.
