(** The hypotheses of Properties22 are met. *)
From Coq Require Import String.
From Verif Require Import IdentFacts RustTypingFacts Properties22 Examples5 Examples7 Examples10.
Open Scope N_scope. Open Scope list_scope.

(** Two files with structs, choices, all rules and a name from another file. *)
Definition no_std_b (e : namespace * sschema) : bool := forallb (fun k => negb (str_eqb (rust_name au k Snake None) (txt "std"))) (fst e).
Lemma no_std_ok schemas : forallb no_std_b schemas = true -> std_is_free au schemas.
Proof.
  intros H ns s ns' k rest s' _ K _ E. rewrite forallb_forall in H. specialize (H _ K). unfold no_std_b in H. cbn [fst] in H.
  rewrite forallb_forall in H. specialize (H k). rewrite in_app_iff in H. specialize (H (or_intror (or_introl eq_refl))).
  rewrite E, str_eqb_refl in H. discriminate H.
Qed.
Example files2_no_std : std_is_free au files2.
Proof. apply no_std_ok. vm_compute. reflexivity. Qed.
Example files2_well_typed : well_typed (rust_program au files2).
Proof. exact (generated_rust_is_well_typed au files2 files2_accepted files2_no_std). Qed.

(** The specification rejects programs: a field whose type does not exist, a type that contains itself. *)
Definition lost_field : rmod := RMod [] [IStruct (txt "FooOut") [(txt "x", TyPath [txt "BarOut"])]].
Example lost_field_rejected : ~ well_typed lost_field.
Proof.
  intros H. specialize (H [] _ eq_refl). destruct H as [_ H]. inversion H as [|? ? H1 _]; subst. destruct H1 as [_ H1].
  inversion H1 as [|? ? [k H2] _]; subst. cbn [snd] in H2. inversion H2 as [? ? P _|? P|? P|? ? ? R I| | | | | | |]; subst; try discriminate.
  vm_compute in R. injection R as <-. vm_compute in I. discriminate I.
Qed.
Definition endless : rmod := RMod [] [IStruct (txt "FooOut") [(txt "x", TyApp (txt "Option") (TyPath [txt "FooOut"]))]].
Example endless_rejected : ~ finite_types endless.
Proof.
  intros H. set (a := ([] : list str, txt "FooOut")). specialize (H a).
  assert (part_of endless a a) as P.
  { apply (part_field endless a a [(txt "x", KOption (KData a))] (txt "x") (KOption (KData a))).
    - exists (txt "FooOut"), [(txt "x", TyApp (txt "Option") (TyPath [txt "FooOut"]))]. split; [reflexivity|]. constructor; [|constructor]. split; [reflexivity|].
      apply ty_option; [reflexivity|]. eapply ty_data; reflexivity.
    - now left.
    - do 2 constructor. }
  induction H as [b H IH]. exact (IH b P P).
Qed.
(** The same field behind a pointer has no such problem. *)
Definition boxed : rmod := RMod [] [IStruct (txt "FooOut") [(txt "x", TyApp (txt "Option") (TyApp (txt "Box") (TyPath [txt "FooOut"])))]].
Example boxed_well_typed : well_typed boxed.
Proof.
  intros h m E. destruct h; [|discriminate E]. injection E as <-. split; [repeat constructor; cbn; tauto|]. constructor; [|constructor].
  split; [repeat constructor; cbn; tauto|]. constructor; [|constructor]. eexists. cbn [snd].
  apply ty_option; [reflexivity|]. apply ty_box; [reflexivity|]. eapply ty_data; reflexivity.
Qed.

(** [foo.t] with a struct, and a file [foo/std.t]. *)
Definition std_files : list (namespace * sschema) := [([id "foo"], file ["struct Foo {}"]%string); ([id "foo"; id "std"], file ["struct Bar {}"]%string)].
Example std_files_accepted : accepted au std_files.
Proof.
  constructor; [exact au_agrees| |vm_compute; reflexivity|apply plain_b_ok; vm_compute; reflexivity].
  split; [|split].
  - repeat constructor. intros H. inversion H as [|? ? ? ? _ H2]. inversion H2.
  - intros ns s [H|[H|[]]]; injection H as <- <-; split; repeat constructor.
  - intros ns s d [[H|[H|[]]] Hd]; injection H as <- <-; vm_compute in Hd; destruct Hd as [<-|[]]; repeat constructor.
Qed.
(** The generated program is well-typed for every list of accepted schemas: refuted. *)
Theorem every_generated_rust_is_well_typed_refuted : ~ (forall u schemas, accepted u schemas -> well_typed (rust_program u schemas)).
Proof.
  intros H. refine (no_types_beside_a_module_std au std_files [id "foo"] _ _ std_files_accepted (or_introl eq_refl) _ _ _ (H au std_files std_files_accepted)).
  - vm_compute. left. reflexivity.
  - reflexivity.
  - vm_compute. discriminate.
Qed.
Print Assumptions every_generated_rust_is_well_typed_refuted.

(** What has been moved cannot be used again, but what is copied can be: [(x, x)], where [x] is a [Vec<()>] or a [bool]. *)
Definition twice : expr := EPair (EVar (txt "x")) (EVar (txt "x")).
Definition holding (t : rty) : tenv := [(txt "x", (Fixed, t))].
Example moved_twice_rejected prog c G' : ~ has prog c (holding (KVec KUnit)) twice (KPair (KVec KUnit) (KVec KUnit)) G'.
Proof.
  unfold twice. intros H. inversion H; subst; try (match goal with K : path_place _ _ (EPair _ _) _ _ |- _ => inversion K end).
  match goal with A : has _ _ (holding _) (EVar _) _ _, B : has _ _ ?g (EVar _) _ _ |- _ => lazymatch g with holding _ => fail | _ => rename A into Ha, B into Hb end end.
  inversion Ha; subst. { match goal with K : copy _ |- _ => destruct K end. }
  match goal with K : moves _ _ _ |- _ => inversion K; subst end.
  change (gone (txt "x") (holding (KVec KUnit))) with [(txt "x", (Moved, KVec KUnit))] in Hb.
  assert (forall o t, ~ path_place prog [(txt "x", (Moved, KVec KUnit))] (EVar (txt "x")) o t) as Hn.
  { intros o t P. inversion P as [? m ? L U| | | | | | | |]; subst. vm_compute in L. injection L as <- _. discriminate U. }
  inversion Hb; subst; (eapply Hn; eassumption).
Qed.
Example copied_twice_accepted prog c : has prog c (holding KBool) twice (KPair KBool KBool) (holding KBool).
Proof. apply h_pair with (holding KBool); (eapply h_copy; [eapply p_var; reflexivity|exact I]). Qed.
