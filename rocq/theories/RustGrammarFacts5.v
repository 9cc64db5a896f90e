(** What the generator writes reads as its syntax tree. *)
From Verif Require Import BaseFacts IdentFacts NamesFacts PrinterFacts.
From Verif Require Export RustGrammarFacts4 RustGen ModuleSpec.
Local Open Scope string_scope.
Local Open Scope list_scope.
Local Open Scope N_scope.

Ltac small := unfold gen_write_all, mut_sub_reader, mut_reader; unfold vr, lets, letm, usize_lit, u64_lit, as_u64, as_usize, pv, pref, inline_block.
Ltac nm := solve [assumption | apply nameb_name; reflexivity].
Ltac seg := solve [left; nm | right; cbn; tauto].
Ltac all tac := solve [repeat (apply Forall_cons; [tac|]); apply Forall_nil].
Ltac sfx := solve [cbn; tauto].
Ltac callee := solve [exact I | assumption | split; [discriminate|all seg] | split; seg | seg].
Lemma low : number 1 (txt "u64") (print_grouped 1 ++ suffix_of (txt "u64")).
Proof. exists (txt "1"), 49, []. split; [exact (proj1 (number_decimal (fun _ => None) 1))|]. repeat split; try reflexivity. cbn. tauto. Qed.
Lemma mid1 : number 567382630219903 (txt "u64") (print_grouped 567382630219903 ++ suffix_of (txt "u64")).
Proof.
  exists (txt "567382630219903"), 53, (txt "67_382_630_219_903"). split; [exact (proj1 (number_decimal (fun _ => None) 567382630219903))|].
  repeat split; try reflexivity. cbn. tauto.
Qed.
Lemma mid2 : number 567382630219904 (txt "u64") (print_grouped 567382630219904 ++ suffix_of (txt "u64")).
Proof.
  exists (txt "567382630219904"), 53, (txt "67_382_630_219_904"). split; [exact (proj1 (number_decimal (fun _ => None) 567382630219904))|].
  repeat split; try reflexivity. cbn. tauto.
Qed.
Lemma high : number 18446744073709551615 (txt "u64") (print_grouped 18446744073709551615 ++ suffix_of (txt "u64")).
Proof.
  exists (txt "18446744073709551615"), 49, (txt "8_446_744_073_709_551_615"). split; [exact (proj1 (number_decimal (fun _ => None) 18446744073709551615))|].
  repeat split; try reflexivity. cbn. tauto.
Qed.

Ltac wk l := apply (re_weaken _ l); [|cbn; lia].
Ltac rp :=
  lazymatch goal with
  | |- RP PWild => apply rp_wild
  | |- RP (PVar _ _) => apply rp_var; nm
  | |- RP (PInt _ _) => apply rp_int; sfx
  | |- RP (PRange 1 _ _) => apply (rp_range _ _ _ low mid1)
  | |- RP (PRange _ _ _) => apply (rp_range _ _ _ mid2 high)
  | |- RP (PPair _ _) => apply rp_pair; rp
  | |- RP (PCon _ _) => apply rp_con; [first [left; cbn; lia | right; split; discriminate]|cbn [map]; all seg|all ltac:(idtac; rp)]
  end.
Lemma calc_stands n t f : stands (gen_atlas_calc n t f) = true.
Proof. now destruct t. Qed.
Lemma into_starts t e : starts_block e = false -> starts_block (gen_into t e) = false.
Proof.
  intros H. unfold gen_into. destruct (innermost_custom t); [|exact H]. revert e H. induction t; intros e H; cbn [into_layers starts_block]; exact H.
Qed.
Lemma into_stands t e : starts_block e = false -> stands (gen_into t e) = true.
Proof. intros H. unfold stands. rewrite (into_starts t e H). now destruct (block_like _). Qed.
Lemma lookup_stands t : stands (gen_atlas_lookup t) = true.
Proof. destruct t; try reflexivity. cbn. now destruct (sized_sty _). Qed.
Ltac st := solve [reflexivity | apply lookup_stands | apply calc_stands | apply into_stands; reflexivity].
(** Expressions by their shape; what remains is left to [tac]. *)
Ltac re tac :=
  first [assumption |
  lazymatch goal with
  | |- RE _ _ (EVar _) => wk 9%nat; apply re_var; first [left; nm | right; reflexivity]
  | |- RE _ _ (EInt _ _) => wk 9%nat; apply re_int; sfx
  | |- RE _ _ (EBool _) => wk 9%nat; apply re_bool
  | |- RE _ _ EUnit => wk 9%nat; apply re_unit
  | |- RE _ _ EZeroF64 => wk 9%nat; apply re_zero
  | |- RE _ _ ENone => wk 9%nat; apply re_none
  | |- RE _ _ EBreak => wk 9%nat; apply re_break
  | |- RE _ _ (EMissingFields _) => wk 9%nat; apply re_missing
  | |- RE _ _ EInvalidData => wk 9%nat; apply re_invalid
  | |- RE _ _ (EVariant _ _) => wk 9%nat; apply re_variant; [seg|nm]
  | |- RE _ _ (EField (EVar _) (txt "0")) => wk 9%nat; apply (re_index _ _ [48] 0); [nm|exact (decimal_snoc [] 0 0 decimal_nil eq_refl)|discriminate]
  | |- RE _ _ (EField (EVar _) (txt "1")) => wk 9%nat; apply (re_index _ _ [49] 1); [nm|exact (decimal_snoc [] 0 1 decimal_nil eq_refl)|discriminate]
  | |- RE _ _ (EField _ _) => wk 9%nat; apply re_field; [re tac|nm]
  | |- RE _ _ (ECall _ _) => wk 9%nat; apply re_call; [callee|all ltac:(re tac)]
  | |- RE _ _ (ECallLines _ _) => wk 9%nat; apply re_call_lines; [callee|all ltac:(re tac)]
  | |- RE _ _ (EMethod _ _ _) => wk 9%nat; apply re_method; [re tac|all ltac:(re tac)]
  | |- RE _ _ (ERef true _) => wk 8%nat; apply re_ref_mut; re tac
  | |- RE _ _ (ERef false _) => wk 8%nat; apply re_ref; re tac
  | |- RE _ _ (EDeref _) => wk 8%nat; apply re_deref; re tac
  | |- RE _ _ (EBin ?op _ _) => eapply (re_weaken _ (bin_level op)); [apply re_bin; cbn [bin_level]; re tac|cbn; lia]
  | |- RE _ _ (ECast _ _) => wk 7%nat; apply re_cast; [re tac|nm]
  | |- RE _ _ (EParen _) => wk 9%nat; apply re_paren; re tac
  | |- RE _ _ (EPair _ _) => wk 9%nat; apply re_pair; re tac
  | |- RE _ _ (EClosure _ _) => wk 0%nat; apply re_closure; [discriminate|all nm|re tac]
  | |- RE _ _ (ETry _) => wk 9%nat; apply re_try; re tac
  | |- RE _ _ (EBlock _) => wk 9%nat; apply re_block; rb tac
  | |- RE _ _ (EIf _ _ _) => wk 9%nat; apply re_if; [re tac|rb tac|rb tac]
  | |- RE _ _ (EMatch _ _ _) => wk 9%nat; apply re_match; [re tac|first [assumption | all ltac:(ra tac)]]
  | |- RE _ _ (EZeros _) => wk 9%nat; apply re_zeros
  | |- RE _ _ (EWhole _) => wk 9%nat; apply re_whole; re tac
  | |- RE _ _ EVecEmpty => wk 9%nat; apply re_vec_empty
  | |- RE _ _ (EVecUnits _) => wk 9%nat; apply re_vec_units; re tac
  | |- RE _ _ EPanic => wk 9%nat; apply re_panic
  | |- RE _ _ (EReturn _) => wk 0%nat; apply re_return; re tac
  end | tac]
with ra tac := first [assumption | split; [rp|split; [re tac|st]] | tac]
with rs tac :=
  first [assumption |
  lazymatch goal with
  | |- RS (SLet false _ _ _) => apply rs_let; [rp|first [exact I | tac]|re tac]
  | |- RS (SLet true _ _ _) => apply rs_let_mut; [nm|first [exact I | tac]|re tac]
  | |- RS (SSemi _) => apply rs_semi; [re tac|st]
  | |- RS (SExpr _) => apply rs_expr; [re tac|st]
  | |- RS (SFor _ _ _) => apply rs_for; [rp|re tac|rb tac]
  | |- RS (SLoop _) => apply rs_loop; rb tac
  | |- RS (SIf _ _) => apply rs_if; [re tac|rb tac]
  | |- RS (SIfLet _ _ _) => apply rs_if_let; [rp|re tac|rb tac]
  | |- RS (SFn _) => apply rs_fn; first [assumption | tac]
  | |- RS SBlank => apply rs_blank
  end | tac]
with rss tac := solve [repeat first [assumption | tac | apply Forall_nil | apply Forall_cons; [rs tac|] | apply Forall_app; split]]
with rb tac := apply rb_block; [rss tac|first [exact I | split; [re tac|st] | tac]].
Ltac none := fail.

(** *** Types of schemas *)
Lemma lookup_reads b t : RE b 8 (gen_atlas_lookup t).
Proof. destruct t as [inner| | | | | | | |]; unfold gen_atlas_lookup; small; try (re none). destruct (sized_sty inner); re none. Qed.
Lemma lookup_reads' b l t : (l <= 8)%nat -> RE b l (gen_atlas_lookup t).
Proof. intros H. apply (re_weaken b 8); [apply lookup_reads|exact H]. Qed.
Lemma atlas_u64_reads b l n f : (l <= 9)%nat -> RE b l (gen_atlas_u64 n f).
Proof. intros H. apply (re_weaken b 9); [|exact H]. unfold gen_atlas_u64. small. destruct f; re none. Qed.
Ltac known := idtac; first [apply lookup_reads'; lia | apply atlas_u64_reads; lia].
Lemma atlas_calc_reads n t : forall b l f, (l <= 9)%nat -> RE b l (gen_atlas_calc n t f).
Proof.
  induction t as [inner IH| | | | | | | |]; intros b l f H; apply (re_weaken b 9); try exact H; cbn [gen_atlas_calc]; small;
    try solve [re ltac:(idtac; known) | known | destruct f; re ltac:(idtac; known)].
  assert (forall b, RE b 9 (gen_atlas_calc n inner false)) as Hc by (intros b'; apply IH; lia). clear IH.
  assert (RE false 0 (gen_atlas_calc n inner false)) by (wk 9%nat; apply Hc).
  set (c := gen_atlas_calc n inner false) in *. clearbody c.
  destruct inner; small; re ltac:(first [apply lookup_reads'; lia | apply atlas_u64_reads; lia | (wk 9%nat; apply Hc)]).
Qed.
Lemma u64_ser_reads n f : RS (gen_u64_ser n f).
Proof. unfold gen_u64_ser. small. destruct f; rs none. Qed.
Lemma ser_block_reads n f e : RE false 0 e -> Forall RS (ser_block n f e).
Proof. intros H. unfold ser_block. small. rss ltac:(apply u64_ser_reads). Qed.
Lemma ser_reads n t : forall f, Forall RS (gen_ser n t f).
Proof.
  induction t as [inner IH| | | | | | | |]; intros f; cbn [gen_ser]; small; try solve [rss ltac:(idtac; known) | apply ser_block_reads; re ltac:(idtac; known) | destruct f; rss ltac:(idtac; known)].
  destruct inner; small; first [solve [apply ser_block_reads; re ltac:(idtac; known)] | rss ltac:(first [known | apply IH | fail])].
Qed.

Section Schema.
Context (u : unicode) (ns : namespace) (s : sschema).
Fixpoint paths_ok (t : sty) : Prop :=
  match t with
  | SyArray t => paths_ok t
  | SyCustom i n => forall x, type_path u ns s i n x <> [] /\ Forall is_segment (type_path u ns s i n x)
  | _ => True
  end.
Lemma rt_fixed x : nameb x = true -> RT (TyPath [x]).
Proof. intros H. apply rt_name. left. now apply nameb_name. Qed.
Lemma rt_generic x t : nameb x = true -> RT t -> RT (TyApp x t).
Proof.
  intros H Ht. assert (Forall is_segment [x]) as Hx by (constructor; [left; now apply nameb_name|constructor]).
  apply rt_app; [exact (path_operand [x] ltac:(discriminate) Hx)|exact (rd_gpath_relative [x] ltac:(discriminate) Hx)|exact Ht].
Qed.
Lemma rt_result t : RT t -> RT (io_result t).
Proof.
  intros Ht. apply rt_app; [right; cbn; tauto| |exact Ht].
  exact (rd_gpath_global (map txt ["std"; "io"; "Result"]) ltac:(discriminate) ltac:(cbn [map]; segs)).
Qed.
Lemma type_reads t : paths_ok t -> forall x, RT (gen_type u ns s t x).
Proof.
  induction t as [inner IH| | |i n| | | | |]; cbn [paths_ok gen_type]; intros H x;
    try (destruct x; first [apply rt_fixed; reflexivity | apply rt_unit | apply rt_generic; [reflexivity|apply rt_fixed; reflexivity]]).
  - destruct x; try (apply rt_generic; [reflexivity|now apply IH]). destruct (sized_sty inner); [|now apply rt_fixed].
    apply rt_pair; [now apply rt_fixed|]. apply rt_generic; [reflexivity|now apply IH].
  - apply rt_path; apply H.
Qed.
Lemma layers_reads t : forall b e, RE b 9 e -> RE b 9 (into_layers t e).
Proof.
  induction t as [inner IH| | | | | | | |]; intros b e H; cbn [into_layers]; small; try (re none).
  apply re_method; [|constructor]. apply re_method; [re none|]. constructor; [|constructor].
  wk 0%nat. apply re_closure; [discriminate|all nm|]. wk 9%nat. apply IH. re none.
Qed.
Lemma into_reads t b l e : (l <= 9)%nat -> RE b 9 e -> RE b l (gen_into t e).
Proof. intros Hl H. wk 9%nat. unfold gen_into. destruct (innermost_custom t); [now apply layers_reads|re none]. Qed.
Lemma eof_arms_reads x e blank : is_name (txt x) -> RE false 0 e -> stands e = true -> Forall RA (eof_arms x e blank).
Proof.
  intros Hx He Hst. unfold eof_arms. small. apply Forall_cons; [split; [rp|now split]|]. apply Forall_cons; [|apply Forall_nil].
  split; [rp|]. split; [|reflexivity]. destruct blank; cbn [app]; re none.
Qed.
Lemma deser_u64_reads n f : Forall RS (gen_deser_u64 n f).
Proof. unfold gen_deser_u64. small. destruct f; rss none. Qed.
Lemma eight_reads : Forall RS eight_bytes.
Proof. unfold eight_bytes. small. rss none. Qed.
Lemma bound_reads x : In x ["Write"; "BufRead"] -> rd (txt "::std::io::" ++ txt x) (fun ts => gpath ts (txt "::std::io::" ++ txt x)).
Proof.
  intros [<-|[<-|[]]]; [exact (rd_gpath_global (map txt ["std"; "io"; "Write"]) ltac:(discriminate) ltac:(cbn [map]; segs))|
                        exact (rd_gpath_global (map txt ["std"; "io"; "BufRead"]) ltac:(discriminate) ltac:(cbn [map]; segs))].
Qed.
Definition bound_write : rd (txt "::std::io::Write") (fun ts => gpath ts (txt "::std::io::Write")) := bound_reads "Write" (or_introl eq_refl).
Definition bound_read : rd (txt "::std::io::BufRead") (fun ts => gpath ts (txt "::std::io::BufRead")) := bound_reads "BufRead" (or_intror (or_introl eq_refl)).
Ltac eof := idtac; apply eof_arms_reads; [nm|re none|reflexivity].
Ltac ty := idtac; first [apply rt_fixed; reflexivity | apply rt_result; ty | apply type_reads; assumption | apply rt_unit | apply rt_name; seg].
Lemma rpar_t m x t : is_name x -> RT t -> RPar (Par m x t).
Proof. intros Hx [_ Ht]. now apply rpar. Qed.
Ltac par := idtac; first [apply rpar_self | apply rpar; [nm|apply rt_ref; ty] | apply rpar_t; [nm|ty]].
Ltac fn tac := apply rf_fn; [nm|lazymatch goal with |- True => exact I | |- rd (txt "::std::io::Write") _ => exact bound_write | |- rd _ _ => exact bound_read end|all par|ty|rb tac].
Lemma deser_reads n t : paths_ok t -> forall f, Forall RS (gen_deser u ns s n t f).
Proof.
  induction t as [inner IH| | |i m| | | | |]; cbn [paths_ok gen_deser]; intros H f; small;
    try solve [rss ltac:(apply deser_u64_reads) | destruct f; rss ltac:(apply eight_reads)].
  - pose proof (IH H false) as Hd. pose proof (rt_result _ (type_reads inner H SIn)) as Ht. clear IH.
    set (d := gen_deser u ns s n inner false) in *. set (ty := io_result (gen_type u ns s inner SIn)) in *. clearbody d ty.
    assert (Forall RA (eof_arms "payload_size" (ECast (EVar (txt "payload_size")) (txt "usize")) false)) as H1 by eof.
    assert (Forall RA (eof_arms "element" (EVar (txt "element")) false)) as H2 by eof.
    assert (RF (FnDef false (txt "deserialize_element") (Some (txt "::std::io::BufRead")) false
                  [Par true (txt "sub_reader") (TyRef true (TyPath [txt "T"]))] ty
                  (Blk false d (Some (ECall (CStd FnOk) [EVar (txt "payload")]))))) as H3.
    { apply rf_fn; [nm|exact bound_read|all par|exact Ht|]. apply rb_block; [exact Hd|]. split; [re none|reflexivity]. }
    destruct inner; small; cbn [app]; try solve [rss ltac:(apply deser_u64_reads)].
  - destruct (H SIn). assert (callee_ok (CDeserialize (type_path u ns s i m SIn))) by (split; assumption). rss none.
Qed.

Context (ind : nat).
(** What is asked of the fields of a struct and of the cases of a choice. *)
Definition field_ok (f : sfield) : Prop := is_name (field_name u f) /\ is_name (local_name u f) /\ paths_ok (sf_type f).
Definition case_ok (f : sfield) : Prop := is_name (variant_name u f) /\ paths_ok (sf_type f).
Ltac gen := idtac; first [known | apply atlas_calc_reads; lia | apply into_reads; [lia|re none] | apply deser_u64_reads | apply ser_reads | apply deser_reads; assumption].
Lemma header_size_reads b l f : (l <= 9)%nat -> RE b l (header_size ind f).
Proof. intros H. unfold header_size. small. re none. Qed.
Lemma serialize_header_reads f : RS (serialize_header ind f).
Proof. unfold serialize_header. small. rs ltac:(idtac; known). Qed.
Lemma take_reads : RS take_sub_reader.
Proof. unfold take_sub_reader. small. rs none. Qed.
Lemma skip_reads : RA (skip_arm ind).
Proof. unfold skip_arm. small. ra none. Qed.
Lemma forall_map {A B} (P : B -> Prop) (g : A -> B) l : Forall (fun a => P (g a)) l -> Forall P (map g l).
Proof. induction 1; constructor; auto. Qed.

Section Decl.
Context (name : ident) (fields : list sfield) (Hname : forall x, is_name (type_name u name x)).
Lemma size_fn_reads : RF gen_size_fn.
Proof. unfold gen_size_fn. small. fn none. Qed.
Lemma serialize_fn_reads : RF gen_serialize_fn.
Proof. unfold gen_serialize_fn. small. fn none. Qed.
Lemma deserialize_fn_reads : RF gen_deserialize_fn.
Proof. unfold gen_deserialize_fn. small. fn none. Qed.
Lemma with_atlas_reads body : RB body -> RF (serialize_with_atlas_fn u name body).
Proof. intros H. unfold serialize_with_atlas_fn. pose proof (Hname SAtlas). apply rf_fn; [nm|exact bound_write|all par|ty|exact H]. Qed.
Lemma reader_ref_reads body : RB body -> RF (deserialize_fn body).
Proof. intros H. unfold deserialize_fn. apply rf_fn; [nm|exact bound_read|all par|ty|exact H]. Qed.
Lemma from_reads e : RE false 0 e -> stands e = true -> RF (from_fn u name e).
Proof.
  intros H H'. unfold from_fn. pose proof (Hname SOut). apply rf_fn; [nm|exact I|all par|ty|]. apply rb_block; [constructor|now split].
Qed.
Section Struct.
Context (Hfields : Forall field_ok fields).
Ltac each := apply forall_map; eapply Forall_impl; [|exact Hfields]; let f := fresh "f" in intros f (Hf & Hl & Hp); cbv beta.
Lemma struct_reads x : RI (gen_struct u ns s name fields x).
Proof.
  apply ri_struct; [apply Hname|]. apply Forall_app. split.
  - destruct x; all ltac:(split; [nm|ty]).
  - each. split; [exact Hf|]. cbn [snd]. cbv zeta. pose proof (type_reads _ Hp x) as T. destruct (sf_rule f), x; first [exact T | apply rt_generic; [reflexivity|exact T]].
Qed.
Lemma self_field_reads b f : field_ok f -> RE b 9 (self_field u f).
Proof. intros (Hf & _). unfold self_field. small. re none. Qed.

Lemma struct_from_reads : RF (struct_from u name fields).
Proof.
  apply from_reads; [|reflexivity]. wk 9%nat. apply re_struct; [left; apply Hname|]. each. split; [exact Hf|]. cbn [snd]. cbv zeta. small.
  destruct (sf_rule f).
  all: re ltac:(idtac; gen).
Qed.
Lemma struct_atlas_reads : RF (struct_atlas u ind name fields).
Proof.
  unfold struct_atlas. pose proof (Hname SAtlas). apply rf_fn; [nm|exact I|all par|ty|]. apply rb_block.
  - assert (Forall RS (map (struct_atlas_let u ind) fields)) as K.
    { each. unfold struct_atlas_let. small. assert (forall b, RE b 9 (self_field u f)) by (intros b; apply self_field_reads; now repeat split).
      destruct (sf_rule f); (apply rs_let; [rp|exact I|]); re ltac:(first [gen | match goal with H : forall b, RE b 9 _ |- _ => wk 9%nat; apply H end]). }
    destruct fields; [constructor|]. apply Forall_app. split; [exact K|]. rss ltac:(apply rs_blank).
  - split; [|reflexivity]. wk 9%nat. apply re_struct; [seg|]. apply Forall_cons; [|each; split; [exact Hf|cbn [snd]; re none]]. split; [nm|]. cbn [snd].
    destruct fields as [|f0 fs]; [wk 9%nat; apply re_no_sum|]. wk 5%nat. apply re_sum; [discriminate|]. each. unfold struct_size_term. cbv zeta. small.
    destruct (sf_rule f); re ltac:(first [gen | apply header_size_reads; lia]).
Qed.
Lemma ser_field_reads f : field_ok f -> Forall RS (struct_ser_field u ind f).
Proof.
  intros Hf. assert (forall b, RE b 9 (self_field u f)) as A by (intros b; now apply self_field_reads). destruct Hf as (Hf & _).
  assert (Forall RS (serialize_header ind f :: gen_ser ind (sf_type f) true)) as K by (constructor; [apply serialize_header_reads|apply ser_reads]).
  unfold struct_ser_field. cbv zeta. small. destruct (sf_rule f); rss ltac:(first [(wk 9%nat; apply A) | apply K]).
Qed.
Lemma forall_flat_map {A B} (P : B -> Prop) (g : A -> list B) l : Forall (fun a => Forall P (g a)) l -> Forall P (flat_map g l).
Proof. induction 1; cbn; [constructor|]. apply Forall_app. now split. Qed.
Lemma struct_ser_reads : RF (struct_ser u ind name fields).
Proof.
  apply with_atlas_reads. apply rb_block; [|split; [re none|reflexivity]]. apply forall_flat_map. eapply Forall_impl; [|exact Hfields]. intros f. apply ser_field_reads.
Qed.
Lemma struct_deser_reads : RF (struct_deser u ns s ind name fields).
Proof.
  pose proof (Hname SIn). apply reader_ref_reads. apply rb_block.
  - apply Forall_app. split; [|apply Forall_app; split].
    + assert (Forall RS (map (struct_deser_let u ns s) fields)) as K.
      { each. unfold struct_deser_let. rs ltac:(apply rt_generic; [reflexivity|ty]). }
      destruct fields; [constructor|]. apply Forall_app. split; [exact K|]. rss none.
    + assert (Forall RA (map (struct_deser_arm u ns s ind) fields ++ [skip_arm ind])) as K.
      { apply Forall_app. split; [|constructor; [apply skip_reads|constructor]]. each. unfold struct_deser_arm. small. ra ltac:(apply deser_reads; assumption). }
      unfold struct_loop_block, index_and_size. small.
      rss ltac:(first [apply take_reads | apply K | (wk 9%nat; apply re_match; [re none|first [exact K | eof]])]).
    + unfold missing_check. destruct (existsb required_field fields) eqn:E; [|constructor].
      assert (RE true 0 (EOrs (map (fun f => EMethod (EVar (local_name u f)) MIsNone []) (filter required_field fields)))) as K.
      { wk 1%nat. apply re_ors.
        - apply existsb_exists in E as (f & H1 & H2). assert (In f (filter required_field fields)) as H3 by now apply filter_In.
          destruct (filter required_field fields); [destruct H3|discriminate].
        - apply forall_map. apply Forall_forall. intros f Hin. apply filter_In in Hin as [Hin _]. rewrite Forall_forall in Hfields.
          destruct (Hfields f Hin) as (Hf & Hl & Hp). re none. }
      small. rss ltac:(exact K).
  - split; [|reflexivity]. wk 9%nat. apply re_call; [callee|]. constructor; [|constructor]. wk 9%nat. apply re_struct; [seg|]. each. split; [exact Hf|]. cbn [snd]. cbv zeta.
    destruct (sf_rule f); re none.
Qed.
Lemma struct_size_reads : RF struct_size.
Proof. unfold struct_size. small. fn none. Qed.

(** Choices. *)
End Struct.
Section Choice.
Context (Hfields : Forall case_ok fields).
Ltac each := apply forall_map; eapply Forall_impl; [|exact Hfields]; let f := fresh "f" in intros f (Hv & Hp); cbv beta.
Lemma choice_reads x : RI (gen_choice u ns s name fields x).
Proof.
  apply ri_enum; [apply Hname|]. each. split; [exact Hv|]. cbn [snd]. pose proof (type_reads _ Hp x) as T. apply Forall_app. split; [|apply Forall_app; split].
  - destruct x; all ltac:(idtac; ty).
  - destruct x; try destruct (is_unit_sty _); first [apply Forall_nil | apply Forall_cons; [exact T|apply Forall_nil]].
  - destruct (sf_rule f), x; all ltac:(apply rt_generic; [reflexivity|apply rt_name; left; apply Hname]).
Qed.
Lemma case_args_reads by_ref f : Forall RP (case_args by_ref f).
Proof.
  unfold case_args. destruct (is_unit_sty _), (has_fallback_out f); cbn [app]; all ltac:(idtac; rp).
Qed.
Lemma case_reads by_ref f : case_ok f -> RP (case_out u name by_ref f).
Proof.
  intros (Hv & _). unfold case_out. pose proof (Hname SOut). apply rp_con; [left; cbn; lia|all seg|apply case_args_reads].
Qed.
Lemma con_reads b t v args : is_name t -> is_name v -> Forall (RE false 0) args -> RE b 9 (con t v args).
Proof. intros Ht Hv Ha. unfold con. destruct args; [re none|]. apply re_call; [callee|exact Ha]. Qed.
Lemma con_stands t v args : stands (con t v args) = true.
Proof. now destruct args. Qed.
Lemma choice_from_reads : RF (choice_from u name fields).
Proof.
  apply from_reads; [|reflexivity]. small. wk 9%nat. apply re_match; [re none|]. each. split; [apply case_reads; now repeat split|]. split; [|apply con_stands].
  wk 9%nat. apply con_reads; [apply Hname|exact Hv|]. apply Forall_app. split; [destruct (is_unit_sty _)|destruct (sf_rule f)]; all ltac:(re ltac:(idtac; gen)).
Qed.
Lemma choice_atlas_reads : RF (choice_atlas u ind name fields).
Proof.
  unfold choice_atlas. pose proof (Hname SAtlas). apply rf_fn; [nm|exact I|all par|ty|]. apply rb_block; [constructor|]. split; [|reflexivity].
  small. wk 9%nat. apply re_match; [re none|]. each. unfold choice_atlas_arm. cbv zeta. split; [apply case_reads; now repeat split|]. split; [|reflexivity].
  small. wk 9%nat. apply re_block. apply rb_block.
  - destruct (is_unit_sty _), (has_fallback_out f); cbn [app]; rss ltac:(idtac; gen).
  - split; [|reflexivity]. destruct (has_fallback_out f); re ltac:(first [gen | apply header_size_reads; lia]).
Qed.
Lemma choice_ser_reads : RF (choice_ser u ind name fields).
Proof.
  apply with_atlas_reads. pose proof (Hname SAtlas). small. apply rb_block; [constructor|]. split; [|reflexivity].
  wk 9%nat. apply re_match; [re none|]. apply Forall_app. split; [|all ltac:(ra none)]. each. unfold choice_ser_arm. small.
  split; [apply rp_pair; [apply case_reads; now repeat split|]|split; [|reflexivity]].
  - apply rp_con; [left; cbn; lia|all seg|]. destruct (has_fallback_out f); cbn [app]; all ltac:(idtac; rp).
  - wk 9%nat. apply re_block. apply rb_block.
    + constructor; [apply serialize_header_reads|apply ser_reads].
    + destruct (has_fallback_out f); (split; [re none|reflexivity]).
Qed.
Lemma choice_deser_reads : RF (choice_deser u ns s ind name fields).
Proof.
  pose proof (Hname SIn). apply reader_ref_reads.
  assert (Forall RA (map (choice_deser_arm u ns s ind name) fields ++ [skip_arm ind])) as K.
  { apply Forall_app. split; [|constructor; [apply skip_reads|constructor]]. each. unfold choice_deser_arm. cbv zeta. small.
    assert (forall args, Forall (RE false 0) args -> RE false 0 (con (type_name u name SIn) (variant_name u f) ((if is_unit_sty (sf_type f) then [] else [EVar (txt "payload")]) ++ args))) as C.
    { intros args Ha. wk 9%nat. apply con_reads; [assumption|exact Hv|]. apply Forall_app. split; [|exact Ha]. destruct (is_unit_sty _); all ltac:(re none). }
    split; [rp|split; [|reflexivity]]. wk 9%nat. apply re_block. apply rb_block; [|exact I]. apply Forall_app. split; [now apply deser_reads|].
    destruct (sf_rule f); rss ltac:(apply C; all ltac:(re none)). }
  unfold choice_loop_block, index_and_size. small. apply rb_block; [|exact I].
  rss ltac:(first [apply take_reads | (wk 9%nat; apply re_match; [re none|exact K])]).
Qed.
Lemma choice_size_reads : RF (choice_size u name fields).
Proof.
  unfold choice_size. pose proof (Hname SAtlas). apply rf_fn; [nm|exact I|all par|ty|]. apply rb_block; [constructor|]. split; [|reflexivity].
  small. wk 9%nat. apply re_match; [re none|]. each. split; [|split; [re none|reflexivity]]. apply rp_con; [left; cbn; lia|all seg|].
  destruct (has_fallback_out f); cbn [app]; all ltac:(idtac; rp).
Qed.
End Choice.
End Decl.
Lemma decl_reads d : (forall x, is_name (type_name u (sd_name d) x)) -> Forall (match sd_kind d with SkStruct => field_ok | SkChoice => case_ok end) (sd_fields d) ->
  Forall RI (gen_decl u ns s ind d).
Proof.
  intros Hn Hf. unfold gen_decl. cbv zeta.
  assert (forall t, is_name (txt t) -> RT (TyPath (repeat (txt "super") ind ++ [txt t]))) as T.
  { intros t Ht. apply rt_path; [apply supers_nonempty|now apply supers_segments]. }
  assert (forall f, RF f -> Forall RF [f]) as One by (intros f Hr; constructor; [exact Hr|constructor]).
  assert (RT (TyApp (txt "From") (TyPath [type_name u (sd_name d) SOut]))) as Hfrom by (apply rt_generic; [reflexivity|apply rt_name; left; apply Hn]).
  apply Forall_cons; [|apply Forall_cons; [|apply Forall_cons; [|apply Forall_cons; [|apply Forall_cons; [|apply Forall_cons; [|apply Forall_cons; [|apply Forall_cons; [|apply Forall_cons; [|apply Forall_nil]]]]]]]]].
  - destruct (sd_kind d); [now apply struct_reads|now apply choice_reads].
  - destruct (sd_kind d); [now apply struct_reads|now apply choice_reads].
  - destruct (sd_kind d); [now apply struct_reads|now apply choice_reads].
  - apply ri_impl; [apply T; nm|apply Hn|]. apply Forall_cons; [exact size_fn_reads|apply One; exact serialize_fn_reads].
  - apply ri_impl; [apply T; nm|apply Hn|]. apply One. exact deserialize_fn_reads.
  - apply ri_impl; [exact Hfrom|apply Hn|]. apply One. destruct (sd_kind d); [now apply struct_from_reads|now apply choice_from_reads].
  - apply ri_impl; [exact I|apply Hn|]. apply Forall_cons; [|apply One]; (destruct (sd_kind d); [first [now apply struct_atlas_reads | now apply struct_ser_reads]|first [now apply choice_atlas_reads | now apply choice_ser_reads]]).
  - apply ri_impl; [exact I|apply Hn|]. apply One. destruct (sd_kind d); [now apply struct_deser_reads|now apply choice_deser_reads].
  - apply ri_impl; [exact I|apply Hn|]. apply One. destruct (sd_kind d); [exact struct_size_reads|now apply choice_size_reads].
Qed.
End Schema.
