(** The generated conversions from outgoing to incoming messages. *)
From Verif Require Import TypesFacts IdentFacts RustSerFacts.
From Verif Require Export RustAtlasFacts.

Section From.
Context {W : Type} (w : writer W) (rounds : nat) (lim : N) (wraps : bool) (u : unicode) (prog : rmod).
Notation run := (run_fn w rounds lim wraps prog).
Notation ev d ns self := (eval w rounds lim wraps prog (run d) (mods u ns) self).
Notation ex d ns self := (exec w rounds lim wraps prog (run d) (mods u ns) self).
Ltac evs := repeat (ev_step; cbn [obind]).
Ltac drop := first [rewrite leave1 | rewrite leave2 | rewrite leave_self].

Definition into_stmt (v : val) : Prop := forall nt ns s t depth self e E st,
  linked u prog ns s t nt -> wt DOut v (erase nt) -> (vdepth v <= depth)%nat ->
  ev depth ns self e E st = OVal (embed u DOut v nt) E st ->
  ev depth ns self (gen_into t e) E st = OVal (embed u DIn (to_in v (erase nt)) nt) E st.
Definition into_call (v : val) : Prop := forall ns s k name fs depth st,
  installed u prog ns s k name (map fst fs) -> allP (fun f => linked u prog ns s (sf_type (fst f)) (snd f)) fs ->
  wt DOut v (erase (NDecl ns s k name fs)) -> (vdepth v <= depth)%nat ->
  call_into prog (run depth) (embed u DOut v (NDecl ns s k name fs)) st =
    FVal (embed u DIn (to_in v (erase (NDecl ns s k name fs))) (NDecl ns s k name fs)) st.

(** Values without messages in them are the same in both directions. *)
Lemma plain_same v : forall nt ns s t, linked u prog ns s t nt -> innermost_custom t = false -> wt DOut v (erase nt) ->
  embed u DIn (to_in v (erase nt)) nt = embed u DOut v nt /\ type_of (embed u DOut v nt) = None.
Proof.
  induction v as [|b|n|z|b|bs|text|n|vs IH|ovs IH|i p fb IHp IHfb] using val_ind'; intros nt ns s t Hl Hc Hw.
  1-8: split; reflexivity.
  - destruct nt as [| | | | | | |e|? ? k]; cbn [erase] in *; try (destruct k); cbn [wt decl_type] in Hw; try contradiction.
    destruct Hl as (t' & -> & Hl). destruct Hw as [_ Hw]. cbn [to_in embed type_of]. split; [|reflexivity]. f_equal. rewrite map_map.
    apply allP_Forall in Hw. apply map_ext_in. intros v Hin. rewrite Forall_forall in IH, Hw. eapply IH; eauto.
  - destruct nt as [| | | | | | |e|? ? k]; cbn [erase wt] in Hw; try contradiction. destruct Hl as ((i & n & -> & _) & _). discriminate.
  - destruct nt as [| | | | | | |e|? ? k]; cbn [erase wt] in Hw; try contradiction. destruct Hl as ((j & n & -> & _) & _). discriminate.
Qed.
Lemma plain_into v nt ns s t depth self e E st : linked u prog ns s t nt -> innermost_custom t = false -> wt DOut v (erase nt) ->
  ev depth ns self e E st = OVal (embed u DOut v nt) E st ->
  ev depth ns self (gen_into t e) E st = OVal (embed u DIn (to_in v (erase nt)) nt) E st.
Proof.
  intros Hl Hc Hw He. unfold gen_into. rewrite Hc. rewrite ev_method by reflexivity. rewrite He. cbn [obind]. rewrite run_nil. cbn [obind].
  destruct (plain_same v nt ns s t Hl Hc Hw) as [-> Ht]. unfold call_into. rewrite Ht. reflexivity.
Qed.
Lemma array_into vs : Forall into_stmt vs -> into_stmt (VArr vs).
Proof.
  intros IH nt ns s t depth self e E st Hl Hw Hd He. destruct (innermost_custom t) eqn:Hc; [|now apply (plain_into _ nt ns s)].
  destruct nt as [| | | | | | |e'|? ? k]; cbn [erase] in *; try (destruct k); cbn [wt decl_type] in Hw; try contradiction.
  destruct Hl as (t' & -> & Hl). destruct Hw as [_ Hw]. apply allP_Forall in Hw. cbn [vdepth] in Hd. apply max_bound in Hd. rewrite Forall_map in Hd.
  unfold gen_into. rewrite Hc. cbn [into_layers embed to_in] in *. rewrite ev_method by reflexivity. rewrite ev_map, ev_method by reflexivity. rewrite He. cbn [obind]. rewrite run_nil.
  cbn [obind call_method of_fres].
  rewrite (map_sim _ _ _ _ _ _ (fun v => embed u DOut v e') (fun v => embed u DIn (to_in v (erase e')) e')).
  - cbn [obind]. rewrite run_nil. cbn [obind call_method of_fres]. now rewrite map_map.
  - intros v Hin. rewrite Forall_forall in IH, Hw, Hd. specialize (IH v Hin e' ns s t' depth self (vr "x") ((txt "x", embed u DOut v e') :: E) st Hl (Hw v Hin) (Hd v Hin)).
    unfold gen_into in IH. cbn [innermost_custom] in Hc. rewrite Hc in IH. apply IH. unfold vr. now rewrite (ev_var _ _ _ _ _ _ _ _ _ _ _ _ (lookup_here _ _ _)).
Qed.
Definition from_field (f : sfield) : expr :=
  let e := EField (vr "message") (field_name u f) in
  match sf_rule f with
  | Asymmetric => ECall (CStd FnSome) [gen_into (sf_type f) e]
  | Optional => EMethod e MMap [EClosure [txt "payload"] (gen_into (sf_type f) (vr "payload"))]
  | Required => gen_into (sf_type f) e
  end.
Definition in_slot (ov : option val) (f : sfield * nty) : rv :=
  slot (always_present DIn (sf_rule (fst f))) (match ov with Some v => Some (embed u DIn (to_in v (erase (snd f))) (snd f)) | None => None end).
Definition from_ok (ns : namespace) (s : sschema) (depth : nat) (ov : option val) (f : sfield * nty) : Prop :=
  linked u prog ns s (sf_type (fst f)) (snd f) /\
  match ov with
  | Some v => into_stmt v /\ wt DOut v (erase (snd f)) /\ (vdepth v <= depth)%nat
  | None => always_present DOut (sf_rule (fst f)) = false
  end.
Lemma from_field_sim ns s depth self tid flds ov f E st : from_ok ns s depth ov f -> self_slot u flds ov f ->
  lookup (txt "message") E = Some (RvStruct tid flds) ->
  ev depth ns self (from_field (fst f)) E st = OVal (in_slot ov f) E st.
Proof.
  intros [Hl Hv] Hs HE. unfold self_slot in Hs. unfold from_field, in_slot. cbv zeta.
  assert (ev depth ns self (EField (vr "message") (field_name u (fst f))) E st = OVal (slot (always_present DOut (sf_rule (fst f))) (match ov with Some v => Some (embed u DOut v (snd f)) | None => None end)) E st) as He.
  { unfold vr. rewrite ev_field, (ev_var _ _ _ _ _ _ _ _ _ _ _ _ HE). cbn [obind field_of_value]. now rewrite Hs. }
  destruct (sf_rule (fst f)) eqn:Er; cbn [always_present slot] in *.
  - destruct ov as [v|]; [|discriminate]. destruct Hv as (IH & Hw & Hd). rewrite ev_std by reflexivity. rewrite run_cons, (IH (snd f) ns s); auto.
  - rewrite ev_map, He. cbn [obind]. destruct ov as [v|]; [|reflexivity]. destruct Hv as (IH & Hw & Hd). rewrite (IH (snd f) ns s); auto. cbn [closed obind]. now drop.
  - destruct ov as [v|]; [|discriminate]. destruct Hv as (IH & Hw & Hd). rewrite (IH (snd f) ns s); auto.
Qed.
Lemma from_fields_sim ns s depth self tid flds ovs : forall fs E st, Forall2 (from_ok ns s depth) ovs fs -> Forall2 (self_slot u flds) ovs fs ->
  lookup (txt "message") E = Some (RvStruct tid flds) ->
  run_list (fun f E s => obind (ev depth ns self (snd f) E s) (fun v E s => OVal (fst f, v) E s)) (map (fun f => (field_name u f, from_field f)) (map fst fs)) E st =
    OVal (map2 (fun ov f => (field_name u (fst f), in_slot ov f)) ovs fs) E st.
Proof.
  induction ovs as [|ov ovs IH]; intros [|f fs] E st H1 H2 HE; inversion H1 as [|? ? ? ? A1 A2]; inversion H2 as [|? ? ? ? B1 B2]; subst; try reflexivity.
  cbn [map]. rewrite run_cons. cbn [fst snd]. rewrite (from_field_sim ns s depth self tid flds ov f E st A1 B1 HE). cbn [obind]. rewrite IH; auto.
Qed.
Lemma struct_from_call ns s name fs ovs depth st : Forall (optP into_stmt) ovs ->
  installed u prog ns s SkStruct name (map fst fs) -> allP (fun f => linked u prog ns s (sf_type (fst f)) (snd f)) fs ->
  wt DOut (VStruct ovs) (TStruct (map erase_field fs)) -> (vdepth (VStruct ovs) <= S depth)%nat ->
  call_into prog (run (S depth)) (embed u DOut (VStruct ovs) (NDecl ns s SkStruct name fs)) st =
    FVal (embed u DIn (to_in (VStruct ovs) (TStruct (map erase_field fs))) (NDecl ns s SkStruct name fs)) st.
Proof.
  intros IH Hi Hl Hw Hd. cbn [wt] in Hw. apply all2P_Forall2 in Hw. apply allP_Forall in Hl. cbn [vdepth] in Hd. apply le_S_n, max_bound in Hd. rewrite Forall_map in Hd.
  assert (length ovs = length fs) as Hlen by exact (Forall2_len _ _ _ Hw).
  assert (Forall2 (from_ok ns s depth) ovs fs) as Hok.
  { clear Hi Hlen. revert ovs Hw IH Hd. induction Hl as [|f fs Hf Hl IHl]; intros ovs Hw IH Hd; inversion Hw as [|ov ? ovs' ? A1 A2]; subst; [constructor|].
    inversion IH as [|? ? B1 B2]; subst. inversion Hd as [|? ? D1 D2]; subst. constructor; [|now apply IHl]. split; [exact Hf|]. destruct ov as [v|]; [|exact A1].
    cbn [erase_field f_type] in A1. cbn [optP] in B1. auto. }
  pose proof (in_fields _ _ _ _ _ _ _ Hi) as Hnf. inversion Hnf as [|? ? Hns Hnf']; subst.
  unfold call_into. cbn [embed type_of direction]. rewrite (in_from _ _ _ _ _ _ _ Hi). cbn [fst snd]. unfold struct_from, from_fn. rewrite run_one, eb_eq, run_nil. cbn [obind].
  set (flds := map2 _ ovs fs).
  change (fun f => (field_name u f, let e := EField (vr "message") (field_name u f) in _)) with (fun f => (field_name u f, from_field f)).
  rewrite ev_struct, (from_fields_sim ns s depth _ (mods u ns, type_name u name SOut) flds ovs fs); auto.
  - cbn [obind scoped fn_result to_in embed direction]. do 2 f_equal. rewrite map2_map_r.
    clear. revert fs. induction ovs as [|ov ovs IH]; intros [|f fs]; cbn [map2]; try reflexivity. rewrite IH. f_equal. unfold in_slot. cbn [erase_field f_type]. destruct ov; reflexivity.
  - unfold flds. exact (slots_lookup u (fun ov f => slot (always_present DOut (sf_rule (fst f))) (match ov with Some v => Some (embed u DOut v (snd f)) | None => None end)) ovs fs Hnf' Hlen).
Qed.
Lemma choice_from_call ns s name fs i p fb depth st : into_stmt p ->
  optP (fun v' => wt DOut v' (TChoice (map erase_field fs)) -> (vdepth v' <= depth)%nat -> forall st,
    call_into prog (run depth) (embed u DOut v' (NDecl ns s SkChoice name fs)) st =
      FVal (embed u DIn (to_in v' (TChoice (map erase_field fs))) (NDecl ns s SkChoice name fs)) st) fb ->
  installed u prog ns s SkChoice name (map fst fs) -> allP (fun f => linked u prog ns s (sf_type (fst f)) (snd f)) fs ->
  wt DOut (VChoice i p fb) (TChoice (map erase_field fs)) -> (vdepth (VChoice i p fb) <= S depth)%nat ->
  call_into prog (run (S depth)) (embed u DOut (VChoice i p fb) (NDecl ns s SkChoice name fs)) st =
    FVal (embed u DIn (to_in (VChoice i p fb) (TChoice (map erase_field fs))) (NDecl ns s SkChoice name fs)) st.
Proof.
  intros IHp IHfb Hi Hl Hw Hd. cbn [wt to_in vdepth] in *. rewrite find_erased in *.
  cbn [embed]. destruct (named_field i fs) as [f|] eqn:Ef; [|contradiction]. destruct Hw as [Hw Hf]. cbn [erase_field f_rule f_type f_index] in *.
  destruct (named_in _ _ _ Ef) as [Hin Hidx]. apply allP_Forall in Hl. rewrite Forall_forall in Hl. specialize (Hl f Hin).
  pose proof (fallback_present f fb _ Hf) as Hfp.
  set (efb := match fb with Some v' => Some (embed u DOut v' (NDecl ns s SkChoice name fs)) | None => None end).
  assert (RvEnum (mods u ns, type_name u name (direction DOut)) (variant_name u (fst f))
    ((if is_unit_sty (sf_type (fst f)) then [] else [embed u DOut p (snd f)]) ++ match fb with Some v' => [embed u DOut v' (NDecl ns s SkChoice name fs)] | None => [] end) =
    case_value u (mods u ns) (type_name u name SOut) f (embed u DOut p (snd f)) efb) as Ev.
  { unfold case_value, efb. destruct fb; reflexivity. }
  rewrite Ev.
  assert ((match efb with Some _ => true | None => false end) = has_fallback_out (fst f)) as Hfp' by (rewrite <- Hfp; unfold efb; destruct fb; reflexivity).
  unfold call_into. unfold case_value at 1. cbn [type_of]. rewrite (in_from _ _ _ _ _ _ _ Hi). cbn [fst snd].
  unfold choice_from, from_fn. rewrite run_one, eb_eq, run_nil. cbn [obind]. unfold vr at 1. rewrite ev_match, (ev_var _ _ _ _ _ _ _ _ _ _ _ _ (lookup_here _ _ _)). cbn [obind]. set (v := case_value _ _ _ _ _ _).
  rewrite <- (app_nil_r (map _ (map fst fs))).
  match goal with |- context [map (fun f0 => Arm (case_out u name false f0) (@?B f0)) (map fst fs) ++ []] =>
    rewrite (select_arm w rounds lim wraps prog (run depth) (mods u ns) (type_name u name SIn) (variant_name u)
       (case_out u name false) B v [(txt "message", v)] st (map fst fs) [] (fst f) (case_env f (embed u DOut p (snd f)) efb)) end.
  2: exact (in_variants _ _ _ _ _ _ _ Hi).
  2: now apply in_map.
  2: intros y _ Hne; now apply case_other.
  2: now apply case_match.
  cbv beta. set (E0 := case_env _ _ _ ++ _).
  assert (forall args vs, run_list (ev depth ns (type_name u name SIn)) args E0 st = OVal vs E0 st ->
    ev depth ns (type_name u name SIn) (con (type_name u name SIn) (variant_name u (fst f)) args) E0 st = OVal (RvEnum (mods u ns, type_name u name SIn) (variant_name u (fst f)) vs) E0 st) as Hcon.
  { intros args vs H. unfold con. destruct args as [|a args]; [cbn in H; injection H as <-; now rewrite ev_variant|]. rewrite ev_con, H. reflexivity. }
  assert (is_unit_sty (sf_type (fst f)) = false -> ev depth ns (type_name u name SIn) (gen_into (sf_type (fst f)) (vr "payload")) E0 st = OVal (embed u DIn (to_in p (erase (snd f))) (snd f)) E0 st) as Hpay.
  { intros Hu. apply (IHp (snd f) ns s); auto; [lia|]. unfold vr. apply ev_var. unfold E0, case_env. rewrite Hu. destruct efb; cbn [app]; lk. }
  rewrite (Hcon _ ((if is_unit_sty (sf_type (fst f)) then [] else [embed u DIn (to_in p (erase (snd f))) (snd f)]) ++
     match sf_rule (fst f), fb with Optional, Some v' => [embed u DIn (to_in v' (TChoice (map erase_field fs))) (NDecl ns s SkChoice name fs)] | _, _ => [] end)).
  - cbn [scoped fn_result embed]. rewrite Ef. unfold direction. destruct (sf_rule (fst f)), fb; reflexivity.
  - rewrite run_list_app.
    assert (run_list (ev depth ns (type_name u name SIn)) (if is_unit_sty (sf_type (fst f)) then [] else [gen_into (sf_type (fst f)) (vr "payload")]) E0 st =
      OVal (if is_unit_sty (sf_type (fst f)) then [] else [embed u DIn (to_in p (erase (snd f))) (snd f)]) E0 st) as ->.
    { destruct (is_unit_sty (sf_type (fst f))); [now rewrite run_nil|]. rewrite run_cons, Hpay by reflexivity. cbn [obind]. rewrite run_nil. reflexivity. }
    cbn [obind]. destruct (sf_rule (fst f)) eqn:Er; try (rewrite run_nil; destruct fb; reflexivity).
    destruct fb as [v'|]; [|discriminate]. destruct Hf as [_ Hf]. cbn [optP] in IHfb.
    assert (lookup (txt "fallback") E0 = Some (embed u DOut v' (NDecl ns s SkChoice name fs))) as L by (unfold E0, case_env, efb; cbn [app]; lk).
    rewrite run_cons, ev_std by reflexivity. rewrite run_cons, ev_method by reflexivity. rewrite ev_paren, ev_deref. unfold vr. rewrite (ev_var _ _ _ _ _ _ _ _ _ _ _ _ L). cbn [obind]. rewrite run_nil. cbn [obind].
    rewrite IHfb by (try exact Hf; lia). cbn [of_fres obind]. rewrite run_nil. cbn [obind call_std of_fres]. rewrite run_nil. reflexivity.
Qed.
Lemma custom_into v : into_call v -> (match v with VStruct _ | VChoice _ _ _ => True | _ => False end) -> into_stmt v.
Proof.
  intros Hc Hv nt ns s t depth self e E st Hl Hw Hd He.
  assert (exists ns2 s2 k name fs, nt = NDecl ns2 s2 k name fs) as (ns2 & s2 & k & name & fs & ->) by (destruct v, nt; cbn [erase wt] in Hw; try contradiction; eauto 6).
  destruct Hl as ((i & n & -> & _) & Hi & Hl). unfold gen_into. cbn [innermost_custom into_layers]. rewrite ev_method by reflexivity. rewrite He. cbn [obind]. rewrite run_nil. cbn [obind].
  rewrite (Hc ns2 s2 k name fs); auto.
Qed.
Theorem into_sim v : into_stmt v /\ into_call v.
Proof.
  induction v as [|b|n|z|b|bs|text|n|vs IH|ovs IH|i p fb IHp IHfb] using val_ind'.
  9: split; [|intros ns s k name fs depth st _ _ Hw; cbn [erase] in Hw; destruct k; cbn [decl_type wt] in Hw; contradiction].
  1-8: split; [|intros ns s k name fs depth st _ _ Hw; cbn [erase] in Hw; destruct k; cbn [decl_type wt] in Hw; contradiction].
  1-8: intros nt ns s t depth self e E st Hl Hw Hd He; apply (plain_into _ nt ns s); auto; destruct nt as [| | | | | | |e'|? ? k]; cbn [erase] in *; try (destruct k); cbn [wt decl_type] in Hw; try contradiction; cbn [linked] in Hl; try (subst t; reflexivity).
  - destruct Hl as (t' & -> & Hl). destruct e' as [| | | | | | |?|? ? [] ? ?]; cbn [erase decl_type] in Hw; try contradiction. cbn [linked] in Hl. subst t'. reflexivity.
  - apply array_into. eapply Forall_impl; [|exact IH]. intros v H. apply H.
  - assert (into_call (VStruct ovs)) as Hc.
    { intros ns s k name fs depth st Hi Hl Hw Hd. cbn [erase] in *. destruct k; cbn [decl_type] in *; [|contradiction].
      destruct depth as [|depth]; [cbn [vdepth] in Hd; lia|]. apply struct_from_call; auto.
      eapply Forall_impl; [|exact IH]. intros [v|] Hv; cbn [optP] in *; [apply Hv|exact I]. }
    split; [|exact Hc]. now apply custom_into.
  - assert (into_call (VChoice i p fb)) as Hc.
    { intros ns s k name fs depth st Hi Hl Hw Hd. cbn [erase] in *. destruct k; cbn [decl_type] in *; [contradiction|].
      destruct depth as [|depth]; [cbn [vdepth] in Hd; lia|]. apply choice_from_call; auto; [apply IHp|].
      destruct fb as [v'|]; cbn [optP] in *; [|exact I]. intros Hw' Hd' st'. destruct IHfb as [_ IHfb].
      exact (IHfb ns s SkChoice name fs depth st' Hi Hl Hw' Hd'). }
    split; [|exact Hc]. now apply custom_into.
Qed.
End From.
