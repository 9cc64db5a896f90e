(** The generated deserialization functions read what the model reads: structs and choices. *)
From Verif Require Import TypesFacts IdentFacts BaseFacts TsPrimFacts RustAtlasFacts RustDeserFacts.
From Verif Require TsDecFacts2.
From Verif Require Export TsDeserSim3.

Section Deser.
Context (rounds : nat) (find : scope -> jcallee -> option (scope * jfn)) (reach : scope -> str -> bool) (u : unicode).
Context (Hg0 : good_scope find reach []) (Hrounds : (9 <= rounds)%nat).
Notation run := (run_jfn rounds find reach).
Notation ev d here := (jeval find reach (run d) here).
Notation ex d here := (jexec rounds find reach (run d) here).
Notation rs d here := (run_stmts (jexec rounds find reach (run d) here)).
Notation tlinked := (tlinked u find reach).
Notation tinstalled := (tinstalled u find reach).
Notation deser_stmt := (deser_stmt rounds find reach u).
Notation field_ready := (field_ready rounds find reach u).
Ltac jfn_call := erewrite callee_fn; [|jlocal|jprelude].
Ltac jget := cbn [get_prop]; repeat match goal with |- context[str_eqb (txt ?a) (txt ?b)] => let r := eval vm_compute in (str_eqb (txt a) (txt b)) in change (str_eqb (txt a) (txt b)) with r end; jop.

(** ** Structs *)
Definition slot_ok (E : jenv) (h : heap) (lo : nat) (slots : list (N * val)) (f : sfield * nty) : Prop :=
  exists m, lookup (tlocal_name u (fst f)) E = Some (SVar m) /\
    match tassoc (sf_index (fst f)) slots with Some v => js_value u DIn h lo v (snd f) m | None => m = JvUndef end.
Lemma missing_ors here d E h lo slots fs : Forall (slot_ok E h lo slots) fs ->
  ev d here (XOrs (map (fun f => XBin None BEq (XVar (tlocal_name u f)) XUndefined) (filter required_field (map fst fs)))) E h =
  ExVal (JvBool (ts_missing (map erase_field fs) slots)) h.
Proof.
  intros H. rewrite jev_ors. unfold ts_missing. induction H as [|f fs (m & Hm & Hv) _ IH]; [reflexivity|]. cbn [map filter existsb].
  unfold required_field at 1. unfold erase_field at 1 2. cbn [f_rule f_index].
  destruct (sf_rule (fst f)); cbn [is_required orb]; try exact IH. cbn [map eval_ors]. rewrite jev_bin by discriminate. rewrite (jev_var _ _ _ _ _ m) by (unfold var; rewrite Hm; reflexivity). cbn [ebind]. rewrite jev_undefined. cbn [ebind apply_op].
  destruct (tassoc (sf_index (fst f)) slots) as [v|].
  - rewrite (js_defined _ _ _ _ _ _ _ Hv). cbn [value_or_stuck ebind orb option_map]. exact IH.
  - subst m. cbn [strict_eq value_or_stuck ebind orb]. reflexivity.
Qed.
Lemma missing_none slots fs : existsb required_field (map fst fs) = false -> ts_missing (map erase_field fs) slots = false.
Proof.
  unfold ts_missing. induction fs as [|f fs IH]; [reflexivity|]. cbn [map existsb]. rewrite orb_false_iff. intros [H1 H2]. rewrite IH by exact H2.
  unfold required_field in H1. unfold erase_field. cbn [f_rule f_index]. destruct (sf_rule (fst f)); try discriminate; reflexivity.
Qed.
Lemma missing_sim here d E h lo slots fs : good_scope find reach here -> clear E -> var (txt "missingFieldsErrorMessage") E = Some (JvText missing_text) -> Forall (slot_ok E h lo slots) fs ->
  rs d here (tmissing_check u (map fst fs)) E h = if ts_missing (map erase_field fs) slots then SoThrow (JvError KOther) E h else SoNext E h.
Proof.
  intros Hg Hc Hm H. unfold tmissing_check. destruct (existsb required_field (map fst fs)) eqn:Er.
  - tsu. rewrite run_stmts_cons, jx_if, jcondition, (missing_ors _ _ _ _ lo slots) by exact H. cbn [ebind as_bool sbind]. destruct (ts_missing (map erase_field fs) slots).
    + jblock. js. cbn [call_new]. jop. reflexivity.
    + js. reflexivity.
  - now rewrite missing_none.
Qed.

Definition deser_function ns s k name (fields : list sfield) : jfn :=
  match k with SkStruct => tstruct_deser u ns s name fields | SkChoice => tchoice_deser u ns s name fields end.
Definition result {A} (x : jres A) (h : heap) (K : A -> jv -> heap -> Prop) (o : jout jv) : Prop :=
  match x with
  | JOk a => exists m h', o = ExVal m h' /\ grows h h' /\ scratch h' /\ K a m h'
  | JRange => exists h', o = ExThrow (JvError KRange) h' /\ grows h h' /\ scratch h'
  | JError => exists h', o = ExThrow (JvError KOther) h' /\ grows h h' /\ scratch h'
  | JFuel => True
  end.
Definition decl_deser ns s k name (fs : list (sfield * nty)) : Prop := forall d h r vo vl bs f psz off,
  let nt := NDecl ns s k name fs in
  reading h r vo vl bs -> (length bs < rounds)%nat -> (jdd (S (length bs)) nt + 3 <= d)%nat ->
  result (ts_decode (erase nt) f psz (mkView bs vo vl) off) h (fun x m h' => js_value u DIn h' (length h) (snd x) nt m)
    (run d (dscope u ns name) (deser_function ns s k name (map fst fs)) [JvView r vo vl] h).

Lemma all_ready ns s k name (fs : list (sfield * nty)) here d bs : Forall (fun f => tlinked here ns s (sf_type (fst f)) (snd f)) fs -> Forall (fun f => deser_stmt (snd f)) fs ->
  (jdd (S (length bs)) (NDecl ns s k name fs) + 3 <= S d)%nat -> Forall (field_ready here ns s d bs) fs.
Proof.
  intros Hl Hf Hd. assert (Forall (fun f => (jdd (S (length bs)) (snd f) <= d - 3)%nat) fs) as Hd'.
  { apply (max_each (fun f => jdd (S (length bs)) (snd f)) fs (d - 3)). cbn [jdd] in Hd. destruct k; lia. }
  assert (3 <= d)%nat by (cbn [jdd] in Hd; destruct k; lia).
  rewrite Forall_forall in *. intros f Hin. split; [auto|]. split; [auto|]. specialize (Hd' f Hin). lia.
Qed.
Lemma struct_deser ns s name fs : tinstalled ns s SkStruct name (map fst fs) ->
  Forall (fun f => tlinked (dscope u ns name) ns s (sf_type (fst f)) (snd f)) fs -> Forall (fun f => deser_stmt (snd f)) fs ->
  decl_deser ns s SkStruct name fs.
Proof.
  intros Hi Hl Hf d h r vo vl bs f psz off nt HR Hr Hd. subst nt. pose proof (ti_scope _ _ _ _ _ _ _ _ Hi) as Hg. pose proof (fields_names find reach u _ _ _ _ _ Hi) as Hn.
  pose proof (ti_indices _ _ _ _ _ _ _ _ Hi) as Hx. rewrite map_map in Hx. destruct d as [|d]; [lia|].
  pose proof (all_ready ns s SkStruct name fs (dscope u ns name) d bs Hl Hf Hd) as Hok.
  cbn [deser_function erase decl_type ts_decode vbuf]. change (map (fun f => mkF (sf_index (fst f)) (sf_rule (fst f)) (erase (snd f))) fs) with (map erase_field fs).
  unfold tstruct_deser, deser_fn. fold (declare_locals' u (map fst fs)). erewrite run_jfn_eq; [|reflexivity|].
  2:{ intros c Hc. apply (gs_reach find reach _ Hg). cbn in Hc. decompose [or] Hc; subst; try contradiction; reflexivity. }
  rewrite (run_block_eq _ _ _ _ _ ((txt "dataViewAlias", SDead true) :: (txt "offset", SDead false) :: locals_frame u (map fst fs))).
  2:{ cbn [app]. rewrite !frame_cons, frame_app, frame_locals', !frame_cons, frame_app. cbn [declared_in jconst jlet map app fst snd].
      replace (block_frame (tmissing_check u (map fst fs))) with (@nil (str * slot)); [cbn; now rewrite app_nil_r|]. unfold tmissing_check. now destruct (existsb _ _). }
  2:{ cbn [app map fst]. rewrite locals_frame_names. apply (locals_different u (map fst fs) [txt "dataView"; txt "dataViewAlias"; txt "offset"]); [now rewrite map_map|repeat constructor; cbn; intuition discriminate|repeat constructor]. }
  cbn [app fst]. tsu. js. rewrite run_stmts_app.
  match goal with |- context [rs d (dscope u ns name) (declare_locals' u _) ?E ?h] =>
    destruct (locals_sim rounds find reach (run d) (dscope u ns name) u (map fst fs) E h) as (E1 & _ & R1 & N1 & L1 & O1) end.
  { now rewrite map_map. }
  { intros g Hg'. do 3 rewrite lookup_skip by reflexivity. now apply lookup_local_frame. }
  rewrite R1. cbn [snext]. rewrite run_stmts_cons, jx_while.
  assert (forall x, match x with c :: _ => c =? 36 | [] => false end = false ->
    lookup x E1 = lookup x ((txt "dataView", SVar (JvView r vo vl)) :: (txt "dataViewAlias", SConst (JvView r vo vl)) :: (txt "offset", SVar (JvNum 0)) :: top_constants)) as O1'.
  { intros x Hx'. rewrite O1 by now apply not_a_local. cbn [lookup]. destruct (str_eqb x _); [reflexivity|]. destruct (str_eqb x _); [reflexivity|]. destruct (str_eqb x _); [reflexivity|]. now apply lookup_not_local. }
  assert (clear E1) as Hc1 by (eapply clear_names; [exact N1|]; repeat (apply clear_cons; [|reflexivity]); now apply clear_locals).
  pose proof (struct_loop rounds find reach u Hg0 Hrounds (dscope u ns name) ns s fs d E1 h r vo vl bs Hg Hn Hx Hok Hc1) as H.
  match type of H with ?P -> _ => assert P as HX by (unfold var; now rewrite O1' by reflexivity); specialize (H HX); clear HX end.
  match type of H with ?P -> _ => assert P as HX by (unfold var; now rewrite O1' by reflexivity); specialize (H HX); clear HX end.
  specialize (H HR Hr). match type of H with ?P -> _ => assert P as HX by (cbn [jdd] in Hd; lia); specialize (H HX); clear HX end.
  specialize (H (S (length bs)) rounds [] 0 E1 h ltac:(lia)).
  match type of H with ?P -> _ => assert P as HX end.
  { constructor; auto.
    - now rewrite O1' by reflexivity.
    - rewrite Forall_forall. intros g Hg'. exists JvUndef. split; [|reflexivity]. apply L1. now apply in_map.
    - apply grows_refl.
    - apply HR. }
  specialize (H HX). clear HX. revert H. match goal with |- outcome ?x ?h ?K ?o -> _ => generalize o; intros oo H end.
  destruct (ts_struct_loop _ _ _ _ _) as [slots| | |]; cbn [outcome jbind result] in H |- *; auto.
  2-3: destruct H as (E' & h' & -> & G & S1); cbn [after_loop snext leave_block jfn_result]; exists h'; auto.
  destruct H as (E2 & h2 & off2 & -> & Hh). cbn [after_loop snext]. rewrite run_stmts_cons, jx_blank. cbn [snext]. rewrite run_stmts_app.
  assert (clear E2) as Hc2 by (eapply clear_names; [apply Hh|exact Hc1]).
  rewrite (missing_sim _ _ _ _ (length h) slots); [|exact Hg|exact Hc2| |apply Hh].
  2:{ unfold var. rewrite (ho_other _ _ _ _ _ _ _ _ Hh) by reflexivity. now rewrite O1' by reflexivity. }
  destruct (ts_missing (map erase_field fs) slots); cbn [result snext].
  - cbn [leave_block jfn_result]. exists h2. split; [reflexivity|]. split; [eapply ho_grows, Hh|eapply ho_scratch, Hh].
  - rewrite run_stmts_cons, jx_return, jev_obj.
    2:{ apply all_different_nodup. unfold tstruct_props. rewrite map_map. cbn [fst]. rewrite map_map. pose proof (props_nodup find reach u ns s SkStruct name fs Hi) as Hp.
        inversion Hp as [|? ? P1 P2]; subst. inversion P2 as [|? ? P3 P4]; subst. constructor; [|exact P4]. intros Hin. apply P1. now right. }
    destruct (props_sim rounds find reach u (dscope u ns name) d E2 h2
      (fun ov f m => match ov with Some v => js_value u DIn h2 (length h) v (snd f) m | None => m = JvUndef end) (map (fun f => tassoc (sf_index (fst f)) slots) fs) fs) as (qs & R3 & K3 & A3); [|exact Hn|].
    { pose proof (ho_fields _ _ _ _ _ _ _ _ Hh) as HF. clear - HF. induction HF as [|f fs (m & Hm & Hv) _ IH]; cbn [map]; constructor; [|exact IH]. exists m. split; [unfold var; now rewrite Hm|].
      destruct (tassoc _ slots); exact Hv. }
    rewrite R3. cbn [ebind sbind snext leave_block jfn_result]. eexists _, h2. split; [reflexivity|]. split; [eapply ho_grows, Hh|]. split; [eapply ho_scratch, Hh|]. cbn [snd js_value].
    exists qs. split; [reflexivity|]. split; [auto|]. apply all2P_F2. rewrite map_map. exact A3.
Qed.

(** ** Choices *)
Definition returns (h : heap) (nt : nty) (v : val) (o : sout) : Prop :=
  exists m h', o = SoReturn m h' /\ grows h h' /\ scratch h' /\ js_value u DIn h' (length h) v nt m.
Lemma returns_grows h h1 nt v o : grows h h1 -> returns h1 nt v o -> returns h nt v o.
Proof. intros G (m & h' & -> & G' & S1 & V). exists m, h'. split; [reflexivity|]. split; [exact (grows_trans _ _ _ G G')|]. split; [exact S1|]. eapply js_value_mono; [apply G| |exact V]. auto. Qed.
Lemma choice_case ns s name fs (f : sfield * nty) i d E h r vo vl bs off sz (rest : view -> jres val) : let here := dscope u ns name in
  tinstalled ns s SkChoice name (map fst fs) -> named_field i fs = Some f ->
  deser_stmt (snd f) -> tlinked here ns s (sf_type (fst f)) (snd f) -> clear E ->
  var (txt "dataViewAlias") E = Some (JvView r vo vl) -> lookup (txt "offset") E = Some (SVar (JvNum off)) -> var (txt "payloadSize") E = Some (JvNum sz) ->
  var (txt "textDecoder") E = Some JvDecoder -> reading h r vo vl bs -> (length bs < rounds)%nat -> (jdd (S (length bs)) (snd f) + 3 <= d)%nat ->
  (forall off2 h1, off2 <= vl -> reading h1 r (vo + off2) (vl - off2) bs ->
     result (rest (mkView bs (vo + off2) (vl - off2))) h1 (fun v m h' => js_value u DIn h' (length h1) v (NDecl ns s SkChoice name fs) m)
       (run d here (tchoice_deser u ns s name (map fst fs)) [JvView r (vo + off2) (vl - off2)] h1)) ->
  outcome (jbind (jbind (new_view bs (vo + off) sz) (fun v' => ts_decode (erase (snd f)) true sz v' 0)) (fun op =>
      match sf_rule (fst f) with
      | Optional => let off2 := fst op + off in
          if vl <? off2 then JRange
          else jbind (new_view bs (vo + off2) (vl - off2)) (fun v2 => jbind (rest v2) (fun fb => JOk (VChoice i (snd op) (Some fb))))
      | _ => JOk (VChoice i (snd op) None)
      end)) h (returns h (NDecl ns s SkChoice name fs)) (run_body (ex d here) (snd (tchoice_deser_case u ns s (fst f))) E h).
Proof.
  intros here Hi Ef He Hk Hc Hv Ho Hsz Ht HR Hr Hd Hfb. subst here. pose proof (ti_scope _ _ _ _ _ _ _ _ Hi) as Hg. unfold tchoice_deser_case. cbn [snd]. rewrite body_braces.
  destruct (named_in _ _ _ Ef) as [Hin _]. destruct (field_reserved find reach u _ _ _ _ _ f Hi Hin) as (N1 & N2 & N3 & N4). 
  assert (str_eqb (tfield_name u (fst f)) (txt "$field") = false) as M3 by now apply str_eqb_neq.
  assert (str_eqb (tfield_name u (fst f)) (txt "$fallback") = false) as M2 by now apply str_eqb_neq.
  set (F := if is_optional (fst f) then [(txt "$fallback", SDead true)] else []).
  rewrite (run_block_eq _ _ _ _ _ ((txt "dataView", SDead true) :: (txt "oldOffset", SDead true) :: (txt "payload", SDead false) :: F));
    [|subst F; rewrite !frame_app, frame_deser; destruct (is_optional (fst f)); reflexivity|subst F; destruct (is_optional (fst f)); reflexivity].
  rewrite app_assoc, run_stmts_app. cbn [app].
  pose proof (payload_sim rounds find reach u (dscope u ns name) ns s f d (F ++ E) h r vo vl bs off sz He Hg Hk) as H.
  assert (forall x, str_eqb x (txt "$fallback") = false -> lookup x (F ++ E) = lookup x E) as HF by (intros x Hx; subst F; destruct (is_optional (fst f)); cbn [app]; [now rewrite lookup_skip|reflexivity]).
  assert (forall x, str_eqb x (txt "$fallback") = false -> var x (F ++ E) = var x E) as HF' by (intros x Hx; unfold var; now rewrite HF).
  match type of H with ?P -> _ => assert P as HX by (subst F; destruct (is_optional (fst f)); jclear); specialize (H HX); rename HX into HcF end.
  rewrite !HF', HF in H by reflexivity. specialize (H Hv Ho Hsz Ht HR Hr Hd). revert H.
  match goal with |- outcome ?x ?h ?K ?o -> _ => generalize o; intros oo H end. apply outcome_bind.
  match goal with |- outcome ?x ?h ?K (leave_block ?n (snext ?o ?f)) => apply (outcome_then x h _ K o (fun o => leave_block n (snext o f))) with (2 := H) end.
  { intros k Hk'. now apply thrown_leave, thrown_snext. }
  clear H. intros [o1 v] _ (m & h1 & -> & G & S1 & V). cbn [fst snd] in *. subst F. unfold is_optional in *. cbn [snext].
  assert (forall E1, var (txt "payload") E1 = Some m ->
    leave_block 3 (rs d (dscope u ns name) [JReturn (XObj true [(txt "$field", Some (XStr (tfield_name u (fst f)))); (tfield_name u (fst f), Some (jx "payload"))])] E1 h1) =
    SoReturn (JvObj [(txt "$field", JvText (tfield_name u (fst f))); (tfield_name u (fst f), m)]) h1) as Hplain.
  { intros E1 H1. rewrite run_stmts_cons, jx_return, jev_obj.
    2:{ apply all_different_nodup. cbn [map fst]. repeat constructor; cbn [In]; intuition (congruence || discriminate). }
    rewrite jev_list_cons. unfold eval_property at 1. cbn [fst snd]. rewrite jev_str. cbn [ebind]. rewrite jev_list_cons. unfold eval_property at 1. cbn [fst snd]. unfold jx. rewrite (jev_var _ _ _ _ _ m) by exact H1. reflexivity. }
  destruct (sf_rule (fst f)) eqn:Er; cbn [app length].
  1,3: cbn [outcome]; rewrite Hplain by jvar; eexists _, h1; split; [reflexivity|]; split; [exact G|]; split; [exact S1|];
    cbn [js_value]; rewrite Ef; eexists; split; [reflexivity|]; rewrite obj_skip, obj_here by exact M3; split; [exact V|]; split; [exact I|]; split; [apply obj_here|reflexivity].
  clear Hplain. tsu. jop. jget. jget. jget. cbn [apply_op].
  destruct (vl <? o1 + off) eqn:El; cbn [call_new new_part].
  { unfold range_error. jop. apply thrown_at; assumption. }
  apply N.ltb_ge in El. pose proof (reading_grows _ _ _ _ _ _ HR G S1) as HR1.
  replace (buffer r h1) with (Some bs) by (symmetry; apply buffer_cell, HR1). unfold new_view. replace (vo + (o1 + off) + (vl - (o1 + off)) <=? lenN bs) with true by (symmetry; apply N.leb_le; pose proof (rd_view _ _ _ _ _ HR); lia).
  cbn [jbind]. jop. erewrite callee_fn; [|jlocal|apply (ti_own _ _ _ _ _ _ _ _ Hi (txt "deserializeUnsafe", tchoice_deser u ns s name (map fst fs))); right; right; left; reflexivity]. cbn [snd].
  assert (reading h1 r (vo + (o1 + off)) (vl - (o1 + off)) bs) as HR2 by (destruct HR1; constructor; auto; lia).
  specialize (Hfb (o1 + off) h1 El HR2). cbn [snd] in Hfb. destruct (rest _) as [fb| | |]; cbn [result outcome jbind] in Hfb |- *; auto.
  2-3: destruct Hfb as (h2 & -> & G2 & S2); jop; apply thrown_at; [exact (grows_trans _ _ _ G G2)|exact S2].
  destruct Hfb as (m2 & h2 & -> & G2 & S2 & V2). jop. rewrite jev_obj.
  2:{ apply all_different_nodup. cbn [map fst]. repeat constructor; cbn [In]; intuition (congruence || discriminate). }
  rewrite jev_list_cons. unfold eval_property at 1. cbn [fst snd]. rewrite jev_str. cbn [ebind]. rewrite jev_list_cons. unfold eval_property at 1. cbn [fst snd]. rewrite (jev_var _ _ _ _ _ m) by jvar. cbn [ebind].
  rewrite jev_list_cons. unfold eval_property at 1. cbn [fst snd].
  do 3 (rewrite var_skip by reflexivity). rewrite var_here. cbn [value_or_stuck slot_value ebind]. jred. rewrite jev_list_nil. jred.
  eexists _, h2. split; [reflexivity|]. split; [exact (grows_trans _ _ _ G G2)|]. split; [exact S2|]. cbn [js_value]. rewrite Ef.
  eexists. split; [reflexivity|]. rewrite obj_skip, obj_here by exact M3. pose proof (scratch_pos _ (rd_scratch _ _ _ _ _ HR)) as P0. split; [|split; [|split; [apply obj_here|reflexivity]]].
  - eapply js_value_grows; [exact G2|exact P0|exact V].
  - rewrite obj_skip by reflexivity. rewrite obj_skip by (rewrite str_eqb_sym; exact M2). rewrite obj_here. eapply js_value_mono; [apply G| |exact V2]. auto.
Qed.

Definition choice_decoders (fs : list (sfield * nty)) : list (N * (rule * tdecoder)) :=
  map (fun f => (f_index f, (f_rule f, ts_decode (f_type f) true))) (map erase_field fs).
Lemma choice_decoder i fs : tassoc i (choice_decoders fs) = match named_field i fs with Some f => Some (sf_rule (fst f), ts_decode (erase (snd f)) true) | None => None end.
Proof. unfold choice_decoders. rewrite TsDecFacts2.tassoc_fields, find_erased. now destruct (named_field i fs). Qed.
Definition fields_depth (bs : bytes) (fs : list (sfield * nty)) : nat := fold_right Nat.max O (map (fun f => jdd (S (length bs)) (snd f)) fs).
Definition loop_stmt ns s name fs bs n : Prop := forall k off E h d r vo vl, (n <= k)%nat -> clear E ->
  var (txt "dataViewAlias") E = Some (JvView r vo vl) -> lookup (txt "offset") E = Some (SVar (JvNum off)) -> var (txt "textDecoder") E = Some JvDecoder ->
  reading h r vo vl bs -> (n + fields_depth bs fs + 3 <= d)%nat ->
  outcome (ts_choice_loop n (choice_decoders fs) (mkView bs vo vl) off) h (returns h (NDecl ns s SkChoice name fs))
    (run_while (condition find reach (run d) (dscope u ns name) (XBool true)) (run_block (ex d (dscope u ns name)) [] (tchoice_loop u ns s (map fst fs))) k E h).
Lemma choice_fn ns s name fs bs n d h r vo vl : tinstalled ns s SkChoice name (map fst fs) -> loop_stmt ns s name fs bs n -> reading h r vo vl bs -> (n <= rounds)%nat -> (n + fields_depth bs fs + 4 <= d)%nat ->
  result (ts_choice_loop n (choice_decoders fs) (mkView bs vo vl) 0) h (fun v m h' => js_value u DIn h' (length h) v (NDecl ns s SkChoice name fs) m)
    (run d (dscope u ns name) (tchoice_deser u ns s name (map fst fs)) [JvView r vo vl] h).
Proof.
  intros Hi HL HR Hr Hd. destruct d as [|d]; [lia|]. pose proof (ti_scope _ _ _ _ _ _ _ _ Hi) as Hg. unfold tchoice_deser, deser_fn. tsu. jenter. js. 
  rewrite jx_while.
  match goal with |- context [run_while _ _ rounds ?E ?h] => pose proof (HL rounds 0 E h d r vo vl Hr) as H end.
  match type of H with ?P -> _ => assert P as HX by jclear; specialize (H HX); clear HX end.
  specialize (H eq_refl eq_refl eq_refl HR ltac:(lia)). revert H. match goal with |- outcome ?x ?h ?K ?o -> _ => generalize o; intros oo H end.
  destruct (ts_choice_loop _ _ _ _) as [v| | |]; cbn [outcome result] in H |- *; auto.
  - destruct H as (m & h' & -> & H). exists m, h'. split; [reflexivity|exact H].
  - destruct H as (E' & h' & -> & H). exists h'. split; [reflexivity|exact H].
  - destruct H as (E' & h' & -> & H). exists h'. split; [reflexivity|exact H].
Qed.
Lemma choice_loop ns s name fs bs : tinstalled ns s SkChoice name (map fst fs) -> Forall (fun f => tlinked (dscope u ns name) ns s (sf_type (fst f)) (snd f)) fs ->
  Forall (fun f => deser_stmt (snd f)) fs -> (length bs < rounds)%nat -> forall n, (n <= rounds)%nat -> loop_stmt ns s name fs bs n.
Proof.
  intros Hi Hl Hf Hr. pose proof (ti_scope _ _ _ _ _ _ _ _ Hi) as Hg. induction n as [|n IH]; intros Hnr k off E h d r vo vl Hk Hc Hv Ho Ht HR Hd; [exact I|]. destruct k as [|k]; [lia|]. cbn [ts_choice_loop vbuf voff vlen].
  specialize (IH ltac:(lia)). assert (var (txt "offset") E = Some (JvNum off)) as Ho' by (unfold var; now rewrite Ho).
  rewrite while_step. unfold tchoice_loop at 1. tsu. js. jblock. js.
  destruct d as [|[|[|d]]]; [lia|lia|lia|]. jfn_call.
  pose proof (call_deserialize_header rounds find reach Hg0 Hrounds d r vo vl bs off h (rd_new _ _ _ _ _ HR) (rd_cell _ _ _ _ _ HR) (rd_bytes _ _ _ _ _ HR) (rd_scratch _ _ _ _ _ HR)) as HV.
  destruct (ts_deserialize_header (mkView bs vo vl) off) as [[[o1 i] sz]| | |]; cbn [read_result] in HV; try contradiction; destruct HV as (h1 & S1 & R); rewrite R; clear R; cbn [jbind].
  2:{ jop. apply scratched_thrown; [apply HR|exact S1]. }
  unfold header_value. cbn [fst snd]. jop. rewrite choice_decoder.
  pose proof (reading_scratched _ _ _ _ _ _ HR S1) as HR1. pose proof (grows_scratched _ _ S1) as G1.
  match goal with |- context [run_cases _ _ _ skip_unknown false _ ?E1 h1] =>
    pose proof (cases_pick rounds find reach (S (S (S d))) (dscope u ns name) (tchoice_deser_case u ns s) skip_unknown i E1 h1 (fun _ => eq_refl) fs) as HP end.
  destruct (named_field i fs) as [f|] eqn:Ef.
  2:{ rewrite HP. unfold skip_unknown. tsu. rewrite body_plain by reflexivity. jop. rewrite !update_twice. apply outcome_imp with (K := returns h1 (NDecl ns s SkChoice name fs)).
      - eapply outcome_grows; [exact G1|]. apply (IH k (o1 + sz) (update (txt "offset") (SVar (JvNum (o1 + sz))) E) h1 (S (S (S d))) r vo vl); [lia|jclear|jvar|jlk|jvar|exact HR1|lia].
      - intros v _ H. eapply returns_grows; [exact G1|exact H]. }
  destruct (named_in _ _ _ Ef) as [Hin _]. rewrite Forall_forall in Hf, Hl. specialize (Hf f Hin). specialize (Hl f Hin).
  assert (jdd (S (length bs)) (snd f) <= fields_depth bs fs)%nat as Hdf.
  { pose proof (max_each (fun f => jdd (S (length bs)) (snd f)) fs (fields_depth bs fs) (le_n _)) as HM. rewrite Forall_forall in HM. now apply HM. }
  match type of HP with stops (run_body _ _ ?E1 h1) -> _ => pose proof (choice_case ns s name fs f i (S (S (S d))) E1 h1 r vo vl bs o1 sz (fun v => ts_choice_loop n (choice_decoders fs) v 0) Hi Ef Hf Hl) as HS end.
  match type of HS with ?P -> _ => assert P as HX by jclear; specialize (HS HX); clear HX end.
  match type of HS with ?P -> _ => assert P as HX by jvar; specialize (HS HX); clear HX end.
  match type of HS with ?P -> _ => assert P as HX by jlk; specialize (HS HX); clear HX end.
  match type of HS with ?P -> _ => assert P as HX by jvar; specialize (HS HX); clear HX end.
  match type of HS with ?P -> _ => assert P as HX by jvar; specialize (HS HX); clear HX end.
  specialize (HS HR1 Hr ltac:(lia)).
  match type of HS with ?P -> _ => assert P as HX by (intros off2 h2 _ HR2; apply (choice_fn ns s name fs bs n); [exact Hi|exact IH|exact HR2|lia|lia]); specialize (HS HX); clear HX end.
  match goal with |- outcome (jbind ?a (fun v => jbind (@?b v) ?c)) _ _ _ => replace (jbind a (fun v => jbind (b v) c)) with (jbind (jbind a b) c) by (destruct a; reflexivity) end. cbv beta.
  cbv zeta in HS |- *. revert HS. match goal with |- outcome ?x _ _ _ -> outcome ?y _ _ _ => change y with x; destruct x as [v| | |] end; cbn [outcome]; auto; intros HS.
  - destruct HS as (m & h2 & R & HS). rewrite R in HP. rewrite (HP I). jop. apply (returns_grows h h1); [exact G1|]. exists m, h2. split; [reflexivity|exact HS].
  - rewrite (HP (thrown_stops _ _ _ HS)); destruct HS as (E' & h' & -> & G2 & S2); jop; apply thrown_at; [exact (grows_trans _ _ _ G1 G2)|exact S2].
  - rewrite (HP (thrown_stops _ _ _ HS)); destruct HS as (E' & h' & -> & G2 & S2); jop; apply thrown_at; [exact (grows_trans _ _ _ G1 G2)|exact S2].
Qed.
Lemma choice_deser ns s name fs : tinstalled ns s SkChoice name (map fst fs) ->
  Forall (fun f => tlinked (dscope u ns name) ns s (sf_type (fst f)) (snd f)) fs -> Forall (fun f => deser_stmt (snd f)) fs ->
  decl_deser ns s SkChoice name fs.
Proof.
  intros Hi Hl Hf d h r vo vl bs f psz off nt HR Hr Hd. subst nt. cbn [jdd] in Hd.
  pose proof (choice_fn ns s name fs bs (S (length bs)) d h r vo vl Hi (choice_loop ns s name fs bs Hi Hl Hf Hr (S (length bs)) Hr) HR Hr ltac:(unfold fields_depth; lia)) as H.
  cbn [deser_function erase decl_type ts_decode vbuf vlen]. change (map (fun f => mkF (sf_index (fst f)) (sf_rule (fst f)) (erase (snd f))) fs) with (map erase_field fs). fold (choice_decoders fs).
  destruct (ts_choice_loop _ _ _ _) as [v| | |]; exact H.
Qed.

(** ** All *)
Lemma decode_end k fs f psz v off o1 x : ts_decode (decl_type k fs) f psz v off = JOk (o1, x) -> o1 = vlen v.
Proof.
  destruct k; cbn [decl_type ts_decode].
  - destruct (ts_struct_loop _ _ _ _ _) as [sl| | |]; cbn [jbind]; try discriminate. destruct (ts_missing _ _); [discriminate|]. congruence.
  - destruct (ts_choice_loop _ _ _ _) as [y| | |]; cbn [jbind]; try discriminate. congruence.
Qed.
Lemma custom_deser ns2 s2 k name fs : (tinstalled ns2 s2 k name (map fst fs) -> Forall (fun f => tlinked (dscope u ns2 name) ns2 s2 (sf_type (fst f)) (snd f)) fs -> decl_deser ns2 s2 k name fs) ->
  deser_stmt (NDecl ns2 s2 k name fs).
Proof.
  intros H here ns s t f psz d E h r vo vl bs off Hg Hk Hc Hp Hv Ho Hs Ht HR Hr Hd. cbn [TsValue.tlinked] in Hk. destruct Hk as ((i & n & y & p & -> & Hy & Hl & Hfind) & Hi & Hfs).
  apply allP_Forall in Hfs. specialize (H Hi Hfs d h r vo vl bs f psz off HR Hr Hd). cbv zeta in H.
  cbn [tgen_deser]. unfold to_end. tsu. js. rewrite Hy. erewrite callee_path; [|apply clear_not_local; [exact Hc|exact Hl]|].
  2:{ apply (Hfind (txt "deserializeUnsafe", deser_function ns2 s2 k name (map fst fs))). right. right. left. reflexivity. }
  cbn [snd]. destruct (ts_decode _ _ _ _ _) as [[o1 v]| | |] eqn:Ed; cbn [result outcome fst snd] in H |- *; auto.
  2-3: destruct H as (h' & -> & G & S1); jop; now apply thrown_at.
  destruct H as (m & h' & -> & G & S1 & V). jop. jget.
  apply decode_end in Ed. cbn [vlen] in Ed. subst o1. exists m, h'. unfold updated. rewrite (update_comm (txt "offset")) by reflexivity. auto.
Qed.
Theorem deser_sim nt : deser_stmt nt /\
  match nt with
  | NDecl ns s k name fs => tinstalled ns s k name (map fst fs) -> Forall (fun f => tlinked (dscope u ns name) ns s (sf_type (fst f)) (snd f)) fs -> decl_deser ns s k name fs
  | _ => True
  end.
Proof.
  induction nt as [| | | | | | |e IH|ns s k name fs IH] using nty_ind'.
  1-7: split; [|exact I].
  - now apply unit_deser. - now apply small_deser, f64_small. - now apply small_deser, u64_small. - now apply small_deser, s64_small. - now apply small_deser, bool_small. - now apply bytes_deser. - now apply string_deser.
  - split; [|exact I]. apply array_deser; auto. apply IH.
  - assert (Forall (fun f => deser_stmt (snd f)) fs) as IH' by (eapply Forall_impl; [|exact IH]; intros f H; apply H).
    assert (tinstalled ns s k name (map fst fs) -> Forall (fun f => tlinked (dscope u ns name) ns s (sf_type (fst f)) (snd f)) fs -> decl_deser ns s k name fs) as Hc.
    { intros Hi Hl. destruct k; [now apply struct_deser|now apply choice_deser]. }
    split; [now apply custom_deser|exact Hc].
Qed.
End Deser.
