(** The generated [atlas] functions, called. *)
From Verif Require Import TypesFacts IdentFacts BaseFacts TsPrimFacts RustAtlasFacts.
From Verif Require Export TsAtlasFacts2.

(** ** Frames of functions on structs *)
Definition locals_frame (u : unicode) (fs : list sfield) : jenv := map (fun f => (tlocal_name u f, SDead false)) fs.
Definition declare_locals (u : unicode) (fields : list sfield) : list jstmt := match fields with [] => [] | _ => [JBlank; tstruct_locals u fields] end.
Definition declare_locals' (u : unicode) (fields : list sfield) : list jstmt := match fields with [] => [] | _ => [tstruct_locals u fields; JBlank] end.
Lemma locals_frame_names u fs : map fst (locals_frame u fs) = map (tlocal_name u) fs.
Proof. unfold locals_frame. now rewrite map_map. Qed.
Lemma frame_locals u fs : block_frame (declare_locals u fs) = locals_frame u fs.
Proof.
  destruct fs as [|f fs]; [reflexivity|]. unfold declare_locals, tstruct_locals. rewrite frame_cons, frame_cons. cbn [declared_in map app].
  rewrite app_nil_r. unfold locals_frame. cbn [map fst snd]. now rewrite !map_map.
Qed.
Lemma frame_locals' u fs : block_frame (declare_locals' u fs) = locals_frame u fs.
Proof.
  destruct fs as [|f fs]; [reflexivity|]. unfold declare_locals', tstruct_locals. rewrite frame_cons, frame_cons. cbn [declared_in map app].
  rewrite app_nil_r. unfold locals_frame. cbn [map fst snd]. now rewrite !map_map.
Qed.
Lemma lookup_local_frame u fs f E : In f fs -> lookup (tlocal_name u f) (locals_frame u fs ++ E) = Some (SDead false).
Proof.
  intros H. induction fs as [|g fs IH]; [destruct H|]. unfold locals_frame. cbn [map app lookup]. destruct (str_eqb _ _) eqn:Eq; [reflexivity|].
  destruct H as [->|H]; [now rewrite str_eqb_refl in Eq|now apply IH].
Qed.
Lemma local_prefix u f : exists x, tlocal_name u f = 36 :: x.
Proof. unfold tlocal_name. cbn. eauto. Qed.
Lemma not_a_local u x fs : match x with c :: _ => c =? 36 | [] => false end = false -> ~ In x (map (tlocal_name u) fs).
Proof. intros H Hin. apply in_map_iff in Hin as (f & E & _). destruct (local_prefix u f) as (y & Ey). rewrite Ey in E. subst x. now rewrite N.eqb_refl in H. Qed.
Lemma locals_different u fs xs : NoDup (map (tfield_name u) fs) -> NoDup xs -> Forall (fun x => match x with c :: _ => c =? 36 | [] => false end = false) xs ->
  all_different (xs ++ map (tlocal_name u) fs) = true.
Proof.
  intros H1 H2 H3. apply all_different_nodup. induction H2 as [|x xs Hx H2 IH]; cbn [app]; [now apply locals_nodup|]. inversion H3 as [|? ? H4 H5]; subst.
  constructor; [|now apply IH]. intros Hin. apply in_app_or in Hin as [Hin|Hin]; [contradiction|]. eapply not_a_local; eassumption.
Qed.
Lemma clear_locals u fs E : clear E -> clear (locals_frame u fs ++ E).
Proof. intros H. apply clear_app; [|exact H]. unfold locals_frame. apply forallb_forall. intros b Hb. apply in_map_iff in Hb as (f & <- & _). destruct (local_prefix u f) as (y & Ey). cbn [fst]. rewrite Ey. reflexivity. Qed.
Lemma lookup_not_local u x fs E : match x with c :: _ => c =? 36 | [] => false end = false -> lookup x (locals_frame u fs ++ E) = lookup x E.
Proof. intros H. rewrite lookup_app, lookup_none; [reflexivity|]. rewrite locals_frame_names. now apply not_a_local. Qed.
Lemma locals_sim rounds find reach call here u fs E h : NoDup (map (tfield_name u) fs) -> (forall f, In f fs -> lookup (tlocal_name u f) E = Some (SDead false)) ->
  exists E', run_stmts (jexec rounds find reach call here) (declare_locals u fs) E h = SoNext E' h /\
    run_stmts (jexec rounds find reach call here) (declare_locals' u fs) E h = SoNext E' h /\ map fst E' = map fst E /\
    (forall f, In f fs -> lookup (tlocal_name u f) E' = Some (SVar JvUndef)) /\ (forall y, ~ In y (map (tlocal_name u) fs) -> lookup y E' = lookup y E).
Proof.
  intros Hn HE. destruct (lets_sim (map (tlocal_name u) fs) (locals_nodup _ _ Hn) E) as (E' & R & H1 & H2 & H3).
  { intros x Hx. apply in_map_iff in Hx as (f & <- & Hf). now apply HE. }
  exists E'. assert (forall f, In f fs -> lookup (tlocal_name u f) E' = Some (SVar JvUndef)) as H2' by (intros f Hf; now apply H2, in_map).
  destruct fs as [|f fs]; [cbn in *; injection R as <-; auto|]. unfold declare_locals, declare_locals', tstruct_locals.
  repeat (rewrite run_stmts_cons || rewrite run_stmts_nil || rewrite jx_blank || rewrite jx_lets || (rewrite R; cbn [next_env]) || cbn [snext]). auto.
Qed.

Section Atlas.
Context (rounds : nat) (find : scope -> jcallee -> option (scope * jfn)) (reach : scope -> str -> bool) (u : unicode).
Context (Hg0 : good_scope find reach []).
Notation run := (run_jfn rounds find reach).
Notation ev d here := (jeval find reach (run d) here).
Notation ex d here := (jexec rounds find reach (run d) here).
Notation rs d here := (run_stmts (jexec rounds find reach (run d) here)).
Notation tlinked := (tlinked u find reach).
Notation tinstalled := (tinstalled u find reach).
Notation atlas_stmt := (atlas_stmt rounds find reach u).
Ltac jfn_call := erewrite callee_fn; [|jlocal|jprelude].

Lemma frame_atlas_fields ns s fs : block_frame (flat_map (tstruct_atlas_field u ns s) fs) = [].
Proof. induction fs as [|f fs IH]; [reflexivity|]. cbn [flat_map]. rewrite frame_app, IH. reflexivity. Qed.
Lemma fields_names ns s k name (fs : list (sfield * nty)) : tinstalled ns s k name (map fst fs) -> NoDup (map (fun f => tfield_name u (fst f)) fs).
Proof. intros H. apply ti_fields in H. cbn [map app] in H. do 4 (inversion H as [|? ? ? H']; subst; clear H; rename H' into H). now rewrite map_map in H. Qed.

Lemma props_nodup ns s k name (fs : list (sfield * nty)) : tinstalled ns s k name (map fst fs) ->
  NoDup (txt "__proto__" :: txt "$size" :: map (fun f => tfield_name u (fst f)) fs).
Proof.
  intros H. apply ti_fields in H. cbn [map app] in H. rewrite map_map in H.
  inversion H as [|? ? A1 H1]; subst. inversion H1 as [|? ? A2 H2]; subst. inversion H2 as [|? ? A3 H3]; subst. inversion H3 as [|? ? A4 H4]; subst.
  constructor; [|constructor; [|exact H4]].
  - intros [E|K]; [discriminate|contradiction].
  - intros K. apply A1. cbn [In]. auto.
Qed.
Lemma field_reserved ns s k name (fs : list (sfield * nty)) f : tinstalled ns s k name (map fst fs) -> In f fs ->
  tfield_name u (fst f) <> txt "$size" /\ tfield_name u (fst f) <> txt "$fallback" /\ tfield_name u (fst f) <> txt "$field" /\ tfield_name u (fst f) <> txt "__proto__".
Proof.
  intros H Hf. apply ti_fields in H. cbn [map app] in H. apply (in_map (fun f => tfield_name u (fst f))) in Hf. rewrite map_map in H.
  inversion H as [|? ? A1 H1]; subst. inversion H1 as [|? ? A2 H2]; subst. inversion H2 as [|? ? A3 H3]; subst. inversion H3 as [|? ? A4 H4]; subst.
  repeat split; intros Eq; rewrite Eq in Hf; [apply A1|apply A2|apply A3|apply A4]; cbn [In]; auto.
Qed.

Definition decl_atlas ns s k name (fs : list (sfield * nty)) v : Prop := forall d h m,
  wt DOut v (erase (NDecl ns s k name fs)) -> js_value u DOut h 1 v (NDecl ns s k name fs) m -> (0 < length h)%nat -> (vdepth v + 2 <= d)%nat -> (vwidth v < rounds)%nat ->
  exists a h', run d (dscope u ns name) (match k with SkStruct => tstruct_atlas u ns s name (map fst fs) | SkChoice => tchoice_atlas u ns s name (map fst fs) end) [m] h = ExVal a h' /\
    grows h h' /\ js_atlas u h' (length h) (ts_atlas true v (erase (NDecl ns s k name fs))) (NDecl ns s k name fs) a.

Lemma struct_atlas ns s name fs ovs : tinstalled ns s SkStruct name (map fst fs) ->
  Forall (fun f => tlinked (dscope u ns name) ns s (sf_type (fst f)) (snd f)) fs -> Forall (optP atlas_stmt) ovs ->
  decl_atlas ns s SkStruct name fs (VStruct ovs).
Proof.
  intros Hi Hl IH d h m Hw Hv Hh Hd Hr. pose proof (ti_scope _ _ _ _ _ _ _ _ Hi) as Hg. pose proof (fields_names _ _ _ _ _ Hi) as Hn.
  cbn [vdepth vwidth erase decl_type wt js_value] in *. destruct Hv as (ps & -> & _ & Hv). apply all2P_F2 in Hw. apply all2P_F2 in Hv. destruct d as [|d]; [lia|].
  change (fun f => mkF (sf_index (fst f)) (sf_rule (fst f)) (erase (snd f))) with erase_field in *.
  assert (Forall2 (field_ok rounds find reach u (dscope u ns name) ns s d) ovs fs) as Hok.
  { clear Hv Hn Hi Hh. assert (Forall (fun ov => match ov with Some v => (vdepth v + 2 <= d)%nat | None => True end) ovs) as Hd'.
    { eapply Forall_impl; [|apply (max_each (fun ov => match ov with Some v => vdepth v | None => O end) ovs (d - 2)); lia]. intros [v|]; cbn beta iota; lia || auto. }
    assert (Forall (fun ov => match ov with Some v => (vwidth v < rounds)%nat | None => True end) ovs) as Hr'.
    { eapply Forall_impl; [|apply (max_each_lt (fun ov => match ov with Some v => vwidth v | None => O end) ovs rounds); exact Hr]. intros [v|]; cbn beta iota; lia || auto. }
    clear Hd Hr. revert ovs Hw IH Hd' Hr'. induction Hl as [|f fs Hf Hl IHl]; intros ovs Hw IH Hd' Hr'; cbn [map] in Hw; inversion Hw as [|ov ? ovs' ? W1 W2]; subst; constructor.
    - inversion IH; subst. inversion Hd'; subst. inversion Hr'; subst. split; [exact Hf|]. destruct ov as [v|]; [cbn [optP erase_field f_type] in *; auto|].
      cbn [erase_field f_rule always_present] in W1. unfold is_optional. now destruct (sf_rule (fst f)).
    - inversion IH; subst. inversion Hd'; subst. inversion Hr'; subst. apply IHl; auto. }
  unfold tstruct_atlas, atlas_fn. fold (declare_locals u (map fst fs)). erewrite run_jfn_eq; [|reflexivity|].
  2:{ intros c Hc. apply (gs_reach find reach _ Hg). cbn in Hc. decompose [or] Hc; subst; try contradiction; reflexivity. }
  rewrite (run_block_eq _ _ _ _ _ ((txt "size", SDead false) :: locals_frame u (map fst fs))).
  2:{ cbn [app]. rewrite frame_cons, frame_app, frame_locals, frame_app, frame_atlas_fields. cbn. now rewrite app_nil_r. }
  2:{ cbn [app map fst]. rewrite locals_frame_names. apply (locals_different u (map fst fs) [txt "message"; txt "size"]); [now rewrite map_map|repeat constructor; cbn; intuition discriminate|repeat constructor]. }
  rewrite <- app_assoc. cbn [app]. unfold jlet at 1, num. rewrite run_stmts_cons, jx_let, jev_num. cbn [sbind]. jstep. jred. rewrite update_skip, update_here by reflexivity.
  rewrite run_stmts_app.
  destruct (locals_sim rounds find reach (run d) (dscope u ns name) u (map fst fs) ((txt "message", SVar (JvObj ps)) :: (txt "size", SVar (JvNum 0)) :: locals_frame u (map fst fs) ++ top_constants) h)
    as (E1 & R1 & _ & N1 & L1 & O1).
  { now rewrite map_map. }
  { intros f Hf. do 2 rewrite lookup_skip by reflexivity. now apply lookup_local_frame. }
  rewrite R1. cbn [snext]. rewrite run_stmts_app.
  assert (forall x, match x with c :: _ => c =? 36 | [] => false end = false -> lookup x E1 = lookup x ((txt "message", SVar (JvObj ps)) :: (txt "size", SVar (JvNum 0)) :: top_constants)) as O1'.
  { intros x Hx. rewrite O1 by now apply not_a_local. cbn [lookup]. destruct (str_eqb x _); [reflexivity|]. destruct (str_eqb x _); [reflexivity|]. now apply lookup_not_local. }
  destruct (fields_sim rounds find reach u Hg0 (dscope u ns name) ns s d ps Hg ovs fs Hok) with (E := E1) (h := h) (n := 0) as (E2 & h2 & R2 & G2 & S2 & O2 & A2).
  { rewrite <- map_map. apply locals_nodup. now rewrite map_map. }
  { exact Hv. }
  { exact Hh. }
  { eapply clear_names; [exact N1|]. apply clear_cons; [apply clear_cons; [now apply clear_locals|reflexivity]|reflexivity]. }
  { unfold var. now rewrite O1' by reflexivity. }
  { now rewrite O1' by reflexivity. }
  { unfold var. now rewrite O1' by reflexivity. }
  { rewrite Forall_forall. intros f Hf. apply L1. now apply in_map. }
  rewrite R2. cbn [snext]. rewrite run_stmts_cons, jx_blank. cbn [snext]. rewrite run_stmts_cons, jx_return, jev_obj.
  2:{ apply all_different_nodup. cbn [map fst]. unfold tstruct_props. rewrite map_map. cbn [fst]. rewrite map_map. now apply props_nodup with (ns := ns) (s := s) (k := SkStruct) (name := name). }
  rewrite jev_list_cons. unfold eval_property at 1. cbn [fst snd]. unfold jx at 1. erewrite jev_var by (unfold var; rewrite S2; reflexivity). cbn [ebind].
  destruct (props_sim rounds find reach u (dscope u ns name) d E2 h2 (field_atlas u h2 (length h)) ovs fs) as (qs & R3 & K3 & A3); [|exact Hn|].
  { eapply Forall2_imp; [|exact A2]. cbn beta. intros ov f (a & L & A). exists a. split; [|exact A]. unfold var. now rewrite L. }
  rewrite R3. cbn [ebind sbind snext leave_block jfn_result]. eexists _, h2. split; [reflexivity|]. split; [exact G2|].
  cbn [ts_atlas js_atlas]. exists qs. split; [|split; [exact K3|]].
  - do 4 f_equal. rewrite fold_add, map2_map_l, map2_map_r, !N.add_0_l. reflexivity.
  - apply all2P_F2. rewrite map2_map_r. clear - A3. induction A3 as [|ov f ovs fs H _ IH]; cbn [map2]; constructor; [|exact IH].
    destruct ov as [v|]; exact H.
Qed.

(** ** Choices *)
Lemma decl_size ns s k name fs v h lo m : wt DOut v (erase (NDecl ns s k name fs)) -> js_atlas u h lo (ts_atlas true v (erase (NDecl ns s k name fs))) (NDecl ns s k name fs) m ->
  exists ps, m = JvObj ((txt "$size", JvNum (jlookup (ts_atlas true v (erase (NDecl ns s k name fs))))) :: ps).
Proof.
  intros Hw Ha. destruct k; cbn [erase decl_type] in *.
  - destruct v; cbn [wt] in Hw; try contradiction. cbn [ts_atlas js_atlas jlookup] in *. destruct Ha as (ps & -> & _). eauto.
  - destruct v as [| | | | | | | | | |j q fb]; cbn [wt] in Hw; try contradiction. cbn [ts_atlas] in *. destruct (find_field j _) as [g|] eqn:Ef; [|contradiction].
    change (fun f => mkF (sf_index (fst f)) (sf_rule (fst f)) (erase (snd f))) with erase_field in *. rewrite find_erased in Ef. destruct (named_field j fs) as [g'|] eqn:En; [|discriminate].
    destruct Hw as [_ Hw]. destruct (f_rule g), fb as [v'|]; cbn [has_fallback] in Hw; try discriminate; try (destruct Hw; discriminate);
      cbn [js_atlas jlookup] in *; rewrite En in Ha; destruct Ha as (mp & mf & -> & _); cbn [app]; eauto.
Qed.
Lemma pick_case d here (case : sfield -> jstmt) body : (forall g, case g = JIf [(XIn (tfield_name u g) (XVar (txt "message")), body g)] None) ->
  forall (fs : list (sfield * nty)) f rest E h ps r h', In f fs -> NoDup (map (fun f => tfield_name u (fst f)) fs) -> var (txt "message") E = Some (JvObj ps) ->
  (forall g, In g fs -> obj_has ps (tfield_name u (fst g)) = str_eqb (tfield_name u (fst g)) (tfield_name u (fst f))) ->
  run_block (ex d here) [] (body (fst f)) E h = SoReturn r h' ->
  rs d here (map case (map fst fs) ++ rest) E h = SoReturn r h'.
Proof.
  intros Hcase. induction fs as [|g fs IH]; intros f rest E h ps r h' Hf Hn Hm Hh R; [destruct Hf|]. cbn [map app] in *. inversion Hn as [|? ? N1 N2]; subst.
  rewrite Hcase. js. rewrite Hh by now left. cbn [as_bool ebind sbind]. destruct Hf as [->|Hf].
  - rewrite str_eqb_refl, R. reflexivity.
  - rewrite str_eqb_neq; [|intros Eq; apply N1; rewrite Eq; now apply (in_map (fun f => tfield_name u (fst f)))]. js. eapply IH; eauto. intros g' Hg'. apply Hh. now right.
Qed.
Lemma frame_cases (case : sfield -> jstmt) fs : (forall g, declared_in (case g) = []) -> block_frame (map case fs ++ [return_unreachable]) = [].
Proof. intros H. rewrite frame_app. unfold block_frame. replace (flat_map declared_in (map case fs)) with (@nil (str * bool)); [reflexivity|]. induction fs as [|f fs IH]; cbn [map flat_map]; [reflexivity|]. now rewrite H, <- IH. Qed.

Lemma choice_atlas ns s name fs i p fb : tinstalled ns s SkChoice name (map fst fs) ->
  Forall (fun f => tlinked (dscope u ns name) ns s (sf_type (fst f)) (snd f)) fs -> atlas_stmt p -> optP (decl_atlas ns s SkChoice name fs) fb ->
  decl_atlas ns s SkChoice name fs (VChoice i p fb).
Proof.
  intros Hi Hl IHp IHf d h m Hw Hv Hh Hd Hr. pose proof (ti_scope _ _ _ _ _ _ _ _ Hi) as Hg. pose proof (fields_names _ _ _ _ _ Hi) as Hn.
  cbn [vdepth vwidth erase decl_type wt js_value] in *. 
  change (fun f => mkF (sf_index (fst f)) (sf_rule (fst f)) (erase (snd f))) with erase_field in *. rewrite find_erased in Hw.
  destruct (named_field i fs) as [f|] eqn:Ef; [|contradiction]. destruct Hv as (ps & -> & Hp & Hfb & Hhas). destruct d as [|d]; [lia|].
  destruct (named_in _ _ _ Ef) as [Hin _]. rewrite Forall_forall in Hl. specialize (Hl f Hin). destruct Hw as [Wp Wf]. cbn [erase_field f_type f_rule] in Wp, Wf.
  unfold tchoice_atlas, atlas_fn. erewrite run_jfn_eq; [|reflexivity|].
  2:{ intros c Hc. apply (gs_reach find reach _ Hg). cbn in Hc. decompose [or] Hc; subst; try contradiction; reflexivity. }
  rewrite (run_block_eq _ _ _ _ _ []); [|apply frame_cases; reflexivity|reflexivity]. cbn [app length].
  set (E0 := (txt "message", SVar (JvObj ps)) :: top_constants). assert (clear E0) as Hc0 by reflexivity.
  assert (exists a h', run_block (ex d (dscope u ns name)) []
    ([jdecl "payloadAtlas"; get_payload u (fst f)] ++ tgen_atlas u ns s (sf_type (fst f)) true ++ [payload_size (fst f)] ++
     if has_fallback_out (fst f) then
       [jconst "fallbackAtlas" (jcall "atlas" [prop_of (jx "message") "$fallback"]);
        JReturn (XObj false
          [(txt "$size", Some (jplus (theader_size (fst f)) (prop_of (jx "fallbackAtlas") "$size")));
           (tfield_name u (fst f), Some (jx "payloadAtlas")); (txt "$fallback", Some (jx "fallbackAtlas"))])]
     else [JReturn (XObj false [(txt "$size", Some (theader_size (fst f))); (tfield_name u (fst f), Some (jx "payloadAtlas"))])]) E0 h = SoReturn a h' /\ grows h h' /\
     js_atlas u h' (length h) (ts_atlas true (VChoice i p fb) (TChoice (map erase_field fs))) (NDecl ns s SkChoice name fs) a) as (a & h' & R & G & A).
  2:{ exists a, h'. erewrite pick_case; [|reflexivity|exact Hin|exact Hn|reflexivity|exact Hhas|exact R]. auto. }
  destruct d as [|[|d]]; [lia|lia|].
  assert (NoDup [txt "__proto__"; txt "$size"; tfield_name u (fst f); txt "$fallback"]) as Hnd.
  { destruct (field_reserved _ _ _ _ _ _ Hi Hin) as (P1 & P2 & _ & P4). repeat constructor; cbn [In]; intuition (try discriminate; congruence). }
  unfold get_payload, payload_size, theader_size. tsu. cbn [ts_atlas]. rewrite find_erased, Ef. cbn [erase_field f_rule f_index f_type]. unfold has_fallback_out.
  destruct fb as [v'|]; [destruct Wf as [Wr Wf]|rename Wf into Wr]; (destruct (sf_rule (fst f)) eqn:Er; cbn [has_fallback] in Wr; try discriminate Wr).
  1-2: jblock_as [(txt "payloadAtlas", SDead false); (txt "payload", SDead true); (txt "payloadSize", SDead true); (txt "fallbackAtlas", SDead true)];
    js; cbn [get_prop]; jop; rewrite run_stmts_app;
    (edestruct (IHp (dscope u ns name) ns s (sf_type (fst f)) (snd f) true (S (S d))) with
      (E := (txt "payloadAtlas", SVar JvUndef) :: (txt "payload", SConst (obj_get ps (tfield_name u (fst f)))) :: (txt "payloadSize", SDead true) :: (txt "fallbackAtlas", SDead true) :: E0) (h := h)
      as (a & h1 & R & G & A); [exact Hg|exact Hl|exact Wp|exact Hp|exact Hh|jclear|jvar|jlk|jvar|lia|lia|]);
    rewrite R; jop; (erewrite (lookup_sim rounds find reach u ns s (dscope u ns name)); [|exact Hl|exact Wp|exact A|jvar]); jop; cbn [get_prop]; jop;
    (erewrite callee_fn; [|reflexivity|apply (ti_own _ _ _ _ _ _ _ _ Hi (txt "atlas", tchoice_atlas u ns s name (map fst fs))); now left]);
    cbn [optP] in IHf; (destruct (IHf (S (S d)) h1 (obj_get ps (txt "$fallback"))) as (fa & h2 & R2 & G2 & A2);
      [exact Wf|eapply js_value_grows; [exact G|lia|exact Hfb]|destruct G; lia|lia|lia|]);
    cbn [snd]; rewrite R2; jop; rewrite jev_obj by (apply all_different_nodup; exact Hnd); unfold eval_property; jop;
    (erewrite callee_fn; [|reflexivity|jprelude]); rewrite call_header_size by exact Hg0; jop;
    (destruct (decl_size ns s SkChoice name fs v' _ _ _ Wf A2) as (qs & ->)); jop; cbn [get_prop]; unfold obj_get at 1; rewrite lookup_here; jop;
    (eexists _, h2; split; [reflexivity|]); (split; [eapply grows_trans; eassumption|]); cbn [js_atlas]; rewrite Ef; eexists _, _;
    (split; [cbn [app]; rewrite (tlinked_integer _ _ _ _ _ _ _ _ Hl); reflexivity|]);
    (split; [eapply js_atlas_grows; [exact G2|lia|apply Nat.le_refl|exact A]|eapply js_atlas_mono; [| |exact A2]; [destruct G; lia|auto]]).
  jblock_as [(txt "payloadAtlas", SDead false); (txt "payload", SDead true); (txt "payloadSize", SDead true)].
  js; cbn [get_prop]; jop; rewrite run_stmts_app.
  edestruct (IHp (dscope u ns name) ns s (sf_type (fst f)) (snd f) true (S (S d))) with
      (E := (txt "payloadAtlas", SVar JvUndef) :: (txt "payload", SConst (obj_get ps (tfield_name u (fst f)))) :: (txt "payloadSize", SDead true) :: E0) (h := h)
      as (a & h1 & R & G & A); [exact Hg|exact Hl|exact Wp|exact Hp|exact Hh|jclear|jvar|jlk|jvar|lia|lia|].
  rewrite R; jop. erewrite (lookup_sim rounds find reach u ns s (dscope u ns name)); [|exact Hl|exact Wp|exact A|jvar]. jop.
  rewrite jev_obj by (apply all_different_nodup; cbn [map fst]; inversion Hnd as [|? ? N1 N2]; subst; inversion N2 as [|? ? N3 N4]; subst; inversion N4; subst; repeat constructor; cbn [In] in *; intuition).
  unfold eval_property; jop. erewrite callee_fn; [|reflexivity|jprelude]; rewrite call_header_size by exact Hg0; jop.
  eexists _, h1; split; [reflexivity|]. split; [exact G|]. cbn [js_atlas]; rewrite Ef; eexists _, JvUndef.
  split; [cbn [app]; rewrite (tlinked_integer _ _ _ _ _ _ _ _ Hl); reflexivity|]. split; [exact A|exact I].
Qed.

(** ** All values *)
Definition atlas_ok (v : val) : Prop := atlas_stmt v /\ forall ns s k name fs, tinstalled ns s k name (map fst fs) ->
  Forall (fun f => tlinked (dscope u ns name) ns s (sf_type (fst f)) (snd f)) fs -> decl_atlas ns s k name fs v.
Lemma atlas_custom v : (forall ns s k name fs, tinstalled ns s k name (map fst fs) ->
    Forall (fun f => tlinked (dscope u ns name) ns s (sf_type (fst f)) (snd f)) fs -> decl_atlas ns s k name fs v) ->
  (forall f k fs, ts_atlas f v (decl_type k fs) = ts_atlas true v (decl_type k fs)) ->
  forall here ns s t ns2 s2 k name fs f d E h m x, tlinked here ns s t (NDecl ns2 s2 k name fs) ->
  wt DOut v (erase (NDecl ns2 s2 k name fs)) -> js_value u DOut h 1 v (NDecl ns2 s2 k name fs) m -> (0 < length h)%nat -> clear E -> var (txt "payload") E = Some m ->
  lookup (txt "payloadAtlas") E = Some (SVar x) -> (vdepth v + 2 <= d)%nat -> (vwidth v < rounds)%nat ->
  exists a h', rs d here (tgen_atlas u ns s t f) E h = SoNext (update (txt "payloadAtlas") (SVar a) E) h' /\ grows h h' /\
    js_atlas u h' (length h) (ts_atlas f v (erase (NDecl ns2 s2 k name fs))) (NDecl ns2 s2 k name fs) a.
Proof.
  intros H Hf here ns s t ns2 s2 k name fs f d E h m x Hk Hw Hv Hh Hc Hp Ha Hd Hr. cbn [TsValue.tlinked] in Hk. destruct Hk as ((i & n & y & p & -> & Hy & Hl & Hfind) & Hi & Hfs).
  apply allP_Forall in Hfs. destruct (H _ _ _ _ _ Hi Hfs d h m) as (a & h' & R & G & A); auto. exists a, h'. split; [|split; [exact G|]].
  - cbn [tgen_atlas]. unfold set_atlas. tsu. js. rewrite Hy. erewrite callee_path; [|apply clear_not_local; [exact Hc|exact Hl]|].
    2:{ apply (Hfind (txt "atlas", match k with SkStruct => tstruct_atlas u ns2 s2 name (map fst fs) | SkChoice => tchoice_atlas u ns2 s2 name (map fst fs) end)). left. reflexivity. }
    cbn [snd]. rewrite R. jop. reflexivity.
  - cbn [erase]. rewrite Hf. exact A.
Qed.
Theorem atlas_sim v : atlas_ok v.
Proof.
  induction v as [|x|n|z|x|bs|st|n|vs IH|ovs IH|i p fb IHp IHfb] using val_ind'.
  9: split; [|intros ? ? [|] ? ? _ _ ? ? ? Hw; destruct Hw].
  10-11: match goal with |- atlas_ok ?v => assert (forall ns s k name fs, tinstalled ns s k name (map fst fs) ->
    Forall (fun f => tlinked (dscope u ns name) ns s (sf_type (fst f)) (snd f)) fs -> decl_atlas ns s k name fs v) as Hdecl end.
  1-8: split; [|intros ? ? [|] ? ? _ _ ? ? ? Hw; destruct Hw].
  9: { intros here ns s t nt f d E h m x Hg Hk Hw Hv Hh Hc Hp Ha Ht Hd Hr. destruct nt as [| | | | | | |e|? ? [|] ? ?]; cbn [erase wt decl_type] in Hw; try contradiction.
    cbn [TsValue.tlinked] in Hk. destruct Hk as (t' & -> & Hk). destruct Hw as [Hnu Hw]. apply allP_Forall in Hw.
    assert (Forall atlas_stmt vs) as IH' by (eapply Forall_impl; [|exact IH]; intros v [H _]; exact H).
    destruct (sized_element (erase e)) eqn:Es; [eapply atlas_array_sized; eassumption|].
    destruct (integer_encoded (erase e)) eqn:Ei.
    - edestruct (atlas_array_small rounds find reach u vs) as (h' & R & G); try eassumption. exists (JvNum (jlookup (ts_atlas f (VArr vs) (TArray (erase e))))), h'. split; [exact R|]. split; [exact G|].
      cbn [erase]. rewrite ts_arr_small by exact Ei. reflexivity.
    - cbn [js_value] in Hv. destruct Hv as (r & ms & -> & Hr1 & Hms & Hvs). apply all2P_F2, Forall2_len in Hvs. destruct e as [| | | | | | |e|? ? [|] ? ?]; try discriminate. cbn [TsValue.tlinked] in Hk. subst t'.
      cbn [tgen_atlas]. unfold set_atlas. tsu. js. cbn [get_prop]. replace (array r h) with (Some ms) by (symmetry; now apply array_cell). rewrite str_eqb_refl. jop.
      eexists _, h. split; [reflexivity|]. split; [apply grows_refl|]. cbn [ts_atlas erase js_atlas]. unfold lenN. now rewrite Hvs. }
  9: { intros ns s [|] name fs Hi Hl; [|intros ? ? ? Hw; destruct Hw]. apply struct_atlas; auto. eapply Forall_impl; [|exact IH]. intros [v|]; [intros [H _]; exact H|auto]. }
  9: { split; [|exact Hdecl]. intros here ns s t nt f d E h m x Hg Hk Hw Hv Hh Hc Hp Ha Ht Hd Hr. destruct nt as [| | | | | | |e|]; cbn [erase wt] in Hw; try contradiction.
    eapply atlas_custom; eauto; intros ? [|] ?; reflexivity. }
  9: { intros ns s [|] name fs Hi Hl; [intros ? ? ? Hw; destruct Hw|]. destruct IHp as [IHp _]. apply choice_atlas; auto. destruct fb as [v|]; [|exact I]. destruct IHfb as [_ H]. now apply H. }
  9: { split; [|exact Hdecl]. intros here ns s t nt f d E h m x Hg Hk Hw Hv Hh Hc Hp Ha Ht Hd Hr. destruct nt as [| | | | | | |e|]; cbn [erase wt] in Hw; try contradiction.
    eapply atlas_custom; eauto; intros ? [|] ?; reflexivity. }
  all: intros here ns s t nt f d E h m y Hg Hk Hw Hv Hh Hc Hp Ha Ht Hd Hr; destruct nt as [| | | | | | |e|? ? [|] ? ?]; cbn [erase wt decl_type] in Hw; try contradiction;
    cbn [TsValue.tlinked js_value] in *; try subst t.
  - subst m. cbn [tgen_atlas]. unfold set_atlas. tsu. js. eexists _, h. split; [reflexivity|]. split; [apply grows_refl|reflexivity].
  - cbn [tgen_atlas]. unfold set_atlas. tsu. destruct f.
    + js. rewrite callee_global; [|jlocal|jreach]. cbn [call_global]. assert (same_value m (JvNum 0) = Some (x =? 0)) as -> by (destruct Hv as [-> | [-> ->]]; reflexivity).
      jop. cbn [ts_atlas erase]. destruct (x =? 0); jop; jblock; js; (eexists _, h; split; [reflexivity|]; split; [apply grows_refl|reflexivity]).
    + js. eexists _, h. split; [reflexivity|]. split; [apply grows_refl|reflexivity].
  - subst m. cbn [tgen_atlas]. destruct d as [|d]; [lia|]. rewrite atlas_u64_sim with (n := n) (x := y); auto. eexists _, h. split; [reflexivity|]. split; [apply grows_refl|reflexivity].
  - subst m. cbn [tgen_atlas]. destruct d as [|[|d]]; [lia|lia|]. unfold set_atlas. tsu. cbn [ts_atlas erase]. set (q := Z.to_N (ts_zigzag_encode z)).
    destruct f.
    + rewrite run_stmts_cons, jx_block. jblock. js. jfn_call. rewrite call_zigzag_encode by exact Hg0. replace (JvBig (ts_zigzag_encode z)) with (JvBig (Z.of_N q)) by (f_equal; apply Z2N.id, zigzag_pos).
      unfold ts_atlas_u64. jnum. rewrite zn_eqb.
      destruct (q =? 0); [jblock; js; (eexists _, h; split; [reflexivity|]; split; [apply grows_refl|reflexivity])|]. jnum.
      destruct (q <? 567382630219904); [|jnum; jblock; js; (eexists _, h; split; [reflexivity|]; split; [apply grows_refl|reflexivity])].
      jblock. js. jfn_call. rewrite call_varint_size by exact Hg0. jop. eexists _, h; split; [reflexivity|]; split; [apply grows_refl|reflexivity].
    + js. jfn_call. rewrite call_zigzag_encode by exact Hg0. replace (JvBig (ts_zigzag_encode z)) with (JvBig (Z.of_N q)) by (f_equal; apply Z2N.id, zigzag_pos). jop.
      jfn_call. rewrite call_varint_size by exact Hg0. jop. eexists _, h; split; [reflexivity|]; split; [apply grows_refl|reflexivity].
  - subst m. cbn [tgen_atlas]. unfold set_atlas. tsu. destruct f; js; [destruct x; jop; jblock; js|]; (eexists _, h; split; [reflexivity|]; split; [apply grows_refl|reflexivity]).
  - destruct Hv as (r & -> & Hr1 & Hb). cbn [tgen_atlas]. unfold set_atlas. tsu. js. cbn [get_prop]. replace (buffer r h) with (Some bs) by (symmetry; now apply buffer_cell). rewrite str_eqb_refl. jop.
    eexists _, h. split; [reflexivity|]. split; [apply grows_refl|reflexivity].
  - subst m. cbn [tgen_atlas]. unfold set_atlas. tsu. js. cbn [call_jmethod]. jop. eexists _, _. split; [reflexivity|]. split; [apply grows_alloc|].
    cbn [ts_atlas erase js_atlas]. eexists. split; [reflexivity|]. split; [lia|apply nth_alloc].
  - destruct (erase e) eqn:Ee; try contradiction. destruct Hk as (t' & -> & Hk). destruct e as [| | | | | | |e|? ? [|] ? ?]; try discriminate. cbn [TsValue.tlinked] in Hk. subst t'.
    destruct Hv as (r & -> & Hr1 & Hms). cbn [tgen_atlas]. destruct d as [|d]; [lia|]. tsu. rewrite run_stmts_cons, jx_block. jblock_as [(txt "oldPayload", SDead true)]. js.
    rewrite (run_block_eq _ _ _ _ _ [(txt "payload", SDead true)]); [|rewrite frame_cons; unfold tgen_atlas_u64; now destruct f|reflexivity]. cbn [app length].
    js. cbn [get_prop]. replace (array r h) with (Some (repeat JvNull (N.to_nat n))) by (symmetry; now apply array_cell). rewrite str_eqb_refl. jop.
    rewrite callee_global; [|jlocal|jreach]. cbn [call_global]. unfold lenN. rewrite repeat_length, N2Nat.id. jop. erewrite atlas_u64_sim; [|exact Hg0|exact Hg|jclear|jvar|jlk]. jop.
    eexists _, h. split; [reflexivity|]. split; [apply grows_refl|reflexivity].
Qed.
End Atlas.
