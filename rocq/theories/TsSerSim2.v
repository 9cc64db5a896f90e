(** The generated serialization functions write what the model writes. *)
From Verif Require Import TypesFacts IdentFacts BaseFacts TsPrimFacts RustAtlasFacts.
From Verif Require Export TsSerSim.

Lemma js_atlas_defined u h lo a t m : js_atlas u h lo a t m -> strict_eq m JvUndef = Some false.
Proof.
  destruct a; cbn [js_atlas]; try (intros ->; reflexivity).
  - intros (r & -> & _). reflexivity.
  - destruct t; try contradiction. intros (r & ms & -> & _). reflexivity.
  - destruct t; try contradiction. intros (ps & -> & _). reflexivity.
  - destruct t; try contradiction. destruct (named_field _ _); try contradiction. intros (mp & mf & -> & _). reflexivity.
Qed.
Lemma target_slice (bs : bytes) : takeN (lenN bs) (dropN 0 bs) = bs.
Proof. rewrite takeN_firstn, dropN_skipn. unfold lenN. rewrite Nat2N.id. cbn [N.to_nat skipn]. apply firstn_all. Qed.

Lemma obj_here x v ps : obj_get ((x, v) :: ps) x = v. Proof. unfold obj_get. now rewrite lookup_here. Qed.
Lemma obj_skip x y v ps : str_eqb x y = false -> obj_get ((y, v) :: ps) x = obj_get ps x. Proof. intros H. unfold obj_get. now rewrite lookup_skip. Qed.

Section Ser.
Context (rounds : nat) (find : scope -> jcallee -> option (scope * jfn)) (reach : scope -> str -> bool) (u : unicode).
Context (Hg0 : good_scope find reach []).
Notation run := (run_jfn rounds find reach).
Notation ev d here := (jeval find reach (run d) here).
Notation ex d here := (jexec rounds find reach (run d) here).
Notation rs d here := (run_stmts (jexec rounds find reach (run d) here)).
Notation tlinked := (tlinked u find reach).
Notation tinstalled := (tinstalled u find reach).
Notation ser_stmt := (ser_stmt rounds find reach u).
Ltac jfn_call := erewrite callee_fn; [|jlocal|jprelude].

Lemma header_target d F buf off i n ie buf' off' : ts_serialize_header buf off i n ie = JOk (buf', off') ->
  run (S (S d)) [] fn_serialize_header [JvView (length F) 0 (lenN buf); JvNum off; JvBig (Z.of_N i); JvNum n; JvBool ie] (target buf F) = ExVal (JvNum off') (target buf' F).
Proof. intros H. erewrite call_serialize_header; [|exact Hg0|apply target_cell|exact H]. now rewrite target_put. Qed.

(** ** Structs *)
Definition ser_env (F : heap) (n off : N) (m ma : jv) : jenv :=
  (txt "dataView", SVar (JvView (length F) 0 n)) :: (txt "offset", SVar (JvNum off)) :: (txt "message", SVar m) :: (txt "atlas", SVar ma) :: top_constants.
Definition field_writer (ov : option val) (f : sfield * nty) : jwriter :=
  match ov with
  | Some v => jthen (jheader (sf_index (fst f)) (jlookup (ts_atlas true v (erase (snd f)))) (integer_encoded (erase (snd f))))
                    (ts_ser true v (erase (snd f)) (ts_atlas true v (erase (snd f))))
  | None => jskip
  end.
Definition ser_ok here ns s d (ov : option val) (f : sfield * nty) : Prop :=
  tlinked here ns s (sf_type (fst f)) (snd f) /\
  match ov with
  | Some v => ser_stmt v /\ wt DOut v (erase (snd f)) /\ (vdepth v + 2 <= d)%nat /\ (vwidth v < rounds)%nat
  | None => is_optional (fst f) = true
  end.
Lemma field_ser here ns s d ov f F ps qs buf off buf' off' : good_scope find reach here -> (2 <= d)%nat -> ser_ok here ns s d ov f -> field_value u F ps ov f ->
  field_atlas u F 1 ov f (obj_get qs (tfield_name u (fst f))) -> field_writer ov f buf off = JOk (buf', off') ->
  rs d here (tstruct_ser_field u ns s (fst f)) (ser_env F (lenN buf) off (JvObj ps) (JvObj qs)) (target buf F) =
  SoNext (ser_env F (lenN buf) off' (JvObj ps) (JvObj qs)) (target buf' F).
Proof.
  intros Hg Hd2 [Hk Ho] Hv Ha H. unfold tstruct_ser_field, guarded, get_payload, payload_size, tserialize_header, not_undefined. tsu. destruct d as [|[|d]]; [lia|lia|].
  destruct ov as [v|]; cbn [field_value field_atlas field_writer] in *.
  - destruct Ho as (IH & Hw & Hdv & Hr). unfold jthen in H. apply jbind_ok in H as ([b1 o1] & H1 & H2). cbn [fst snd] in H2. pose proof (keeps_header _ _ _ _ _ _ _ H1) as K1.
    rewrite run_stmts_cons, jx_block. destruct (is_optional (fst f)) eqn:Eo.
    + jblock_as [(txt "payload", SDead true); (txt "payloadAtlas", SDead true)]. js. cbn [get_prop]. jop. cbn [get_prop]. jop.
      rewrite (js_defined _ _ _ _ _ _ _ Hv). jop. rewrite (js_atlas_defined _ _ _ _ _ _ Ha). jop.
      jblock_as [(txt "payloadSize", SDead true)]. js.
      erewrite (lookup_sim rounds find reach u ns s here here); [|exact Hk|exact Hw|apply target_atlas; exact Ha|jvar]. jop.
      jfn_call. rewrite (tlinked_integer _ _ _ _ _ _ _ _ Hk). rewrite (header_target _ _ _ _ _ _ _ _ _ H1). jop.
      erewrite (IH here ns s (sf_type (fst f)) (snd f) true (S (S d))); [|exact Hg|exact Hk|exact Hw|exact Hv|jclear|jvar| |exact Hdv|exact Hr|exact H2|jlk|rewrite K1; jvar].
      2:{ intros _. split; [reflexivity|]. split; [exact Ha|jvar]. }
      jop. reflexivity.
    + jblock_as [(txt "payload", SDead true); (txt "payloadAtlas", SDead true); (txt "payloadSize", SDead true)]. js. cbn [get_prop]. jop. cbn [get_prop]. jop.
      erewrite (lookup_sim rounds find reach u ns s here here); [|exact Hk|exact Hw|apply target_atlas; exact Ha|jvar]. jop.
      jfn_call. rewrite (tlinked_integer _ _ _ _ _ _ _ _ Hk). rewrite (header_target _ _ _ _ _ _ _ _ _ H1). jop.
      erewrite (IH here ns s (sf_type (fst f)) (snd f) true (S (S d))); [|exact Hg|exact Hk|exact Hw|exact Hv|jclear|jvar| |exact Hdv|exact Hr|exact H2|jlk|rewrite K1; jvar].
      2:{ intros _. split; [reflexivity|]. split; [exact Ha|jvar]. }
      jop. reflexivity.
  - injection H as <- <-. rewrite Ho. rewrite run_stmts_cons, jx_block. jblock_as [(txt "payload", SDead true); (txt "payloadAtlas", SDead true)]. js. cbn [get_prop]. jop. cbn [get_prop]. jop.
    rewrite Hv. jop. reflexivity.
Qed.
Lemma fields_ser here ns s d F ps qs : good_scope find reach here -> (2 <= d)%nat -> forall ovs fs, Forall2 (ser_ok here ns s d) ovs fs -> Forall2 (field_value u F ps) ovs fs ->
  Forall2 (fun ov f => field_atlas u F 1 ov f (obj_get qs (tfield_name u (fst f)))) ovs fs -> forall buf off buf' off', jseq (map2 field_writer ovs fs) buf off = JOk (buf', off') ->
  rs d here (flat_map (tstruct_ser_field u ns s) (map fst fs)) (ser_env F (lenN buf) off (JvObj ps) (JvObj qs)) (target buf F) =
  SoNext (ser_env F (lenN buf) off' (JvObj ps) (JvObj qs)) (target buf' F).
Proof.
  intros Hg Hd ovs fs HF. induction HF as [|ov f ovs fs H1 HF IH]; intros HV HA buf off buf' off' H; [injection H as <- <-; reflexivity|].
  inversion HV; subst. inversion HA; subst. cbn [map2 map flat_map] in *. rewrite jseq_cons in H. unfold jthen at 1 in H. apply jbind_ok in H as ([b1 o1] & J1 & J2).
  rewrite run_stmts_app. erewrite field_ser; [|exact Hg|exact Hd|eassumption|eassumption|eassumption|exact J1]. cbn [snext fst snd] in *.
  assert (lenN b1 = lenN buf) as K. { destruct ov as [v|]; cbn [field_writer] in J1; [|now apply keeps_skip in J1]. eapply keeps_then; [| |exact J1]; [apply keeps_header|apply keeps_ser]. }
  rewrite <- K. now apply IH.
Qed.
Lemma frame_ser_fields ns s fs : block_frame (flat_map (tstruct_ser_field u ns s) fs) = [].
Proof. induction fs as [|f fs IH]; [reflexivity|]. cbn [flat_map]. rewrite frame_app, IH. reflexivity. Qed.

Definition ser_function ns s k name (fields : list sfield) : jfn :=
  match k with SkStruct => tstruct_ser u ns s name fields | SkChoice => tchoice_ser u ns s name fields end.
Definition decl_ser ns s k name (fs : list (sfield * nty)) v : Prop := forall d F m ma buf off buf' off',
  let nt := NDecl ns s k name fs in
  wt DOut v (erase nt) -> js_value u DOut F 1 v nt m -> js_atlas u F 1 (ts_atlas true v (erase nt)) nt ma -> (vdepth v + 2 <= d)%nat -> (vwidth v < rounds)%nat ->
  ts_ser true v (erase nt) (ts_atlas true v (erase nt)) buf off = JOk (buf', off') ->
  run d (dscope u ns name) (ser_function ns s k name (map fst fs)) [JvView (length F) 0 (lenN buf); JvNum off; m; ma] (target buf F) = ExVal (JvNum off') (target buf' F).

Lemma struct_ser ns s name fs ovs : tinstalled ns s SkStruct name (map fst fs) ->
  Forall (fun f => tlinked (dscope u ns name) ns s (sf_type (fst f)) (snd f)) fs -> Forall (optP ser_stmt) ovs ->
  decl_ser ns s SkStruct name fs (VStruct ovs).
Proof.
  intros Hi Hl IH d F m ma buf off buf' off' nt Hw Hv Ha Hd Hr H. subst nt. pose proof (ti_scope _ _ _ _ _ _ _ _ Hi) as Hg.
  cbn [vdepth vwidth erase decl_type wt js_value ts_atlas js_atlas ts_ser] in *. destruct Hv as (ps & -> & _ & Hv). apply all2P_F2 in Hw. apply all2P_F2 in Hv. destruct d as [|d]; [lia|].
  change (fun f => mkF (sf_index (fst f)) (sf_rule (fst f)) (erase (snd f))) with erase_field in *. destruct Ha as (qs & -> & Kq & Ha). apply all2P_F2 in Ha.
  assert (Forall2 (ser_ok (dscope u ns name) ns s d) ovs fs) as Hok.
  { clear Hv Ha Hi H. assert (Forall (fun ov => match ov with Some v => (vdepth v + 2 <= d)%nat | None => True end) ovs) as Hd'.
    { eapply Forall_impl; [|apply (max_each (fun ov => match ov with Some v => vdepth v | None => O end) ovs (d - 2)); lia]. intros [v|]; cbn beta iota; lia || auto. }
    assert (Forall (fun ov => match ov with Some v => (vwidth v < rounds)%nat | None => True end) ovs) as Hr'.
    { eapply Forall_impl; [|apply (max_each_lt (fun ov => match ov with Some v => vwidth v | None => O end) ovs rounds); exact Hr]. intros [v|]; cbn beta iota; lia || auto. }
    clear Hd Hr Kq. revert ovs Hw IH Hd' Hr'. induction Hl as [|f fs Hf Hl IHl]; intros ovs Hw IH Hd' Hr'; cbn [map] in Hw; inversion Hw as [|ov ? ovs' ? W1 W2]; subst; constructor.
    - inversion IH; subst. inversion Hd'; subst. inversion Hr'; subst. split; [exact Hf|]. destruct ov as [v|]; [cbn [optP erase_field f_type] in *; auto|].
      cbn [erase_field f_rule always_present] in W1. unfold is_optional. now destruct (sf_rule (fst f)).
    - inversion IH; subst. inversion Hd'; subst. inversion Hr'; subst. apply IHl; auto. }
  unfold ser_function, tstruct_ser, ser_fn. erewrite run_jfn_eq; [|reflexivity|].
  2:{ intros c Hc. apply (gs_reach find reach _ Hg). cbn in Hc. decompose [or] Hc; subst; try contradiction; reflexivity. }
  rewrite (run_block_eq _ _ _ _ _ []); [|rewrite frame_app, frame_ser_fields; reflexivity|reflexivity]. cbn [app length]. rewrite run_stmts_app.
  match goal with |- context [JvObj (?x :: qs)] => assert (exists n, x = (txt "$size", n)) as (n & Hp) by (eexists; reflexivity); rewrite Hp; clear Hp end.
  match goal with |- context [rs d _ _ ?E _] => change E with (ser_env F (lenN buf) off (JvObj ps) (JvObj ((txt "$size", n) :: qs))) end.
  erewrite fields_ser; [|exact Hg|lia|exact Hok|exact Hv| |].
  3:{ rewrite <- H. f_equal. f_equal. clear. revert ovs. induction fs as [|f fs IH]; intros [|ov ovs]; cbn [map map2 combine]; try reflexivity. f_equal; [|apply IH]. destruct ov; reflexivity. }
  2:{ clear - Ha Hi Hv. rewrite map2_map_r in Ha. assert (forall f, In f fs -> tfield_name u (fst f) <> txt "$size") as Hs by (intros f Hf; now destruct (field_reserved _ _ _ _ _ _ _ _ _ Hi Hf)). clear Hi.
      induction Hv as [|ov f ovs fs _ _ IH]; [constructor|]. cbn [map2] in Ha. inversion Ha as [|? ? ? ? A1 A2]; subst. constructor.
      - unfold obj_get. rewrite lookup_skip by (apply str_eqb_neq, Hs; now left). destruct ov; cbn [field_atlas erase_field f_type] in *; exact A1.
      - apply IH; [exact A2|]. intros g Hg. apply Hs. now right. }
  cbn [snext]. unfold jx, ser_env. jop. reflexivity.
Qed.

(** ** Choices *)
Lemma choice_ser ns s name fs i p fb : tinstalled ns s SkChoice name (map fst fs) ->
  Forall (fun f => tlinked (dscope u ns name) ns s (sf_type (fst f)) (snd f)) fs -> ser_stmt p -> optP (decl_ser ns s SkChoice name fs) fb ->
  decl_ser ns s SkChoice name fs (VChoice i p fb).
Proof.
  intros Hi Hl IHp IHf d F m ma buf off buf' off' nt Hw Hv Ha Hd Hr H. subst nt. pose proof (ti_scope _ _ _ _ _ _ _ _ Hi) as Hg. pose proof (fields_names _ _ _ _ _ _ _ _ Hi) as Hn.
  cbn [vdepth vwidth erase decl_type wt js_value ts_atlas ts_ser] in *.
  change (fun f => mkF (sf_index (fst f)) (sf_rule (fst f)) (erase (snd f))) with erase_field in *. rewrite find_erased in Hw, H, Ha.
  destruct (named_field i fs) as [f|] eqn:Ef; [|contradiction]. destruct Hv as (ps & -> & Hp & Hfb & Hhas). destruct d as [|d]; [lia|].
  destruct (named_in _ _ _ Ef) as [Hin _]. rewrite Forall_forall in Hl. specialize (Hl f Hin). destruct Hw as [Wp Wf]. cbn [erase_field f_type f_rule f_index] in Wp, Wf, H, Ha.
  destruct (field_reserved _ _ _ _ _ _ _ _ _ Hi Hin) as (P1 & P2 & _ & P4). apply str_eqb_neq in P1, P2.
  unfold ser_function, tchoice_ser, ser_fn. erewrite run_jfn_eq; [|reflexivity|].
  2:{ intros c Hc. apply (gs_reach find reach _ Hg). cbn in Hc. decompose [or] Hc; subst; try contradiction; reflexivity. }
  rewrite (run_block_eq _ _ _ _ _ []); [|apply frame_cases; reflexivity|reflexivity]. cbn [app length].
  match goal with |- context [rs d _ _ ?E _] => change E with (ser_env F (lenN buf) off (JvObj ps) ma) end.
  set (E0 := ser_env F (lenN buf) off (JvObj ps) ma). assert (clear E0) as Hc0 by reflexivity.
  destruct d as [|[|d]]; [lia|lia|].
  erewrite pick_case; [|reflexivity|exact Hin|exact Hn|reflexivity|exact Hhas|]; [reflexivity|].
  unfold get_payload, payload_size, tserialize_header, any_atlas, has_fallback_out. tsu.
  destruct fb as [v'|]; [destruct Wf as [Wr Wf]|rename Wf into Wr]; (destruct (sf_rule (fst f)) eqn:Er; cbn [has_fallback] in Wr; try discriminate Wr);
    cbn [js_atlas] in Ha; rewrite Ef in Ha; destruct Ha as (mp & mf & -> & Ha & Hfa); rewrite N.eqb_refl in H; unfold jthen at 1 in H; apply jbind_ok in H as ([b2 o2] & H & H3);
    unfold jthen in H; apply jbind_ok in H as ([b1 o1] & H1 & H2); cbn [fst snd app] in *; pose proof (keeps_header _ _ _ _ _ _ _ H1) as K1; pose proof (keeps_ser _ _ _ _ _ _ _ _ H2) as K2;
    jblock_as [(txt "payload", SDead true); (txt "payloadAtlas", SDead true); (txt "payloadSize", SDead true)];
    unfold E0, ser_env; js; cbn [get_prop]; jop; cbn [get_prop]; rewrite (obj_skip (tfield_name u (fst f)) (txt "$size")) by exact P1; rewrite obj_here; jop;
    (erewrite (lookup_sim rounds find reach u ns s (dscope u ns name)); [|exact Hl|exact Wp|apply target_atlas; exact Ha|jvar]); jop;
    jfn_call; rewrite (tlinked_integer _ _ _ _ _ _ _ _ Hl); rewrite (header_target _ _ _ _ _ _ _ _ _ H1); jop; rewrite run_stmts_app;
    (erewrite (IHp (dscope u ns name) ns s (sf_type (fst f)) (snd f) true (S (S d))); [|exact Hg|exact Hl|exact Wp|exact Hp|jclear|jvar| |lia|lia|exact H2|jlk|rewrite K1; jvar];
     [|intros _; split; [reflexivity|]; split; [exact Ha|jvar]]).
  3: { jop. injection H3 as <- <-. reflexivity. }
  1-2: jop; cbn [get_prop]; jop; cbn [get_prop]; rewrite (obj_skip (txt "$fallback") (txt "$size")) by reflexivity; rewrite (obj_skip (txt "$fallback") (tfield_name u (fst f))) by (rewrite str_eqb_sym; exact P2); rewrite obj_here; jop;
    (erewrite callee_fn; [|reflexivity|apply (ti_own _ _ _ _ _ _ _ _ Hi (txt "serializeWithAtlasUnsafe", tchoice_ser u ns s name (map fst fs))); right; now left]);
    cbn [snd optP] in *; rewrite <- K1, <- K2; erewrite (IHf (S (S d)) F); [|exact Wf|exact Hfb|exact Hfa|lia|lia|exact H3]; jop; reflexivity.
Qed.

(** ** All values *)
Definition ser_all (v : val) : Prop := ser_stmt v /\ forall ns s k name fs, tinstalled ns s k name (map fst fs) ->
  Forall (fun f => tlinked (dscope u ns name) ns s (sf_type (fst f)) (snd f)) fs -> decl_ser ns s k name fs v.
Lemma ser_custom v : (forall ns s k name fs, tinstalled ns s k name (map fst fs) ->
    Forall (fun f => tlinked (dscope u ns name) ns s (sf_type (fst f)) (snd f)) fs -> decl_ser ns s k name fs v) ->
  (forall f k fs, ts_atlas f v (decl_type k fs) = ts_atlas true v (decl_type k fs)) -> (forall f k fs a, ts_ser f v (decl_type k fs) a = ts_ser true v (decl_type k fs) a) ->
  forall here ns s t ns2 s2 k name fs f d E F m ma, tlinked here ns s t (NDecl ns2 s2 k name fs) ->
  wt DOut v (erase (NDecl ns2 s2 k name fs)) -> js_value u DOut F 1 v (NDecl ns2 s2 k name fs) m -> clear E -> var (txt "payload") E = Some m ->
  js_atlas u F 1 (ts_atlas f v (erase (NDecl ns2 s2 k name fs))) (NDecl ns2 s2 k name fs) ma -> var (txt "payloadAtlas") E = Some ma -> (vdepth v + 2 <= d)%nat -> (vwidth v < rounds)%nat ->
  writes rounds find reach d here (tgen_ser u ns s t f) E F (ts_ser f v (erase (NDecl ns2 s2 k name fs)) (ts_atlas f v (erase (NDecl ns2 s2 k name fs)))).
Proof.
  intros H Hf Hf' here ns s t ns2 s2 k name fs f d E F m ma Hk Hw Hv Hc Hp Ha Hpa Hd Hr buf off buf' off' HH Ho Hdv. cbn [TsValue.tlinked] in Hk. destruct Hk as ((i & n & y & p & -> & Hy & Hl & Hfind) & Hi & Hfs).
  apply allP_Forall in Hfs. cbn [erase] in HH, Ha. rewrite Hf', Hf in HH. rewrite Hf in Ha.
  pose proof (H _ _ _ _ _ Hi Hfs d F m ma buf off buf' off' Hw Hv Ha Hd Hr HH) as R.
  assert (var (txt "offset") E = Some (JvNum off)) as Ho' by (unfold var; now rewrite Ho).
  cbn [tgen_ser]. tsu. js. rewrite Hy. erewrite callee_path; [|apply clear_not_local; [exact Hc|exact Hl]|].
  2:{ apply (Hfind (txt "serializeWithAtlasUnsafe", ser_function ns2 s2 k name (map fst fs))). right. left. reflexivity. }
  cbn [snd]. rewrite R. jop. reflexivity.
Qed.
Lemma set_bytes_target F buf off data r o2 bs buf' : vset buf off data = JOk buf' -> nth_error F r = Some (CellBuf bs) -> takeN (lenN data) (dropN o2 bs) = data ->
  call_jmethod MtSet (JvBytes (length F) 0 (lenN buf)) [JvBytes r o2 (lenN data); JvNum off] (target buf F) = ExVal JvUndef (target buf' F).
Proof.
  intros H Hr Hd. cbn [call_jmethod]. replace (buffer (length F) (target buf F)) with (Some buf) by (symmetry; apply buffer_cell, target_cell).
  replace (buffer r (target buf F)) with (Some bs) by (symmetry; apply buffer_cell; now apply target_old). unfold vset in H. destruct (off + lenN data <=? lenN buf); [|discriminate].
  injection H as <-. rewrite Hd, target_put. reflexivity.
Qed.
Ltac jget := cbn [get_prop]; repeat match goal with |- context[str_eqb (txt ?a) (txt ?b)] => let r := eval vm_compute in (str_eqb (txt a) (txt b)) in change (str_eqb (txt a) (txt b)) with r end; jop.
Theorem ser_sim v : ser_all v.
Proof.
  induction v as [|x|n|z|x|bs|st|n|vs IH|ovs IH|i p fb IHp IHfb] using val_ind'.
  9: split; [|intros ? ? [|] ? ? _ _ ? ? ? ? ? ? ? ? ? Hw; destruct Hw].
  10-11: match goal with |- ser_all ?v => assert (forall ns s k name fs, tinstalled ns s k name (map fst fs) ->
    Forall (fun f => tlinked (dscope u ns name) ns s (sf_type (fst f)) (snd f)) fs -> decl_ser ns s k name fs v) as Hdecl end.
  1-8: split; [|intros ? ? [|] ? ? _ _ ? ? ? ? ? ? ? ? ? Hw; destruct Hw].
  9: { intros here ns s t nt f d E F m ma a Hg Hk Hw Hv Hc Hp Ha Hd Hr. destruct nt as [| | | | | | |e|? ? [|] ? ?]; cbn [erase wt decl_type] in Hw; try contradiction.
    cbn [TsValue.tlinked] in Hk. destruct Hk as (t' & -> & Hk). destruct Hw as [Hnu Hw]. apply allP_Forall in Hw.
    assert (Forall ser_stmt vs) as IH' by (eapply Forall_impl; [|exact IH]; intros v [H _]; exact H).
    destruct (sized_element (erase e)) eqn:Es; [|eapply ser_array_small; eassumption].
    destruct Ha as (-> & Ha & Hpa); [unfold needs_atlas; now rewrite orb_true_r|]. eapply ser_array_sized; eassumption. }
  9: { intros ns s [|] name fs Hi Hl; [|intros ? ? ? ? ? ? ? ? ? Hw; destruct Hw]. apply struct_ser; auto. eapply Forall_impl; [|exact IH]. intros [v|]; [intros [H _]; exact H|auto]. }
  9: { split; [|exact Hdecl]. intros here ns s t nt f d E F m ma a Hg Hk Hw Hv Hc Hp Ha Hd Hr. destruct nt as [| | | | | | |e|]; cbn [erase wt] in Hw; try contradiction.
    destruct Ha as (-> & Ha & Hpa); [unfold needs_atlas; destruct k; now rewrite orb_true_r|]. eapply ser_custom; eauto; intros ? [|] ?; reflexivity. }
  9: { intros ns s [|] name fs Hi Hl; [intros ? ? ? ? ? ? ? ? ? Hw; destruct Hw|]. destruct IHp as [IHp _]. apply choice_ser; auto. destruct fb as [v|]; [|exact I]. destruct IHfb as [_ H]. now apply H. }
  9: { split; [|exact Hdecl]. intros here ns s t nt f d E F m ma a Hg Hk Hw Hv Hc Hp Ha Hd Hr. destruct nt as [| | | | | | |e|]; cbn [erase wt] in Hw; try contradiction.
    destruct Ha as (-> & Ha & Hpa); [unfold needs_atlas; destruct k; now rewrite orb_true_r|]. eapply ser_custom; eauto; intros ? [|] ?; reflexivity. }
  all: intros here ns s t nt f d E F m ma a Hg Hk Hw Hv Hc Hp Ha Hd Hr; destruct nt as [| | | | | | |e|? ? [|] ? ?]; cbn [erase wt decl_type] in Hw; try contradiction;
    cbn [TsValue.tlinked js_value] in *; try subst t; destruct d as [|[|d]]; try lia.
  - intros buf off buf' off' H Ho Hdv. cbn in H. injection H as <- <-. cbn [tgen_ser]. now rewrite run_stmts_nil, update_same.
  - intros buf off buf' off' H Ho Hdv. cbn [tgen_ser ts_ser erase] in *. assert (var (txt "offset") E = Some (JvNum off)) as Ho' by (unfold var; now rewrite Ho).
    assert (float_bits m = Some (js_bits x)) as Hf by (destruct Hv as [-> | [-> ->]]; reflexivity).
    assert (forall b, jput (le_bytes 8 (js_bits x)) buf off = JOk (buf', off') -> off' = off + 8 /\
      call_jmethod MtSetFloat64 (JvView (length F) 0 (lenN buf)) [JvNum off; m; JvBool b] (target buf F) = if b then ExVal JvUndef (target buf' F) else call_jmethod MtSetFloat64 (JvView (length F) 0 (lenN buf)) [JvNum off; m; JvBool b] (target buf F)) as Hput.
    { intros b Hb. unfold jput in Hb. apply jbind_ok in Hb as (b1 & H1 & [= <- <-]). split; [reflexivity|]. destruct b; [|reflexivity]. cbn [call_jmethod in_order]. rewrite Hf. now apply target_set. }
    tsu. destruct f.
    + destruct Ha as (-> & Ha & Hpa); [reflexivity|]. cbn [ts_atlas js_atlas jlookup] in *. subst ma. unfold tgen_lookup. tsu. js. cbn [apply_op strict_eq].
      destruct (x =? 0); cbn [N.eqb negb] in *.
      * jop. injection H as <- <-. now rewrite update_same.
      * jop. jblock. destruct (Hput true H) as [-> R]. js. rewrite R. jop. reflexivity.
    + destruct (Hput true H) as [-> R]. js. rewrite R. jop. reflexivity.
  - subst m. cbn [tgen_ser ts_ser erase]. apply ser_block_sim; auto. intros buf. tsu. js. reflexivity.
  - subst m. cbn [tgen_ser ts_ser erase]. apply ser_block_sim; auto. intros buf. tsu. js. jfn_call. rewrite call_zigzag_encode by exact Hg0. now rewrite Z2N.id by apply zigzag_pos.
  - subst m. cbn [tgen_ser ts_ser erase]. apply ser_block_sim; auto. intros buf. tsu. js. destruct x; js; reflexivity.
  - destruct Hv as (r & -> & Hr1 & Hb). intros buf off buf' off' H Ho Hdv. cbn [tgen_ser ts_ser erase] in *. assert (var (txt "offset") E = Some (JvNum off)) as Ho' by (unfold var; now rewrite Ho).
    unfold jput in H. apply jbind_ok in H as (b1 & H1 & [= <- <-]). unfold target_buffer. tsu. js. jblock. js. cbn [call_new new_part]. replace (buffer r (target buf F)) with (Some bs) by (symmetry; apply buffer_cell; now apply target_old).
    jop. jget. jget. jget. cbn [call_new new_part]. replace (buffer (length F) (target buf F)) with (Some buf) by (symmetry; apply buffer_cell, target_cell). rewrite N.add_0_l, N.leb_refl.
    jop. rewrite (set_bytes_target F buf off bs r 0 bs b1 H1 Hb (target_slice bs)). jop. jget. reflexivity.
  - subst m. intros buf off buf' off' H Ho Hdv. cbn [tgen_ser ts_ser erase] in *. assert (var (txt "offset") E = Some (JvNum off)) as Ho' by (unfold var; now rewrite Ho).
    destruct Ha as (-> & Ha & Hpa); [unfold needs_atlas; now rewrite orb_true_r|]. cbn [ts_atlas js_atlas] in *. destruct Ha as (r & -> & Hr1 & Hb).
    unfold jput in H. apply jbind_ok in H as (b1 & H1 & [= <- <-]). unfold target_buffer. tsu. js. jblock. js.
    jget. jget. jget. cbn [call_new new_part]. replace (buffer (length F) (target buf F)) with (Some buf) by (symmetry; apply buffer_cell, target_cell). rewrite N.add_0_l, N.leb_refl.
    jop. rewrite (set_bytes_target F buf off (utf8_encode st) r 0 (utf8_encode st) b1 H1 Hb (target_slice _)). jop. jget. reflexivity.
  - destruct (erase e) eqn:Ee; try contradiction. destruct Hk as (t' & -> & Hk). destruct e as [| | | | | | |e|? ? [|] ? ?]; try discriminate. cbn [TsValue.tlinked] in Hk. subst t'.
    destruct Hv as (r & -> & Hr1 & Hms). cbn [tgen_ser ts_ser]. apply ser_block_sim; auto. intros buf. tsu. js. cbn [get_prop].
    replace (array r (target buf F)) with (Some (repeat JvNull (N.to_nat n))) by (symmetry; apply array_cell; now apply target_old). rewrite str_eqb_refl. jop.
    rewrite callee_global; [|jlocal|jreach]. cbn [call_global]. unfold lenN. rewrite repeat_length, N2Nat.id. reflexivity.
Qed.
End Ser.
