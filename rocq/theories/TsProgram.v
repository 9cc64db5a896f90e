(** The public functions of generated TypeScript programs. *)
From Verif Require Import Spec TypesFacts DecodeFacts IdentFacts ValidatorFacts TruncFacts2 ParserFacts.
From Verif Require Import TreeFacts CodeFacts RustTop.
From Verif Require TsPrimFacts TsDecFacts2.
From Verif Require Export TsLinkFacts TsAtlasFacts3 TsSerSim2 TsDeserSim4.

Section Program.
Context (u : unicode) (Hu : ascii_agrees u) (schemas : list (namespace * sschema)).
Context (Hl : loaded schemas) (Hv : valid schemas) (Hg : plain_names schemas u) (Hcn : ts_clear_names u schemas).
Let prog := ts_program u schemas.
Let find := find_callee prelude_fns prog.
Let reach := reaches_top prog.
Context (ns : namespace) (s : sschema) (d : sdecl) (nt : nty) (Hd : declared schemas ns s d) (Hn : decl_named schemas ns s d nt).
Context (rounds : nat).
Notation run := (run_jfn rounds find reach).
Notation here := (dscope u ns (sd_name d)).
Lemma Hg0 : good_scope find reach []. Proof. exact (top_good_scope u Hu schemas Hl Hv Hg Hcn ns s d Hd). Qed.
Lemma Hgs : good_scope find reach here. Proof. exact (own_good_scope u Hu schemas Hl Hv Hg Hcn ns s d Hd). Qed.

Lemma public_found f : In f (public_fns u ns s d) ->
  find_callee prelude_fns prog [] (CPath (map (fun c => ts_name u c Pascal None) ns ++ [ts_name u (sd_name d) Pascal None]) (fst f)) = Some (here, snd f).
Proof.
  intros Hf. destruct (around u Hu schemas Hl Hv Hg ns s d here [] Hd) as (ms & ds & E1 & _ & _ & K); [now rewrite app_nil_r|].
  destruct (K eq_refl) as (_ & _ & _ & ->). unfold dscope, nspaces in *. fold prog in E1.
  destruct (map _ ns ++ _) as [|x p] eqn:Ep; [symmetry in Ep; now apply app_cons_not_nil in Ep|].
  cbn [find_callee rev outward]. unfold namespace_at in *. cbn [descend] in *.
  destruct (member x ([prog], [])) as [n'|] eqn:En; [|discriminate E1].
  change (fns_of x ([prog], [])) with (@nil jfn). rewrite E1, (fns_found u ns s d ms f Hf). rewrite <- Ep. reflexivity.
Qed.
Lemma call_public depth f args h : In f (public_fns u ns s d) ->
  ts_call rounds u prog depth ns d (fst f) args h = run depth here (snd f) args h.
Proof.
  intros Hf. unfold ts_call, run_ts. destruct (around u Hu schemas Hl Hv Hg ns s d here [] Hd) as (ms & ds & E1 & _ & _ & K); [now rewrite app_nil_r|].
  destruct (K eq_refl) as (_ & _ & _ & ->). unfold dscope, nspaces in *. fold prog in E1.
  destruct (map _ ns ++ _) as [|x p] eqn:Ep; [symmetry in Ep; now apply app_cons_not_nil in Ep|].
  cbn [find_callee rev outward]. unfold namespace_at in *. cbn [descend] in *.
  destruct (member x ([prog], [])) as [n'|] eqn:En; [|discriminate E1].
  change (fns_of x ([prog], [])) with (@nil jfn). rewrite E1, (fns_found u ns s d ms f Hf). reflexivity.
Qed.
Lemma own_fn f : In f (public_fns u ns s d) -> find here (CFn (fst f)) = Some (here, snd f).
Proof. exact (own_found u Hu schemas Hl Hv Hg ns s d f Hd). Qed.
Ltac own name fn := apply (own_fn (txt name, fn)); cbn; tauto.

Definition tatlas_fn : jfn := match sd_kind d with SkStruct => tstruct_atlas u ns s (sd_name d) (sd_fields d) | SkChoice => tchoice_atlas u ns s (sd_name d) (sd_fields d) end.
Definition tser_fn : jfn := match sd_kind d with SkStruct => tstruct_ser u ns s (sd_name d) (sd_fields d) | SkChoice => tchoice_ser u ns s (sd_name d) (sd_fields d) end.
Definition tdeser_fn : jfn := match sd_kind d with SkStruct => tstruct_deser u ns s (sd_name d) (sd_fields d) | SkChoice => tchoice_deser u ns s (sd_name d) (sd_fields d) end.
Lemma find_atlas : find here (CFn (txt "atlas")) = Some (here, tatlas_fn).
Proof. apply (own_fn (txt "atlas", tatlas_fn)). cbn. tauto. Qed.
Lemma find_ser : find here (CFn (txt "serializeWithAtlasUnsafe")) = Some (here, tser_fn).
Proof. apply (own_fn (txt "serializeWithAtlasUnsafe", tser_fn)). cbn. tauto. Qed.
Lemma find_deser : find here (CFn (txt "deserializeUnsafe")) = Some (here, tdeser_fn).
Proof. apply (own_fn (txt "deserializeUnsafe", tdeser_fn)). cbn. tauto. Qed.
Lemma run_atlas v depth h m : wt DOut v (erase nt) -> js_value u DOut h 1 v nt m -> (0 < length h)%nat -> (vdepth v + 2 <= depth)%nat -> (vwidth v < rounds)%nat ->
  exists a h', run depth here tatlas_fn [m] h = ExVal a h' /\ grows h h' /\ js_atlas u h' (length h) (ts_atlas true v (erase nt)) nt a.
Proof.
  intros Hw Hm Hh Hdep Hr. destruct Hn as (fs & Hf & E). destruct (decl_tlinked u Hu schemas Hl Hv Hg Hcn ns s d fs Hd Hf) as (Efs & Hi & Hk). apply allP_Forall in Hk.
  rewrite E in *. pose proof (proj2 (atlas_sim rounds find reach u Hg0 v) ns s _ _ fs Hi Hk depth h m Hw Hm Hh Hdep Hr) as K. rewrite Efs in K. exact K.
Qed.
Lemma atlas_object v h lo a : wt DOut v (erase nt) -> js_atlas u h lo (ts_atlas true v (erase nt)) nt a ->
  get_prop a (txt "$size") h = Some (JvNum (jlookup (ts_atlas true v (erase nt)))).
Proof.
  intros Hw Ha. destruct Hn as (fs & Hf & E). rewrite E in *. clear E Hf. cbn [erase] in *.
  destruct (sd_kind d); cbn [decl_type] in *; destruct v; cbn [wt] in Hw; try contradiction.
  - cbn [ts_atlas js_atlas jlookup] in *. destruct Ha as (ps & -> & _). reflexivity.
  - cbn [ts_atlas] in *. destruct (find_field i _) as [f|]; [|contradiction].
    assert (forall n pa fa, js_atlas u h lo (JChoice i n pa fa) (NDecl ns s SkChoice (sd_name d) fs) a -> get_prop a (txt "$size") h = Some (JvNum n)) as K.
    { intros n pa fa K. cbn [js_atlas] in K. destruct (named_field i fs) as [g|]; [|contradiction]. destruct K as (mp & mf & -> & _). reflexivity. }
    destruct Hw as [_ Hw]. destruct (f_rule f); repeat match goal with o : option val |- _ => destruct o end; try contradiction; try discriminate Hw; exact (K _ _ _ Ha).
Qed.
Lemma value_fields v : wt DOut v (erase nt) -> ts_size v (erase nt) = match sd_fields d with [] => 0 | _ => jlookup (ts_atlas true v (erase nt)) end.
Proof.
  intros Hw. destruct Hn as (fs & Hf & E). destruct (decl_tlinked u Hu schemas Hl Hv Hg Hcn ns s d fs Hd Hf) as (Efs & _). rewrite E, <- Efs. cbn [erase].
  destruct (sd_kind d), fs; reflexivity.
Qed.
Lemma run_size v depth h m : wt DOut v (erase nt) -> js_value u DOut h 1 v nt m -> (0 < length h)%nat -> (vdepth v + 3 <= depth)%nat -> (vwidth v < rounds)%nat ->
  exists h', run depth here (tgen_size u (sd_name d) (sd_fields d)) [m] h = ExVal (JvNum (ts_size v (erase nt))) h' /\ grows h h'.
Proof.
  intros Hw Hm Hh Hdep Hr. destruct depth as [|depth]; [lia|]. pose proof Hgs as Hgood. rewrite (value_fields v Hw). unfold tgen_size.
  destruct (run_atlas v depth h m Hw Hm Hh ltac:(lia) Hr) as (a & h' & R & G & A). pose proof (atlas_object v h' _ a Hw A) as P.
  destruct (sd_fields d) as [|f fs] eqn:Ef.
  - jenter. tsu. js. exists h. split; [reflexivity|apply grows_refl].
  - jenter. tsu. js. erewrite callee_fn; [|jlocal|apply find_atlas]. rewrite R. jop. rewrite P. jop. exists h'. split; [reflexivity|exact G].
Qed.
Lemma run_serialize v depth h m bs : wt DOut v (erase nt) -> js_value u DOut h 1 v nt m -> (0 < length h)%nat -> (vdepth v + 3 <= depth)%nat -> (vwidth v < rounds)%nat ->
  ts_serialize v (erase nt) = JOk bs ->
  exists r h', run depth here (tgen_serialize u d) [m] h = ExVal (JvBuf r) h' /\ grows h h' /\ (length h <= r)%nat /\ nth_error h' r = Some (CellBuf bs).
Proof.
  intros Hw Hm Hh Hdep Hr Hs. destruct depth as [|depth]; [lia|]. pose proof Hgs as Hgood. unfold tgen_serialize.
  destruct (run_atlas v depth h m Hw Hm Hh ltac:(lia) Hr) as (a & h1 & R & G & A). pose proof (atlas_object v h1 _ a Hw A) as P.
  unfold ts_serialize, ts_serialize_full in Hs. destruct (ts_ser true v (erase nt) _ _ 0) as [[bs' off']| | |] eqn:Es; try discriminate Hs. injection Hs as ->.
  set (zeros := repeat 0 (N.to_nat (jlookup (ts_atlas true v (erase nt))))) in *.
  assert (run depth here tser_fn [JvView (length h1) 0 (lenN zeros); JvNum 0; m; a] (target zeros h1) = ExVal (JvNum off') (target bs h1)) as R2.
  { destruct Hn as (fs & Hf & E). destruct (decl_tlinked u Hu schemas Hl Hv Hg Hcn ns s d fs Hd Hf) as (Efs & Hi & Hk). apply allP_Forall in Hk. rewrite E in *.
    pose proof (proj2 (ser_sim rounds find reach u Hg0 v) ns s _ _ fs Hi Hk depth h1 m a zeros 0 bs off') as K. cbv zeta in K. rewrite Efs in K. apply K; auto; try lia.
    - revert Hm. apply js_value_mono; [lia|]. intros r c Hrc Hnc. destruct G as (_ & _ & G). rewrite G; [exact Hnc|lia|now apply nth_lt in Hnc].
    - revert A. apply js_atlas_mono; [lia|]. auto. }
  assert (exists e ss, match sd_kind d, sd_fields d with SkChoice, [] => [return_unreachable] | _, _ => e :: ss end = e :: ss) as _ by (eexists; eexists; destruct (sd_kind d), (sd_fields d); reflexivity).
  assert (~ (sd_kind d = SkChoice /\ sd_fields d = [])) as Hne.
  { intros [K1 K2]. destruct Hn as (fs & Hf & E). destruct (decl_tlinked u Hu schemas Hl Hv Hg Hcn ns s d fs Hd Hf) as (Efs & _). rewrite E, K1 in Hw.
    rewrite K2 in Efs. destruct fs; [|discriminate]. cbn [erase decl_type map] in Hw. destruct v; cbn [wt find_field] in Hw; contradiction. }
  assert (match sd_kind d, sd_fields d with SkChoice, [] => [return_unreachable]
     | _, _ =>
         [jconst "messageAtlas" (jcall "atlas" [jx "message"]);
          jconst "arrayBuffer" (XNew false ClsArrayBuffer [prop_of (jx "messageAtlas") "$size"]);
          jconst "dataView" (XNew false ClsDataView [jx "arrayBuffer"]);
          JExpr (jcall "serializeWithAtlasUnsafe" [jx "dataView"; num 0; jx "message"; jx "messageAtlas"]);
          JReturn (jx "arrayBuffer")] end = 
         [jconst "messageAtlas" (jcall "atlas" [jx "message"]);
          jconst "arrayBuffer" (XNew false ClsArrayBuffer [prop_of (jx "messageAtlas") "$size"]);
          jconst "dataView" (XNew false ClsDataView [jx "arrayBuffer"]);
          JExpr (jcall "serializeWithAtlasUnsafe" [jx "dataView"; num 0; jx "message"; jx "messageAtlas"]);
          JReturn (jx "arrayBuffer")]) as -> by (destruct (sd_kind d), (sd_fields d); auto; exfalso; apply Hne; auto).
  jenter. tsu. js. erewrite callee_fn; [|jlocal|apply find_atlas]. rewrite R. jop. rewrite P. jop. cbn [call_new]. fold zeros. jop.
  cbn [call_new new_part]. replace (buffer (length h1) (alloc (CellBuf zeros) h1)) with (Some zeros) by (symmetry; apply buffer_cell, target_cell). jop.
  erewrite callee_fn; [|jlocal|apply find_ser]. fold (target zeros h1). rewrite R2. jop.
  exists (length h1), (target bs h1). split; [reflexivity|]. split; [eapply grows_trans; [exact G|apply grows_alloc]|].
  split; [apply G|apply target_cell].
Qed.
Ltac jget := cbn [get_prop]; repeat match goal with |- context[str_eqb (txt ?a) (txt ?b)] => let r := eval vm_compute in (str_eqb (txt a) (txt b)) in change (str_eqb (txt a) (txt b)) with r end; jop.
Lemma run_deserialize depth h b w : (9 <= rounds)%nat -> scratch h -> ts_source h b w -> bytes_ok (vbuf w) -> (length (vbuf w) < rounds)%nat ->
  (jdd (S (length (vbuf w))) nt + 4 <= depth)%nat ->
  match ts_deserialize (erase nt) w with
  | TsMessage v => exists m h', run depth here (tgen_deserialize u (sd_name d)) [b] h = ExVal m h' /\ grows h h' /\ scratch h' /\ js_value u DIn h' (length h) v nt m
  | TsError => exists k h', run depth here (tgen_deserialize u (sd_name d)) [b] h = ExVal (JvError k) h' /\ grows h h' /\ scratch h'
  | TsStuck => True
  end.
Proof.
  intros H9 Hs Hb Hok Hr Hdep. destruct depth as [|depth]; [lia|]. pose proof Hgs as Hgood.
  assert (exists r, reading h r (voff w) (vlen w) (vbuf w) /\ (b = JvBuf r /\ voff w = 0 /\ vlen w = lenN (vbuf w) \/ b = JvView r (voff w) (vlen w) \/ b = JvBytes r (voff w) (vlen w))) as (r & Hrd & Hcase).
  { inversion Hb; subst; cbn [vbuf voff vlen whole] in *; exists r; (split; [constructor; cbn; auto; lia|tauto]). }
  assert (result (ts_decode (erase nt) true (vlen w) w 0) h (fun x m h' => js_value u DIn h' (length h) (snd x) nt m)
    (run depth here tdeser_fn [JvView r (voff w) (vlen w)] h)) as R.
  { destruct Hn as (fs & Hf & E). destruct (decl_tlinked u Hu schemas Hl Hv Hg Hcn ns s d fs Hd Hf) as (Efs & Hi & Hk). apply allP_Forall in Hk. rewrite E in *.
    pose proof (proj2 (deser_sim rounds find reach u Hg0 H9 (NDecl ns s (sd_kind d) (sd_name d) fs)) Hi Hk depth h r (voff w) (vlen w) (vbuf w) true (vlen w) 0 Hrd Hr ltac:(lia)) as K.
    rewrite Efs in K. destruct w. exact K. }
  assert (forall x, run (S depth) here (tgen_deserialize u (sd_name d)) [b] h = x ->
    match run depth here tdeser_fn [JvView r (voff w) (vlen w)] h with ExVal m h' => x = ExVal m h' | ExThrow m h' => x = ExVal m h' | _ => True end) as K.
  { intros x <-. unfold tgen_deserialize. jenter. tsu. js. rewrite jx_try. jblock. js. cbn [instance_of].
    pose proof (proj2 (buffer_cell _ _ _) (rd_cell _ _ _ _ _ Hrd)) as Hbuf. pose proof (rd_view _ _ _ _ _ Hrd) as Hvw.
    assert ((voff w + vlen w <=? lenN (vbuf w)) = true) as Hle by now apply N.leb_le.
    destruct Hcase as [(-> & E1 & E2)|[->| ->]]; cbn [instance_of]; jop.
    - jblock. js. cbn [call_new new_part]. rewrite Hbuf. jop. erewrite callee_fn; [|jlocal|apply find_deser]. rewrite E1, E2.
      destruct (run depth here tdeser_fn [JvView r 0 (lenN (vbuf w))] h) eqn:ER; try exact I; jop; [reflexivity|]. jblock. js. reflexivity.
    - cbn [instance_of]. jblock. js. erewrite callee_fn; [|jlocal|apply find_deser].
      destruct (run depth here tdeser_fn [JvView r (voff w) (vlen w)] h) eqn:ER; try exact I; jop; [reflexivity|]. jblock. js. reflexivity.
    - cbn [instance_of]. jop. js. jget. jget. jget. cbn [call_new new_part]. rewrite Hbuf, Hle. jop. erewrite callee_fn; [|jlocal|apply find_deser].
      destruct (run depth here tdeser_fn [JvView r (voff w) (vlen w)] h) eqn:ER; try exact I; jop; [reflexivity|]. jblock. js. reflexivity. }
  specialize (K _ eq_refl). unfold ts_deserialize. destruct (ts_decode (erase nt) true (vlen w) w 0) as [[o v]| | |]; cbn [result snd] in R; [| | |exact I].
  - destruct R as (m & h' & R & G & Sc & V). rewrite R in K. exists m, h'. auto.
  - destruct R as (h' & R & G & Sc). rewrite R in K. exists KRange, h'. auto.
  - destruct R as (h' & R & G & Sc). rewrite R in K. exists KOther, h'. auto.
Qed.
End Program.
