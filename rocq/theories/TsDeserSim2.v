(** The same for arrays. *)
From Verif Require Import TypesFacts IdentFacts BaseFacts TsPrimFacts RustAtlasFacts.
From Verif Require Export TsDeserSim.

Section Deser.
Context (rounds : nat) (find : scope -> jcallee -> option (scope * jfn)) (reach : scope -> str -> bool) (u : unicode).
Context (Hg0 : good_scope find reach []) (Hrounds : (9 <= rounds)%nat).
Notation run := (run_jfn rounds find reach).
Notation ev d here := (jeval find reach (run d) here).
Notation ex d here := (jexec rounds find reach (run d) here).
Notation rs d here := (run_stmts (jexec rounds find reach (run d) here)).
Notation tlinked := (tlinked u find reach).
Notation tinstalled := (tinstalled u find reach).
Notation deser_stmt := (deser_stmt rounds find reach u).
Notation small_stmt := (small_stmt rounds find reach u).
Ltac jfn_call := erewrite callee_fn; [|jlocal|jprelude].
Ltac jget := cbn [get_prop]; repeat match goal with |- context[str_eqb (txt ?a) (txt ?b)] => let r := eval vm_compute in (str_eqb (txt a) (txt b)) in change (str_eqb (txt a) (txt b)) with r end; jop.

(** The array, in the first cell after [h0], and the values in it. *)
Record collected (h0 h : heap) (e : nty) (vs : list val) (ms : list jv) : Prop := mkCollected {
  co_grows : grows h0 h;
  co_scratch : scratch h;
  co_cell : nth_error h (length h0) = Some (CellArr ms);
  co_values : Forall2 (fun v m => js_value u DIn h (S (length h0)) v e m) vs ms }.
Lemma collected_new h0 e : scratch h0 -> collected h0 (alloc (CellArr []) h0) e [] [].
Proof. intros H. constructor; [apply grows_alloc|now apply scratch_alloc|apply nth_alloc|constructor]. Qed.
Lemma collected_push h0 h h1 e vs ms v m : scratch h0 -> collected h0 h e vs ms -> grows h h1 -> scratch h1 -> js_value u DIn h1 (length h) v e m -> exists h2,
  call_jmethod MtPush (JvArr (length h0)) [m] h1 = ExVal (JvNum (lenN (ms ++ [m]))) h2 /\ collected h0 h2 e (vs ++ [v]) (ms ++ [m]).
Proof.
  intros S0 [G Sc C V] G1 S1 Hv. pose proof (scratch_pos _ S0) as P0. assert (nth_error h1 (length h0) = Some (CellArr ms)) as C1 by (eapply grows_cell; [exact G1|lia|exact C]).
  eexists. cbn [call_jmethod]. replace (array (length h0) h1) with (Some ms) by (symmetry; now apply array_cell). split; [reflexivity|].
  assert (forall r c, (S (length h0) <= r)%nat -> nth_error h1 r = Some c -> nth_error (put (length h0) (CellArr (ms ++ [m])) h1) r = Some c) as K by (intros r c Hr Hc; rewrite nth_put_other by lia; exact Hc).
  constructor.
  - apply grows_put; [exact (grows_trans _ _ _ G G1)|lia].
  - apply scratch_put; [lia|exact S1].
  - apply nth_put. now apply nth_lt in C1.
  - apply Forall2_app.
    + clear - V K G1. revert K. generalize (ms ++ [m]). intros l K. induction V as [|v2 m2 vs ms Hv2 V IH]; constructor; auto. eapply js_value_mono; [|exact K|]; [lia|]. eapply js_value_grows; [exact G1|lia|exact Hv2].
    + constructor; [|constructor]. apply nth_lt in C. eapply js_value_mono with (lo := length h); [lia| |exact Hv]. intros r c Hr. apply K. lia.
Qed.
Lemma collected_value h0 h e vs ms : collected h0 h e vs ms -> js_value u DIn h (length h0) (VArr vs) (NArray e) (JvArr (length h0)).
Proof.
  intros [G Sc C V]. cbn [js_value]. exists (length h0), ms. split; [reflexivity|]. split; [lia|]. split; [exact C|]. apply all2P_F2.
  clear - V. induction V as [|v m vs ms Hv V IH]; constructor; auto. eapply js_value_mono; [|intros r c _ H; exact H|exact Hv]. lia.
Qed.

(** ** Without sizes *)
Lemma range_break here d v E h : good_scope find reach here -> clear E -> var (txt "e") E = Some (JvError v) ->
  run_block (ex d here) [] break_on_range_error E h = match v with KRange => SoBreak E h | KOther => SoThrow (JvError v) E h end.
Proof. intros Hg Hc He. unfold break_on_range_error. tsu. jblock. js. cbn [instance_of]. destruct v; jop; jblock; js; reflexivity. Qed.
Lemma small_loop here ns s t e d r vo vl bs h0 : small_stmt e -> good_scope find reach here -> tlinked here ns s t e ->
  reading h0 r vo vl bs -> (3 <= d)%nat ->
  forall n k off E h vs ms, (n <= k)%nat -> clear E -> var (txt "dataView") E = Some (JvView r vo vl) -> var (txt "payloadAlias") E = Some (JvArr (length h0)) ->
  lookup (txt "offset") E = Some (SVar (JvNum off)) -> collected h0 h e vs ms ->
  match ts_small_loop n (fun off => ts_decode (erase e) false 0 (mkView bs vo vl) off) off with
  | JOk (off', vs') => exists h' ms', collected h0 h' e (vs ++ vs') ms' /\
      run_while (condition find reach (run d) here (XBool true))
        (run_block (ex d here) [] [JTry (tgen_deser u ns s t false ++ [JExpr (XMethod false (jx "payloadAlias") MtPush [jx "payload"])]) (txt "e") break_on_range_error]) k E h
      = SoBreak (update (txt "offset") (SVar (JvNum off')) E) h'
  | JRange | JError => False
  | JFuel => True
  end.
Proof.
  intros He Hg Hk HR Hd. induction n as [|n IH]; intros k off E h vs ms Hn Hc Hv Ha Ho Hco; [exact I|]. destruct k as [|k]; [lia|]. cbn [ts_small_loop].
  rewrite while_step. unfold jx. js. rewrite (run_block_eq _ _ _ _ _ []) by reflexivity. cbn [app length]. rewrite run_stmts_cons, jx_try.
  jblock_as [(txt "payload", SDead false)]. rewrite run_stmts_app.
  pose proof (He here ns s t false 0 d ((txt "payload", SDead false) :: E) h r vo vl bs off Hg Hk) as H.
  match type of H with ?P -> _ => assert P as HX by jclear; specialize (H HX); clear HX end.
  match type of H with ?P -> _ => assert P as HX by jlk; specialize (H HX); clear HX end.
  match type of H with ?P -> _ => assert P as HX by jvar; specialize (H HX); clear HX end.
  match type of H with ?P -> _ => assert P as HX by jlk; specialize (H HX); clear HX end.
  specialize (H ltac:(discriminate) (reading_grows _ _ _ _ _ _ HR (co_grows _ _ _ _ _ Hco) (co_scratch _ _ _ _ _ Hco)) Hd).
  destruct (ts_decode (erase e) false 0 (mkView bs vo vl) off) as [[o1 v]| | |]; try contradiction.
  - destruct H as (m & h1 & R & G1 & S1 & V1). rewrite R. unfold updated. cbn [fst snd] in *. jop.
    destruct (collected_push h0 h h1 e vs ms v m (rd_scratch _ _ _ _ _ HR) Hco G1 S1 V1) as (h2 & R2 & Hco2). rewrite R2. jop.
    specialize (IH k o1 (update (txt "offset") (SVar (JvNum o1)) E) h2 (vs ++ [v]) (ms ++ [m]) ltac:(lia)).
    match type of IH with ?P -> _ => assert P as HX by jclear; specialize (IH HX); clear HX end.
    match type of IH with ?P -> _ => assert P as HX by jvar; specialize (IH HX); clear HX end.
    match type of IH with ?P -> _ => assert P as HX by jvar; specialize (IH HX); clear HX end.
    match type of IH with ?P -> _ => assert P as HX by jlk; specialize (IH HX); clear HX end.
    specialize (IH Hco2). unfold jsnd. destruct (ts_small_loop n _ o1) as [[o2 vs']| | |]; cbn [jbind fst snd]; auto.
    destruct IH as (h3 & ms3 & Hco3 & R3). exists h3, ms3. rewrite <- app_assoc in Hco3. split; [exact Hco3|]. unfold jx in R3. rewrite R3, update_twice. reflexivity.
  - destruct H as (x & h1 & R & S1). rewrite R. jop. rewrite (range_break here d KRange); [|exact Hg|jclear|reflexivity]. jop. exists h1, ms. rewrite app_nil_r. rewrite update_same by exact Ho. split; [|reflexivity].
    destruct Hco as [G Sc C V]. pose proof (grows_scratched _ _ S1) as G1. constructor.
    + exact (grows_trans _ _ _ G G1).
    + eapply scratched_scratch; eassumption.
    + eapply grows_cell; [exact G1|apply rd_scratch, scratch_pos in HR; lia|exact C].
    + clear - V G1. induction V as [|v m vs ms Hv V IH]; constructor; auto. eapply js_value_grows; [exact G1|lia|exact Hv].
Qed.
Lemma tgen_deser_small ns s t f : sized_sty t = false -> is_unit_sty t = false -> tgen_deser u ns s (SyArray t) f =
  [JLet false (txt "payload") (Some (TtArray (tgen_type u ns s t SIn))) (Some (XArr false []));
   JBlock
     [jconst "payloadAlias" (jx "payload");
      JBlock [JWhile (XBool true) [JTry (tgen_deser u ns s t false ++ [JExpr (XMethod false (jx "payloadAlias") MtPush [jx "payload"])]) (txt "e") break_on_range_error]]]].
Proof. destruct t; try discriminate; reflexivity. Qed.
Lemma ts_decode_small f psz v off e : sized_element e = false -> is_unit e = false -> ts_decode (TArray e) f psz v off =
  jsnd VArr (ts_small_loop (S (length (vbuf v))) (fun off => ts_decode e false 0 v off) off).
Proof. destruct e; try discriminate; reflexivity. Qed.
Lemma small_array_deser e : small_stmt e -> sized_element (erase e) = false -> is_unit (erase e) = false -> deser_stmt (NArray e).
Proof.
  intros He Hs Hu here ns s t f psz d E h r vo vl bs off Hg (t' & -> & Hk) Hc Hp Hv Ho Hsz Ht HR Hr Hd.
  pose proof (tlinked_sized _ _ _ _ _ _ _ _ Hk) as Hs'. rewrite Hs in Hs'. pose proof (tlinked_unit _ _ _ _ _ _ _ _ Hk) as Hu'. rewrite Hu in Hu'.
  rewrite (tgen_deser_small _ _ _ _ Hs' Hu'). cbn [erase]. rewrite ts_decode_small by assumption. cbn [vbuf]. tsu. js. jblock. js. rewrite (run_block_eq _ _ _ _ _ []) by reflexivity. cbn [app length].
  rewrite run_stmts_cons, jx_while.
  match goal with |- context [run_while _ _ rounds ?E1 ?h1] => pose proof (small_loop here ns s t' e d r vo vl bs h He Hg Hk HR ltac:(lia) (S (length bs)) rounds off E1 h1 [] []) as H end.
  specialize (H ltac:(lia)).
  match type of H with ?P -> _ => assert P as HX by jclear; specialize (H HX); clear HX end.
  match type of H with ?P -> _ => assert P as HX by jvar; specialize (H HX); clear HX end.
  match type of H with ?P -> _ => assert P as HX by jvar; specialize (H HX); clear HX end.
  match type of H with ?P -> _ => assert P as HX by jlk; specialize (H HX); clear HX end.
  specialize (H (collected_new h e (rd_scratch _ _ _ _ _ HR))). unfold jsnd.
  destruct (ts_small_loop _ _ off) as [[o1 vs]| | |]; cbn [jbind fst snd outcome app] in *; try contradiction; auto.
  destruct H as (h1 & ms & Hco & R). unfold jx in R. rewrite R. jop. eexists _, h1. unfold updated. rewrite (update_comm (txt "offset")) by reflexivity. split; [reflexivity|].
  split; [exact (co_grows _ _ _ _ _ Hco)|]. split; [exact (co_scratch _ _ _ _ _ Hco)|]. eapply collected_value, Hco.
Qed.

(** ** With sizes *)
Definition sized_body (ns : namespace) (s : sschema) (t : sty) : list jstmt :=
  [jdecl "payloadSizeBig";
   JTry [JAssignTuple [txt "offset"; txt "payloadSizeBig"] (jcall "deserializeVarint" [jx "dataViewAlias"; jx "offset"])] (txt "e") break_on_range_error] ++
  sub_view (XCall false (CGlobal GNumber) [jx "payloadSizeBig"]) ++ tgen_deser u ns s t false ++
  [jadd "offset" (jx "oldOffset"); JExpr (XMethod false (jx "payloadAlias") MtPush [jx "payload"])].
Lemma collected_scratched h0 h h1 e vs ms : scratch h0 -> collected h0 h e vs ms -> scratched h h1 -> collected h0 h1 e vs ms.
Proof.
  intros S0 [G Sc C V] S1. pose proof (grows_scratched _ _ S1) as G1. constructor.
  - exact (grows_trans _ _ _ G G1).
  - eapply scratched_scratch; eassumption.
  - eapply grows_cell; [exact G1|apply scratch_pos in S0; lia|exact C].
  - clear - V G1. induction V as [|v m vs ms Hv V IH]; constructor; auto. eapply js_value_grows; [exact G1|lia|exact Hv].
Qed.
Lemma sized_loop here ns s t e d r vo vl bs h0 : deser_stmt e -> good_scope find reach here -> tlinked here ns s t e ->
  reading h0 r vo vl bs -> (length bs < rounds)%nat -> (jdd (S (length bs)) e + 3 <= d)%nat ->
  forall n k off E h vs ms, (n <= k)%nat -> clear E -> var (txt "dataViewAlias") E = Some (JvView r vo vl) -> var (txt "payloadAlias") E = Some (JvArr (length h0)) ->
  lookup (txt "offset") E = Some (SVar (JvNum off)) -> var (txt "textDecoder") E = Some JvDecoder -> collected h0 h e vs ms ->
  outcome (ts_sized_loop n (ts_decode (erase e) false) (mkView bs vo vl) off) h0
   (fun x o => exists h' ms', collected h0 h' e (vs ++ snd x) ms' /\ o = SoBreak (update (txt "offset") (SVar (JvNum (fst x))) E) h')
   (run_while (condition find reach (run d) here (XBool true)) (run_block (ex d here) [] (sized_body ns s t)) k E h).
Proof.
  intros He Hg Hk HR Hr Hd. induction n as [|n IH]; intros k off E h vs ms Hn Hc Hv Ha Ho Ht Hco; [exact I|]. destruct k as [|k]; [lia|]. cbn [ts_sized_loop vbuf voff].
  assert (var (txt "offset") E = Some (JvNum off)) as Ho' by (unfold var; now rewrite Ho).
  rewrite while_step. unfold sized_body at 1, sub_view. tsu. js.
  jblock_as [(txt "payloadSizeBig", SDead false); (txt "dataView", SDead true); (txt "oldOffset", SDead true); (txt "payload", SDead false)].
  js. rewrite jx_try. jblock. js. destruct d as [|[|d]]; [lia|lia|]. jfn_call.
  pose proof (reading_grows _ _ _ _ _ _ HR (co_grows _ _ _ _ _ Hco) (co_scratch _ _ _ _ _ Hco)) as HR1.
  pose proof (call_deserialize_varint rounds find reach Hg0 Hrounds d r vo vl bs off h (rd_new _ _ _ _ _ HR1) (rd_cell _ _ _ _ _ HR1) (rd_bytes _ _ _ _ _ HR1) (rd_scratch _ _ _ _ _ HR1)) as HV.
  pose proof (rd_scratch _ _ _ _ _ HR) as S0.
  destruct (ts_deserialize_varint (mkView bs vo vl) off) as [[o1 sz]| | |]; cbn [read_result] in HV; try contradiction; destruct HV as (h1 & S1 & R); rewrite R; clear R.
  2:{ jop. rewrite (range_break here _ KRange); [|exact Hg|jclear|reflexivity]. jop. cbn [outcome fst snd]. exists h1, ms. rewrite app_nil_r. rewrite update_same by exact Ho. split; [|reflexivity].
      eapply collected_scratched; eassumption. }
  unfold pair_value. cbn [fst snd]. jop. jget. jget. rewrite callee_global; [|jlocal|jreach]. cbn [call_global]. rewrite zn_neg, N2Z.id. jop. cbn [call_new new_part].
  pose proof (collected_scratched _ _ _ _ _ _ S0 Hco S1) as Hco1. pose proof (reading_scratched _ _ _ _ _ _ HR1 S1) as HR2.
  replace (buffer r h1) with (Some bs) by (symmetry; apply buffer_cell, HR2). unfold new_view. destruct (vo + o1 + sz <=? lenN bs) eqn:El.
  2:{ unfold range_error. jop. cbn [jbind outcome]. apply thrown_at; [exact (co_grows _ _ _ _ _ Hco1)|exact (co_scratch _ _ _ _ _ Hco1)]. }
  cbn [jbind]. jop. rewrite run_stmts_app. apply N.leb_le in El.
  match goal with |- context [rs _ here (tgen_deser u ns s t false) ?E1 h1] => pose proof (He here ns s t false sz (S (S d)) E1 h1 r (vo + o1) sz bs 0 Hg Hk) as H end.
  match type of H with ?P -> _ => assert P as HX by jclear; specialize (H HX); clear HX end.
  match type of H with ?P -> _ => assert P as HX by jlk; specialize (H HX); clear HX end.
  match type of H with ?P -> _ => assert P as HX by jvar; specialize (H HX); clear HX end.
  match type of H with ?P -> _ => assert P as HX by jlk; specialize (H HX); clear HX end.
  specialize (H ltac:(discriminate)).
  match type of H with ?P -> _ => assert P as HX by jvar; specialize (H HX); clear HX end.
  match type of H with ?P -> _ => assert P as HX by (destruct HR2; constructor; auto); specialize (H HX Hr Hd); clear HX end.
  apply outcome_bind. eapply outcome_grows in H; [|apply Hco1].
  match goal with |- outcome _ _ _ (snext (leave_block _ (snext ?o _)) _) => revert H; generalize o; intros oo H end.
  match goal with |- outcome ?x ?h ?K (snext (leave_block ?n (snext ?o ?f)) ?g) => apply (outcome_then x h _ K o (fun o => snext (leave_block n (snext o f)) g)) with (2 := H) end.
  { intros q Hq. now apply thrown_snext, thrown_leave, thrown_snext. }
  intros [o2 v] _ (m & h2 & -> & G2 & S2 & V2). cbn [fst snd] in *. unfold updated. jop.
  destruct (collected_push h0 h1 h2 e vs ms v m S0 Hco1 G2 S2 V2) as (h3 & R3 & Hco3). rewrite R3. jop. rewrite !update_twice.
  specialize (IH k (o2 + o1) (update (txt "offset") (SVar (JvNum (o2 + o1))) E) h3 (vs ++ [v]) (ms ++ [m]) ltac:(lia)).
  match type of IH with ?P -> _ => assert P as HX by jclear; specialize (IH HX); clear HX end.
  match type of IH with ?P -> _ => assert P as HX by jvar; specialize (IH HX); clear HX end.
  match type of IH with ?P -> _ => assert P as HX by jvar; specialize (IH HX); clear HX end.
  match type of IH with ?P -> _ => assert P as HX by jlk; specialize (IH HX); clear HX end.
  match type of IH with ?P -> _ => assert P as HX by jvar; specialize (IH HX); clear HX end.
  specialize (IH Hco3). unfold jsnd. apply outcome_bind. eapply outcome_imp; [exact IH|]. intros [o4 vs4] _ (h4 & ms4 & Hco4 & ->). cbn [fst snd outcome] in *.
  exists h4, ms4. rewrite <- app_assoc in Hco4. split; [exact Hco4|]. now rewrite update_twice.
Qed.
Lemma tgen_deser_sized ns s t f : sized_sty t = true -> tgen_deser u ns s (SyArray t) f =
  [JLet false (txt "payload") (Some (TtArray (tgen_type u ns s t SIn))) (Some (XArr false []));
   JBlock
     [jconst "dataViewAlias" (jx "dataView"); jconst "payloadAlias" (jx "payload"); JBlock [JWhile (XBool true) (sized_body ns s t)]]].
Proof. destruct t; try discriminate; reflexivity. Qed.
Lemma ts_decode_sized f psz v off e : sized_element e = true -> ts_decode (TArray e) f psz v off =
  jsnd VArr (ts_sized_loop (S (length (vbuf v))) (ts_decode e false) v off).
Proof. destruct e; try discriminate; reflexivity. Qed.
Lemma sized_array_deser e : deser_stmt e -> sized_element (erase e) = true -> deser_stmt (NArray e).
Proof.
  intros He Hs here ns s t f psz d E h r vo vl bs off Hg (t' & -> & Hk) Hc Hp Hv Ho Hsz Ht HR Hr Hd. cbn [jdd] in Hd.
  pose proof (tlinked_sized _ _ _ _ _ _ _ _ Hk) as Hs'. rewrite Hs in Hs'.
  rewrite (tgen_deser_sized _ _ _ _ Hs'). cbn [erase]. rewrite ts_decode_sized by assumption. cbn [vbuf]. tsu. js. jblock. js. rewrite (run_block_eq _ _ _ _ _ []) by reflexivity. cbn [app length].
  rewrite run_stmts_cons, jx_while.
  match goal with |- context [run_while _ _ rounds ?E1 ?h1] => pose proof (sized_loop here ns s t' e d r vo vl bs h He Hg Hk HR Hr Hd (S (length bs)) rounds off E1 h1 [] []) as H end.
  specialize (H ltac:(lia)).
  match type of H with ?P -> _ => assert P as HX by jclear; specialize (H HX); clear HX end.
  match type of H with ?P -> _ => assert P as HX by jvar; specialize (H HX); clear HX end.
  match type of H with ?P -> _ => assert P as HX by jvar; specialize (H HX); clear HX end.
  match type of H with ?P -> _ => assert P as HX by jlk; specialize (H HX); clear HX end.
  match type of H with ?P -> _ => assert P as HX by jvar; specialize (H HX); clear HX end.
  specialize (H (collected_new h e (rd_scratch _ _ _ _ _ HR))). unfold jsnd. apply outcome_bind.
  match goal with |- outcome _ _ _ ?o => match o with context C [run_while ?a ?b rounds ?c ?d] => let w := constr:(run_while a b rounds c d) in revert H; generalize w; intros o0 H end end.
  destruct (ts_sized_loop _ _ _ off) as [[o1 vs]| | |]; cbn [fst snd outcome app] in *; auto.
  2-3: destruct H as (E' & h' & -> & H); jop; eexists _, h'; split; [reflexivity|exact H].
  destruct H as (h1 & ms & Hco & ->). jop. eexists _, h1. unfold updated. rewrite (update_comm (txt "offset")) by reflexivity. split; [reflexivity|].
  split; [exact (co_grows _ _ _ _ _ Hco)|]. split; [exact (co_scratch _ _ _ _ _ Hco)|]. eapply collected_value, Hco.
Qed.
Lemma array_deser e : deser_stmt e -> deser_stmt (NArray e).
Proof.
  intros He. destruct e as [| | | | | | |e|? ? [|] ? ?]; try (apply sized_array_deser; [exact He|reflexivity]).
  - now apply units_deser.
  - apply small_array_deser; auto. now apply f64_small.
  - apply small_array_deser; auto. now apply u64_small.
  - apply small_array_deser; auto. now apply s64_small.
  - apply small_array_deser; auto. now apply bool_small.
Qed.
End Deser.
