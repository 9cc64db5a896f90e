(** The generated deserialization functions read what the model reads. *)
From Verif Require Import TypesFacts IdentFacts BaseFacts TsPrimFacts RustAtlasFacts RustDeserFacts.
From Verif Require TsDecFacts2.
From Verif Require Export TsDeserSim2.

Definition stops (o : sout) : Prop := match o with SoNext _ _ => False | _ => True end.
Lemma stops_snext o f : stops o -> snext o f = o. Proof. destruct o; [intros []| | | | |]; reflexivity. Qed.
Lemma thrown_stops k h o : thrown k h o -> stops o. Proof. intros (E & h' & -> & _). exact I. Qed.

Section Deser.
Context (rounds : nat) (find : scope -> jcallee -> option (scope * jfn)) (reach : scope -> str -> bool) (u : unicode).
Context (Hg0 : good_scope find reach []) (Hrounds : (9 <= rounds)%nat).
Notation run := (run_jfn rounds find reach).
Notation ev d here := (jeval find reach (run d) here).
Notation ex d here := (jexec rounds find reach (run d) here).
Notation rs d here := (run_stmts (jexec rounds find reach (run d) here)).
Notation tlinked := (tlinked u find reach).
Notation tinstalled := (tinstalled u find reach).
Notation deser_stmt := (deser_stmt rounds find reach u).
Ltac jfn_call := erewrite callee_fn; [|jlocal|jprelude].
Ltac jget := cbn [get_prop]; repeat match goal with |- context[str_eqb (txt ?a) (txt ?b)] => let r := eval vm_compute in (str_eqb (txt a) (txt b)) in change (str_eqb (txt a) (txt b)) with r end; jop.

(** The payload of a field. *)
Lemma payload_sim here ns s (f : sfield * nty) d E h r vo vl bs off sz : deser_stmt (snd f) -> good_scope find reach here -> tlinked here ns s (sf_type (fst f)) (snd f) -> clear E ->
  var (txt "dataViewAlias") E = Some (JvView r vo vl) -> lookup (txt "offset") E = Some (SVar (JvNum off)) -> var (txt "payloadSize") E = Some (JvNum sz) ->
  var (txt "textDecoder") E = Some JvDecoder -> reading h r vo vl bs -> (length bs < rounds)%nat -> (jdd (S (length bs)) (snd f) + 3 <= d)%nat ->
  outcome (jbind (new_view bs (vo + off) sz) (fun v' => ts_decode (erase (snd f)) true sz v' 0)) h
    (fun x o => exists m h', o = SoNext ((txt "dataView", SConst (JvView r (vo + off) sz)) :: (txt "oldOffset", SConst (JvNum off)) :: (txt "payload", SVar m) ::
                                    update (txt "offset") (SVar (JvNum (fst x))) E) h' /\ grows h h' /\ scratch h' /\ js_value u DIn h' (length h) (snd x) (snd f) m)
    (rs d here (sub_view (jx "payloadSize") ++ tgen_deser u ns s (sf_type (fst f)) true)
       ((txt "dataView", SDead true) :: (txt "oldOffset", SDead true) :: (txt "payload", SDead false) :: E) h).
Proof.
  intros He Hg Hk Hc Hv Ho Hsz Ht HR Hr Hd. assert (var (txt "offset") E = Some (JvNum off)) as Ho' by (unfold var; now rewrite Ho).
  rewrite run_stmts_app. unfold sub_view. tsu. js. jget. jget. cbn [call_new new_part]. replace (buffer r h) with (Some bs) by (symmetry; apply buffer_cell, HR). unfold new_view.
  destruct (vo + off + sz <=? lenN bs) eqn:El; cbn [jbind].
  2:{ unfold range_error. jop. apply thrown_at; [apply grows_refl|apply HR]. }
  jop. apply N.leb_le in El.
  match goal with |- context [rs _ here (tgen_deser u ns s _ true) ?E1 h] => pose proof (He here ns s (sf_type (fst f)) true sz d E1 h r (vo + off) sz bs 0 Hg Hk) as H end.
  match type of H with ?P -> _ => assert P as HX by jclear; specialize (H HX); clear HX end.
  match type of H with ?P -> _ => assert P as HX by jlk; specialize (H HX); clear HX end.
  match type of H with ?P -> _ => assert P as HX by jvar; specialize (H HX); clear HX end.
  match type of H with ?P -> _ => assert P as HX by jlk; specialize (H HX); clear HX end.
  match type of H with ?P -> _ => assert P as HX by (intros _; jvar); specialize (H HX); clear HX end.
  match type of H with ?P -> _ => assert P as HX by jvar; specialize (H HX); clear HX end.
  match type of H with ?P -> _ => assert P as HX by (destruct HR; constructor; auto); specialize (H HX Hr Hd); clear HX end.
  eapply outcome_imp; [exact H|]. intros [o1 v] _ (m & h' & R & G & S1 & V). cbn [fst snd] in *. exists m, h'. split; [|auto]. rewrite R. unfold updated. jop. now rewrite update_twice.
Qed.

(** Which case is taken. *)
Lemma cases_pick d here (case : sfield -> jexpr * (bool * list jstmt)) default i E h : (forall g, fst (case g) = XBig false (sf_index g)) ->
  forall fs : list (sfield * nty),
  match named_field i fs with
  | Some f => stops (run_body (ex d here) (snd (case (fst f))) E h) ->
      run_cases (ex d here) (ev d here) (JvBig (Z.of_N i)) default false (map case (map fst fs)) E h = run_body (ex d here) (snd (case (fst f))) E h
  | None => run_cases (ex d here) (ev d here) (JvBig (Z.of_N i)) default false (map case (map fst fs)) E h = run_body (ex d here) default E h
  end.
Proof.
  intros Hcase. induction fs as [|g fs IH]; cbn [named_field map]; [apply cases_default|]. specialize (Hcase (fst g)). destruct (case (fst g)) as [c b] eqn:Ec. cbn [fst] in Hcase. subst c.
  rewrite cases_cons, jev_big. cbn [sbind strict_eq]. rewrite zn_eqb, (N.eqb_sym i). destruct (sf_index (fst g) =? i) eqn:Ei; [|exact IH].
  rewrite Ec. cbn [snd]. intros Hs. now apply stops_snext.
Qed.

(** ** Structs *)
Record holding (fs : list (sfield * nty)) (E0 E : jenv) (h0 h : heap) (slots : list (N * val)) (off : N) : Prop := mkHolding {
  ho_names : map fst E = map fst E0;
  ho_other : forall y, str_eqb y (txt "offset") = false -> match y with c :: _ => c =? 36 | [] => false end = false -> lookup y E = lookup y E0;
  ho_offset : lookup (txt "offset") E = Some (SVar (JvNum off));
  ho_fields : Forall (fun f => exists m, lookup (tlocal_name u (fst f)) E = Some (SVar m) /\
    match tassoc (sf_index (fst f)) slots with Some v => js_value u DIn h (length h0) v (snd f) m | None => m = JvUndef end) fs;
  ho_grows : grows h0 h;
  ho_scratch : scratch h }.
Lemma local_not_offset f : str_eqb (tlocal_name u f) (txt "offset") = false.
Proof. apply str_eqb_neq. destruct (local_prefix u f) as (y & ->). discriminate. Qed.
Lemma holding_offset fs E0 E h0 h slots off off' : holding fs E0 E h0 h slots off -> holding fs E0 (update (txt "offset") (SVar (JvNum off')) E) h0 h slots off'.
Proof.
  intros [H1 H2 H3 H4 H5 H6]. constructor; auto.
  - now rewrite update_names.
  - intros y Hy Hl. rewrite lookup_other by exact Hy. now apply H2.
  - eapply lookup_updated, H3.
  - eapply Forall_impl; [|exact H4]. intros f (m & Hm & Hv). exists m. split; [|exact Hv]. rewrite lookup_other by apply local_not_offset. exact Hm.
Qed.
Lemma holding_grows fs E0 E h0 h h' slots off : scratch h0 -> holding fs E0 E h0 h slots off -> grows h h' -> scratch h' -> holding fs E0 E h0 h' slots off.
Proof.
  intros S0 [H1 H2 H3 H4 H5 H6] G S1. constructor; auto.
  - eapply Forall_impl; [|exact H4]. intros f (m & Hm & Hv). exists m. split; [exact Hm|]. destruct (tassoc _ slots); [|exact Hv]. eapply js_value_grows; [exact G|now apply scratch_pos|exact Hv].
  - exact (grows_trans _ _ _ H5 G).
Qed.
Lemma holding_set fs E0 E h0 h slots off f v m : NoDup (map (fun f => tfield_name u (fst f)) fs) -> NoDup (map (fun f => sf_index (fst f)) fs) -> In f fs ->
  holding fs E0 E h0 h slots off -> js_value u DIn h (length h0) v (snd f) m -> holding fs E0 (update (tlocal_name u (fst f)) (SVar m) E) h0 h ((sf_index (fst f), v) :: slots) off.
Proof.
  intros Hn Hi Hf [H1 H2 H3 H4 H5 H6] Hv. constructor; auto.
  - now rewrite update_names.
  - intros y Hy Hl. rewrite lookup_other; [now apply H2|]. apply str_eqb_neq. intros ->. destruct (local_prefix u (fst f)) as (z & Ez). rewrite Ez, N.eqb_refl in Hl. discriminate.
  - rewrite lookup_other; [exact H3|]. rewrite str_eqb_sym. apply local_not_offset.
  - rewrite Forall_forall in *. intros g Hg. destruct (H4 g Hg) as (mg & Lg & Vg). cbn [tassoc]. destruct (sf_index (fst f) =? sf_index (fst g)) eqn:Ei.
    + apply N.eqb_eq in Ei. assert (f = g) as <-.
      { clear - Hi Hf Hg Ei. induction fs as [|x fs IH]; [destruct Hf|]. cbn [map] in Hi. inversion Hi as [|? ? A B]; subst. destruct Hf as [->|Hf], Hg as [->|Hg]; auto.
        - exfalso. apply A. rewrite Ei. now apply (in_map (fun f => sf_index (fst f))).
        - exfalso. apply A. rewrite <- Ei. now apply (in_map (fun f => sf_index (fst f))). }
      exists m. split; [|exact Hv]. eapply lookup_updated, Lg.
    + exists mg. split; [|exact Vg]. rewrite lookup_other; [exact Lg|]. apply str_eqb_neq. unfold tlocal_name. intros Eq. apply app_inv_head in Eq. apply N.eqb_neq in Ei. apply Ei. f_equal. f_equal.
      clear - Hn Hf Hg Eq. induction fs as [|x fs IH]; [destruct Hf|]. cbn [map] in Hn. inversion Hn as [|? ? A B]; subst. destruct Hf as [->|Hf], Hg as [->|Hg]; auto.
      * exfalso. apply A. rewrite <- Eq. now apply (in_map (fun f => tfield_name u (fst f))).
      * exfalso. apply A. rewrite Eq. now apply (in_map (fun f => tfield_name u (fst f))).
Qed.

Lemma struct_case here ns s (f : sfield * nty) d E h r vo vl bs off sz m0 : deser_stmt (snd f) -> good_scope find reach here -> tlinked here ns s (sf_type (fst f)) (snd f) -> clear E ->
  var (txt "dataViewAlias") E = Some (JvView r vo vl) -> lookup (txt "offset") E = Some (SVar (JvNum off)) -> var (txt "payloadSize") E = Some (JvNum sz) ->
  var (txt "textDecoder") E = Some JvDecoder -> lookup (tlocal_name u (fst f)) E = Some (SVar m0) -> reading h r vo vl bs -> (length bs < rounds)%nat -> (jdd (S (length bs)) (snd f) + 3 <= d)%nat ->
  outcome (jbind (new_view bs (vo + off) sz) (fun v' => ts_decode (erase (snd f)) true sz v' 0)) h
    (fun x o => exists m h', o = SoBreak (update (tlocal_name u (fst f)) (SVar m) (update (txt "offset") (SVar (JvNum (fst x + off))) E)) h' /\
       grows h h' /\ scratch h' /\ js_value u DIn h' (length h) (snd x) (snd f) m)
    (run_body (ex d here) (snd (tstruct_deser_case u ns s (fst f))) E h).
Proof.
  intros He Hg Hk Hc Hv Ho Hsz Ht Hl HR Hr Hd. unfold tstruct_deser_case. cbn [snd]. rewrite body_braces.
  rewrite (run_block_eq _ _ _ _ _ [(txt "dataView", SDead true); (txt "oldOffset", SDead true); (txt "payload", SDead false)]);
    [|rewrite !frame_app, frame_deser; reflexivity|reflexivity]. cbn [app length].
  rewrite app_assoc, run_stmts_app.
  pose proof (payload_sim here ns s f d E h r vo vl bs off sz He Hg Hk Hc Hv Ho Hsz Ht HR Hr Hd) as H. revert H.
  match goal with |- outcome ?x ?h ?K ?o -> _ => generalize o; intros oo H end.
  match goal with |- outcome ?x ?h ?K (leave_block ?n (snext ?o ?f)) => apply (outcome_then x h _ K o (fun o => leave_block n (snext o f))) with (2 := H) end.
  { intros k Hk'. now apply thrown_leave, thrown_snext. }
  intros [o1 v] _ (m & h' & -> & G & S1 & V). cbn [fst snd] in *. tsu. jop.
  exists m, h'. rewrite update_twice. auto.
Qed.

Lemma field_decoder (g : field_of ty -> tdecoder) i (fs : list (sfield * nty)) :
  tassoc i (map (fun f => (f_index f, g f)) (map erase_field fs)) = match named_field i fs with Some f => Some (g (erase_field f)) | None => None end.
Proof. rewrite TsDecFacts2.tassoc_fields, find_erased. now destruct (named_field i fs). Qed.
Definition field_ready here ns s d (bs : bytes) (f : sfield * nty) : Prop :=
  deser_stmt (snd f) /\ tlinked here ns s (sf_type (fst f)) (snd f) /\ (jdd (S (length bs)) (snd f) + 3 <= d)%nat.
Lemma struct_loop here ns s fs d E0 h0 r vo vl bs : good_scope find reach here -> NoDup (map (fun f => tfield_name u (fst f)) fs) -> NoDup (map (fun f => sf_index (fst f)) fs) ->
  Forall (field_ready here ns s d bs) fs -> clear E0 -> var (txt "dataViewAlias") E0 = Some (JvView r vo vl) -> var (txt "textDecoder") E0 = Some JvDecoder ->
  reading h0 r vo vl bs -> (length bs < rounds)%nat -> (3 <= d)%nat ->
  forall n k slots off E h, (n <= k)%nat -> holding fs E0 E h0 h slots off ->
  outcome (ts_struct_loop n (map (fun f => (f_index f, ts_decode (f_type f) true)) (map erase_field fs)) slots (mkView bs vo vl) off) h0
    (fun slots' o => exists E' h' off', o = SoBreak E' h' /\ holding fs E0 E' h0 h' slots' off')
    (run_while (condition find reach (run d) here (XBool true)) (run_block (ex d here) [] (tstruct_loop u ns s (map fst fs))) k E h).
Proof.
  intros Hg Hn Hi Hf Hc Hv Ht HR Hr Hd. induction n as [|n IH]; intros k slots off E h Hk Hh; [exact I|]. destruct k as [|k]; [lia|]. cbn [ts_struct_loop vbuf voff].
  pose proof (ho_offset _ _ _ _ _ _ _ Hh) as Ho. assert (var (txt "offset") E = Some (JvNum off)) as Ho' by (unfold var; now rewrite Ho).
  assert (clear E) as Hc' by (eapply clear_names; [apply Hh|exact Hc]).
  assert (var (txt "dataViewAlias") E = Some (JvView r vo vl)) as Hv' by (unfold var in *; now rewrite (ho_other _ _ _ _ _ _ _ Hh) by reflexivity).
  assert (var (txt "textDecoder") E = Some JvDecoder) as Ht' by (unfold var in *; now rewrite (ho_other _ _ _ _ _ _ _ Hh) by reflexivity).
  rewrite while_step. unfold tstruct_loop at 1. tsu. js. jblock. rewrite run_stmts_cons, jx_lets. cbn [map each_with]. js.
  rewrite jx_try. jblock. js. destruct d as [|[|[|d]]]; [lia|lia|lia|]. jfn_call.
  pose proof (reading_grows _ _ _ _ _ _ HR (ho_grows _ _ _ _ _ _ _ Hh) (ho_scratch _ _ _ _ _ _ _ Hh)) as HR1.
  pose proof (call_deserialize_header rounds find reach Hg0 Hrounds d r vo vl bs off h (rd_new _ _ _ _ _ HR1) (rd_cell _ _ _ _ _ HR1) (rd_bytes _ _ _ _ _ HR1) (rd_scratch _ _ _ _ _ HR1)) as HV.
  pose proof (rd_scratch _ _ _ _ _ HR) as S0.
  destruct (ts_deserialize_header (mkView bs vo vl) off) as [[[o1 i] sz]| | |]; cbn [read_result] in HV; try contradiction; destruct HV as (h1 & S1 & R); rewrite R; clear R.
  2:{ jop. rewrite (range_break rounds find reach here _ KRange); [|exact Hg|jclear|reflexivity]. jop. cbn [outcome]. exists E, h1, off. split; [reflexivity|].
      eapply holding_grows; [exact S0|exact Hh|now apply grows_scratched|]. eapply scratched_scratch; [exact S1|exact (ho_scratch _ _ _ _ _ _ _ Hh)]. }
  unfold header_value. cbn [fst snd]. jop. rewrite field_decoder.
  pose proof (reading_scratched _ _ _ _ _ _ HR1 S1) as HR2.
  match goal with |- context [run_cases _ _ _ skip_unknown false _ ?E1 h1] =>
    pose proof (cases_pick (S (S (S d))) here (tstruct_deser_case u ns s) skip_unknown i E1 h1 (fun _ => eq_refl) fs) as HP end.
  assert (holding fs E0 (update (txt "offset") (SVar (JvNum o1)) E) h0 h1 slots o1) as Hh1.
  { apply (holding_offset _ _ _ _ _ _ off). eapply holding_grows; [exact S0|exact Hh|now apply grows_scratched|]. eapply scratched_scratch; [exact S1|exact (ho_scratch _ _ _ _ _ _ _ Hh)]. }
  destruct (named_field i fs) as [f|] eqn:Ef.
  2:{ rewrite HP. unfold skip_unknown. tsu. rewrite body_plain by reflexivity. jop. rewrite !update_twice.
      apply IH; [lia|]. rewrite <- (update_twice (txt "offset") _ (SVar (JvNum o1))). eapply holding_offset, Hh1. }
  destruct (named_in _ _ _ Ef) as [Hin Hix]. rewrite Forall_forall in Hf. destruct (Hf f Hin) as (He & Hl & Hdf).
  pose proof (ho_fields _ _ _ _ _ _ _ Hh1) as Hfs. rewrite Forall_forall in Hfs. destruct (Hfs f Hin) as (m0 & Hm0 & _).
  match type of HP with stops (run_body _ _ ?E1 h1) -> _ => pose proof (struct_case here ns s f (S (S (S d))) E1 h1 r vo vl bs o1 sz m0 He Hg Hl) as HS end.
  match type of HS with ?P -> _ => assert P as HX by jclear; specialize (HS HX); clear HX end.
  match type of HS with ?P -> _ => assert P as HX by jvar; specialize (HS HX); clear HX end.
  match type of HS with ?P -> _ => assert P as HX by jlk; specialize (HS HX); clear HX end.
  match type of HS with ?P -> _ => assert P as HX by jvar; specialize (HS HX); clear HX end.
  match type of HS with ?P -> _ => assert P as HX by jvar; specialize (HS HX); clear HX end.
  assert (forall x, match x with 36 :: _ => False | _ => True end -> str_eqb (tlocal_name u (fst f)) x = false) as Hloc.
  { intros x Hx. apply str_eqb_neq. destruct (local_prefix u (fst f)) as (y & ->). intros <-. exact Hx. }
  match type of HS with ?P -> _ => assert P as HX by (rewrite !lookup_skip by (apply Hloc; exact I); exact Hm0); specialize (HS HX HR2 Hr Hdf); clear HX end.
  cbn [erase_field f_type]. 
  match goal with |- outcome (jbind ?a (fun v => jbind (@?b v) ?c)) _ _ _ => replace (jbind a (fun v => jbind (b v) c)) with (jbind (jbind a b) c) by (destruct a; reflexivity) end. cbv beta.
  destruct (jbind (new_view bs (vo + o1) sz) _) as [[o2 v]| | |]; cbn [outcome jbind] in HS |- *; auto.
  2-3: rewrite (HP (thrown_stops _ _ _ HS)); destruct HS as (E' & h' & -> & G2 & S2); jop; apply thrown_at; [exact (grows_trans _ _ _ (ho_grows _ _ _ _ _ _ _ Hh1) G2)|exact S2].
  destruct HS as (m & h2 & R & G2 & S2 & V2). rewrite R in HP. rewrite (HP I). cbn [fst snd] in *. jop. rewrite update_twice.
  apply IH; [lia|]. subst i. apply holding_set; auto.
  - rewrite <- (update_twice (txt "offset") _ (SVar (JvNum o1))). eapply holding_offset, holding_grows; [exact S0|exact Hh1|exact G2|exact S2].
  - pose proof (ho_grows _ _ _ _ _ _ _ Hh1) as [G _]. eapply js_value_mono; [exact G| |exact V2]. auto.
Qed.
End Deser.
