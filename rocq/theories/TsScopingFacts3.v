(** The generated functions and declarations follow the rules of TsScoping.v. *)
From Verif Require Import TypesFacts IdentFacts BaseFacts NamesFacts RustEval CodeFacts.
From Verif Require Export TsScopingFacts2.

Section Decl.
Context (u : unicode) (Hu : ascii_agrees u) (ns : namespace) (s : sschema).
Context (find : scope -> jcallee -> option (scope * jfn)) (reach : scope -> str -> bool) (here : scope) (Hs : good_scope find reach here).
Notation flist := (fine_list find reach here).
Notation ffn := (fine_fn find reach here).
Notation referred := (referred u ns s find here).
Context (fields : list sfield).
Context (Hr : forall f, In f fields -> referred (sf_type f)).
Context (Hn : NoDup (map txt ["$size"; "$fallback"; "$field"; "__proto__"]%string ++ map (tfield_name u) fields)).
Context (Hatlas : takes find here (CFn (txt "atlas")) 1) (Hser : takes find here (CFn (txt "serializeWithAtlasUnsafe")) 4)
  (Hdeser : takes find here (CFn (txt "deserializeUnsafe")) 1).

Lemma size_fine name : ffn (tgen_size u name fields).
Proof. unfold tgen_size. apply ff_fn; [exact (constants_reach find reach here Hs)|stypes|stype|]. destruct fields; sblock none_other. Qed.
Lemma serialize_fine d : sd_fields d = fields -> ffn (tgen_serialize u d).
Proof.
  intros <-. unfold tgen_serialize. apply ff_fn; [exact (constants_reach find reach here Hs)|stypes|stype|]. destruct (sd_kind d); destruct (sd_fields d); sblock none_other.
Qed.
Lemma deserialize_fine name : ffn (tgen_deserialize u name).
Proof. unfold tgen_deserialize. apply ff_fn; [exact (constants_reach find reach here Hs)|stypes|stype|]. sblock none_other. Qed.

(** ** Structs *)
Lemma local_lookup f y : y <> tlocal_name u f -> str_eqb y (tlocal_name u f) = false.
Proof. intros H. destruct (str_eqb y _) eqn:E; [|reflexivity]. apply str_eqb_eq in E. contradiction. Qed.
Lemma local_dollar f : for_field (tlocal_name u f) = true. Proof. reflexivity. Qed.
Lemma local_is_ok f : local_ok (tlocal_name u f) = true. Proof. reflexivity. Qed.
Lemma plain_not_local x l : for_field x = false -> existsb (str_eqb x) (map (tlocal_name u) l) = false.
Proof.
  intros H. induction l as [|f l IH]; [reflexivity|]. cbn [map existsb]. rewrite IH, orb_false_r. apply local_lookup. intros ->. discriminate H.
Qed.
Lemma local_in f : In f fields -> existsb (str_eqb (tlocal_name u f)) (map (tlocal_name u) fields) = true.
Proof. intros H. apply existsb_exists. exists (tlocal_name u f). split; [now apply in_map|apply str_eqb_refl]. Qed.
Lemma names_different : NoDup (map (tfield_name u) fields).
Proof. revert Hn. generalize (map txt ["$size"; "$fallback"; "$field"; "__proto__"]%string). induction l as [|x l IH]; intros H; [exact H|]. inversion H; auto. Qed.
Lemma locals_different : NoDup (map (tlocal_name u) fields).
Proof.
  pose proof names_different as H. clear -H. induction fields as [|f l IH]; [constructor|]. cbn [map] in *. inversion H as [|? ? H1 H2]; subst.
  constructor; [|now apply IH]. intros K. apply H1. apply in_map_iff in K as (g & E & K). unfold tlocal_name in E. apply app_inv_head in E. rewrite <- E. now apply in_map.
Qed.
(** Names that start with a dollar sign differ from those of fields. *)
Lemma props_different pre : incl pre (map txt ["$size"; "$fallback"; "$field"; "__proto__"]%string) -> NoDup pre -> NoDup (pre ++ map (tfield_name u) fields).
Proof.
  assert (forall x, In x (map txt ["$size"; "$fallback"; "$field"; "__proto__"]%string) -> ~ In x (map (tfield_name u) fields)) as K.
  { revert Hn. generalize (map txt ["$size"; "$fallback"; "$field"; "__proto__"]%string). induction l as [|y l IH]; intros H x [].
    - subst. inversion H as [|? ? H1 H2]; subst. intros K. apply H1, in_app_iff. now right.
    - inversion H; subst. now apply IH. }
  intros Hi. induction 1 as [|x pre P1 P2 IH]; [exact names_different|]. cbn [app]. constructor.
  - intros H. apply in_app_iff in H as [H|H]; [now apply P1|]. apply (K x); [apply Hi; now left|exact H].
  - apply IH. intros y Hy. apply Hi. now right.
Qed.
Lemma field_special f x : In f fields -> In x (map txt ["$size"; "$fallback"; "$field"; "__proto__"]%string) -> tfield_name u f <> x.
Proof.
  intros Hf Hx E. subst. pose proof (props_different [tfield_name u f]) as H. assert (NoDup [tfield_name u f]) as N by (repeat constructor; intros []).
  apply H in N; [|intros y [<-|[]]; exact Hx]. inversion N as [|? ? N1 _]; subst. apply N1. now apply in_map.
Qed.
(** The variables for fields. *)
Definition with_locals (l : list sfield) (E1 : jctx) : Prop := forall f, In f l -> lookup (tlocal_name u f) E1 = Some (Let true).
Definition local_frame : jctx := map (fun f => (tlocal_name u f, Dead false)) fields.
Lemma frame_lookup x r : for_field x = false -> lookup x (local_frame ++ r) = lookup x r.
Proof.
  intros H. unfold local_frame. clear -H. induction fields as [|f l IH]; [reflexivity|]. cbn [map app]. rewrite lookup_skip; [exact IH|]. apply local_lookup. intros ->. discriminate H.
Qed.
Lemma frame_local f r : In f fields -> lookup (tlocal_name u f) (local_frame ++ r) = Some (Dead false).
Proof.
  unfold local_frame. clear. induction fields as [|g l IH]; intros []; cbn [map app lookup].
  - subst. now rewrite str_eqb_refl.
  - destruct (str_eqb _ _); [reflexivity|now apply IH].
Qed.
Lemma frame_clears r : clears r -> clears (local_frame ++ r).
Proof. intros H. unfold local_frame. clear -H. induction fields as [|f l IH]; [exact H|]. cbn [map app]. now apply clears_cons. Qed.
(** What is known once they have been declared. *)
Definition opened (E : jctx) : jctx := declare_all (fun x => Let (for_field x)) (map (tlocal_name u) fields) E.
Lemma opened_lookup x E : for_field x = false -> lookup x (opened E) = lookup x E.
Proof. intros H. unfold opened. rewrite declare_all_lookup, plain_not_local by exact H. reflexivity. Qed.
Lemma opened_locals E : (forall f, In f fields -> lookup (tlocal_name u f) E = Some (Dead false)) -> with_locals fields (opened E).
Proof. intros H f Hf. unfold opened. rewrite declare_all_lookup, local_in, H by exact Hf. reflexivity. Qed.
Lemma opened_clears E : clears E -> clears (opened E).
Proof. apply declare_all_clears. Qed.
Lemma opened_empty E : fields = [] -> opened E = E. Proof. unfold opened. now intros ->. Qed.

Ltac with_atlas k :=
  match goal with
  | |- fine_list _ _ _ _ _ (tgen_atlas _ _ _ _ _ ++ _) _ => eapply fl_app; [eapply (atlas_fine u ns s); [exact Hs | assumption | sclears | sread | slk | sread] | snorm; k]
  | |- fine_list _ _ _ _ _ (tgen_ser _ _ _ _ _ ++ _) _ => eapply fl_app; [eapply (ser_fine u ns s); [exact Hs | assumption | sclears | sread | sread | sread | slk] | snorm; k]
  | |- fine_list _ _ _ _ _ (tgen_ser _ _ _ _ _) _ => eapply (ser_fine u ns s); [exact Hs | assumption | sclears | sread | sread | sread | slk]
  | |- fine_list _ _ _ _ _ (tgen_deser _ _ _ _ _ ++ _) _ =>
      eapply fl_app; [eapply (deser_fine u ns s); [exact Hs | assumption | sclears | slk | sread | slk | intros _; sread | sread] | snorm; k]
  end.
Ltac slookup := try match goal with |- fine_expr _ _ _ _ (match sf_type ?f with _ => _ end) => apply (lookup_fine find reach here _ (sf_type f)); sread end.
Lemma atlas_field_fine f E B : In f fields -> clears E -> lookup (txt "message") E = Some (Let true) -> lookup (txt "size") E = Some (Let true) ->
  lookup (tlocal_name u f) E = Some (Let true) -> readable (txt "textEncoder") E -> flist B E (tstruct_atlas_field u ns s f) (Some E).
Proof.
  intros Hf Hc Hm Hz Hl Ht. pose proof (Hr f Hf) as R. unfold tstruct_atlas_field, guarded. destruct (is_optional f).
  - slist with_atlas; slookup.
  - slist with_atlas; slookup.
Qed.
Lemma atlas_fields_fine l : incl l fields -> forall E B, clears E -> lookup (txt "message") E = Some (Let true) -> lookup (txt "size") E = Some (Let true) ->
  with_locals l E -> readable (txt "textEncoder") E -> flist B E (flat_map (tstruct_atlas_field u ns s) l) (Some E).
Proof.
  induction l as [|f l IH]; intros Hi E B Hc Hm Hz Hl Ht; [apply fl_nil|]. cbn [flat_map]. eapply fl_app.
  - apply atlas_field_fine; auto. apply Hi; now left. apply Hl; now left.
  - apply IH; auto. intros g Hg. apply Hi; now right. intros g Hg. apply Hl; now right.
Qed.
Lemma props_fine E l : with_locals l E -> Forall (fun p => fine_expr find reach here E (match snd p with Some e => e | None => XVar (fst p) end)) (tstruct_props u l).
Proof. intros H. unfold tstruct_props. rewrite Forall_map. apply Forall_forall. intros f Hf. cbn [snd]. apply fe_var. right. now apply H. Qed.
Lemma props_names : map fst (tstruct_props u fields) = map (tfield_name u) fields.
Proof. unfold tstruct_props. rewrite map_map. reflexivity. Qed.
Lemma frame_fields l : frame (flat_map (tstruct_atlas_field u ns s) l) = [].
Proof. induction l as [|f l IH]; [reflexivity|]. cbn [flat_map]. rewrite frame_append, IH. reflexivity. Qed.
Lemma frame_locals : frame [tstruct_locals u fields] = local_frame.
Proof. unfold frame, tstruct_locals, local_frame. cbn [flat_map declared_in]. now rewrite app_nil_r, !map_map. Qed.
Lemma local_names : map fst local_frame = map (tlocal_name u) fields.
Proof. unfold local_frame. rewrite map_map. reflexivity. Qed.
Lemma with_plain pre : forallb (fun x => negb (for_field x)) pre = true -> NoDup pre -> NoDup (pre ++ map fst local_frame).
Proof.
  intros H. rewrite local_names. induction 1 as [|x pre P1 P2 IH]; [exact locals_different|]. cbn [forallb] in H. apply andb_prop in H as (H1 & H2). cbn [app]. constructor; [|auto].
  intros K. apply in_app_iff in K as [K|K]; [now apply P1|]. apply in_map_iff in K as (f & <- & _). discriminate H1.
Qed.
Lemma local_update_skip x v E : for_field x = false -> update x v (local_frame ++ E) = local_frame ++ update x v E.
Proof.
  intros H. unfold local_frame. clear -H. induction fields as [|f l IH]; [reflexivity|]. cbn [map app]. rewrite update_skip; [now rewrite IH|].
  apply local_lookup. intros ->. discriminate H.
Qed.
Definition not_empty (l : list jstmt) : list jstmt := match fields with [] => [] | _ => l end.
Lemma locals_fine B E a z : (forall f, In f fields -> lookup (tlocal_name u f) E = Some (Dead false)) -> (a = [JBlank] \/ a = []) -> (z = [JBlank] \/ z = []) ->
  flist B E (not_empty (a ++ tstruct_locals u fields :: z)) (Some (opened E)).
Proof.
  intros H Ha Hz. unfold not_empty. destruct (list_eq_dec (fun a b : nat => PeanoNat.Nat.eq_dec a b) (map (fun _ => O) fields) []) as [Ez|Ez].
  - assert (fields = []) as Q by (apply map_eq_nil in Ez; exact Ez). rewrite (opened_empty E Q), Q. apply fl_nil.
  - assert (forall A (x y : A), match fields with [] => x | _ => y end = y) as K by (intros; destruct fields; [now contradiction Ez|reflexivity]). rewrite K.
    assert (flist B E (tstruct_locals u fields :: z) (Some (opened E))) as L.
    { unfold tstruct_locals. eapply fl_cons.
      - apply fs_declares; [intros Q; apply map_eq_nil in Q; rewrite Q in Ez; now contradiction Ez|]. rewrite Forall_map. apply Forall_forall. exact H.
      - fold (opened E). destruct Hz as [->| ->]; [|apply fl_nil]. eapply fl_cons; [apply fs_blank|apply fl_nil]. }
    destruct Ha as [->| ->]; [|exact L]. cbn [app]. eapply fl_cons; [apply fs_blank|exact L].
Qed.
Lemma frame_not_empty a z : frame a = [] -> frame z = [] -> frame (not_empty (a ++ tstruct_locals u fields :: z)) = local_frame.
Proof.
  intros Ha Hz. assert (frame (a ++ tstruct_locals u fields :: z) = local_frame) as K.
  { pose proof frame_locals as K. rewrite frame_first in K. rewrite frame_append, (frame_first _ z), Ha, Hz. exact K. }
  unfold not_empty. revert K. generalize (a ++ tstruct_locals u fields :: z). unfold local_frame. intros l K. destruct fields; [reflexivity|exact K].
Qed.
Lemma struct_atlas_fine name : ffn (tstruct_atlas u ns s name fields).
Proof.
  unfold tstruct_atlas, atlas_fn. apply ff_fn; [exact (constants_reach find reach here Hs)|stypes|stype|]. cbn [map fst].
  change (match fields with [] => [] | _ => [JBlank; tstruct_locals u fields] end) with (not_empty ([JBlank] ++ tstruct_locals u fields :: [])).
  eapply (fb_never _ _ _ _ _ _ _ ([(txt "message", Let true); (txt "size", Dead false)] ++ local_frame)).
  + rewrite !frame_append, frame_not_empty, frame_fields by reflexivity. cbn. now rewrite !app_nil_r.
  + rewrite map_app. apply with_plain; [reflexivity|snodup].
  + rewrite <- app_assoc. cbn [app]. eapply fl_cons; [sstmt none_other|snorm].
    eapply fl_app; [apply (locals_fine _ _ [JBlank] []); [|now left|now right]|].
    { intros f Hf. rewrite !lookup_skip by reflexivity. now apply frame_local. }
    eapply fl_app; [apply atlas_fields_fine; [apply incl_refl| | | | |]|].
    * apply opened_clears. apply clears_cons; [reflexivity|]. apply clears_cons; [reflexivity|]. now apply frame_clears.
    * rewrite opened_lookup by reflexivity. slk.
    * rewrite opened_lookup by reflexivity. slk.
    * apply opened_locals. intros f Hf. rewrite !lookup_skip by reflexivity. now apply frame_local.
    * red. rewrite opened_lookup, !lookup_skip, frame_lookup by reflexivity. left. reflexivity.
    * eapply fl_cons; [apply fs_blank|]. apply fl_last, fs_return. apply fe_obj.
      { cbn [map fst]. rewrite props_names. apply (props_different [txt "__proto__"; txt "$size"]); [|snodup]. intros y [<-|[<-|[]]]; cbn; auto. }
      apply Forall_cons.
      { cbn [snd]. apply fe_var. right. rewrite opened_lookup by reflexivity. slk. }
      apply props_fine. apply opened_locals. intros f Hf. rewrite !lookup_skip by reflexivity. now apply frame_local.
Qed.

Lemma ser_field_fine f E B : In f fields -> clears E -> readable (txt "message") E -> readable (txt "atlas") E -> readable (txt "dataView") E ->
  lookup (txt "offset") E = Some (Let true) -> flist B E (tstruct_ser_field u ns s f) (Some E).
Proof.
  intros Hf Hc Hm Ha Hd Ho. pose proof (Hr f Hf) as R. unfold tstruct_ser_field, guarded. destruct (is_optional f).
  - slist with_atlas; slookup.
  - slist with_atlas; slookup.
Qed.
Lemma frame_ser_fields l : frame (flat_map (tstruct_ser_field u ns s) l) = [].
Proof. induction l as [|f l IH]; [reflexivity|]. cbn [flat_map]. rewrite frame_append, IH. reflexivity. Qed.
Lemma ser_fields_fine l : incl l fields -> forall E B, clears E -> readable (txt "message") E -> readable (txt "atlas") E -> readable (txt "dataView") E ->
  lookup (txt "offset") E = Some (Let true) -> flist B E (flat_map (tstruct_ser_field u ns s) l) (Some E).
Proof.
  induction l as [|f l IH]; intros Hi E B Hc Hm Ha Hd Ho; [apply fl_nil|]. cbn [flat_map]. eapply fl_app.
  - apply ser_field_fine; auto. apply Hi; now left.
  - apply IH; auto. intros g Hg. apply Hi; now right.
Qed.
Lemma struct_ser_fine name : ffn (tstruct_ser u ns s name fields).
Proof.
  unfold tstruct_ser, ser_fn. apply ff_fn; [exact (constants_reach find reach here Hs)|stypes|stype|]. cbn [map fst].
  eapply (fb_never _ _ _ _ _ _ _ [(txt "dataView", Let true); (txt "offset", Let true); (txt "message", Let true); (txt "atlas", Let true)]).
  - rewrite frame_append, frame_ser_fields. reflexivity.
  - snodup.
  - cbn [app]. eapply fl_app; [apply ser_fields_fine; [apply incl_refl|sclears|sread|sread|sread|slk]|]. slist none_other.
Qed.

Lemma struct_deser_case_fine f E : In f fields -> clears E -> readable (txt "dataViewAlias") E -> readable (txt "payloadSize") E -> readable (txt "textDecoder") E ->
  lookup (txt "offset") E = Some (Let true) -> lookup (tlocal_name u f) E = Some (Let true) ->
  fine_case find reach here (Some E) E (snd (tstruct_deser_case u ns s f)) None.
Proof.
  intros Hf Hc Hd Hp Ht Ho Hl. pose proof (Hr f Hf) as R. unfold tstruct_deser_case. cbn [snd]. apply fca_braces. eapply fb_never; [sframe|snodup|]. cbn [app]. slist with_atlas.
  with_atlas ltac:(idtac; slist none_other).
Qed.
Lemma locals_cons l x v E : for_field x = false -> with_locals l E -> with_locals l ((x, v) :: E).
Proof. intros H K f Hf. rewrite lookup_skip; [now apply K|]. destruct (str_eqb _ _) eqn:Q; [|reflexivity]. apply str_eqb_eq in Q. subst. discriminate H. Qed.
Lemma locals_update l x v E : for_field x = false -> with_locals l E -> with_locals l (update x v E).
Proof. intros H K f Hf. rewrite lookup_other; [now apply K|]. destruct (str_eqb _ _) eqn:Q; [|reflexivity]. apply str_eqb_eq in Q. subst. discriminate H. Qed.
Lemma cases_fine E : clears E -> readable (txt "dataViewAlias") E -> readable (txt "payloadSize") E -> readable (txt "textDecoder") E ->
  lookup (txt "offset") E = Some (Let true) -> forall l, incl l fields -> with_locals l E ->
  fine_cases find reach here (Some E) E (map snd (map (tstruct_deser_case u ns s) l)).
Proof.
  intros Hc Hd Hp Ht Ho. induction l as [|f l IH]; intros Hi Hl; [apply fcs_nil|]. cbn [map]. apply fcs_cons.
  - apply struct_deser_case_fine; auto. apply Hi; now left. apply Hl; now left.
  - apply IH; [intros g Hg; apply Hi; now right|intros g Hg; apply Hl; now right].
Qed.
Lemma case_values_fine E g l : (forall f, fst (g f) = XBig false (sf_index f)) -> Forall (fun c => fine_expr find reach here E (fst c)) (map (g : sfield -> jexpr * (bool * list jstmt)) l).
Proof. intros H. rewrite Forall_map. apply Forall_forall. intros f _. rewrite H. apply fe_big. Qed.
Lemma struct_loop_fine E : clears E -> readable (txt "dataViewAlias") E -> readable (txt "textDecoder") E ->
  lookup (txt "offset") E = Some (Let true) -> with_locals fields E ->
  fine_block find reach here (Some E) [] E (tstruct_loop u ns s fields) (Some E).
Proof.
  intros Hc Hd Ht Ho Hl. unfold tstruct_loop. set (E2 := (txt "index", Let true) :: (txt "payloadSize", Let true) :: E).
  eapply (fb_known _ _ _ _ _ _ _ [_; _] _ (Some E2)); [sframe|snodup| |reflexivity]. cbn [app].
  do 4 (eapply fl_cons; [sstmt none_other|snorm]). change ((txt "index", Let true) :: (txt "payloadSize", Let true) :: E) with E2. apply fl_one.
  eapply (fs_switch _ _ _ _ _ _ _ _ (Some E2) _ (Some E2)).
  - apply fe_var. subst E2. sread.
  - now apply case_values_fine.
  - apply cases_fine; subst E2; try apply incl_refl; try apply locals_cons; try apply locals_cons; try sclears; try sread; try slk; auto.
  - unfold skip_unknown. subst E2. scase none_other.
  - apply meets_never.
  - right. split; [reflexivity|]. exists E2. split; reflexivity.
Qed.
Lemma missing_fine B E : with_locals fields E -> readable (txt "missingFieldsErrorMessage") E -> clears E -> flist B E (tmissing_check u fields) (Some E).
Proof.
  intros Hl Hm Hc. unfold tmissing_check. destruct (existsb required_field fields) eqn:Q; [|apply fl_nil].
  eapply fl_cons; [|eapply fl_cons; [apply fs_blank|apply fl_nil]].
  unfold jif. eapply fs_if; [discriminate| |apply meets_refl]. eapply fbr_cons; [|sblock none_other|smeet|apply fbr_nil].
  apply fe_ors.
  - rewrite Forall_map. apply Forall_forall. intros f Hf. apply filter_In in Hf as [Hf _]. apply fe_bin; [|apply fe_undefined]. apply fe_var. right. now apply Hl.
  - apply existsb_exists in Q as (f & Hf & Q). intros Z. apply map_eq_nil in Z. assert (In f (filter required_field fields)) as Hin by now apply filter_In. rewrite Z in Hin. destruct Hin.
Qed.
Lemma frame_missing : frame (tmissing_check u fields) = [].
Proof. unfold tmissing_check. destruct (existsb _ _); reflexivity. Qed.
Lemma struct_deser_fine name : ffn (tstruct_deser u ns s name fields).
Proof.
  unfold tstruct_deser, deser_fn. apply ff_fn; [exact (constants_reach find reach here Hs)|stypes|stype|]. cbn [map fst].
  change (match fields with [] => [] | _ => [tstruct_locals u fields; JBlank] end) with (not_empty ([] ++ tstruct_locals u fields :: [JBlank])).
  eapply (fb_never _ _ _ _ _ _ _ ([(txt "dataView", Let true); (txt "dataViewAlias", Dead true); (txt "offset", Dead false)] ++ local_frame)).
  + rewrite !frame_append, frame_not_empty, frame_missing by reflexivity. cbn. now rewrite !app_nil_r.
  + rewrite map_app. apply with_plain; [reflexivity|snodup].
  + rewrite <- app_assoc. cbn [app]. do 4 (eapply fl_cons; [sstmt none_other|snorm]).
    eapply fl_app; [apply (locals_fine _ _ [] [JBlank]); [|now right|now left]|].
    { intros f Hf. rewrite !lookup_skip by reflexivity. now apply frame_local. }
    match goal with |- flist _ ?X _ _ => set (E := X) end.
    assert (clears E) as Hc. { apply opened_clears. repeat (apply clears_cons; [reflexivity|]). now apply frame_clears. }
    assert (with_locals fields E) as Hl. { apply opened_locals. intros f Hf. rewrite !lookup_skip by reflexivity. now apply frame_local. }
    assert (readable (txt "dataViewAlias") E) as Hd. { left. subst E. rewrite opened_lookup by reflexivity. slk. }
    assert (lookup (txt "offset") E = Some (Let true)) as Ho. { subst E. rewrite opened_lookup by reflexivity. slk. }
    assert (readable (txt "textDecoder") E) as Ht. { left. subst E. rewrite opened_lookup, !lookup_skip, frame_lookup by reflexivity. reflexivity. }
    assert (readable (txt "missingFieldsErrorMessage") E) as Hm. { left. subst E. rewrite opened_lookup, !lookup_skip, frame_lookup by reflexivity. reflexivity. }
    cbn [app]. eapply fl_cons; [eapply (fs_forever_break _ _ _ _ _ E); [reflexivity|now apply struct_loop_fine]|].
    eapply fl_cons; [apply fs_blank|]. eapply fl_app; [now apply missing_fine|].
    apply fl_last, fs_return. apply fe_obj; [|now apply props_fine]. rewrite props_names. apply (props_different [txt "__proto__"]); [|snodup]. intros y [<-|[]]; cbn; auto.
Qed.

(** ** Choices *)
Lemma props_with f pre post : In f fields -> (forall x, In x (pre ++ post) -> In x (map txt ["$size"; "$fallback"; "$field"; "__proto__"]%string)) -> NoDup (pre ++ post) ->
  NoDup (pre ++ tfield_name u f :: post).
Proof.
  intros Hf Hi H. apply NoDup_Add with (l := pre ++ post) (a := tfield_name u f); [|split; [exact H|]].
  - clear. induction pre as [|x pre IH]; cbn; constructor. exact IH.
  - intros K. apply (field_special f (tfield_name u f) Hf); auto.
Qed.
Lemma frame_ifs g l : (forall f : sfield, exists c b, g f = jif c b) -> frame (map g l) = [].
Proof. intros H. induction l as [|f l IH]; [reflexivity|]. cbn [map]. destruct (H f) as (c & b & ->). rewrite frame_first. exact IH. Qed.
Lemma ifs_fine g E B : (forall f, In f fields -> fine_stmt find reach here B E (g f) (Some E)) -> forall l, incl l fields -> flist B E (map g l) (Some E).
Proof.
  intros H. induction l as [|f l IH]; intros Hi; [apply fl_nil|]. cbn [map]. eapply fl_cons; [apply H, Hi; now left|]. apply IH. intros x Hx. apply Hi. now right.
Qed.
Lemma choice_atlas_case_fine f E B : In f fields -> clears E -> lookup (txt "message") E = Some (Let true) -> readable (txt "textEncoder") E -> outer (txt "atlas") E ->
  fine_stmt find reach here B E (tchoice_atlas_case u ns s f) (Some E).
Proof.
  intros Hf Hc Hm Ht Ho. pose proof (Hr f Hf) as R. unfold tchoice_atlas_case.
  assert (forall x, In x (map txt ["$size"; "$fallback"; "$field"; "__proto__"]%string) -> tfield_name u f <> x) as Hx by (intros x; now apply field_special).
  unfold jif. eapply fs_if; [discriminate| |apply meets_refl]. eapply fbr_cons; [sexpr| |apply meets_never|apply fbr_nil].
  destruct (has_fallback_out f).
  - eapply fb_never; [sframe|snodup|]. cbn [app]. do 2 (eapply fl_cons; [sstmt none_other|snorm]).
    eapply fl_app; [eapply (atlas_fine u ns s); [exact Hs | assumption | sclears | sread | slk | sread] | snorm].
    eapply fl_cons; [sstmt none_other; slookup|snorm].
    eapply fl_cons; [eapply fs_let; [apply fe_call; [apply fc_fn; [red; slook; exact Ho|exact Hatlas]|sexprs]|exact I|slk]|snorm].
    eapply fl_last. sstmt none_other. cbn [map fst]. apply (props_with f [txt "__proto__"; txt "$size"] [txt "$fallback"]); [exact Hf|cbn; tauto..|snodup]. 
  - eapply fb_never; [sframe|snodup|]. cbn [app]. do 2 (eapply fl_cons; [sstmt none_other|snorm]).
    eapply fl_app; [eapply (atlas_fine u ns s); [exact Hs | assumption | sclears | sread | slk | sread] | snorm].
    eapply fl_cons; [sstmt none_other; slookup|snorm].
    eapply fl_last. sstmt none_other. cbn [map fst]. apply (props_with f [txt "__proto__"; txt "$size"] []); [exact Hf|cbn; tauto..|snodup].
Qed.
Lemma return_unreachable_fine B E : clears E -> readable (txt "message") E -> flist B E [return_unreachable] None.
Proof. intros Hc Hm. slist none_other. Qed.
Lemma choice_atlas_fine name : ffn (tchoice_atlas u ns s name fields).
Proof.
  unfold tchoice_atlas, atlas_fn. apply ff_fn; [exact (constants_reach find reach here Hs)|stypes|stype|]. cbn [map fst].
  eapply (fb_never _ _ _ _ _ _ _ [(txt "message", Let true)]).
  - rewrite frame_append, frame_ifs; [reflexivity|]. intros f. unfold tchoice_atlas_case. eauto.
  - snodup.
  - cbn [app]. eapply fl_app; [eapply ifs_fine; [|apply incl_refl]|].
    + intros f Hf. apply choice_atlas_case_fine; [exact Hf|sclears|slk|sread|reflexivity].
    + apply return_unreachable_fine; [sclears|sread].
Qed.
Lemma choice_ser_case_fine name f E B : In f fields -> clears E -> readable (txt "message") E -> readable (txt "atlas") E -> readable (txt "dataView") E ->
  lookup (txt "offset") E = Some (Let true) -> fine_stmt find reach here B E (tchoice_ser_case u ns s name f) (Some E).
Proof.
  intros Hf Hc Hm Ha Hd Ho. pose proof (Hr f Hf) as R. unfold tchoice_ser_case. pose proof (type_fine u ns s find here (sf_type f) SAtlas R) as Hty.
  unfold jif. eapply fs_if; [discriminate| |apply meets_refl]. eapply fbr_cons; [sexpr| |apply meets_never|apply fbr_nil].
  destruct (has_fallback_out f).
  - eapply fb_never; [sframe|snodup|]. cbn [app]. do 2 (eapply fl_cons; [sstmt none_other|snorm]).
    eapply fl_cons; [sstmt none_other; slookup|snorm]. eapply fl_cons; [sstmt none_other|snorm].
    eapply fl_app; [eapply (ser_fine u ns s); [exact Hs | assumption | sclears | sread | sread | sread | slk] | snorm]. slist none_other.
  - eapply fb_never; [sframe|snodup|]. cbn [app]. do 2 (eapply fl_cons; [sstmt none_other|snorm]).
    eapply fl_cons; [sstmt none_other; slookup|snorm]. eapply fl_cons; [sstmt none_other|snorm].
    eapply fl_app; [eapply (ser_fine u ns s); [exact Hs | assumption | sclears | sread | sread | sread | slk] | snorm]. slist none_other.
Qed.
Lemma choice_ser_fine name : ffn (tchoice_ser u ns s name fields).
Proof.
  unfold tchoice_ser, ser_fn. apply ff_fn; [exact (constants_reach find reach here Hs)|stypes|stype|]. cbn [map fst].
  eapply (fb_never _ _ _ _ _ _ _ [(txt "dataView", Let true); (txt "offset", Let true); (txt "message", Let true); (txt "atlas", Let true)]).
  - rewrite frame_append, frame_ifs; [reflexivity|]. intros f. unfold tchoice_ser_case. eauto.
  - snodup.
  - cbn [app]. eapply fl_app; [eapply ifs_fine; [|apply incl_refl]|].
    + intros f Hf. apply choice_ser_case_fine; [exact Hf|sclears|sread|sread|sread|slk].
    + apply return_unreachable_fine; [sclears|sread].
Qed.
Lemma choice_deser_case_fine B f E : In f fields -> clears E -> readable (txt "dataViewAlias") E -> readable (txt "payloadSize") E -> readable (txt "textDecoder") E ->
  lookup (txt "offset") E = Some (Let true) ->
  fine_case find reach here B E (snd (tchoice_deser_case u ns s f)) None.
Proof.
  intros Hf Hc Hd Hp Ht Ho. pose proof (Hr f Hf) as R. unfold tchoice_deser_case. cbn [snd]. apply fca_braces. destruct (is_optional f).
  - eapply fb_never; [sframe|snodup|]. cbn [app]. do 3 (eapply fl_cons; [sstmt none_other|snorm]).
    eapply fl_app; [eapply (deser_fine u ns s); [exact Hs | assumption | sclears | slk | sread | slk | intros _; sread | sread] | snorm].
    do 2 (eapply fl_cons; [sstmt none_other|snorm]). eapply fl_last. apply fs_return. apply fe_obj; [|sprops].
    apply (props_with f [txt "__proto__"; txt "$field"] [txt "$fallback"]); [exact Hf|cbn; tauto..|snodup].
  - eapply fb_never; [sframe|snodup|]. cbn [app]. do 3 (eapply fl_cons; [sstmt none_other|snorm]).
    eapply fl_app; [eapply (deser_fine u ns s); [exact Hs | assumption | sclears | slk | sread | slk | intros _; sread | sread] | snorm].
    eapply fl_last. apply fs_return. apply fe_obj; [|sprops].
    apply (props_with f [txt "__proto__"; txt "$field"] []); [exact Hf|cbn; tauto..|snodup].
Qed.
Lemma choice_loop_fine E : clears E -> readable (txt "dataViewAlias") E -> readable (txt "textDecoder") E ->
  lookup (txt "offset") E = Some (Let true) ->
  fine_block find reach here None [] E (tchoice_loop u ns s fields) (Some E).
Proof.
  intros Hc Hd Ht Ho. unfold tchoice_loop. set (E2 := (txt "newOffset", Const) :: (txt "index", Const) :: (txt "payloadSize", Const) :: E).
  eapply (fb_known _ _ _ _ _ _ _ [_; _; _] _ (Some E2)); [sframe|snodup| |reflexivity]. cbn [app].
  do 3 (eapply fl_cons; [sstmt none_other|snorm]). change ((txt "newOffset", Const) :: (txt "index", Const) :: (txt "payloadSize", Const) :: E) with E2. apply fl_one.
  eapply (fs_switch _ _ _ _ _ _ _ _ (Some E2) _ (Some E2)).
  - apply fe_var. subst E2. sread.
  - now apply case_values_fine.
  - assert (forall l, incl l fields -> fine_cases find reach here (Some E2) E2 (map snd (map (tchoice_deser_case u ns s) l))) as K; [|apply K, incl_refl].
    induction l as [|f l IH]; intros Hi; [apply fcs_nil|]. cbn [map]. apply fcs_cons; [|apply IH; intros g Hg; apply Hi; now right].
    apply choice_deser_case_fine; [apply Hi; now left|subst E2; sclears|subst E2; sread|subst E2; sread|subst E2; sread|subst E2; slk].
  - unfold skip_unknown. subst E2. scase none_other.
  - apply meets_never.
  - right. split; [reflexivity|]. exists E2. split; reflexivity.
Qed.
Lemma choice_deser_fine name : ffn (tchoice_deser u ns s name fields).
Proof.
  unfold tchoice_deser, deser_fn. apply ff_fn; [exact (constants_reach find reach here Hs)|stypes|stype|]. cbn [map fst].
  eapply (fb_never _ _ _ _ _ _ _ [(txt "dataView", Let true); (txt "dataViewAlias", Dead true); (txt "offset", Dead false)]); [reflexivity|snodup|].
  cbn [app]. do 4 (eapply fl_cons; [sstmt none_other|snorm]). apply fl_last. eapply fs_forever. apply choice_loop_fine; [sclears|sread|sread|slk].
Qed.

(** ** Types *)
Lemma struct_type_fine name x : fine_def (tgen_struct u ns s name fields x).
Proof.
  unfold tgen_struct. apply fd_struct, ft_object.
  - rewrite map_app, map_map. cbn [fst]. destruct x; cbn [map app fst]; first [exact names_different | apply (props_different [txt "$size"]); [intros y [<-|[]]; cbn; auto|snodup]].
  - apply Forall_app. split; [destruct x; stypes|]. rewrite Forall_map. apply Forall_forall. intros f Hf. cbn [snd].
    pose proof (type_fine u ns s find here (sf_type f) x (Hr f Hf)) as Hty. destruct (sf_rule f), x; stype.
Qed.
Lemma choice_type_fine name x : fine_def (tgen_choice u ns s name fields x).
Proof.
  unfold tgen_choice. apply fd_choice, Forall_app. split.
  - rewrite Forall_map. apply Forall_forall. intros f Hf. unfold tgen_case. pose proof (type_fine u ns s find here (sf_type f) x (Hr f Hf)) as Hty.
    apply ft_object.
    + destruct x, (sf_rule f); cbn [map app fst].
      all: first [apply (props_with f [] []); [exact Hf|cbn; tauto..|snodup] | apply (props_with f [] [txt "$fallback"]); [exact Hf|cbn; tauto..|snodup]
        | apply (props_with f [txt "$size"] []); [exact Hf|cbn; tauto..|snodup] | apply (props_with f [txt "$size"] [txt "$fallback"]); [exact Hf|cbn; tauto..|snodup]
        | apply (props_with f [txt "$field"] []); [exact Hf|cbn; tauto..|snodup] | apply (props_with f [txt "$field"] [txt "$fallback"]); [exact Hf|cbn; tauto..|snodup]].
    + destruct x, (sf_rule f); cbn [map app]; stypes.
  - destruct x; try apply Forall_nil. destruct fields as [|f [|g l]]; try apply Forall_nil. constructor; [|constructor]. stype.
Qed.

Lemma decl_fine d : sd_fields d = fields -> fine_decl find reach here (tgen_decl u ns s d).
Proof.
  intros E. pose proof (decl_fn_names u ns s d) as N. unfold fine_decl. split; [|split].
  - unfold tgen_decl. destruct (sd_kind d); cbn [td_types]; rewrite E; repeat (apply Forall_cons; [first [apply struct_type_fine|apply choice_type_fine]|]); apply Forall_nil.
  - rewrite N. snodup.
  - pose proof (serialize_fine d E) as Ks. unfold tgen_decl. destruct (sd_kind d); cbn [td_fns app]; rewrite E.
    + repeat (apply Forall_cons; [first [apply size_fine|exact Ks|apply deserialize_fine|apply struct_atlas_fine|apply struct_ser_fine|apply struct_deser_fine]|]); apply Forall_nil.
    + repeat (apply Forall_cons; [first [apply size_fine|exact Ks|apply deserialize_fine|apply choice_atlas_fine|apply choice_ser_fine|apply choice_deser_fine]|]); apply Forall_nil.
Qed.
End Decl.

(** ** Where the declarations are *)
Lemma within_made u : forall p sc t, decl_within p sc t -> forall pre m, p = tgen_module u pre m ->
  exists here ch s d, sub m here (SModule ch s) /\ In d (ss_decls s) /\ sc = dscope u here (sd_name d) /\ t = tgen_decl u (pre ++ here) s d.
Proof.
  induction 1 as [ch ds t Hin|ch ds x m0 sc t Hin H IH]; intros pre [mch s] E; cbn [tgen_module] in E; injection E as -> ->.
  - apply in_map_iff in Hin as (d & <- & Hd). exists [], mch, s, d. split; [constructor|]. split; [exact Hd|]. split; [now rewrite decl_name|now rewrite app_nil_r].
  - apply in_map_iff in Hin as ([k c] & E & Hk). cbn [fst snd] in E. injection E as <- Em.
    destruct (IH (pre ++ [k]) c (eq_sym Em)) as (here & ch & s' & d & A & B & C & D). exists (k :: here), ch, s', d.
    split; [now apply (sub_below mch s k c)|]. split; [exact B|]. split; [now rewrite C|]. now rewrite <- app_assoc in D.
Qed.
Section Linking.
Context (u : unicode) (Hu : ascii_agrees u) (schemas : list (namespace * sschema)).
Context (Hl : loaded schemas) (Hv : valid schemas) (Hg : plain_names schemas u) (Hc : ts_clear_names u schemas).
Let prog := ts_program u schemas.
Let Hg' : forall ns s, In (ns, s) schemas -> good_file u ns s := fun ns s H => proj1 (Hg ns s H).
Lemma within_declared sc t : decl_within prog sc t -> exists ns s d, declared schemas ns s d /\ sc = dscope u ns (sd_name d) /\ t = tgen_decl u ns s d.
Proof.
  intros H. destruct (within_made u _ _ _ H [] (module_tree schemas) eq_refl) as (here & ch & s & d & A & B & -> & ->). cbn [app].
  pose proof (sub_holds _ _ _ A) as Hh. cbn [module_schema] in Hh.
  destruct (schemas_tree u Hu schemas Hl Hg') as (_ & _ & K). destruct (K here s Hh) as [(ns & Hin & Hsame)|(-> & _)]; [|destruct B].
  exists ns, s, d. split; [now split|].
  assert (Forall (good_ident u) here) as Gh.
  { exact (keys_held _ _ (schemas_keys u schemas Hg') _ _ Hh). }
  pose proof (proj1 (Hg' ns s Hin)) as Gn. split.
  - unfold dscope. f_equal. symmetry. now apply (nspaces_same u Hu).
  - symmetry. now apply tgen_decl_same.
Qed.
Lemma program_fine sc t : decl_within prog sc t -> fine_decl (find_callee prelude_fns prog) (reaches_top prog) sc t.
Proof.
  intros H. destruct (within_declared sc t H) as (ns & s & d & Hd & -> & ->).
  assert (forall fn n, In fn (public_fns u ns s d) -> length (jfn_params (snd fn)) = n ->
    takes (find_callee prelude_fns prog) (dscope u ns (sd_name d)) (CFn (fst fn)) n) as T.
  { intros fn n Hfn Hn. eexists _, _. split; [exact (own_found u Hu schemas Hl Hv Hg ns s d fn Hd Hfn)|exact Hn]. }
  apply (decl_fine u ns s _ _ _ (own_good_scope u Hu schemas Hl Hv Hg Hc ns s d Hd) (sd_fields d)); [| | | | |reflexivity].
  - intros f Hf i n Hm. destruct (vd_resolves _ _ _ _ (proj2 Hv ns s d Hd) f i n Hf Hm) as (ns' & ns2 & s2 & d2 & A & B & C).
    destruct (reference_found u Hu schemas Hl Hv Hg Hc ns s d f i n ns2 s2 d2 ns' Hd Hf Hm A B C) as (x & p & E1 & E2 & E3).
    exists x, p. split; [exact E1|]. split; [exact E2|].
    assert (forall fn n, In fn (public_fns u ns2 s2 d2) -> length (jfn_params (snd fn)) = n ->
      takes (find_callee prelude_fns prog) (dscope u ns (sd_name d)) (CPath (x :: p) (fst fn)) n) as T2.
    { intros fn n0 Hfn Hn. eexists _, _. split; [exact (E3 fn Hfn)|exact Hn]. }
    split; [|split]; refine (T2 (_, _) _ _ _); try (unfold public_fns, decl_fns; cbn [app In]; tauto); destruct (sd_kind d2); reflexivity.
  - exact (ti_fields _ _ _ _ _ _ _ _ (decl_tinstalled u Hu schemas Hl Hv Hg Hc ns s d Hd)).
  - refine (T (_, _) _ _ _); [unfold public_fns, decl_fns; cbn [app In]; tauto|destruct (sd_kind d); reflexivity].
  - refine (T (_, _) _ _ _); [unfold public_fns, decl_fns; cbn [app In]; tauto|destruct (sd_kind d); reflexivity].
  - refine (T (_, _) _ _ _); [unfold public_fns, decl_fns; cbn [app In]; tauto|destruct (sd_kind d); reflexivity].
Qed.

Lemma type_names_differ l : Forall (fun d => good_ident u (sd_name d)) l -> all_distinct (map sd_name l) ->
  NoDup (flat_map (fun d => map (fun x => ttype_name u (sd_name d) x) [SAtlas; SOut; SIn]) l).
Proof.
  assert (forall a b x y, good_ident u a -> good_ident u b -> ttype_name u a x = ttype_name u b y -> same_ident a b /\ x = y) as K.
  { intros a b x y Ga Gb E. apply (ts_name_inj u Hu) in E; auto; [|discriminate|right; split; discriminate]. destruct E as [E1 E2]. split; [exact E1|congruence]. }
  induction l as [|d l IH]; intros Gl D; [constructor|]. inversion Gl as [|? ? G1 G2]; subst. cbn [map] in D. inversion D as [|? ? D1 D2]; subst.
  cbn [flat_map].
  assert (forall x, ~ In (ttype_name u (sd_name d) x) (flat_map (fun d => map (fun x => ttype_name u (sd_name d) x) [SAtlas; SOut; SIn]) l)) as N.
  { intros x Hin. apply in_flat_map in Hin as (e & He & Hin). apply in_map_iff in Hin as (y & E & _). rewrite Forall_forall in G2.
    destruct (K _ _ _ _ (G2 e He) G1 E) as [Es _]. rewrite Forall_forall in D1. apply (D1 (sd_name e)); [now apply in_map|now apply same_ident_sym]. }
  assert (NoDup [SAtlas; SOut; SIn]) as S3 by (repeat constructor; cbn; intuition discriminate). clear -K N IH G1 G2 D2 S3. specialize (IH G2 D2). revert IH N.
  match goal with |- NoDup ?X -> _ => generalize X end. intros R IH N. revert S3. generalize [SAtlas; SOut; SIn] as xs.
  induction xs as [|x xs IHx]; intros S3; [exact IH|]. inversion S3 as [|? ? S1 S2]; subst. cbn [map app]. constructor; [|now apply IHx].
  intros Hin. apply in_app_iff in Hin as [Hin|Hin]; [|now apply (N x)]. apply in_map_iff in Hin as (y & E & Hy). destruct (K _ _ _ _ G1 G1 E) as [_ ->]. now apply S1.
Qed.
Lemma module_made : forall p path m0, mod_within p path m0 -> forall pre m, p = tgen_module u pre m ->
  exists here n, sub m here n /\ m0 = tgen_module u (pre ++ here) n.
Proof.
  induction 1 as [p|ch ds x m1 path m0 Hin H IH]; intros pre [mch s] E.
  - subst. exists [], (SModule mch s). split; [constructor|now rewrite app_nil_r].
  - cbn [tgen_module] in E. injection E as -> ->. apply in_map_iff in Hin as ([k c] & E & Hk). cbn [fst snd] in E. injection E as <- Em.
    destruct (IH (pre ++ [k]) c (eq_sym Em)) as (here & n & A & B). exists (k :: here), n. split; [now apply (sub_below mch s k c)|]. now rewrite <- app_assoc in B.
Qed.
Lemma types_fine path m : mod_within prog path m -> types_differ m.
Proof.
  intros H. destruct (module_made _ _ _ H [] (module_tree schemas) eq_refl) as (here & [ch s] & A & ->). cbn [app tgen_module types_differ].
  pose proof (sub_holds _ _ _ A) as Hh. cbn [module_schema] in Hh.
  assert (forall l, map def_name (flat_map td_types (map (tgen_decl u here s) l)) = flat_map (fun d => map (fun x => ttype_name u (sd_name d) x) [SAtlas; SOut; SIn]) l) as E.
  { induction l as [|d l IH]; [reflexivity|]. cbn [map flat_map]. rewrite map_app, IH. f_equal. unfold tgen_decl. destruct (sd_kind d); reflexivity. }
  rewrite E. clear E.
  destruct (schemas_tree u Hu schemas Hl Hg') as (_ & _ & K). destruct (K here s Hh) as [(ns & Hin & Hsame)|(-> & _)]; [|constructor].
  apply type_names_differ; [|exact (proj1 Hv ns s Hin)]. apply Forall_forall. exact (proj1 (proj2 (Hg' ns s Hin))).
Qed.
End Linking.
