(** The functions that RustGen.v makes for a declaration are well-typed. *)
From Coq Require Import Permutation.
From Verif Require Import IdentFacts NamesFacts RustDeserFacts.
From Verif Require Export RustTypingFacts2.

Lemma lookup_found {A} x (l : list (str * A)) (v : A) : NoDup (map fst l) -> In (x, v) l -> lookup x l = Some v.
Proof.
  induction l as [|[y w] l IH]; intros Hn Hin; [destruct Hin|]. cbn [map fst lookup] in *. inversion Hn as [|? ? H1 H2]; subst.
  destruct Hin as [[= -> ->]|Hin]; [now rewrite str_eqb_refl|]. destruct (str_eqb x y) eqn:E; [|now apply IH].
  exfalso. apply str_eqb_eq in E. subst y. apply H1. now apply (in_map fst) in Hin.
Qed.
Lemma lookup_skips {A} x (l r : list (str * A)) : ~ In x (map fst l) -> lookup x (l ++ r) = lookup x r.
Proof.
  induction l as [|[y w] l IH]; intros H; [reflexivity|]. cbn [map fst In lookup app] in *. destruct (str_eqb x y) eqn:E; [|apply IH; tauto].
  exfalso. apply H. left. symmetry. now apply str_eqb_eq.
Qed.
Lemma lookup_keeps {A} x (l r : list (str * A)) (v : A) : lookup x l = Some v -> lookup x (l ++ r) = Some v.
Proof. induction l as [|[y w] l IH]; [discriminate|]. cbn [lookup app]. destruct (str_eqb x y); auto. Qed.

Lemma becomes_other x y f (G : tenv) : str_eqb x y = false -> lookup x (becomes y f G) = lookup x G.
Proof.
  intros E. induction G as [|[z [m t]] G IH]; [reflexivity|]. cbn [becomes]. destruct (str_eqb y z) eqn:F; cbn [lookup].
  - apply str_eqb_eq in F. subst z. now rewrite E.
  - destruct (str_eqb x z); [reflexivity|exact IH].
Qed.
Lemma leads_gone x y (G : tenv) t : str_eqb (txt x) (txt y) = false -> leads x G t -> leads x (gone (txt y) G) t.
Proof. intros E (m & H & K). exists m. split; [exact H|]. unfold gone. now rewrite becomes_other. Qed.

Section Decl.
Context (u : unicode) (Hu : ascii_agrees u) (schemas : list (namespace * sschema)).
Context (Hl : loaded schemas) (Hv : valid schemas) (Hg : plain_names schemas u).
Context (ns : namespace) (s : sschema) (d : sdecl) (Hd : declared schemas ns s d).
Context (Hstd : find_module (mods u ns ++ [txt "std"]) (rust_program u schemas) = None).
Let prog := rust_program u schemas.
Let ind := length ns.
Let m := mods u ns.
Let Hin : In (ns, s) schemas := proj1 Hd.
Let id x : tyid := (m, type_name u (sd_name d) x).
Notation has := (has prog). Notation place := (place prog). Notation path_place := (path_place prog).
Notation passes := (passes prog). Notation passes_all := (passes_all prog). Notation receives := (receives prog).
Notation stmts_have := (stmts_have prog). Notation stmt_has := (stmt_has prog). Notation block_has := (block_has prog).
Notation sem := (sem u schemas ns s). Notation owned := (owned schemas ns s). Notation within := (within u ns).
Notation fields := (sd_fields d). Notation name := (sd_name d).
Let V := proj2 Hv ns s d Hd.

Lemma own f : In f fields -> owned (sf_type f).
Proof. now apply owned_field. Qed.
Lemma index_fits f : In f fields -> sf_index f <= 18446744073709551615.
Proof. intros H. pose proof (vd_max _ _ _ _ V (sf_index f) (in_map sf_index _ _ H)) as K. change (2 ^ 62 - 1) with 4611686018427387903 in K. lia. Qed.
Let Hi := decl_installed u Hu schemas Hl Hv Hg ns s d Hd.

(** *** Names *)
Lemma locals_distinct : NoDup (map (local_name u) fields). Proof. exact (in_locals _ _ _ _ _ _ _ Hi). Qed.
Lemma field_names_distinct : NoDup (txt "_size" :: map (field_name u) fields). Proof. exact (in_fields _ _ _ _ _ _ _ Hi). Qed.
Lemma variants_distinct : NoDup (map (variant_name u) fields). Proof. exact (in_variants _ _ _ _ _ _ _ Hi). Qed.
Definition locals (b : held) (k : sfield -> rty) (fs : list sfield) : tenv := rev (map (fun f => (local_name u f, (b, k f))) fs).
Lemma local_found b k f : In f fields -> lookup (local_name u f) (locals b k fields) = Some (b, k f).
Proof.
  intros H. apply lookup_found.
  - unfold locals. rewrite map_rev, map_map. apply NoDup_rev. exact locals_distinct.
  - unfold locals. rewrite <- in_rev. now apply (in_map (fun f => (local_name u f, (b, k f)))).
Qed.
Lemma local_kept b k f G : In f fields -> lookup (local_name u f) (locals b k fields ++ G) = Some (b, k f).
Proof. intros H. now apply lookup_keeps, local_found. Qed.
Lemma not_local x b k fs G : (match x with c :: _ => negb (c =? 95) | [] => true end) = true -> lookup x (locals b k fs ++ G) = lookup x G.
Proof.
  intros H. apply lookup_skips. unfold locals. rewrite map_rev, map_map, <- in_rev. intros K. apply in_map_iff in K as (f & E & _). cbn [fst] in E.
  pose proof (local_other u f x H) as L. rewrite E, str_eqb_refl in L. discriminate L.
Qed.
Lemma leads_not_local x b k fs G t : (match txt x with c :: _ => negb (c =? 95) | [] => true end) = true -> leads x G t -> leads x (locals b k fs ++ G) t.
Proof. intros H (b' & Hb & K). exists b'. now rewrite not_local. Qed.
Lemma skip_local x f v G : (match x with c :: _ => negb (c =? 95) | [] => true end) = true -> lookup (local_name u f) ((x, v) :: G : tenv) = lookup (local_name u f) G.
Proof. intros H. cbn [lookup]. rewrite str_eqb_sym. now rewrite local_other. Qed.

(** *** The types of fields and cases *)
Definition fty (f : sfield) (x : suffix) : rty :=
  match sf_rule f, x with Asymmetric, SIn | Optional, _ => KOption (sem (sf_type f) x) | _, _ => sem (sf_type f) x end.
Definition decls (x : suffix) : list (str * rty) :=
  match x with SAtlas => [(txt "_size", KUsize)] | _ => [] end ++ map (fun f => (field_name u f, fty f x)) fields.
Lemma Forall2_map {A B C} (P : B -> C -> Prop) (f : A -> B) (g : A -> C) l : (forall a, In a l -> P (f a) (g a)) -> Forall2 P (map f l) (map g l).
Proof. induction l as [|a l IH]; intros H; constructor; [apply H; now left|apply IH; intros b Hb; apply H; now right]. Qed.
Lemma sem_ty sp f x : here sp = m -> In f fields -> ty_of prog sp (gen_type u ns s (sf_type f) x) (sem (sf_type f) x).
Proof. intros H Hf. apply (sem_ok u Hu schemas Hl Hv Hg ns s Hin sp H). now apply own. Qed.
Lemma prim_free sp n : here sp = m -> In n rust_relied_on -> not_redefined prog sp n.
Proof. intros H. now apply (free u Hu schemas Hl Hg ns s Hin). Qed.
Lemma own_ty sp x : here sp = m -> ty_of prog sp (TyPath [type_name u name x]) (KData (id x)).
Proof. intros H. destruct sp as [h a b]. cbn in H. subst h. now apply (decl_ty u Hu schemas Hl Hv Hg ns s d Hd). Qed.
Lemma usize_ok sp : here sp = m -> ty_of prog sp ty_usize KUsize.
Proof. intros H. now apply (ty_usize_ok u Hu schemas Hl Hg ns s Hin). Qed.
Lemma struct_decls x : sd_kind d = SkStruct -> struct_fields prog (id x) (decls x).
Proof.
  intros Hk. pose proof (decl_item u Hu schemas Hl Hv Hg ns s d x Hd) as E. unfold data in E. rewrite Hk in E. unfold gen_struct in E.
  eexists _, _. split; [exact E|]. unfold decls. apply Forall2_app.
  - destruct x; [constructor; [|constructor]|constructor|constructor]. cbn [fst snd]. split; [reflexivity|]. now apply usize_ok.
  - apply Forall2_map. intros f Hf. cbn [fst snd]. split; [reflexivity|]. unfold fty.
    destruct (sf_rule f), x; try (apply ty_option; [apply prim_free; [reflexivity|relied]|]); now apply sem_ty.
Qed.
Definition cty (f : sfield) (x : suffix) : list rty :=
  match x with SAtlas => [KUsize] | _ => [] end ++
  match x with SAtlas => [sem (sf_type f) x] | _ => if is_unit_sty (sf_type f) then [] else [sem (sf_type f) x] end ++
  match sf_rule f, x with Asymmetric, SIn | Required, _ => [] | _, _ => [KBox (KData (id x))] end.
Lemma choice_types x f : sd_kind d = SkChoice -> In f fields -> variant_types prog (id x) (variant_name u f) (cty f x).
Proof.
  intros Hk Hf. pose proof (decl_item u Hu schemas Hl Hv Hg ns s d x Hd) as E. unfold data in E. rewrite Hk in E. unfold gen_choice in E.
  eexists _, _, _. split; [exact E|]. split; [apply in_map_iff; exists f; split; [reflexivity|exact Hf]|]. unfold cty.
  assert (forall x, ty_of prog (in_module m) (gen_type u ns s (sf_type f) x) (sem (sf_type f) x)) as K by (intros y; now apply sem_ty).
  apply Forall2_app; [|apply Forall2_app].
  - destruct x; [constructor; [now apply usize_ok|constructor]|constructor|constructor].
  - assert (Forall2 (ty_of prog (in_module m)) (if is_unit_sty (sf_type f) then [] else [gen_type u ns s (sf_type f) x]) (if is_unit_sty (sf_type f) then [] else [sem (sf_type f) x])) as K'
      by (destruct (is_unit_sty (sf_type f)); constructor; [apply K|constructor]).
    destruct x; [constructor; [apply K|constructor]|exact K'|exact K'].
  - assert (Forall2 (ty_of prog (in_module m)) [TyApp (txt "Box") (TyPath [type_name u name x])] [KBox (KData (id x))]) as K'
      by (constructor; [apply ty_box; [apply prim_free; [reflexivity|relied]|now apply own_ty]|constructor]).
    destruct (sf_rule f), x; first [exact K'|constructor].
Qed.

(** *** Building blocks *)
Lemma take c B G x t : leads x B t -> has c (B ++ G) (vr x) t (gone (txt x) B ++ G).
Proof.
  intros H. replace (gone (txt x) B ++ G) with (gone (txt x) (B ++ G)); [now apply (v_move u schemas), leads_app|].
  destruct H as (b & _ & H). exact (becomes_app _ _ B G _ H).
Qed.
(** The fields of a struct are made from variables, which are moved. *)
Lemma fields_moved c e k k' ds fs : (forall f, In f fs -> In (field_name u f, k f) ds) -> NoDup (map (local_name u) fs) ->
  forall G b, usable b = true -> (forall f, In f fs -> lookup (local_name u f) G = Some (b, k' f)) ->
  (forall f G, In f fs -> lookup (local_name u f) G = Some (b, k' f) -> has c G (e f) (k f) (gone (local_name u f) G)) ->
  exists G', fields_have prog c G (map (fun f => (field_name u f, e f)) fs) ds G'.
Proof.
  intros H1 Hn. induction fs as [|f fs IH]; intros G b Hb H2 H3; [eexists; apply fl_nil|]. cbn [map] in *. inversion Hn as [|? ? N1 N2]; subst.
  destruct (IH (fun g Hg => H1 g (or_intror Hg)) N2 (gone (local_name u f) G) b Hb) as (G' & K).
  - intros g Hg2. unfold gone. rewrite becomes_other; [apply H2; now right|]. destruct (str_eqb (local_name u g) (local_name u f)) eqn:E; [|reflexivity].
    exfalso. apply N1. apply str_eqb_eq in E. rewrite <- E. now apply in_map.
  - intros g E Hg2. apply H3. now right.
  - exists G'. eapply fl_cons; [apply H1; now left|apply (passes_same u schemas), H3; [now left|apply H2; now left]|exact K].
Qed.
Lemma field_place G o x f : leads x G (KRef false (KData (id o))) -> sd_kind d = SkStruct -> In f fields ->
  path_place G (EField (vr x) (field_name u f)) false (fty f o).
Proof.
  intros H Hk Hf. eapply p_field; [apply v_path; exact H|apply rc_ref, rc_here|now apply struct_decls|].
  unfold decls. apply in_app_iff. right. now apply (in_map (fun f => (field_name u f, fty f o))).
Qed.
Lemma header_has c G f : within c -> In f fields -> leads "payload_size" G KUsize -> has c G (header_size ind f) KUsize G.
Proof.
  intros Hc Hf H. apply (field_header_size_has u schemas ns); [exact Hc|apply u64_has, index_fits; exact Hf|apply v_has; [reflexivity|exact H]|apply h_bool].
Qed.
Lemma stmts_map c (b : held) k (let_ : sfield -> stmt) G (Hlet : forall f E, In f fields -> (forall x, (match x with c :: _ => negb (c =? 95) | [] => true end) = true -> lookup x E = lookup x G) ->
    stmt_has c E (let_ f) ((local_name u f, (b, k f)) :: E) false) :
  stmts_have c G (map let_ fields) (locals b k fields ++ G) false.
Proof.
  assert (forall fs E, incl fs fields -> (forall x, (match x with c :: _ => negb (c =? 95) | [] => true end) = true -> lookup x E = lookup x G) ->
    stmts_have c E (map let_ fs) (locals b k fs ++ E) false) as K.
  { induction fs as [|f fs IH]; intros E Hs He; [apply st_nil|]. cbn [map]. eapply stmts_next; [apply Hlet; [apply Hs; now left|exact He]|].
    unfold locals. cbn [map rev]. rewrite <- app_assoc. cbn [app]. apply IH; [intros g Hg2; apply Hs; now right|].
    intros x Hx. rewrite <- (He x Hx). cbn [lookup]. now rewrite local_other. }
  apply K; [apply incl_refl|reflexivity].
Qed.
Lemma binds_var h x t : binds prog h Owned t (PVar false x) [(x, (Fixed, t))].
Proof. split; [apply pa_var|]. cbn [map fst]. constructor; [intros []|constructor]. Qed.
Lemma let_has c G x e t : has c G e t G -> stmt_has c G (SLet false (PVar false x) None e) ((x, (Fixed, t)) :: G) false.
Proof. intros H. apply (st_let prog c G _ e t G [(x, (Fixed, t))]); [exact I|exact H|apply binds_var]. Qed.
Lemma ok_unit_has c G : has c G (ECall (CStd FnOk) [EUnit]) (KResult KUnit) G.
Proof. eapply (h_std prog); [apply sg_ok|apply one, h_unit]. Qed.
Lemma body_has c G ss e t : stmts_have c G ss G false -> has c G e t G -> block_has c G (Blk false ss (Some e)) t G.
Proof. intros H1 H2. apply (block_value u schemas c G false ss e G false t H1 H2). apply e_here. Qed.
Lemma fn_made self p n bound lines params ret body t G r :
  match bound with Some b => exists c, bound_of b = Some c /\ t = Some (KParam c) | None => t = None end ->
  params_bind prog (mkScope m self t) params G -> NoDup (map fst G) -> ty_of prog (mkScope m self t) ret r ->
  (exists G', block_has (mkCtx (mkScope m self t) (Some r) None) G body r G') -> fn_has prog m self (FnDef p n bound lines params ret body).
Proof. intros H1 H2 H3 H4 (G' & H5). eapply fn_ok; eassumption. Qed.
Ltac here := apply leads_here; reflexivity.
Ltac var := first [here | eassumption | (apply leads_skip; [reflexivity|]); var].
Ltac vh := apply v_has; [reflexivity|var].
Ltac vt H := apply v_has; [reflexivity|exact H].

(** *** Functions of the traits *)
Ltac nodup := cbn [map fst]; repeat constructor; cbn [In]; intuition discriminate.
Lemma T_ty self t : ty_of prog (mkScope m self (Some t)) (TyPath [txt "T"]) t.
Proof. now apply ty_param. Qed.
Lemma size_fn_ok : fn_has prog m (Some (KData (id SOut))) gen_size_fn.
Proof.
  unfold gen_size_fn. eapply fn_ok with (t := None); [reflexivity|apply pb_self; [reflexivity|apply pb_nil]|nodup|now apply usize_ok|].
  eapply bl_value; [apply st_nil|]. apply (size_call u Hu schemas Hl Hg ns s d Hd). eapply (rv_shared prog _ _ _ true); [|apply rc_here].
  apply pl_temporary. apply (atlas_call u Hu schemas Hl Hv Hg ns s d Hd). apply shared_ref. here.
Qed.
Lemma serialize_fn_ok : fn_has prog m (Some (KData (id SOut))) gen_serialize_fn.
Proof.
  unfold gen_serialize_fn. eapply fn_ok with (t := Some (KParam Writes)); [exists Writes; split; reflexivity| | | |].
  - apply pb_self; [reflexivity|]. apply pb_par; [apply T_ty|apply pb_nil].
  - nodup.
  - apply ty_result, ty_unit.
  - eapply bl_value; [apply stmts_one, lets_has; apply (atlas_call u Hu schemas Hl Hv Hg ns s d Hd); apply shared_ref; here|].
    eapply (ser_call u Hu schemas Hl Hv Hg ns s d Hd _ _ _ _ _ (KParam Writes)).
    + apply shared_ref. var.
    + reflexivity.
    + apply passes_same, mut_place. reflexivity.
    + apply passes_same. apply (h_ref prog). apply v_place. here.
Qed.
Lemma deserialize_fn_ok : fn_has prog m (Some (KData (id SIn))) gen_deserialize_fn.
Proof.
  unfold gen_deserialize_fn. eapply fn_ok with (t := Some (KParam Reads)); [exists Reads; split; reflexivity| | | |].
  - apply pb_par; [apply T_ty|apply pb_nil].
  - nodup.
  - apply ty_result. now apply ty_self.
  - eapply bl_value; [apply st_nil|]. eapply (deser_call u Hu schemas Hl Hg ns s d Hd _ _ _ _ (KParam Reads)).
    + now apply ty_self.
    + reflexivity.
    + apply passes_same, mut_place. reflexivity.
Qed.

(** *** Structs *)
Section Struct.
Context (Hk : sd_kind d = SkStruct).
Lemma decls_names x : map fst (decls x) = match x with SAtlas => [txt "_size"] | _ => [] end ++ map (field_name u) fields.
Proof. unfold decls. rewrite map_app, map_map. now destruct x. Qed.
Lemma decl_field x f : In f fields -> In (field_name u f, fty f x) (decls x).
Proof. intros H. unfold decls. apply in_app_iff. right. now apply (in_map (fun f => (field_name u f, fty f x))). Qed.
(** The variable [message] when some of its fields have been moved. *)
Definition message_less (moved : list str) : tenv :=
  [(txt "message", (match moved with [] => Fixed | _ => Less moved end, KData (id SOut)))].
Lemma message_field c moved f : In f fields -> ~ In (field_name u f) moved ->
  has c (message_less moved) (EField (vr "message") (field_name u f)) (fty f SOut) (message_less (field_name u f :: moved)).
Proof.
  intros Hf Hn. apply (h_move prog).
  - destruct moved as [|a moved].
    + eapply p_field; [apply v_path; here|apply rc_here|now apply struct_decls|now apply decl_field].
    + eapply p_rest; [reflexivity|now apply struct_decls|now apply decl_field|exact Hn].
  - replace (message_less (field_name u f :: moved)) with (without (txt "message") (field_name u f) (message_less moved)); [apply mv_field|].
    unfold message_less, without. cbn [becomes]. rewrite str_eqb_refl. now destruct moved.
Qed.
Lemma message_fields c e k ds fs : (forall f, In f fs -> In (field_name u f, k f) ds) -> NoDup (map (field_name u) fs) ->
  forall moved, (forall f, In f fs -> ~ In (field_name u f) moved) ->
  (forall f moved, In f fs -> ~ In (field_name u f) moved -> has c (message_less moved) (e f) (k f) (message_less (field_name u f :: moved))) ->
  exists G', fields_have prog c (message_less moved) (map (fun f => (field_name u f, e f)) fs) ds G'.
Proof.
  intros H1 Hn. induction fs as [|f fs IH]; intros moved H2 H3; [eexists; apply fl_nil|]. cbn [map] in *. inversion Hn as [|? ? N1 N2]; subst.
  destruct (IH (fun g Hg => H1 g (or_intror Hg)) N2 (field_name u f :: moved)) as (G' & K).
  - intros g Hg2 [E|E]; [apply N1; rewrite E; now apply in_map|]. apply (H2 g); [now right|exact E].
  - intros g mv Hg2. apply H3. now right.
  - exists G'. eapply fl_cons; [apply H1; now left|apply (passes_same u schemas), H3; [now left|apply H2; now left]|exact K].
Qed.
Lemma struct_from_ok : fn_has prog m (Some (KData (id SIn))) (struct_from u name fields).
Proof.
  unfold struct_from, from_fn. eapply fn_made with (t := None); [reflexivity|apply pb_par; [now apply own_ty|apply pb_nil]|nodup|now apply ty_self|].
  set (c := mkCtx _ _ _).
  destruct (message_fields c (fun f => let e := EField (vr "message") (field_name u f) in
          match sf_rule f with
          | Asymmetric => ECall (CStd FnSome) [gen_into (sf_type f) e]
          | Optional => EMethod e MMap [EClosure [txt "payload"] (gen_into (sf_type f) (vr "payload"))]
          | Required => gen_into (sf_type f) e
          end) (fun f => fty f SIn) (decls SIn) fields) with (moved := @nil str) as (G' & K).
  - intros f Hf. now apply decl_field.
  - pose proof field_names_distinct as N. now inversion N.
  - intros f _ [].
  - intros f moved Hf Hn. cbv zeta. pose proof (message_field c moved f Hf Hn) as H. unfold fty in *. destruct (sf_rule f).
    + eapply (h_std prog); [apply sg_some|]. apply one. apply (into_has u Hu schemas Hl Hv Hg ns s Hin); [now apply own|exact H].
    + eapply (map_option_move u schemas); [exact H| |].
      * apply (into_has u Hu schemas Hl Hv Hg ns s Hin); [now apply own|]. apply (v_move_here u schemas). reflexivity.
      * ends.
    + apply (into_has u Hu schemas Hl Hv Hg ns s Hin); [now apply own|exact H].
  - eexists. eapply bl_value; [apply st_nil|]. apply (h_struct prog c _ _ _ (decls SIn)); [now apply struct_decls| |exact K].
    rewrite decls_names, map_map. apply Permutation_refl.
Qed.
Lemma struct_atlas_ok : fn_has prog m (Some (KData (id SOut))) (struct_atlas u ind name fields).
Proof.
  unfold struct_atlas. eapply fn_made with (t := None); [reflexivity|apply pb_self; [reflexivity|apply pb_nil]|nodup|now apply own_ty|].
  set (G := [_]). set (c := mkCtx _ _ _). assert (within c) as Hc by reflexivity.
  set (G' := locals Fixed (fun f => fty f SAtlas) fields ++ G).
  assert (stmts_have c G (match fields with [] => [] | _ => map (struct_atlas_let u ind) fields ++ [SBlank] end) G' false) as K.
  { assert (stmts_have c G (map (struct_atlas_let u ind) fields ++ [SBlank]) G' false) as K.
    { eapply stmts_app; [|apply stmts_one, st_blank]. apply stmts_map. intros f E Hf He. unfold struct_atlas_let. apply let_has.
      assert (leads "self" E (KRef false (KData (id SOut)))) as Hs by (exists Fixed; split; [reflexivity|now rewrite He]).
      pose proof (field_place E SOut "self" f Hs Hk Hf) as P. unfold fty in *. destruct (sf_rule f).
      - eapply inline_has; [apply stmts_one, lets_has; eapply h_ref, pl_path; exact P| |ends]. apply (calc_has u Hu schemas Hl Hv Hg ns s Hin); [exact Hc|now apply own|here].
      - eapply (map_option u schemas); [eapply method0; [apply sm_as_ref|]; eapply (rv_shared prog _ _ _ true); [eapply pl_path; exact P|apply rc_here]|].
        apply (calc_has u Hu schemas Hl Hv Hg ns s Hin); [exact Hc|now apply own|here].
      - eapply inline_has; [apply stmts_one, lets_has; eapply h_ref, pl_path; exact P| |ends]. apply (calc_has u Hu schemas Hl Hv Hg ns s Hin); [exact Hc|now apply own|here]. }
    assert (forall fs, stmts_have c G (map (struct_atlas_let u ind) fs ++ [SBlank]) (locals Fixed (fun f => fty f SAtlas) fs ++ G) false ->
      stmts_have c G (match fs with [] => [] | _ => map (struct_atlas_let u ind) fs ++ [SBlank] end) (locals Fixed (fun f => fty f SAtlas) fs ++ G) false) as A
      by (intros [|f fs] H; [apply st_nil|exact H]).
    apply A. exact K. }
  destruct (fields_moved c (fun f => EVar (local_name u f)) (fun f => fty f SAtlas) (fun f => fty f SAtlas) (decls SAtlas) fields) with (G := G') (b := Fixed) as (G'' & F).
  - intros f Hf. now apply decl_field.
  - exact locals_distinct.
  - reflexivity.
  - intros f Hf. now apply local_kept.
  - intros f E Hf He. apply (h_move prog); [eapply p_var; [exact He|reflexivity]|apply mv_var].
  - eexists. eapply bl_value; [exact K|]. clear K.
    apply (h_struct prog c G' _ _ (decls SAtlas)); [now apply struct_decls| |].
    { rewrite decls_names. cbn [map fst app]. rewrite map_map. apply Permutation_refl. }
    eapply fl_cons; [left; reflexivity| |exact F]. clear F.
    apply passes_same. apply (h_sum prog c G' _ KUsize); [discriminate|].
    assert (forall fs, incl fs fields -> all_have prog c G' (map (struct_size_term u ind) fs) KUsize G') as A; [|apply A, incl_refl].
    induction fs as [|f fs IH]; intros Hs; [apply al_nil|]. cbn [map]. eapply al_cons; [|apply IH; intros g Hg2; apply Hs; now right].
    assert (In f fields) as Hf by (apply Hs; now left). assert (lookup (local_name u f) G' = Some (Fixed, fty f SAtlas)) as Lf by now apply local_kept.
    unfold struct_size_term. cbv zeta.
    assert (forall c E, within c -> leads "payload_atlas" E (KRef false (sem (sf_type f) SAtlas)) -> stmts_have c E [lets "payload_size" (gen_atlas_lookup (sf_type f))] ((txt "payload_size", (Fixed, KUsize)) :: E) false /\
      has c ((txt "payload_size", (Fixed, KUsize)) :: E) (EBin OpAdd (header_size ind f) (vr "payload_size")) KUsize ((txt "payload_size", (Fixed, KUsize)) :: E)) as B.
    { intros c0 E Hc0 HE. split.
      - apply stmts_one, lets_has. apply (lookup_has u Hu schemas Hl Hv Hg ns s Hin); [exact Hc0|now apply own|exact HE].
      - eapply add_has; [apply header_has; [exact Hc0|exact Hf|here]|vh]. }
    assert (forall k, fty f SAtlas = k -> path_place G' (EVar (local_name u f)) true k) as P by (intros k <-; exact (p_var prog G' _ Fixed _ Lf eq_refl)).
    assert (leads "payload_atlas" ((txt "payload_atlas", (Fixed, KRef false (sem (sf_type f) SAtlas))) :: G') (KRef false (sem (sf_type f) SAtlas))) as HE by here.
    destruct (B c _ Hc HE) as [B1 B2]. destruct (B (closure c) _ Hc HE) as [C1 C2]. unfold fty in P. destruct (sf_rule f).
    + eapply inline_has; [eapply stmts_next; [apply lets_has; eapply h_ref, pl_path; apply P; reflexivity|exact B1]|exact B2|ends].
    + eapply (map_or u schemas); [eapply method0; [apply sm_as_ref|]; eapply (rv_shared prog _ _ _ true); [eapply pl_path; apply P; reflexivity|apply rc_here]|apply usize_has; lia|].
      eapply inline_has; [exact C1|exact C2|ends].
    + eapply inline_has; [eapply stmts_next; [apply lets_has; eapply h_ref, pl_path; apply P; reflexivity|exact B1]|exact B2|ends].
Qed.
Lemma serialize_with_atlas_ok x body : x = name ->
  (exists G', block_has (mkCtx (mkScope m (Some (KData (id SOut))) (Some (KParam Writes))) (Some (KResult KUnit)) None)
    [(txt "self", (Fixed, KRef false (KData (id SOut)))); (txt "writer", (Fixed, KRef true (KParam Writes))); (txt "atlas", (Fixed, KRef false (KData (id SAtlas))))]
    body (KResult KUnit) G') ->
  fn_has prog m (Some (KData (id SOut))) (serialize_with_atlas_fn u x body).
Proof.
  intros -> H. unfold serialize_with_atlas_fn. eapply fn_made with (t := Some (KParam Writes)); [exists Writes; split; reflexivity| | | |exact H].
  - apply pb_self; [reflexivity|]. apply pb_par; [apply ty_ref, T_ty|]. apply pb_par; [apply ty_ref; now apply own_ty|apply pb_nil].
  - nodup.
  - apply ty_result, ty_unit.
Qed.
Lemma serialize_header_has c G f : within c -> returns c = Some (KResult KUnit) -> In f fields -> leads "writer" G (KRef true (KParam Writes)) ->
  leads "payload_atlas" G (KRef false (sem (sf_type f) SAtlas)) -> stmts_have c G [serialize_header ind f] G false.
Proof.
  intros Hc Hr Hf Hw Ha. eapply semi_has; [|reflexivity]. eapply h_try; [exact Hr|].
  apply (serialize_field_header_has u schemas ns c G _ _ _ _ (KParam Writes)); [exact Hc|reflexivity|now apply v_again|apply u64_has, index_fits; exact Hf| |apply h_bool].
  apply (lookup_has u Hu schemas Hl Hv Hg ns s Hin); [exact Hc|now apply own|exact Ha].
Qed.
Lemma payload_has c G f : within c -> returns c = Some (KResult KUnit) -> In f fields -> leads "writer" G (KRef true (KParam Writes)) ->
  leads "payload" G (KRef false (sem (sf_type f) SOut)) -> leads "payload_atlas" G (KRef false (sem (sf_type f) SAtlas)) ->
  stmts_have c G (serialize_header ind f :: gen_ser ind (sf_type f) true) G false.
Proof.
  intros Hc Hr Hf Hw Hp Ha. apply (stmts_app u schemas c G [serialize_header ind f] G); [now apply serialize_header_has|].
  apply (gen_ser_has u Hu schemas Hl Hv Hg ns s Hin _ c G true (KParam Writes) KUnit); [exact Hc|now apply own|exact Hr|reflexivity|exact Hw|exact Hp|exact Ha].
Qed.
Lemma struct_ser_ok : fn_has prog m (Some (KData (id SOut))) (struct_ser u ind name fields).
Proof.
  apply serialize_with_atlas_ok; [reflexivity|]. set (c := mkCtx _ _ _). set (G := [_; _; _]). assert (within c) as Hc by reflexivity.
  exists G. apply body_has; [|apply ok_unit_has].
  assert (leads "self" G (KRef false (KData (id SOut)))) as Hs by here.
  assert (leads "writer" G (KRef true (KParam Writes))) as Hw by var.
  assert (leads "atlas" G (KRef false (KData (id SAtlas)))) as Ha by var.
  clearbody G. assert (forall fs, incl fs fields -> stmts_have c G (flat_map (struct_ser_field u ind) fs) G false) as A; [|apply A, incl_refl].
  induction fs as [|f fs IH]; intros Hincl; [apply st_nil|]. cbn [flat_map]. eapply stmts_app; [|apply IH; intros g Hg2; apply Hincl; now right].
  assert (In f fields) as Hf by (apply Hincl; now left). clear IH Hincl.
  pose proof (field_place G SOut "self" f Hs Hk Hf) as P1. unfold struct_ser_field. cbv zeta.
  assert (sf_rule f <> Optional -> stmts_have c G
    [SExpr (EBlock (Blk false
         (lets "payload" (ERef false (self_field u f)) ::
          lets "payload_atlas" (ERef false (EField (vr "atlas") (field_name u f))) :: serialize_header ind f :: gen_ser ind (sf_type f) true) None)); SBlank] G false) as K.
  { intros Hne. eapply stmts_next; [|apply stmts_one, st_blank]. apply st_expr, h_block.
    set (G1 := (txt "payload", (Fixed, KRef false (sem (sf_type f) SOut))) :: G).
    assert (leads "atlas" G1 (KRef false (KData (id SAtlas)))) as Ha1 by (apply leads_skip; [reflexivity|exact Ha]).
    pose proof (field_place G1 SAtlas "atlas" f Ha1 Hk Hf) as P2.
    set (G2 := (txt "payload_atlas", (Fixed, KRef false (sem (sf_type f) SAtlas))) :: G1).
    apply (block_unit u schemas c G false _ G2 false); [|unfold G2, G1; ends]. apply (stmts_next u schemas c G _ _ G1).
    - apply lets_has. eapply h_ref, pl_path. unfold fty in P1. destruct (sf_rule f); [exact P1|congruence|exact P1].
    - apply (stmts_next u schemas c G1 _ _ G2).
      + apply lets_has. eapply h_ref, pl_path. unfold fty in P2. destruct (sf_rule f); [exact P2|congruence|exact P2].
      + apply payload_has; [exact Hc|reflexivity|exact Hf|..].
        * apply leads_skip; [reflexivity|]. apply leads_skip; [reflexivity|exact Hw].
        * apply leads_skip; [reflexivity|here].
        * here. }
  destruct (sf_rule f) eqn:Er; [apply K; discriminate| |apply K; discriminate]. clear K.
  pose proof (field_place G SAtlas "atlas" f Ha Hk Hf) as P2. unfold fty in P1, P2. rewrite Er in P1, P2.
  eapply stmts_next; [|apply stmts_one, st_blank].
  set (p := (txt "payload", (Fixed, KRef false (sem (sf_type f) SOut)))). set (a := (txt "payload_atlas", (Fixed, KRef false (sem (sf_type f) SAtlas)))).
  apply (st_if_let prog c G _ _ _ (KPair (KRef false (KOption (sem (sf_type f) SOut))) (KRef false (KOption (sem (sf_type f) SAtlas)))) [a; p] G ([a; p] ++ G)).
  - eapply h_pair; eapply h_ref, pl_path; [exact P1|exact P2].
  - split; [|unfold a, p; nodup]. change [a; p] with ([a] ++ [p]). apply pa_pair; apply pa_through_con; eapply pa_con; [apply cn_some| |apply cn_some|].
    + change [p] with ([] ++ [p]). apply pas_cons; [apply pa_var_ref|apply pas_nil].
    + change [a] with ([] ++ [a]). apply pas_cons; [apply pa_var_ref|apply pas_nil].
  - apply (block_unit u schemas c _ false _ ([a; p] ++ G) false); [|apply e_here]. cbn [app]. apply payload_has; [exact Hc|reflexivity|exact Hf|..].
    + apply leads_skip; [reflexivity|]. apply leads_skip; [reflexivity|exact Hw].
    + apply leads_skip; [reflexivity|here].
    + here.
  - apply leave_app.
Qed.
Lemma struct_size_ok : fn_has prog m (Some (KData (id SAtlas))) struct_size.
Proof.
  unfold struct_size. eapply fn_ok with (t := None); [reflexivity|apply pb_self; [reflexivity|apply pb_nil]|nodup|now apply usize_ok|].
  apply body_has; [apply st_nil|]. eapply h_copy; [|exact I]. eapply p_field; [apply v_path; here|apply rc_ref, rc_here|now apply struct_decls|].
  unfold decls. now left.
Qed.
End Struct.

(** *** Reading *)
Notation Reader := (KRef true (KParam Reads)).
Lemma deserialize_ok body :
  (exists G', block_has (mkCtx (mkScope m (Some (KData (id SIn))) (Some (KParam Reads))) (Some (KResult (KData (id SIn)))) None)
    [(txt "reader", (Fixed, Reader))] body (KResult (KData (id SIn))) G') ->
  fn_has prog m (Some (KData (id SIn))) (deserialize_fn body).
Proof.
  intros H. unfold deserialize_fn. eapply fn_made with (t := Some (KParam Reads)); [exists Reads; split; reflexivity| | | |exact H].
  - apply pb_par; [apply ty_ref, T_ty|apply pb_nil].
  - nodup.
  - apply ty_result. now apply ty_self.
Qed.
Lemma mut_reader_has c G : leads "reader" G Reader -> has c G mut_reader Reader G.
Proof.
  intros H. pose proof (v_path u schemas G "reader" Reader H) as K. eapply h_ref_mut; [eapply p_deref; exact K|eapply ch_deref; exact K].
Qed.
Lemma take_sub_reader_has c G : within c -> leads "reader" G Reader -> leads "payload_size" G KUsize ->
  stmts_have c G [take_sub_reader] ((txt "sub_reader", (Mut, KTake Reader)) :: G) false.
Proof.
  intros Hc H1 H2. apply stmts_one, letm_has. eapply (h_std prog); [apply sg_take; reflexivity|].
  eapply two; [now apply mut_reader_has|]. apply (as_u64_has u Hu schemas Hl Hg ns s Hin); [exact Hc|vt H2].
Qed.
Lemma skip_arm_has c G a : within c -> returns c = Some (KResult (KData (id SIn))) -> lookup (txt "sub_reader") G = Some (Mut, KTake Reader) -> leads "payload_size" G KUsize ->
  arms_have prog c G a KU64 [skip_arm ind] KUnit G.
Proof.
  intros Hc Hr Hs Hp. eapply (arm_next u schemas); [apply wild_pat| |apply ar_nil]. cbn [app]. apply h_block. apply (block_unit u schemas c G false _ G false); [|ends].
  eapply semi_has; [|reflexivity]. eapply h_try; [exact Hr|]. eapply (skip_has u schemas ns c G _ _ (KTake Reader)); [exact Hc|split; reflexivity|apply passes_same; now apply mut_place|vt Hp].
Qed.
Lemma index_pat a f : In f fields -> binds prog m a KU64 (PInt (sf_index f) []) [].
Proof. intros H. split; [|constructor]. eapply pa_int; [reflexivity|now apply index_fits|now left]. Qed.
Lemma arms_map c G a t r (arm_ : sfield -> arm) rest :
  (forall f, In f fields -> exists p e, arm_ f = Arm p e /\ exists Gp G1, binds prog (here (sc c)) a t p Gp /\ has c (Gp ++ G) e r G1 /\ ends G G1) ->
  arms_have prog c G a t rest r G -> arms_have prog c G a t (map arm_ fields ++ rest) r G.
Proof.
  intros H Hrest. assert (forall fs, incl fs fields -> arms_have prog c G a t (map arm_ fs ++ rest) r G) as A; [|apply A, incl_refl].
  induction fs as [|f fs IH]; intros Hs; [exact Hrest|]. cbn [map app]. destruct (H f (Hs f (or_introl eq_refl))) as (p & e & -> & Gp & G1 & H1 & H2 & H3).
  eapply (arm_move u schemas); [exact H1|exact H2|exact H3|]. apply IH. intros g Hg2. apply Hs. now right.
Qed.
Lemma arms_map_only c G a t r (arm_ : sfield -> arm) :
  (forall f, In f fields -> exists p e, arm_ f = Arm p e /\ exists Gp G1, binds prog (here (sc c)) a t p Gp /\ has c (Gp ++ G) e r G1 /\ ends G G1) ->
  arms_have prog c G a t (map arm_ fields) r G.
Proof. intros H. rewrite <- (app_nil_r (map arm_ fields)). apply arms_map; [exact H|apply ar_nil]. Qed.

Section StructReading.
Context (Hk : sd_kind d = SkStruct).
Lemma struct_deser_ok : fn_has prog m (Some (KData (id SIn))) (struct_deser u ns s ind name fields).
Proof.
  apply deserialize_ok. set (c := mkCtx _ _ _). set (G := [_]). assert (within c) as Hc by reflexivity.
  assert (leads "reader" G Reader) as Hrd by here.
  set (k := fun f => KOption (sem (sf_type f) SIn)). set (G1 := locals Mut k fields ++ G).
  assert (leads "reader" G1 Reader) as Hrd1 by now apply leads_not_local.
  assert (forall f, In f fields -> lookup (local_name u f) G1 = Some (Mut, k f)) as Hlk by (intros f Hf; now apply local_kept).
  assert (stmts_have c G (match fields with [] => [] | _ => map (struct_deser_let u ns s) fields ++ [SBlank] end) G1 false) as S1.
  { assert (stmts_have c G (map (struct_deser_let u ns s) fields ++ [SBlank]) G1 false) as K.
    { eapply stmts_app; [|apply stmts_one, st_blank]. apply stmts_map. intros f E Hf He. unfold struct_deser_let.
      apply (st_let_mut prog c E (local_name u f) _ _ (k f) E); [apply h_none|]. apply ty_option; [apply prim_free; [reflexivity|relied]|now apply sem_ty]. }
    assert (forall fs, stmts_have c G (map (struct_deser_let u ns s) fs ++ [SBlank]) (locals Mut k fs ++ G) false ->
      stmts_have c G (match fs with [] => [] | _ => map (struct_deser_let u ns s) fs ++ [SBlank] end) (locals Mut k fs ++ G) false) as A
      by (intros [|f fs] H; [apply st_nil|exact H]).
    apply A. exact K. }
  assert (stmts_have c G1 [SLoop (struct_loop_block u ns s ind fields)] G1 false) as S2.
  { apply stmts_one. apply st_loop. unfold struct_loop_block. set (c' := looping c (Some G1)). assert (within c') as Hc' by reflexivity.
    set (G2 := [(txt "payload_size", (Fixed, KUsize)); (txt "index", (Fixed, KU64))] ++ G1).
    set (G3 := (txt "sub_reader", (Mut, KTake Reader)) :: G2).
    apply (block_unit u schemas c' G1 false _ G3 false); [|unfold G3, G2; apply e_cons, e_app, e_here].
    eapply (stmts_next u schemas c' G1 _ _ G2).
    { eapply (st_let prog c' G1 _ _ _ G1); [split; exact I| |apply pair_binds; reflexivity].
      eapply h_match; [apply (deserialize_field_header_has u schemas ns c' G1 _ (KParam Reads)); [exact Hc'|reflexivity|apply passes_same; now apply mut_reader_has]| |apply eof_exhaustive].
      eapply (eof_arms_have u schemas ns Hstd c' G1 "header" _ _ true (KPair KU64 KUsize) (KData (id SIn)) G1); [exact Hc'|reflexivity|reflexivity|apply e_here| |].
      - apply (v_move_here u schemas). reflexivity.
      - ends. }
    assert (leads "payload_size" G2 KUsize) as Hp2 by here.
    eapply stmts_next; [apply st_blank|]. apply (stmts_app u schemas c' G2 [take_sub_reader] G3).
    { apply take_sub_reader_has; [exact Hc'| |exact Hp2]. apply leads_skip; [reflexivity|]. apply leads_skip; [reflexivity|exact Hrd1]. }
    eapply stmts_next; [apply st_blank|]. apply stmts_one, st_expr.
    assert (lookup (txt "sub_reader") G3 = Some (Mut, KTake Reader)) as Hsub by reflexivity.
    assert (leads "payload_size" G3 KUsize) as Hp3 by (apply leads_skip; [reflexivity|exact Hp2]).
    eapply (h_match prog c' G3 false _ KU64).
    - apply v_has; [reflexivity|]. apply leads_skip; [reflexivity|]. apply leads_skip; [reflexivity|here].
    - apply arms_map; [|now apply skip_arm_has]. intros f Hf. eexists _, _. split; [reflexivity|]. exists [], G3. split; [now apply index_pat|]. split; [|apply e_here].
      cbn [app]. apply h_block.
      destruct (gen_deser_yields u Hu schemas Hl Hv Hg ns s Hin Hstd (sf_type f) c' G3 true (KTake Reader) (KData (id SIn))) as (B & H1 & H2 & H3);
        [exact Hc'|now apply own|reflexivity|split; reflexivity|exact Hsub|intros _; exact Hp3|].
      apply (block_unit u schemas c' G3 false _ (gone (txt "payload") B ++ G3) false); [|apply e_app, e_here]. eapply stmts_app; [exact H1|]. eapply semi_has; [|reflexivity].
      assert (lookup (local_name u f) (B ++ G3) = Some (Mut, k f)) as L.
      { apply (scratch_kept H3).
        - cbn [map forallb]. rewrite !(str_eqb_sym (local_name u f)), !local_other by reflexivity. reflexivity.
        - unfold G3, G2. cbn [app]. rewrite !skip_local by reflexivity. now apply Hlk. }
      eapply method1; [apply sm_get_or_insert| |apply passes_same, take; exact H2].
      eapply rv_mutable; [eapply p_var; [exact L|reflexivity]|eapply ch_var; exact L].
    - eapply (ex_any prog _ _ _ PWild); [|exact I]. rewrite map_app. apply in_app_iff. right. now left. }
  assert (stmts_have c G1 (missing_check u ind fields) G1 false) as S3.
  { unfold missing_check. destruct (existsb required_field fields) eqn:Ex; [|apply st_nil].
    eapply stmts_next; [|apply stmts_one, st_blank]. apply st_if.
    - apply h_ors.
      + apply existsb_exists in Ex as (f & H1 & H2). intros E. apply map_eq_nil in E.
        assert (In f (filter required_field fields)) as K by (now apply filter_In). now rewrite E in K.
      + assert (forall fs, incl fs fields -> all_have prog c G1 (map (fun f => EMethod (EVar (local_name u f)) MIsNone []) fs) KBool G1) as A;
          [|apply A; intros f Hf; now apply filter_In in Hf].
        induction fs as [|f fs IH]; intros Hs; [apply al_nil|]. cbn [map]. eapply al_cons; [|apply IH; intros g Hg2; apply Hs; now right].
        eapply method0; [apply sm_is_none|]. eapply (rv_shared prog _ _ _ true); [|apply rc_here]. eapply pl_path, p_var; [apply Hlk, Hs; now left|reflexivity].
    - eapply bl_diverges. eapply semi_has'. eapply (h_return prog c G1 _ KUnit); [reflexivity|]. apply passes_same.
      eapply (h_std prog); [apply sg_err|]. apply one. apply h_lines. eapply (h_std prog); [apply sg_error|].
      eapply two; [apply h_invalid|apply h_missing]. rewrite Hc. unfold ind, mods. now rewrite map_length. }
  destruct (fields_moved c (fun f => let e := EVar (local_name u f) in match sf_rule f with Required => EMethod e MUnwrap [] | _ => e end) (fun f => fty f SIn) k (decls SIn) fields)
    with (G := G1) (b := Mut) as (G'' & F).
  - intros f Hf. now apply decl_field.
  - exact locals_distinct.
  - reflexivity.
  - exact Hlk.
  - intros f E Hf He. cbv zeta.
    assert (has c E (EVar (local_name u f)) (k f) (gone (local_name u f) E)) as H by (apply (h_move prog); [eapply p_var; [exact He|reflexivity]|apply mv_var]).
    unfold fty. destruct (sf_rule f); [exact H|exact H|]. eapply method0; [apply sm_unwrap|]. apply rv_value. exact H.
  - eexists. eapply (bl_value prog c G false _ _ G1 false).
    + eapply stmts_app; [exact S1|]. eapply (stmts_app u schemas c G1 [SLoop _; SBlank] G1); [|exact S3].
      apply (stmts_app u schemas c G1 [SLoop _] G1 [SBlank]); [exact S2|apply stmts_one, st_blank].
    + eapply (h_std prog); [apply sg_ok|]. apply one. apply (h_struct prog c G1 _ _ (decls SIn)); [now apply struct_decls| |exact F].
      unfold decls. cbn [app]. rewrite !map_map. apply Permutation_refl.
Qed.
End StructReading.

(** *** Choices *)
Section Choice.
Context (Hk : sd_kind d = SkChoice).
Notation item_data x := (data u ns s d x).
Lemma choice_exhaustive x ps : (forall f, In f fields -> exists args, In (PCon [type_name u name x; variant_name u f] args) ps /\ Forall irrefutable args) ->
  exhaustive prog m ps (KData (id x)).
Proof.
  intros H. pose proof (decl_item u Hu schemas Hl Hv Hg ns s d x Hd) as E. unfold data in E. rewrite Hk in E. unfold gen_choice in E.
  eapply ex_enum; [exact E|]. intros v types Hvt. apply in_map_iff in Hvt as (f & [= <- _] & Hf). now apply H.
Qed.
Lemma con_has c G x f args G' : within c -> In f fields -> passes_all false c G args (cty f x) G' -> has c G (con (type_name u name x) (variant_name u f) args) (KData (id x)) G'.
Proof.
  intros Hc Hf H. pose proof (choice_types x f Hk Hf) as T. unfold id in *. assert (here (sc c) = m) as Hm by exact Hc. rewrite <- Hm in T |- *.
  unfold con. destruct args as [|a args].
  - inversion H as [? ? ? E1 E2 E3 E4|]; subst. match goal with K : [] = cty f x |- _ => rewrite <- K in T end. exact (h_variant prog c _ (type_name u name x) (variant_name u f) T).
  - exact (h_construct prog c G _ _ _ _ _ T H).
Qed.
(** What the patterns for a case bind. *)
Definition case_env (w : rty -> rty) (f : sfield) : tenv :=
  (if has_fallback_out f then [(txt "fallback", (Fixed, w (KBox (KData (id SOut)))))] else []) ++
  (if is_unit_sty (sf_type f) then [] else [(txt "payload", (Fixed, w (sem (sf_type f) SOut)))]).
Lemma case_binds a by_ref w f : (forall t x, pattern prog m a t (PVar by_ref x) [(x, (Fixed, w t))]) -> In f fields ->
  binds prog m a (KData (id SOut)) (case_out u name by_ref f) (case_env w f).
Proof.
  intros H Hf. split.
  - unfold case_out. eapply pa_con; [apply cn_variant; now apply choice_types|]. unfold cty, case_args, case_env, has_fallback_out. cbn [app].
    destruct (is_unit_sty _), (sf_rule f); cbn [app];
      repeat match goal with
      | |- patterns _ _ _ [] [] [] => apply pas_nil
      | |- patterns _ _ _ [?t] [_] ?E => apply (pas_cons prog m a t [] _ [] E []); [apply H|apply pas_nil]
      | |- patterns _ _ _ [?t; ?k] [_; _] [?x; ?y] => apply (pas_cons prog m a t [k] _ _ [y] [x]); [apply H|]
      end.
  - unfold case_env. destruct (is_unit_sty _), (has_fallback_out f); nodup.
Qed.
Lemma case_irrefutable by_ref f : Forall irrefutable (case_args by_ref f).
Proof. unfold case_args. destruct (is_unit_sty _), (has_fallback_out f); repeat constructor. Qed.
Lemma case_payload w f : is_unit_sty (sf_type f) = false -> leads "payload" (case_env w f) (w (sem (sf_type f) SOut)).
Proof. intros E. exists Fixed. unfold case_env. rewrite E. split; [reflexivity|]. destruct (has_fallback_out f); reflexivity. Qed.
Lemma case_fallback w f : has_fallback_out f = true -> leads "fallback" (case_env w f) (w (KBox (KData (id SOut)))).
Proof. intros E. exists Fixed. unfold case_env. rewrite E. split; reflexivity. Qed.
Lemma case_skip w f G x t : negb (str_eqb (txt x) (txt "fallback")) && negb (str_eqb (txt x) (txt "payload")) = true -> leads x G t -> leads x (case_env w f ++ G) t.
Proof.
  intros E (b & Hb & K). exists b. split; [exact Hb|]. rewrite lookup_skips; [exact K|]. unfold case_env. rewrite map_app. apply Bool.andb_true_iff in E as [E1 E2].
  intros N. apply in_app_iff in N. destruct N as [N|N]; [destruct (has_fallback_out f)|destruct (is_unit_sty _)]; cbn [map fst In] in N; try tauto.
  - destruct N as [N|[]]. rewrite <- N, str_eqb_refl in E1. discriminate E1.
  - destruct N as [N|[]]. rewrite <- N, str_eqb_refl in E2. discriminate E2.
Qed.
Lemma unit_sty f : is_unit_sty (sf_type f) = true -> sf_type f = SyUnit.
Proof. now destruct (sf_type f). Qed.

Lemma choice_from_ok : fn_has prog m (Some (KData (id SIn))) (choice_from u name fields).
Proof.
  unfold choice_from, from_fn. eapply fn_made with (t := None); [reflexivity|apply pb_par; [now apply own_ty|apply pb_nil]|nodup|now apply ty_self|].
  set (c := mkCtx _ _ _). assert (within c) as Hc by reflexivity. set (G := [(txt "message", (Moved, KData (id SOut)))]).
  eexists. eapply bl_value; [apply st_nil|].
  apply (h_match prog c _ false _ (KData (id SOut)) _ _ G G); [apply (v_move_here u schemas); reflexivity| |].
  - apply arms_map_only. intros f Hf. eexists _, _. split; [reflexivity|]. set (A := case_env (fun t => t) f).
    set (A1 := if is_unit_sty (sf_type f) then A else gone (txt "payload") A). set (A2 := match sf_rule f with Optional => gone (txt "fallback") A1 | _ => A1 end).
    exists A, (A2 ++ G). split; [apply case_binds; [intros t x; apply pa_var|exact Hf]|]. split; [|ends].
    apply con_has; [exact Hc|exact Hf|]. unfold cty. cbn [app].
    assert (is_unit_sty (sf_type f) = false -> has c (A ++ G) (gen_into (sf_type f) (vr "payload")) (sem (sf_type f) SIn) (A1 ++ G)) as Hpl.
    { intros Eu. apply (into_has u Hu schemas Hl Hv Hg ns s Hin); [now apply own|]. unfold A1. rewrite Eu. apply take. now apply (case_payload (fun t => t)). }
    assert (sf_rule f = Optional -> has c (A1 ++ G) (ECall (CStd FnBoxNew) [EMethod (EParen (EDeref (vr "fallback"))) MInto []]) (KBox (KData (id SIn))) (A2 ++ G)) as Hfb.
    { intros Ef. assert (leads "fallback" A1 (KBox (KData (id SOut)))) as L.
      { assert (leads "fallback" A (KBox (KData (id SOut)))) as L by (apply (case_fallback (fun t => t)); unfold has_fallback_out; now rewrite Ef).
        unfold A1. destruct (is_unit_sty (sf_type f)); [exact L|]. now apply leads_gone. }
      eapply (h_std prog); [apply sg_box|]. apply one. eapply method0; [apply sm_into; apply (decl_converts u Hu schemas Hl Hv Hg ns s d Hd)|].
      apply rv_value. unfold A2. rewrite Ef. replace (gone (txt "fallback") A1 ++ G) with (gone (txt "fallback") (A1 ++ G)).
      2:{ destruct L as (b & _ & L). exact (becomes_app _ _ A1 G _ L). }
      apply (h_move prog); [eapply p_paren, p_unbox, v_path; now apply leads_app|apply mv_paren, mv_unbox, mv_var]. }
    unfold A2 in *. unfold A1 in *. destruct (is_unit_sty (sf_type f)), (sf_rule f); cbn [app];
      first [apply ps_nil|apply one; first [now apply Hfb|now apply Hpl]|eapply two; [now apply Hpl|now apply Hfb]].
  - apply choice_exhaustive. intros f Hf. exists (case_args false f). split; [|apply case_irrefutable].
    rewrite map_map. cbn [arm_pat]. apply in_map_iff. exists f. split; [reflexivity|exact Hf].
Qed.
Lemma self_pinned G x : leads "self" G (KRef false (KData (id x))) -> path_place G (EDeref (vr "self")) false (KData (id x)).
Proof. apply deref_path. Qed.
Lemma choice_atlas_ok : fn_has prog m (Some (KData (id SOut))) (choice_atlas u ind name fields).
Proof.
  unfold choice_atlas. eapply fn_made with (t := None); [reflexivity|apply pb_self; [reflexivity|apply pb_nil]|nodup|now apply own_ty|].
  set (G := [_]). set (c := mkCtx _ _ _). assert (within c) as Hc by reflexivity. exists G. apply body_has; [apply st_nil|].
  eapply h_match_place; [apply self_pinned; here| |].
  - apply arms_map_only. intros f Hf. eexists _, _. split; [reflexivity|]. set (E := case_env (KRef false) f ++ G). exists (case_env (KRef false) f), E.
    split; [apply case_binds; [intros t x; apply pa_ref; discriminate|exact Hf]|]. split; [|unfold E; ends]. fold E. apply h_block. cbv zeta.
    set (B1 := if is_unit_sty (sf_type f) then [(txt "payload", (Fixed, KRef false (sem (sf_type f) SOut)))] else [] : tenv).
    set (E1 := B1 ++ E).
    set (E2 := (txt "payload_atlas", (Fixed, sem (sf_type f) SAtlas)) :: E1). set (E3 := (txt "payload_size", (Fixed, KUsize)) :: E2).
    set (B4 := (if has_fallback_out f then [(txt "fallback_atlas", (Fixed, KData (id SAtlas)))] else []) ++
               [(txt "payload_size", (Fixed, KUsize)); (txt "payload_atlas", (Fixed, sem (sf_type f) SAtlas))] ++ B1).
    set (E4 := B4 ++ E).
    assert (E4 = (if has_fallback_out f then [(txt "fallback_atlas", (Fixed, KData (id SAtlas)))] else []) ++ E3) as E4eq.
    { unfold E4, B4, E3, E2, E1. rewrite <- !app_assoc. reflexivity. }
    assert (leads "payload" E1 (KRef false (sem (sf_type f) SOut))) as Hp1.
    { unfold E1, B1. destruct (is_unit_sty (sf_type f)) eqn:Eu; [here|]. cbn [app]. unfold E. apply leads_app. now apply (case_payload (KRef false)). }
    assert (stmts_have c E ((if is_unit_sty (sf_type f) then [lets "payload" (ERef false EUnit)] else []) ++
        [lets "payload_atlas" (gen_atlas_calc ind (sf_type f) true);
         lets "payload_size" (inline_block [lets "payload_atlas" (ERef false (vr "payload_atlas"))] (gen_atlas_lookup (sf_type f)))] ++
        (if has_fallback_out f then [lets "fallback_atlas" (EMethod (vr "fallback") MAtlas [])] else [])) E4 false) as K.
    { eapply (stmts_app u schemas c E _ E1).
      { unfold E1, B1. destruct (is_unit_sty (sf_type f)) eqn:Eu; [|apply st_nil]. rewrite (unit_sty f Eu). apply stmts_one, lets_has, ref_has, h_unit. }
      apply (stmts_app u schemas c E1 [_; _] E3).
      { apply (stmts_next u schemas c E1 _ _ E2).
        - apply lets_has. apply (calc_has u Hu schemas Hl Hv Hg ns s Hin); [exact Hc|now apply own|exact Hp1].
        - apply stmts_one, lets_has. eapply inline_has; [apply stmts_one, lets_has; apply (h_ref prog), v_place; here| |ends].
          apply (lookup_has u Hu schemas Hl Hv Hg ns s Hin); [exact Hc|now apply own|here]. }
      rewrite E4eq. destruct (has_fallback_out f) eqn:Ef; [|apply st_nil]. apply stmts_one, lets_has. apply (atlas_call u Hu schemas Hl Hv Hg ns s d Hd).
      eapply shared; [|apply rc_ref, rc_box, rc_here]. unfold E3, E2, E1, B1. apply leads_skip; [reflexivity|]. apply leads_skip; [reflexivity|].
      destruct (is_unit_sty (sf_type f)); cbn [app]; [apply leads_skip; [reflexivity|]|]; unfold E; apply leads_app; now apply (case_fallback (KRef false)). }
    assert (leads "payload_size" E4 KUsize) as Hs by (rewrite E4eq; destruct (has_fallback_out f); cbn [app]; unfold E3; var).
    assert (leads "payload_atlas" B4 (sem (sf_type f) SAtlas)) as Ha by (unfold B4; destruct (has_fallback_out f); cbn [app]; var).
    assert (has_fallback_out f = true -> leads "fallback_atlas" B4 (KData (id SAtlas))) as Hfa by (intros Ef; unfold B4; rewrite Ef; cbn [app]; here).
    assert (has c E4 (EBin OpAdd (header_size ind f) (vr "payload_size")) KUsize E4) as Hsum by (eapply add_has; [now apply header_has|vt Hs]).
    pose proof (choice_types SAtlas f Hk Hf) as T. unfold cty in T. cbn [app] in T.
    assert (has_fallback_out f = true -> passes_all false c E4 [EBin OpAdd (EBin OpAdd (header_size ind f) (vr "payload_size")) (EMethod (vr "fallback_atlas") MSize []); vr "payload_atlas";
              ECall (CStd FnBoxNew) [vr "fallback_atlas"]] [KUsize; sem (sf_type f) SAtlas; KBox (KData (id SAtlas))] (gone (txt "fallback_atlas") (gone (txt "payload_atlas") B4) ++ E)) as W.
    { intros Ef. specialize (Hfa Ef). eapply ps_cons; [apply passes_same; eapply add_has; [exact Hsum|]|eapply two; [apply take; exact Ha|]].
      - apply (size_call u Hu schemas Hl Hg ns s d Hd). eapply shared; [apply leads_app; exact Hfa|apply rc_here].
      - eapply (h_std prog); [apply sg_box|]. apply one. apply take. apply leads_gone; [reflexivity|exact Hfa]. }
    assert (passes_all false c E4 [EBin OpAdd (header_size ind f) (vr "payload_size"); vr "payload_atlas"] [KUsize; sem (sf_type f) SAtlas] (gone (txt "payload_atlas") B4 ++ E)) as W2.
    { eapply two; [exact Hsum|apply take; exact Ha]. }
    unfold has_fallback_out in *. destruct (sf_rule f); cbn [app] in *.
    + eapply (block_move u schemas); [exact K|apply (h_construct prog c E4 _ _ _ _ _ T); apply W; reflexivity|ends].
    + eapply (block_move u schemas); [exact K|apply (h_construct prog c E4 _ _ _ _ _ T); apply W; reflexivity|ends].
    + eapply (block_move u schemas); [exact K|apply (h_construct prog c E4 _ _ _ _ _ T); exact W2|ends].
  - apply choice_exhaustive. intros f Hf. exists (case_args true f). split; [|apply case_irrefutable].
    rewrite map_map. cbn [arm_pat choice_atlas_arm]. apply in_map_iff. exists f. split; [reflexivity|exact Hf].
Qed.
Lemma choice_size_ok : fn_has prog m (Some (KData (id SAtlas))) (choice_size u name fields).
Proof.
  unfold choice_size. eapply fn_made with (t := None); [reflexivity|apply pb_self; [reflexivity|apply pb_nil]|nodup|now apply usize_ok|].
  set (G := [_]). set (c := mkCtx _ _ _). exists G. apply body_has; [apply st_nil|].
  eapply h_match_place; [apply self_pinned; here| |].
  - apply arms_map_only. intros f Hf. eexists _, _. split; [reflexivity|]. set (sz := (txt "size", (Fixed, KRef false KUsize))). exists [sz], ([sz] ++ G).
    split; [|split; [apply deref_has; [exact I|here]|ends]]. split; [|nodup]. eapply pa_con; [apply cn_variant; now apply choice_types|].
    unfold cty, has_fallback_out.
    assert (forall ts ps, patterns prog m Pinned ts ps [] -> patterns prog m Pinned (KUsize :: ts) (pref "size" :: ps) [sz]) as K.
    { intros ts ps H. change [sz] with ([] ++ [sz]). apply pas_cons; [apply pa_ref; discriminate|exact H]. }
    assert (forall t ts ps, patterns prog m Pinned ts ps [] -> patterns prog m Pinned (t :: ts) (PWild :: ps) []) as W.
    { intros t ts ps H. change (@nil (str * (held * rty))) with ([] ++ @nil (str * (held * rty))). apply pas_cons; [apply pa_wild|exact H]. }
    destruct (sf_rule f); cbn [app]; apply K, W; try apply W; apply pas_nil.
  - apply choice_exhaustive. intros f Hf. exists ([pref "size"; PWild] ++ (if has_fallback_out f then [PWild] else [])).
    split; [|destruct (has_fallback_out f); repeat constructor].
    rewrite map_map. cbn [arm_pat]. apply in_map_iff. exists f. split; [reflexivity|exact Hf].
Qed.
Lemma choice_ser_ok : fn_has prog m (Some (KData (id SOut))) (choice_ser u ind name fields).
Proof.
  apply serialize_with_atlas_ok; [reflexivity|]. set (c := mkCtx _ _ _). set (G := [_; _; _]). assert (within c) as Hc by reflexivity.
  exists G. apply body_has; [apply st_nil|].
  assert (leads "self" G (KRef false (KData (id SOut)))) as Hs by here.
  assert (leads "writer" G (KRef true (KParam Writes))) as Hw by var.
  assert (leads "atlas" G (KRef false (KData (id SAtlas)))) as Ha by var.
  clearbody G.
  eapply (h_match prog c G false _ (KPair (KRef false (KData (id SOut))) (KRef false (KData (id SAtlas))))); [eapply h_pair; [vt Hs|vt Ha]| |].
  - apply arms_map; [|eapply (arm_next u schemas); [split; [|]|apply h_panic|apply ar_nil]; [change (@nil (str * (held * rty))) with (@nil (str * (held * rty)) ++ []); apply pa_pair; apply pa_wild|constructor]].
    intros f Hf. eexists _, _. split; [reflexivity|]. set (w := KRef false).
    set (A := (if has_fallback_out f then [(txt "fallback_atlas", (Fixed, w (KBox (KData (id SAtlas)))))] else []) ++ [(txt "payload_atlas", (Fixed, w (sem (sf_type f) SAtlas)))]).
    exists (A ++ case_env w f), ((A ++ case_env w f) ++ G). split; [|split; [|ends]].
    + split.
      * apply pa_pair; apply pa_through_con.
        -- apply case_binds; [intros t x; apply pa_var_ref|exact Hf].
        -- eapply pa_con; [apply cn_variant; now apply choice_types|]. unfold cty, A, has_fallback_out.
           assert (forall k y, pattern prog m ViaRef k (pv y) [(txt y, (Fixed, w k))]) as P by (intros; apply pa_var_ref).
           assert (forall t ts ps E, patterns prog m ViaRef ts ps E -> patterns prog m ViaRef (t :: ts) (PWild :: ps) E) as W.
           { intros t ts ps E H. rewrite <- (app_nil_r E). apply pas_cons; [apply pa_wild|exact H]. }
           assert (forall k l y z, patterns prog m ViaRef [k; l] [pv y; pv z] ([(txt z, (Fixed, w l))] ++ [(txt y, (Fixed, w k))])) as P2.
           { intros k l y z. apply pas_cons; [apply P|]. change [(txt z, (Fixed, w l))] with ([] ++ [(txt z, (Fixed, w l))]). apply pas_cons; [apply P|apply pas_nil]. }
           assert (forall k y, patterns prog m ViaRef [k] [pv y] [(txt y, (Fixed, w k))]) as P1.
           { intros k y. change [(txt y, (Fixed, w k))] with ([] ++ [(txt y, (Fixed, w k))]). apply pas_cons; [apply P|apply pas_nil]. }
           destruct (sf_rule f); cbn [app]; apply W; first [apply P1|apply P2].
      * unfold A, case_env. destruct (has_fallback_out f), (is_unit_sty (sf_type f)); cbn [app]; nodup.
    + rewrite <- app_assoc. set (E := A ++ case_env w f ++ G). apply h_block.
      assert (forall x t, (negb (str_eqb (txt x) (txt "fallback_atlas")) && negb (str_eqb (txt x) (txt "payload_atlas")))%bool = true -> leads x (case_env w f ++ G) t -> leads x E t) as Sk.
      { intros x t Hx H. apply Bool.andb_true_iff in Hx as [Hx1 Hx2]. apply Bool.negb_true_iff in Hx1, Hx2. unfold E, A.
        destruct (has_fallback_out f); cbn [app]; repeat (apply leads_skip; [assumption|]); exact H. }
      assert (leads "writer" E (KRef true (KParam Writes))) as HwE by (apply Sk; [reflexivity|]; now apply case_skip).
      assert (leads "payload_atlas" E (KRef false (sem (sf_type f) SAtlas))) as HaE.
      { unfold E, A. destruct (has_fallback_out f); cbn [app]; [apply leads_skip; [reflexivity|]|]; here. }
      apply body_has.
      * apply (stmts_app u schemas c E [serialize_header ind f] E); [now apply serialize_header_has|]. destruct (is_unit_sty (sf_type f)) eqn:Eu.
        -- rewrite (unit_sty f Eu). apply st_nil.
        -- apply (gen_ser_has u Hu schemas Hl Hv Hg ns s Hin _ c E true (KParam Writes) KUnit); [exact Hc|now apply own|reflexivity|reflexivity|exact HwE| |exact HaE].
           apply Sk; [reflexivity|]. apply leads_app. now apply (case_payload w).
      * destruct (has_fallback_out f) eqn:Ef; [|apply ok_unit_has].
        eapply (ser_call u Hu schemas Hl Hv Hg ns s d Hd _ _ _ _ _ (KParam Writes)).
        -- eapply shared; [apply Sk; [reflexivity|apply leads_app; now apply (case_fallback w)]|apply rc_ref, rc_box, rc_here].
        -- reflexivity.
        -- now apply v_again.
        -- eapply (ps_has prog _ _ _ _ (KRef false (KBox _))); [|apply (co_box false)]. apply v_has; [reflexivity|]. unfold E, A. cbn [app]. here.
  - eapply (ex_any prog _ _ _ (PPair PWild PWild)); [|split; exact I]. rewrite map_app. apply in_app_iff. right. now left.
Qed.
Lemma choice_deser_ok : fn_has prog m (Some (KData (id SIn))) (choice_deser u ns s ind name fields).
Proof.
  apply deserialize_ok. set (c := mkCtx _ _ _). set (G := [_]). assert (within c) as Hc by reflexivity.
  assert (leads "reader" G Reader) as Hrd by here. clearbody G.
  exists G. apply (bl_diverges prog c _ false _ G). apply (stmts_one u schemas c _ _ G true). apply st_forever. unfold choice_loop_block.
  set (c' := looping c None). assert (within c') as Hc' by reflexivity.
  set (G2 := [(txt "payload_size", (Fixed, KUsize)); (txt "index", (Fixed, KU64))] ++ G).
  set (G3 := (txt "sub_reader", (Mut, KTake Reader)) :: G2).
  apply (block_unit u schemas c' G false _ G3 false); [|unfold G3, G2; apply e_cons, e_app, e_here].
  eapply (stmts_next u schemas c' G _ _ G2).
  { eapply (st_let prog c' G _ _ _ G); [split; exact I| |apply pair_binds; reflexivity]. eapply h_try; [reflexivity|].
    apply (deserialize_field_header_has u schemas ns c' G _ (KParam Reads)); [exact Hc'|reflexivity|apply passes_same; now apply mut_reader_has]. }
  assert (leads "payload_size" G2 KUsize) as Hp2 by here.
  eapply stmts_next; [apply st_blank|]. apply (stmts_app u schemas c' G2 [take_sub_reader] G3).
  { apply take_sub_reader_has; [exact Hc'| |exact Hp2]. apply leads_skip; [reflexivity|]. apply leads_skip; [reflexivity|exact Hrd]. }
  eapply stmts_next; [apply st_blank|]. apply stmts_one, st_expr.
  assert (lookup (txt "sub_reader") G3 = Some (Mut, KTake Reader)) as Hsub by reflexivity.
  assert (leads "payload_size" G3 KUsize) as Hp3 by (apply leads_skip; [reflexivity|exact Hp2]).
  eapply (h_match prog c' G3 false _ KU64).
  - apply v_has; [reflexivity|]. apply leads_skip; [reflexivity|]. apply leads_skip; [reflexivity|here].
  - apply arms_map; [|now apply skip_arm_has]. intros f Hf. eexists _, _. split; [reflexivity|]. exists [], G3. split; [now apply index_pat|]. split; [|apply e_here].
    cbn [app]. cbv zeta. apply h_block.
    destruct (gen_deser_yields u Hu schemas Hl Hv Hg ns s Hin Hstd (sf_type f) c' G3 true (KTake Reader) (KData (id SIn))) as (B & H1 & H2 & H3);
      [exact Hc'|now apply own|reflexivity|split; reflexivity|exact Hsub|intros _; exact Hp3|].
    set (E := B ++ G3) in *.
    assert (leads "reader" E Reader) as HrE.
    { destruct Hrd as (b & Hb & Hrd). exists b. split; [exact Hb|]. apply (scratch_kept H3); [reflexivity|]. unfold G3, G2. cbn [app lookup]. exact Hrd. }
    assert (forall E' args E'', passes_all false c' E' ((if is_unit_sty (sf_type f) then [] else [vr "payload"]) ++ args) (cty f SIn) E'' ->
      stmts_have c' E' [SSemi (EReturn (ECall (CStd FnOk) [con (type_name u name SIn) (variant_name u f) ((if is_unit_sty (sf_type f) then [] else [vr "payload"]) ++ args)]))] E'' true) as R.
    { intros E' args E'' H. match goal with |- stmts_have _ _ [SSemi ?e] _ _ => apply (semi_has' u schemas c' E' e KUnit) end.
      eapply (h_return prog c' E' _ KUnit); [reflexivity|]. apply passes_same. eapply (h_std prog); [apply sg_ok|]. apply one. now apply con_has. }
    assert (sf_rule f <> Optional -> block_has c' G3 (Blk false (gen_deser u ns s ind (sf_type f) true ++
        [SSemi (ETry (ECall (CTop ind FnFinish) [mut_reader]));
         SSemi (EReturn (ECall (CStd FnOk) [con (type_name u name SIn) (variant_name u f) ((if is_unit_sty (sf_type f) then [] else [vr "payload"]) ++ [])]))]) None) KUnit G3) as K.
    { intros Hne. eapply (bl_diverges prog c' G3 false). eapply stmts_app; [exact H1|]. apply (stmts_app u schemas c' E [_] E [_]).
      - eapply semi_has; [|reflexivity]. eapply h_try; [reflexivity|]. apply (finish_has u schemas ns c' E _ (KParam Reads)); [exact Hc'|reflexivity|apply passes_same; now apply mut_reader_has].
      - apply (R E [] (if is_unit_sty (sf_type f) then E else gone (txt "payload") B ++ G3)). unfold cty. cbn [app].
        destruct (is_unit_sty (sf_type f)), (sf_rule f); try congruence; cbn [app]; first [apply ps_nil|apply one; now apply take]. }
    destruct (sf_rule f) eqn:Er; [apply K; discriminate| |apply K; discriminate]. clear K.
    set (B1 := (txt "fallback", (Fixed, KBox (KData (id SIn)))) :: B).
    eapply (bl_diverges prog c' G3 false). eapply stmts_app; [exact H1|]. apply (stmts_next u schemas c' E _ _ (B1 ++ G3)).
    + apply lets_has. eapply (h_std prog); [apply sg_box|]. apply one. eapply h_try; [reflexivity|].
      apply (deser_call u Hu schemas Hl Hg ns s d Hd _ _ _ _ (KParam Reads)); [now apply own_ty|reflexivity|apply passes_same; now apply mut_reader_has].
    + apply (R (B1 ++ G3) [vr "fallback"] (if is_unit_sty (sf_type f) then gone (txt "fallback") B1 ++ G3 else gone (txt "fallback") (gone (txt "payload") B1) ++ G3)).
      unfold cty. cbn [app]. rewrite Er. assert (leads "fallback" B1 (KBox (KData (id SIn)))) as L by here. destruct (is_unit_sty (sf_type f)) eqn:Eu; cbn [app].
      * apply one, take. exact L.
      * eapply two; [apply take; unfold B1; apply leads_skip; [reflexivity|exact H2]|]. apply take. now apply leads_gone.
  - eapply (ex_any prog _ _ _ PWild); [|exact I]. rewrite map_app. apply in_app_iff. right. now left.
Qed.
End Choice.
End Decl.
