(** The generated program contains what RustValue.v asks for: the functions of each declaration can be found under their
    names, and paths to types lead to the right declarations. *)
From Verif Require Import IdentFacts NamesFacts ParserFacts.
From Verif Require Import TreeFacts CodeFacts.
From Verif Require Export RustSpec.

Scheme named_mut := Induction for named Sort Prop
with named_fields_mut := Induction for named_fields Sort Prop.
Combined Scheme named_both from named_mut, named_fields_mut.

(** ** Namespaces that compare equal give the same code *)
Lemma common_same a : forall b c, same_ns b c -> common_components a b = common_components a c.
Proof.
  induction a as [|x a IH]; intros b c H; [reflexivity|]. destruct H as [|y z b c H1 H2]; [reflexivity|]. cbn [common_components].
  apply ident_eqb_eq in H1. replace (ident_eqb x y) with (ident_eqb x z) by (unfold ident_eqb; now rewrite H1).
  destruct (ident_eqb x z); [|reflexivity]. f_equal. now apply IH.
Qed.
Lemma common_self a : common_components a a = length a.
Proof. induction a as [|x a IH]; [reflexivity|]. cbn. unfold ident_eqb. rewrite str_eqb_refl. now f_equal. Qed.
Lemma rust_path_same u s ns here i n x : same_ns ns here -> rust_path u s ns i n x = rust_path u s here i n x.
Proof.
  intros H. unfold rust_path, reference_namespace. destruct i as [i|]; cbn [type_namespace].
  - destruct (map_get i (ss_imports s)) as [im|]; [|reflexivity]. destruct (si_namespace im) as [tns|]; [|reflexivity].
    unfold relativize_namespace. now rewrite (common_same tns ns here H), (same_ns_length _ _ H).
  - unfold relativize_namespace. now rewrite !common_self, !skipn_all, !Nat.sub_diag.
Qed.
Section Same.
Context (u : unicode) (s : sschema) (ns here : namespace) (H : same_ns ns here).
Lemma type_path_same i n x : type_path u ns s i n x = type_path u here s i n x.
Proof. unfold type_path. now rewrite (rust_path_same u s ns here). Qed.
Lemma gen_type_same t x : gen_type u ns s t x = gen_type u here s t x.
Proof. induction t; cbn [gen_type]; try reflexivity; [now rewrite IHt|now rewrite type_path_same]. Qed.
Lemma gen_deser_same ind t : forall f, gen_deser u ns s ind t f = gen_deser u here s ind t f.
Proof.
  induction t; intros f; cbn [gen_deser]; try reflexivity; [|now rewrite type_path_same].
  destruct t; rewrite ?IHt, ?gen_type_same; reflexivity.
Qed.
Lemma gen_decl_same ind d : gen_decl u ns s ind d = gen_decl u here s ind d.
Proof.
  unfold gen_decl. cbv zeta.
  assert (forall x, match sd_kind d with SkStruct => gen_struct u ns s (sd_name d) (sd_fields d) x | SkChoice => gen_choice u ns s (sd_name d) (sd_fields d) x end =
    match sd_kind d with SkStruct => gen_struct u here s (sd_name d) (sd_fields d) x | SkChoice => gen_choice u here s (sd_name d) (sd_fields d) x end) as ->.
  2: assert (forall x, match sd_kind d with SkStruct => gen_struct u ns s (sd_name d) (sd_fields d) x | SkChoice => gen_choice u ns s (sd_name d) (sd_fields d) x end =
    match sd_kind d with SkStruct => gen_struct u here s (sd_name d) (sd_fields d) x | SkChoice => gen_choice u here s (sd_name d) (sd_fields d) x end) as Hd.
  1,2: intros x; destruct (sd_kind d); [unfold gen_struct|unfold gen_choice].
  1,3: do 2 f_equal; apply map_ext; intros f; now rewrite gen_type_same.
  1,2: f_equal; apply map_ext; intros f; rewrite !gen_type_same; reflexivity.
  rewrite !Hd. clear Hd.
  replace (struct_deser u ns s ind (sd_name d) (sd_fields d)) with (struct_deser u here s ind (sd_name d) (sd_fields d)).
  - replace (choice_deser u ns s ind (sd_name d) (sd_fields d)) with (choice_deser u here s ind (sd_name d) (sd_fields d)); [reflexivity|].
    unfold choice_deser. do 4 f_equal. unfold choice_loop_block.
    replace (map (choice_deser_arm u ns s ind (sd_name d)) (sd_fields d)) with (map (choice_deser_arm u here s ind (sd_name d)) (sd_fields d)); [reflexivity|].
    apply map_ext. intros f. unfold choice_deser_arm. now rewrite gen_deser_same.
  - unfold struct_deser.
    replace (map (struct_deser_let u ns s) (sd_fields d)) with (map (struct_deser_let u here s) (sd_fields d)).
    2: apply map_ext; intros f; unfold struct_deser_let; now rewrite gen_type_same.
    unfold struct_loop_block.
    replace (map (struct_deser_arm u ns s ind) (sd_fields d)) with (map (struct_deser_arm u here s ind) (sd_fields d)); [reflexivity|].
    apply map_ext. intros f. unfold struct_deser_arm. now rewrite gen_deser_same.
Qed.
End Same.

(** ** Modules *)
Section Modules.
Context (u : unicode) (Hu : ascii_agrees u).
Lemma lookup_child ind ns children k m : StronglySorted klt children -> Forall (fun e => good_ident u (fst e)) children -> In (k, m) children ->
  lookup (rust_name u k Snake None) (map (fun c => (rust_name u (fst c) Snake None, gen_module u ind (ns ++ [fst c]) (snd c))) children)
  = Some (gen_module u ind (ns ++ [k]) m).
Proof.
  induction children as [|[k' m'] ch IH]; intros Hs Hg Hin; [destruct Hin|]. cbn [map lookup fst snd].
  inversion Hs as [|? ? S1 S2]; subst. inversion Hg as [|? ? G1 G2]; subst. cbn [fst] in G1.
  destruct Hin as [[= -> ->]|Hin]; [now rewrite str_eqb_refl|].
  destruct (str_eqb _ _) eqn:E; [|now apply IH]. exfalso. apply str_eqb_eq in E.
  rewrite Forall_forall in S2, G2. specialize (S2 _ Hin). specialize (G2 _ Hin). cbn [fst] in *.
  apply rust_name_inj in E as [E _]; auto. apply same_cmp in E. unfold klt in S2. cbn [fst] in S2.
  rewrite cmp_sym, E in S2. discriminate S2.
Qed.
Lemma find_gen m : tree_ok m -> tree_keys (good_ident u) m -> forall ns s ns0, holds m ns s ->
  exists children, find_module (mods u ns) (gen_module u (length ns0) ns0 m) =
    Some (RMod children (flat_map (gen_decl u (ns0 ++ ns) s (length (ns0 ++ ns))) (ss_decls s))).
Proof.
  intros Ho Hk ns s ns0 Hh. revert ns0 Ho Hk. induction Hh as [ch s|ch s0 k m ns s Hin Hh IH]; intros ns0 Ho Hk.
  - rewrite app_nil_r. eexists. reflexivity.
  - inversion Ho as [? ? O1 O2]; subst. inversion Hk as [? ? K1]; subst. cbn [mods map find_module gen_module].
    rewrite (lookup_child _ ns0 ch k m); auto.
    2: eapply Forall_impl; [|exact K1]; intros e He; apply He.
    rewrite Forall_forall in O2, K1. destruct (O2 _ Hin) as [_ O3]. destruct (K1 _ Hin) as [_ K2].
    destruct (IH (ns0 ++ [k]) O3 K2) as (ch' & E). exists ch'. rewrite app_length in E. cbn [length] in E. rewrite Nat.add_1_r in E.
    unfold mods in E. rewrite E. now rewrite <- !app_assoc.
Qed.
End Modules.

(** ** Items *)
Section Items.
Context (u : unicode) (Hu : ascii_agrees u).
Lemma type_name_inj a b x y : good_ident u a -> good_ident u b -> type_name u a x = type_name u b y -> same_ident a b /\ x = y.
Proof.
  intros Ha Hb E. unfold type_name in E. apply rust_name_inj in E as [E [= ->]]; auto. right. split; discriminate.
Qed.
Lemma type_name_eqb a x y : good_ident u a -> str_eqb (type_name u a x) (type_name u a y) = match x, y with SAtlas, SAtlas | SIn, SIn | SOut, SOut => true | _, _ => false end.
Proof.
  intros Ha. destruct (str_eqb _ _) eqn:E.
  - apply str_eqb_eq in E. apply type_name_inj in E as [_ ->]; auto. now destruct y.
  - destruct x, y; try reflexivity; rewrite str_eqb_refl in E; discriminate.
Qed.
Lemma type_name_neqb a b x y : good_ident u a -> good_ident u b -> ~ same_ident a b -> str_eqb (type_name u a x) (type_name u b y) = false.
Proof. intros Ha Hb Hn. destruct (str_eqb _ _) eqn:E; [|reflexivity]. apply str_eqb_eq in E. now apply type_name_inj in E as [E _]. Qed.
Lemma find_method_app t name a b : find_method t name (a ++ b) = match find_method t name a with Some f => Some f | None => find_method t name b end.
Proof.
  induction a as [|[n fs|n vs|tr t' fns] a IH]; cbn [app find_method]; auto. destruct (_ && _); [|exact IH]. now destruct (find_fn name fns).
Qed.
Lemma find_from_app t a b : find_from t (a ++ b) = match find_from t a with Some f => Some f | None => find_from t b end.
Proof.
  induction a as [|[n fs|n vs|tr t' fns] a IH]; cbn [app find_from]; auto.
  destruct tr as [[|tr [[|? []]| | | |]| | |]|]; auto. destruct (_ && _); [|exact IH]. now destruct (find_fn _ fns).
Qed.

(** What the items of one declaration define. *)
Definition decl_method (ns : namespace) (s : sschema) (ind : nat) (d : sdecl) (x : suffix) (name : str) : option fndef :=
  let pick (a b : ident -> list sfield -> fndef) := match sd_kind d with SkStruct => a (sd_name d) (sd_fields d) | SkChoice => b (sd_name d) (sd_fields d) end in
  match x with
  | SOut => find_fn name [gen_size_fn; gen_serialize_fn; pick (struct_atlas u ind) (choice_atlas u ind); pick (struct_ser u ind) (choice_ser u ind)]
  | SIn => find_fn name [gen_deserialize_fn; pick (struct_deser u ns s ind) (choice_deser u ns s ind)]
  | SAtlas => find_fn name [pick (fun _ _ => struct_size) (choice_size u)]
  end.
Lemma find_own ns s ind d x name : good_ident u (sd_name d) ->
  find_method (type_name u (sd_name d) x) name (gen_decl u ns s ind d) = decl_method ns s ind d x name.
Proof.
  intros Hg. unfold gen_decl, decl_method. cbv zeta.
  assert (forall y l, find_method (type_name u (sd_name d) x) name
    (match sd_kind d with SkStruct => gen_struct u ns s (sd_name d) (sd_fields d) y | SkChoice => gen_choice u ns s (sd_name d) (sd_fields d) y end :: l)
    = find_method (type_name u (sd_name d) x) name l) as E by (intros y l; now destruct (sd_kind d)).
  rewrite !E. clear E. cbn [find_method is_from negb]. rewrite !(type_name_eqb _ _ _ Hg).
  destruct x; cbn [andb find_fn]; repeat (match goal with |- context [str_eqb ?a ?b] => destruct (str_eqb a b) end; try reflexivity).
Qed.
Lemma find_other ns s ind d n x name : good_ident u (sd_name d) -> good_ident u n -> ~ same_ident n (sd_name d) ->
  find_method (type_name u n x) name (gen_decl u ns s ind d) = None.
Proof.
  intros Hg Hn Hd. unfold gen_decl. cbv zeta.
  assert (forall y l, find_method (type_name u n x) name
    (match sd_kind d with SkStruct => gen_struct u ns s (sd_name d) (sd_fields d) y | SkChoice => gen_choice u ns s (sd_name d) (sd_fields d) y end :: l)
    = find_method (type_name u n x) name l) as E by (intros y l; now destruct (sd_kind d)).
  rewrite !E. clear E. cbn [find_method]. now rewrite !(type_name_neqb n (sd_name d)) by assumption.
Qed.
Lemma from_own ns s ind d : good_ident u (sd_name d) ->
  find_from (type_name u (sd_name d) SOut) (gen_decl u ns s ind d) =
  Some (type_name u (sd_name d) SIn, match sd_kind d with SkStruct => struct_from u (sd_name d) (sd_fields d) | SkChoice => choice_from u (sd_name d) (sd_fields d) end).
Proof.
  intros Hg. unfold gen_decl. cbv zeta.
  assert (forall y l, find_from (type_name u (sd_name d) SOut)
    (match sd_kind d with SkStruct => gen_struct u ns s (sd_name d) (sd_fields d) y | SkChoice => gen_choice u ns s (sd_name d) (sd_fields d) y end :: l)
    = find_from (type_name u (sd_name d) SOut) l) as E by (intros y l; now destruct (sd_kind d)).
  rewrite !E. clear E. cbn [find_from]. rewrite !(type_name_eqb _ _ _ Hg). now destruct (sd_kind d).
Qed.
Lemma from_other ns s ind d n : good_ident u (sd_name d) -> good_ident u n -> ~ same_ident n (sd_name d) ->
  find_from (type_name u n SOut) (gen_decl u ns s ind d) = None.
Proof.
  intros Hg Hn Hd. unfold gen_decl. cbv zeta.
  assert (forall y l, find_from (type_name u n SOut)
    (match sd_kind d with SkStruct => gen_struct u ns s (sd_name d) (sd_fields d) y | SkChoice => gen_choice u ns s (sd_name d) (sd_fields d) y end :: l)
    = find_from (type_name u n SOut) l) as E by (intros y l; now destruct (sd_kind d)).
  rewrite !E. clear E. cbn [find_from]. rewrite !(type_name_neqb n (sd_name d)) by assumption. now rewrite andb_false_r.
Qed.
(** Among all the declarations of a file. *)
Lemma find_among ns s ind ds d x name : (forall e, In e ds -> good_ident u (sd_name e)) -> all_distinct (map sd_name ds) -> In d ds ->
  find_method (type_name u (sd_name d) x) name (flat_map (gen_decl u ns s ind) ds) = decl_method ns s ind d x name /\
  find_from (type_name u (sd_name d) SOut) (flat_map (gen_decl u ns s ind) ds) =
    Some (type_name u (sd_name d) SIn, match sd_kind d with SkStruct => struct_from u (sd_name d) (sd_fields d) | SkChoice => choice_from u (sd_name d) (sd_fields d) end).
Proof.
  intros Hg Hd Hin. pose proof (Hg d Hin) as Gd. assert (forall es, (forall e, In e es -> good_ident u (sd_name e) /\ ~ same_ident (sd_name d) (sd_name e)) ->
    find_method (type_name u (sd_name d) x) name (flat_map (gen_decl u ns s ind) es) = None /\
    find_from (type_name u (sd_name d) SOut) (flat_map (gen_decl u ns s ind) es) = None) as K.
  { induction es as [|e es IH]; intros He; [auto|]. cbn [flat_map]. rewrite find_method_app, find_from_app.
    destruct (He e (or_introl eq_refl)) as [H1 H2]. rewrite find_other, from_other by assumption. apply IH. intros e' H. apply He. now right. }
  apply in_split in Hin as (l & r & ->). rewrite map_app in Hd. cbn [map] in Hd.
  assert ((forall e, In e l -> ~ same_ident (sd_name d) (sd_name e)) /\ forall e, In e r -> ~ same_ident (sd_name d) (sd_name e)) as [D1 D2].
  { clear - Hd. unfold all_distinct in Hd. induction l as [|a l IH]; cbn [map app] in Hd.
    - inversion Hd as [|? ? H1 H2]; subst. split; [intros e []|]. intros e He. rewrite Forall_forall in H1. apply H1. now apply in_map.
    - inversion Hd as [|? ? H1 H2]; subst. destruct (IH H2) as [I1 I2]. split; [|exact I2]. intros e [<-|He]; [|now apply I1].
      rewrite Forall_forall in H1. intros E. apply (H1 (sd_name d)); [apply in_app_iff; right; now left|now apply same_ident_sym]. }
  rewrite flat_map_app. cbn [flat_map]. rewrite !find_method_app, !find_from_app.
  destruct (K l) as [K1 K2]; [intros e He; split; [apply Hg; apply in_app_iff; now left|now apply D1]|].
  destruct (K r) as [K3 K4]; [intros e He; split; [apply Hg; apply in_app_iff; right; now right|now apply D2]|].
  rewrite K1, K2, K3, find_own, from_own by assumption. split; [|reflexivity]. now destruct (decl_method _ _ _ _ _ _).
Qed.
End Items.

(** ** Names of fields *)
Section Fields.
Context (u : unicode) (Hu : ascii_agrees u).
Lemma field_name_size f : good_ident u (sf_name f) -> field_name u f <> txt "_size".
Proof.
  intros (E & Hc & _). unfold field_name. rewrite E. unfold rust_name. cbv zeta. cbn [in_case with_suffix].
  destruct (existsb _ RUST_KEYWORDS); [discriminate|]. apply ident_chars_asciis in Hc. cbn [snake_case ident_from].
  rewrite (lower_words u Hu) by exact Hc. pose proof (words_shape u Hu _ Hc) as Hs.
  destruct Hs as [|w ws H1 H2]; [discriminate|]. pose proof (alower_shape u Hu w H1) as [Hn Hp].
  intros K. cbn [map join] in K. destruct (alower w) as [|c w']; [congruence|].
  assert (c = 95) as ->. { destruct (map alower ws); injection K as K _; exact K. }
  unfold clean in Hp. inversion Hp as [|? ? H3 _]; subst. destruct H3 as [H3 _]. discriminate H3.
Qed.
Lemma names_nodup {A} (name : sfield -> A) fs : (forall a b, In a fs -> In b fs -> name a = name b -> same_ident (sf_name a) (sf_name b)) ->
  all_distinct (map sf_name fs) -> NoDup (map name fs).
Proof.
  unfold all_distinct. induction fs as [|f fs IH]; intros Hi Hd; [constructor|]. cbn [map] in *. inversion Hd as [|? ? H1 H2]; subst.
  constructor; [|apply IH; [|exact H2]; intros a b Ha Hb; apply Hi; now right].
  intros Hin. apply in_map_iff in Hin as (g & E & Hg). rewrite Forall_forall in H1. apply (H1 (sf_name g)); [now apply in_map|].
  apply Hi; auto; [now left|now right].
Qed.
End Fields.

(** ** Linking *)
Section Linking.
Context (u : unicode) (Hu : ascii_agrees u) (schemas : list (namespace * sschema)).
Context (Hl : loaded schemas) (Hv : valid schemas) (Hg : plain_names schemas u).
Let tree := module_tree schemas.
Let prog := rust_program u schemas.
Let Hg' : forall ns s, In (ns, s) schemas -> good_file u ns s := fun ns s H => proj1 (Hg ns s H).
Lemma mods_same ns here : Forall (good_ident u) ns -> Forall (good_ident u) here -> same_ns ns here -> mods u ns = mods u here.
Proof. intros H1 H2 H3. now apply names_same_ns. Qed.
Lemma tree_module here s : holds tree here s -> exists children, find_module (mods u here) prog =
  Some (RMod children (flat_map (gen_decl u here s (length here)) (ss_decls s))).
Proof.
  intros H. apply (find_gen u Hu tree (proj1 (schemas_tree u Hu schemas Hl Hg')) (schemas_keys u schemas Hg') here s [] H).
Qed.
Lemma schema_module ns s : In (ns, s) schemas -> exists children, find_module (mods u ns) prog =
  Some (RMod children (flat_map (gen_decl u ns s (length ns)) (ss_decls s))).
Proof.
  intros Hin. destruct (tree_place u Hu schemas Hl Hg' ns s Hin) as (here & H1 & H2 & H3).
  rewrite (mods_same ns here); auto; [|exact (proj1 (Hg' ns s Hin))]. destruct (tree_module here s H2) as (ch & ->). exists ch.
  rewrite (same_ns_length _ _ H1). do 2 f_equal. apply flat_map_ext. intros d. symmetry. now apply gen_decl_same.
Qed.
Lemma schema_method ns s d x name : declared schemas ns s d ->
  method prog (mods u ns, type_name u (sd_name d) x) name = decl_method u ns s (length ns) d x name /\
  conversion prog (mods u ns, type_name u (sd_name d) SOut) =
    Some (type_name u (sd_name d) SIn, match sd_kind d with SkStruct => struct_from u (sd_name d) (sd_fields d) | SkChoice => choice_from u (sd_name d) (sd_fields d) end).
Proof.
  intros [Hin Hd]. unfold method, conversion. cbn [fst snd]. destruct (schema_module ns s Hin) as (ch & ->).
  apply find_among; auto; [|exact (proj1 Hv ns s Hin)]. intros e He. exact (proj1 (proj2 (Hg' ns s Hin)) e He).
Qed.
Lemma decl_installed ns s d : declared schemas ns s d -> installed u prog ns s (sd_kind d) (sd_name d) (sd_fields d).
Proof.
  intros H. pose proof (proj2 Hv ns s d H) as V. pose proof (fun x n => proj1 (schema_method ns s d x n H)) as M.
  assert (forall f, In f (sd_fields d) -> good_ident u (sf_name f)) as G.
  { intros f Hf. destruct H as [H1 H2]. exact (proj2 (Hg ns s H1) d f H2 Hf). }
  constructor; rewrite ?M; unfold decl_method; cbv zeta; try (destruct (sd_kind d); reflexivity).
  - exact (proj2 (schema_method ns s d SOut [] H)).
  - constructor.
    + intros Hin. apply in_map_iff in Hin as (f & E & Hf). now apply (field_name_size u Hu f (G f Hf)).
    + apply names_nodup; [|exact (vd_names _ _ _ _ V)]. intros a b Ha Hb E. unfold field_name in E. apply (rust_name_inj u Hu Snake None None) in E as [E _]; auto.
  - apply names_nodup; [|exact (vd_names _ _ _ _ V)]. intros a b Ha Hb E. apply (rust_local_inj u Hu); auto.
  - apply names_nodup; [|exact (vd_names _ _ _ _ V)]. intros a b Ha Hb E. unfold variant_name in E. apply (rust_name_inj u Hu Pascal None None) in E as [E _]; auto.
  - exact (vd_indices _ _ _ _ V).
Qed.
Lemma mods_app a b : mods u (a ++ b) = mods u a ++ mods u b. Proof. apply map_app. Qed.
Lemma resolve_path here path there d x : rust_resolves u tree here path there d x ->
  resolve prog (mods u here) path = Some (mods u there, type_name u (sd_name d) x).
Proof.
  intros H. induction H as [ns k path there d x H IH|ns k path there d x He H IH|ns s d x Hh Hin].
  - pose proof (rust_resolves_nonempty u tree _ _ _ _ _ H) as Hn. destruct path as [|p path]; [congruence|].
    cbn [resolve]. rewrite str_eqb_refl, mods_app. cbn [mods map]. 
    destruct (mods u ns ++ [rust_name u k Snake None]) eqn:E; [symmetry in E; now apply app_cons_not_nil in E|]. rewrite <- E, removelast_last. exact IH.
  - pose proof (rust_resolves_nonempty u tree _ _ _ _ _ H) as Hn. destruct path as [|p path]; [congruence|].
    cbn [resolve]. destruct (str_eqb _ (txt "super")) eqn:E; [apply str_eqb_eq in E; now apply rust_name_super in E|].
    destruct He as [s He]. destruct (tree_module _ _ He) as (ch & Ef). rewrite mods_app in Ef, IH. cbn [mods map] in Ef, IH. rewrite Ef. exact IH.
  - reflexivity.
Qed.
Lemma resolve_deserializer here self path there d : rust_resolves u tree here path there d SIn -> good_ident u (sd_name d) ->
  deserializer prog (mods u here) self path = Some (mods u there, type_name u (sd_name d) SIn).
Proof.
  intros H Hd. pose proof (resolve_path _ _ _ _ _ H) as R. destruct H as [ns k path there d x H|ns k path there d x He H|ns s d x Hh Hin].
  1,2: pose proof (rust_resolves_nonempty u tree _ _ _ _ _ H) as Hn; destruct path as [|p path]; [congruence|]; exact R.
  cbn [deserializer]. destruct (str_eqb _ (txt "Self")) eqn:E; [|reflexivity]. exfalso. apply str_eqb_eq in E.
  destruct Hd as (Hd1 & Hd2 & _). apply (rust_types_not_captured u Hu (original (sd_name d)) x Hd2). rewrite <- Hd1, E.
  apply existsb_In. reflexivity.
Qed.

Lemma named_linked :
  (forall ns s t nt, named schemas ns s t nt -> In (ns, s) schemas ->
     (forall i n, mentions t i n -> exists d f, declared schemas ns s d /\ In f (sd_fields d) /\ mentions (sf_type f) i n) ->
     linked u prog ns s t nt) /\
  (forall ns s fs fts, named_fields schemas ns s fs fts -> In (ns, s) schemas ->
     (forall f, In f fs -> exists d, declared schemas ns s d /\ In f (sd_fields d)) ->
     map fst fts = fs /\ allP (fun f => linked u prog ns s (sf_type (fst f)) (snd f)) fts).
Proof.
  apply (named_both schemas
    (fun ns s t nt _ => In (ns, s) schemas ->
     (forall i n, mentions t i n -> exists d f, declared schemas ns s d /\ In f (sd_fields d) /\ mentions (sf_type f) i n) ->
     linked u prog ns s t nt)
    (fun ns s fs fts _ => In (ns, s) schemas ->
     (forall f, In f fs -> exists d, declared schemas ns s d /\ In f (sd_fields d)) ->
     map fst fts = fs /\ allP (fun f => linked u prog ns s (sf_type (fst f)) (snd f)) fts)).
  1: { intros ns s t T H IH Hin Hm. cbn [linked]. exists t. split; [reflexivity|]. apply IH; auto. intros i n Hi. apply Hm. now constructor. }
  1-7: intros; reflexivity.
  - intros ns s i n ns' ns2 s2 d2 fs Hlead Hd Hq Hf IH Hin Hm. destruct (Hm i n (mentions_custom i n)) as (d & f & A1 & A2 & A3).
    destruct (rust_path_resolves u Hu schemas Hl Hv Hg' ns s d f i n SIn A1 A2 A3) as (here & path & ns3 & s3 & d3 & there & ns'' & B1 & B2 & B3 & B4 & B5 & B6 & B7 & B8 & B9 & _).
    pose proof (loaded_imports schemas Hl ns s Hin) as Hs.
    apply (type_namespace_iff ns s i ns' Hs) in Hlead. apply (type_namespace_iff ns s i ns'' Hs) in B5.
    assert (ns'' = ns') as -> by congruence.
    destruct (declared_unique schemas Hl Hv ns2 s2 d2 ns3 s3 d3 Hd B4) as (<- & <- & <-).
    { apply (same_q_trans _ (ns', n)); [exact Hq|now apply same_q_sym]. }
    destruct (IH (proj1 Hd)) as [I1 I2]; [intros g Hg2; now exists d2|]. cbn [linked]. rewrite I1. split; [|split; [now apply decl_installed|exact I2]].
    exists i, n. split; [reflexivity|]. intros self. unfold type_path. rewrite (rust_path_same u s ns here i n SIn B1), B3.
    pose proof (proj1 (Hg' ns s Hin)) as Gn. pose proof (proj1 (Hg' ns2 s2 (proj1 Hd))) as Gn2.
    pose proof (keys_held _ _ (schemas_keys u schemas Hg') _ _ B2) as Gh. pose proof (keys_held _ _ (schemas_keys u schemas Hg') _ _ B8) as Gt.
    rewrite (mods_same ns here), (mods_same ns2 there) by assumption. apply resolve_deserializer; [exact B9|].
    exact (proj1 (proj2 (Hg' ns2 s2 (proj1 Hd))) d2 (proj2 Hd)).
  - intros ns s _ _. split; [reflexivity|exact I].
  - intros ns s f fs T Ts H1 IH1 H2 IH2 Hin Hfs. destruct IH2 as [I1 I2]; auto; [intros g Hg2; apply Hfs; now right|].
    cbn [map fst allP snd]. split; [now f_equal|]. split; [|exact I2]. apply IH1; auto. intros i n Hm.
    destruct (Hfs f (or_introl eq_refl)) as (d & Hd & Hfd). now exists d, f.
Qed.
Lemma decl_linked ns s d fs : declared schemas ns s d -> named_fields schemas ns s (sd_fields d) fs ->
  installed u prog ns s (sd_kind d) (sd_name d) (map fst fs) /\ allP (fun f => linked u prog ns s (sf_type (fst f)) (snd f)) fs.
Proof.
  intros Hd Hf. destruct (proj2 named_linked _ _ _ _ Hf (proj1 Hd)) as [E H]; [intros f Hin; now exists d|]. rewrite E.
  split; [now apply decl_installed|exact H].
Qed.

(** Trees with names and trees without. *)
Lemma named_denotes :
  (forall ns s t nt, named schemas ns s t nt -> denotes schemas ns s t (erase nt)) /\
  (forall ns s fs fts, named_fields schemas ns s fs fts -> denotes_fields schemas ns s fs (map (fun f => mkF (sf_index (fst f)) (sf_rule (fst f)) (erase (snd f))) fts)).
Proof.
  apply (named_both schemas (fun ns s t nt _ => denotes schemas ns s t (erase nt))
    (fun ns s fs fts _ => denotes_fields schemas ns s fs (map (fun f => mkF (sf_index (fst f)) (sf_rule (fst f)) (erase (snd f))) fts)));
    try (intros; cbn [erase map]; constructor; assumption).
  intros ns s i n ns' ns2 s2 d2 fs H1 H2 H3 H4 IH. cbn [erase]. change (decl_type (sd_kind d2)) with (declaration_type (sd_kind d2)).
  now apply (dn_custom _ ns s i n ns' ns2 s2 d2).
Qed.
Lemma denotes_named :
  (forall ns s t T, denotes schemas ns s t T -> exists nt, named schemas ns s t nt /\ erase nt = T) /\
  (forall ns s fs Ts, denotes_fields schemas ns s fs Ts -> exists fts, named_fields schemas ns s fs fts /\
     map (fun f => mkF (sf_index (fst f)) (sf_rule (fst f)) (erase (snd f))) fts = Ts).
Proof.
  apply (denotes_both schemas (fun ns s t T _ => exists nt, named schemas ns s t nt /\ erase nt = T)
    (fun ns s fs Ts _ => exists fts, named_fields schemas ns s fs fts /\
     map (fun f => mkF (sf_index (fst f)) (sf_rule (fst f)) (erase (snd f))) fts = Ts)).
  1: { intros ns s t T H (nt & IH & <-). exists (NArray nt). split; [now constructor|reflexivity]. }
  1-7: intros ns s; eexists; split; [constructor|reflexivity].
  - intros ns s i n ns' ns2 s2 d2 fs H1 H2 H3 H4 (fts & IH & <-). eexists. split; [now apply (nm_custom _ ns s i n ns' ns2 s2 d2 fts)|reflexivity].
  - intros ns s. exists []. split; [constructor|reflexivity].
  - intros ns s f fs T Ts H1 (nt & IH1 & <-) H2 (fts & IH2 & <-). exists ((f, nt) :: fts). split; [now constructor|reflexivity].
Qed.
End Linking.
