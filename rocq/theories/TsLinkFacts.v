(** The generated program contains what TsValue.v asks for: the functions of each declaration can be found under their
    names, and paths to types lead to the right declarations. *)
From Verif Require Import IdentFacts NamesFacts ParserFacts ModuleFacts.
From Verif Require Import TreeFacts CodeFacts.
From Verif Require Export RustLinkFacts TsApi TsEval.

(** ** Namespaces that compare equal give the same code *)
Section Same.
Context (u : unicode) (Hu : ascii_agrees u) (s : sschema) (ns here : namespace) (H : same_ns ns here).
Context (Hn : Forall (good_ident u) ns) (Hh : Forall (good_ident u) here).
Lemma ts_path_same i n x : ts_path u s ns i n x = ts_path u s here i n x.
Proof.
  unfold ts_path, reference_namespace. destruct i as [i|]; cbn [type_namespace]; [reflexivity|].
  now destruct (names_same_ns u Hu ns here Hn Hh H) as [_ ->].
Qed.
Lemma ttype_path_same i n x : ttype_path u ns s i n x = ttype_path u here s i n x.
Proof. unfold ttype_path. now rewrite ts_path_same. Qed.
Lemma tgen_type_same t x : tgen_type u ns s t x = tgen_type u here s t x.
Proof. induction t; cbn [tgen_type]; try reflexivity; [now rewrite IHt|now rewrite ttype_path_same]. Qed.
Lemma tgen_atlas_same t : forall f, tgen_atlas u ns s t f = tgen_atlas u here s t f.
Proof. induction t; intros f; cbn [tgen_atlas]; try reflexivity; [|now rewrite ttype_path_same]. destruct t; rewrite ?IHt; reflexivity. Qed.
Lemma tgen_ser_same t : forall f, tgen_ser u ns s t f = tgen_ser u here s t f.
Proof. induction t; intros f; cbn [tgen_ser]; try reflexivity; [|now rewrite ttype_path_same]. destruct t; rewrite ?IHt; reflexivity. Qed.
Lemma tgen_deser_same t : forall f, tgen_deser u ns s t f = tgen_deser u here s t f.
Proof.
  induction t; intros f; cbn [tgen_deser]; try reflexivity; [|now rewrite ttype_path_same]. rewrite tgen_type_same. destruct t; rewrite ?IHt; reflexivity.
Qed.
Lemma tgen_decl_same d : tgen_decl u ns s d = tgen_decl u here s d.
Proof.
  unfold tgen_decl. cbv zeta.
  assert (forall f, tstruct_atlas_field u ns s f = tstruct_atlas_field u here s f) as E1 by (intros f; unfold tstruct_atlas_field; now rewrite tgen_atlas_same).
  assert (forall f, tstruct_ser_field u ns s f = tstruct_ser_field u here s f) as E2 by (intros f; unfold tstruct_ser_field; now rewrite tgen_ser_same).
  assert (forall f, tstruct_deser_case u ns s f = tstruct_deser_case u here s f) as E3 by (intros f; unfold tstruct_deser_case; now rewrite tgen_deser_same).
  assert (forall f, tchoice_atlas_case u ns s f = tchoice_atlas_case u here s f) as E4 by (intros f; unfold tchoice_atlas_case; now rewrite tgen_atlas_same).
  assert (forall n f, tchoice_ser_case u ns s n f = tchoice_ser_case u here s n f) as E5 by (intros n f; unfold tchoice_ser_case; now rewrite tgen_ser_same, tgen_type_same).
  assert (forall f, tchoice_deser_case u ns s f = tchoice_deser_case u here s f) as E6 by (intros f; unfold tchoice_deser_case; now rewrite tgen_deser_same).
  destruct (sd_kind d); f_equal.
  - apply map_ext. intros x. unfold tgen_struct. do 2 f_equal. apply map_ext. intros f. now rewrite tgen_type_same.
  - f_equal. f_equal; [|f_equal; [|f_equal]].
    + unfold tstruct_atlas. now rewrite (flat_map_ext _ _ E1).
    + unfold tstruct_ser. now rewrite (flat_map_ext _ _ E2).
    + unfold tstruct_deser, tstruct_loop. now rewrite (map_ext _ _ E3).
  - apply map_ext. intros x. unfold tgen_choice. do 2 f_equal. apply map_ext. intros f. unfold tgen_case. now rewrite tgen_type_same.
  - f_equal. f_equal; [|f_equal; [|f_equal]].
    + unfold tchoice_atlas. now rewrite (map_ext _ _ E4).
    + unfold tchoice_ser. now rewrite (map_ext _ _ (E5 (sd_name d))).
    + unfold tchoice_deser, tchoice_loop. now rewrite (map_ext _ _ E6).
Qed.
End Same.

(** ** Names *)
Section Names.
Context (u : unicode) (Hu : ascii_agrees u).
(** Names that start with a small letter. *)
Definition starts_small (x : str) : bool := match x with c :: _ => ascii_is_lower c | [] => false end.
Lemma upper_not_lower c : ascii_is_lower (ascii_upper c) = false.
Proof. unfold ascii_upper, ascii_is_lower. destruct ((97 <=? c) && (c <=? 122)) eqn:E; lia. Qed.
Lemma pascal_name i : good_ident u i -> starts_small (ts_name u i Pascal None) = false /\ ident_chars (ts_name u i Pascal None).
Proof.
  intros (E & Hc & _). rewrite E. pose proof (converted_ident_chars u Hu Pascal None _ Hc) as Hi.
  assert (starts_small (in_case u Pascal (with_suffix u (ident_from u (original i)) None)) = false) as Hs.
  { cbn [in_case with_suffix]. apply ident_chars_asciis in Hc. rewrite (pascal_words u Hu) by exact Hc. pose proof (words_shape u Hu _ Hc) as W.
    destruct W as [|w ws W1 W2]; [reflexivity|]. cbn [map concat]. destruct w as [|c w]; [destruct W1|]. cbn. apply upper_not_lower. }
  unfold ts_name. cbv zeta. set (w := in_case u Pascal _) in *. destruct (existsb (str_eqb w) TYPESCRIPT_KEYWORDS) eqn:K; [|now split].
  exfalso. apply existsb_In in K. assert (forallb starts_small TYPESCRIPT_KEYWORDS = true) as F by reflexivity. rewrite forallb_forall in F.
  rewrite (F _ K) in Hs. discriminate.
Qed.
Lemma pascal_not_small i x : good_ident u i -> starts_small x = true -> str_eqb x (ts_name u i Pascal None) = false.
Proof.
  intros Hi Hx. destruct (str_eqb x _) eqn:E; [|reflexivity]. apply str_eqb_eq in E. subst. rewrite (proj1 (pascal_name i Hi)) in Hx. discriminate.
Qed.
Lemma pascal_not_local i : good_ident u i -> local_ok (ts_name u i Pascal None) = false.
Proof.
  intros Hi. destruct (pascal_name i Hi) as [H1 H2]. unfold local_ok. destruct (ts_name u i Pascal None) as [|c r] eqn:E; [reflexivity|].
  assert (c =? 36 = false) as ->.
  { inversion H2 as [|? ? H3 _]; subst. apply N.eqb_neq. intros ->. vm_compute in H3. destruct H3 as [H3|[H3|H3]]; discriminate. }
  destruct (existsb _ local_names) eqn:K; [|reflexivity]. exfalso. apply existsb_In in K.
  assert (forallb starts_small local_names = true) as F by reflexivity. rewrite forallb_forall in F. rewrite (F _ K) in H1. discriminate.
Qed.
Lemma field_fresh f : good_ident u (sf_name f) -> ~ In (tfield_name u f) (map txt ["$size"; "$fallback"; "$field"; "__proto__"]%string).
Proof.
  intros (E & Hc & _). pose proof (prop_no_dollar u Hu (sf_name f) Hc E) as Hd. change (prop u (sf_name f)) with (tfield_name u f) in Hd.
  intros [K|[K|[K|[K|[]]]]]; try (rewrite <- K in Hd; apply Hd; now left).
  unfold tfield_name, ts_name in K. cbv zeta in K. cbn [in_case with_suffix] in K. destruct (existsb _ TYPESCRIPT_KEYWORDS) eqn:Ek.
  - cbn [txt String.list_ascii_of_string map app] in K. injection K as K. rewrite <- K in Ek. discriminate Ek.
  - rewrite E in K. cbn [in_case with_suffix] in K. apply ident_chars_asciis in Hc. rewrite (camel_words u Hu) in K by exact Hc.
    pose proof (words_shape u Hu _ Hc) as W. destruct W as [|w ws W1 W2]; [discriminate K|].
    destruct (alower_shape u Hu w W1) as [Hn Hp]. destruct (alower w) as [|c w']; [congruence|].
    cbn in K. injection K as K _. subst c. inversion Hp as [|? ? H3 _]; subst. destruct H3 as [H3 _]. discriminate H3.
Qed.
End Names.

(** ** Modules *)
Inductive sub : smodule -> namespace -> smodule -> Prop :=
| sub_here m : sub m [] m
| sub_below ch s k c ns m : In (k, c) ch -> sub c ns m -> sub (SModule ch s) (k :: ns) m.
Lemma sub_holds m ns n : sub m ns n -> holds m ns (module_schema n).
Proof. induction 1 as [[ch s]|ch s k c ns m Hin H IH]; [constructor|]. now apply (holds_below ch s k c). Qed.
Lemma holds_sub m ns s : holds m ns s -> exists ch, sub m ns (SModule ch s).
Proof. induction 1 as [ch s|ch s0 k m ns s Hin H (ch' & IH)]; eexists; [constructor|]. econstructor; eassumption. Qed.
Lemma sub_child m a n k c : sub m a n -> In (k, c) (module_children n) -> sub m (a ++ [k]) c.
Proof.
  induction 1 as [[ch s]|ch s k' c' ns m Hin H IH]; intros Hk; cbn [app].
  - apply (sub_below ch s k c); [exact Hk|constructor].
  - apply (sub_below ch s k' c'); auto.
Qed.
Section Modules.
Context (u : unicode) (Hu : ascii_agrees u).
Definition decl_made (t : tdecl) : Prop := exists ns s d, t = tgen_decl u ns s d.
Lemma decl_fn_names ns s d : map jfn_name (td_fns (tgen_decl u ns s d)) =
  map txt ["size"; "serialize"; "deserialize"; "atlas"; "serializeWithAtlasUnsafe"; "deserializeUnsafe"]%string.
Proof. unfold tgen_decl. destruct (sd_kind d); reflexivity. Qed.
Lemma decl_name ns s d : td_name (tgen_decl u ns s d) = ts_name u (sd_name d) Pascal None.
Proof. unfold tgen_decl. now destruct (sd_kind d). Qed.
Definition own_names : list str := map txt ["size"; "serialize"; "deserialize"; "atlas"; "serializeWithAtlasUnsafe"; "deserializeUnsafe"]%string.
Lemma no_fns x ms ds : Forall decl_made ds -> existsb (str_eqb x) own_names = false -> fns_of x (ms, ds) = [].
Proof.
  intros H Hx. unfold fns_of, fns_named. cbn [snd]. induction H as [|t ds (ns & s & d & ->) H IH]; [reflexivity|].
  cbn [flat_map]. rewrite filter_app, IH, app_nil_r. pose proof (decl_fn_names ns s d) as E. fold own_names in E. rewrite <- E in Hx.
  clear -Hx. induction (td_fns _) as [|f fs IH]; [reflexivity|]. cbn [map existsb filter] in *. apply orb_false_iff in Hx as [-> Hx]. auto.
Qed.
Lemma child_unique ch k c ns : StronglySorted klt ch -> Forall (fun e => good_ident u (fst e)) ch -> In (k, c) ch ->
  map snd (filter (fun e => str_eqb (ts_name u k Pascal None) (fst e)) (map (fun e => (ts_name u (fst e) Pascal None, tgen_module u (ns ++ [fst e]) (snd e))) ch))
  = [tgen_module u (ns ++ [k]) c].
Proof.
  intros Hs Hg Hin.
  assert (good_ident u k) as Gk by (rewrite Forall_forall in Hg; exact (Hg _ Hin)).
  assert (forall l, Forall (fun e => good_ident u (fst e)) l -> (forall e, In e l -> ident_cmp k (fst e) <> Eq) ->
    filter (fun e => str_eqb (ts_name u k Pascal None) (fst e)) (map (fun e => (ts_name u (fst e) Pascal None, tgen_module u (ns ++ [fst e]) (snd e))) l) = []) as K.
  { induction l as [|e l IH]; intros Gl Hl; [reflexivity|]. inversion Gl as [|? ? G1 G2]; subst. cbn [map filter fst].
    destruct (str_eqb _ _) eqn:E.
    - exfalso. apply str_eqb_eq in E. apply ts_name_inj in E as [E _]; auto; [|discriminate]. apply (Hl e (or_introl eq_refl)). now apply same_cmp.
    - apply IH; [exact G2|]. intros e' He. apply Hl. now right. }
  induction ch as [|[k' c'] ch IH]; [destruct Hin|]. inversion Hs as [|? ? S1 S2]; subst. inversion Hg as [|? ? G1 G2]; subst.
  rewrite Forall_forall in S2. cbn [map filter fst snd]. destruct Hin as [[= -> ->]|Hin].
  - rewrite str_eqb_refl. cbn [map snd]. rewrite K; [reflexivity|exact G2|]. intros e He. specialize (S2 e He). unfold klt in S2. cbn [fst] in S2. congruence.
  - destruct (str_eqb _ _) eqn:E; [|now apply IH]. exfalso. apply str_eqb_eq in E. apply ts_name_inj in E as [E _]; auto; [|discriminate].
    specialize (S2 _ Hin). unfold klt in S2. cbn [fst] in S2. apply same_cmp in E. rewrite cmp_sym, E in S2. discriminate S2.
Qed.
Lemma decls_made x ns m : Forall decl_made (decls_named x (tgen_module u ns m)).
Proof.
  destruct m as [ch s]. cbn [tgen_module decls_named]. apply Forall_forall. intros t Ht. apply filter_In in Ht as [Ht _].
  apply in_map_iff in Ht as (d & <- & _). now exists ns, s, d.
Qed.
Lemma descend_module m : tree_ok m -> tree_keys (good_ident u) m -> forall ns n, sub m ns n -> forall ns0 ds0, Forall decl_made ds0 ->
  exists ds, Forall decl_made ds /\ descend (nspaces u ns) ([tgen_module u ns0 m], ds0) = Some ([tgen_module u (ns0 ++ ns) n], ds).
Proof.
  intros Ho Hk ns n Hs. revert Ho Hk. induction Hs as [m|ch s k c ns n Hin Hs IH]; intros Ho Hk ns0 ds0 Hd.
  - exists ds0. rewrite app_nil_r. auto.
  - inversion Ho as [? ? O1 O2]; subst. inversion Hk as [? ? K1]; subst. cbn [nspaces map descend]. unfold member at 1. cbn [fst flat_map].
    rewrite !app_nil_r. cbn [tgen_module children_named]. rewrite (child_unique ch k c ns0); auto.
    2: eapply Forall_impl; [|exact K1]; intros e He; apply He.
    rewrite Forall_forall in O2, K1. destruct (O2 _ Hin) as [_ O3]. destruct (K1 _ Hin) as [_ K2].
    destruct (IH O3 K2 (ns0 ++ [k]) (decls_named (ts_name u k Pascal None) (tgen_module u ns0 (SModule ch s))) (decls_made _ _ _)) as (ds & D1 & D2).
    exists ds. split; [exact D1|]. rewrite <- app_assoc in D2. exact D2.
Qed.
Lemma descend_app p q n : descend (p ++ q) n = match descend p n with Some n' => descend q n' | None => None end.
Proof. revert n. induction p as [|x p IH]; intros n; [reflexivity|]. cbn [app descend]. now destruct (member x n). Qed.
End Modules.

Lemma filter_nil {A} (g : A -> bool) l : (forall x, In x l -> g x = false) -> filter g l = [].
Proof. induction l as [|x l IH]; intros H; [reflexivity|]. cbn [filter]. rewrite (H x (or_introl eq_refl)). apply IH. intros y Hy. apply H. now right. Qed.
Section Outward.
Context {A : Type} (p : scope -> option A) (top : A).
Lemma outward_top sc : (forall a b, sc = a ++ b -> p a = None) -> outward p top (rev sc) = top.
Proof.
  intros H. assert (forall r b, sc = rev r ++ b -> outward p top r = top) as K.
  { induction r as [|x r IH]; intros b E; cbn [outward].
    - rewrite (H (rev []) b E). reflexivity.
    - rewrite (H (rev (x :: r)) b E). apply (IH (x :: b)). cbn [rev] in E. now rewrite <- app_assoc in E. }
  apply (K (rev sc) []). now rewrite rev_involutive, app_nil_r.
Qed.
Lemma outward_found sc a b v : sc = a ++ b -> p a = Some v -> (forall a' b', sc = a' ++ b' -> (length a < length a')%nat -> p a' = None) ->
  outward p top (rev sc) = v.
Proof.
  intros E Ha H. assert (forall r c, sc = rev r ++ c -> (length a <= length r)%nat -> outward p top r = v) as K.
  { induction r as [|x r IH]; intros c Er Hl; cbn [outward].
    - destruct a; [|cbn in Hl; lia]. cbn [rev]. now rewrite Ha.
    - destruct (Nat.eq_dec (length a) (length (x :: r))) as [L|L].
      + assert (rev (x :: r) = a) as ->.
        { rewrite E in Er. rewrite <- (rev_length (x :: r)) in L. clear -Er L. revert Er L. generalize (rev (x :: r)). revert a.
          induction a as [|y a IH]; intros [|z l] Er L; try discriminate L; [reflexivity|]. cbn in Er. injection Er as -> Er. f_equal. apply IH; auto. }
        now rewrite Ha.
      + rewrite (H (rev (x :: r)) c Er) by (rewrite rev_length; lia). apply (IH (x :: c)); [|cbn in Hl, L |- *; lia].
        cbn [rev] in Er. now rewrite <- app_assoc in Er. }
  apply (K (rev sc) []); [now rewrite rev_involutive, app_nil_r|]. rewrite rev_length, E, app_length. lia.
Qed.
End Outward.

(** ** Linking *)
Section Linking.
Context (u : unicode) (Hu : ascii_agrees u) (schemas : list (namespace * sschema)).
Context (Hl : loaded schemas) (Hv : valid schemas) (Hg : plain_names schemas u) (Hc : ts_clear_names u schemas).
Let tree := module_tree schemas.
Let prog := ts_program u schemas.
Let Hg' : forall ns s, In (ns, s) schemas -> good_file u ns s := fun ns s H => proj1 (Hg ns s H).
Let find := find_callee prelude_fns prog.
Let reach := reaches_top prog.
Let Htree := schemas_tree u Hu schemas Hl Hg'.
Let Hkeys := schemas_keys u schemas Hg'.

Lemma nspaces_same ns here : Forall (good_ident u) ns -> Forall (good_ident u) here -> same_ns ns here -> nspaces u ns = nspaces u here.
Proof. intros H1 H2 H3. now apply (names_same_ns u Hu ns here). Qed.
Lemma at_module here n : sub tree here n -> exists ds, Forall (decl_made u) ds /\
  namespace_at prog (nspaces u here) = Some ([tgen_module u here n], ds).
Proof. intros H. apply (descend_module u Hu tree (proj1 Htree) Hkeys here n H [] []). constructor. Qed.
Lemma decl_unique here s ch d : holds tree here s -> In d (ss_decls s) ->
  decls_named (ts_name u (sd_name d) Pascal None) (tgen_module u here (SModule ch s)) = [tgen_decl u here s d].
Proof.
  intros Hh Hd. cbn [tgen_module decls_named].
  assert (NoDup (ss_decls s)) as Hnd.
  { destruct Htree as (_ & _ & K). destruct (K here s Hh) as [(ns0 & Hin & _)|(-> & _)]; [|destruct Hd].
    pose proof (proj1 Hv ns0 s Hin) as D. clear -D. unfold all_distinct in D. induction (ss_decls s) as [|d l IH]; [constructor|].
    cbn [map] in D. inversion D as [|? ? D1 D2]; subst. constructor; [|now apply IH]. intros Hin. rewrite Forall_forall in D1.
    apply (D1 (sd_name d)); [now apply in_map|apply same_ident_refl]. }
  assert (forall l, (forall e, In e l -> In e (ss_decls s) /\ e <> d) ->
    filter (fun t => str_eqb (ts_name u (sd_name d) Pascal None) (td_name t)) (map (tgen_decl u here s) l) = []) as K.
  { induction l as [|e l IH]; intros Hl2; [reflexivity|]. cbn [map filter]. rewrite decl_name. destruct (str_eqb _ _) eqn:E.
    - exfalso. destruct (Hl2 e (or_introl eq_refl)) as [H1 H2]. destruct (tree_decl u Hu schemas Hl Hv Hg' here s e d Hh H1 Hd) as [G1 U1].
      destruct (tree_decl u Hu schemas Hl Hv Hg' here s d d Hh Hd Hd) as [G2 _].
      apply str_eqb_eq in E. apply ts_name_inj in E as [E _]; auto; [|discriminate]. apply H2, U1. now apply same_ident_sym.
    - apply IH. intros e' He. apply Hl2. now right. }
  apply in_split in Hd as (l & r & E). rewrite E in *. rewrite map_app, filter_app. cbn [map filter]. rewrite decl_name, str_eqb_refl.
  apply NoDup_remove_2 in Hnd. rewrite !K; [reflexivity| |].
  - intros e He. split; [apply in_app_iff; now right; right|]. intros ->. apply Hnd, in_app_iff. now right.
  - intros e He. split; [apply in_app_iff; now left|]. intros ->. apply Hnd, in_app_iff. now left.
Qed.
Lemma at_decl here s d : holds tree here s -> In d (ss_decls s) ->
  exists ms, namespace_at prog (dscope u here (sd_name d)) = Some (ms, [tgen_decl u here s d]) /\
    Forall (fun m => exists k c, same_ident (sd_name d) k /\ sub tree (here ++ [k]) c /\ m = tgen_module u (here ++ [k]) c) ms.
Proof.
  intros Hh Hd. destruct (holds_sub _ _ _ Hh) as (ch & Hs). destruct (at_module here _ Hs) as (ds & _ & E).
  unfold dscope, namespace_at in *. rewrite descend_app, E. cbn [descend]. unfold member. cbn [fst flat_map]. rewrite !app_nil_r.
  rewrite (decl_unique here s ch d Hh Hd).
  exists (children_named (ts_name u (sd_name d) Pascal None) (tgen_module u here (SModule ch s))). split.
  - destruct (children_named _ _); reflexivity.
  - destruct (tree_decl u Hu schemas Hl Hv Hg' here s d d Hh Hd Hd) as [Gd _].
    apply Forall_forall. intros m Hm. cbn [tgen_module children_named] in Hm. apply in_map_iff in Hm as (e & <- & He). apply filter_In in He as [He Ek].
    apply in_map_iff in He as ([k c] & <- & Hk). cbn [fst snd] in *. exists k, c.
    assert (sub tree (here ++ [k]) c) as Hsub by (apply (sub_child tree here _ k c Hs); exact Hk). split; [|now split].
    pose proof (keys_held _ _ Hkeys _ _ (sub_holds _ _ _ Hsub)) as G. apply Forall_app in G as [_ G]. inversion G; subst.
    apply str_eqb_eq in Ek. apply ts_name_inj in Ek as [Ek _]; auto. discriminate.
Qed.

(** Nothing of this name is seen. *)
Lemma no_member x ms ds : Forall (fun m => exists a c, sub tree a c /\ m = tgen_module u a c /\ ~ ts_has_namespace u tree a x) ms ->
  member x (ms, ds) = None.
Proof.
  intros H. unfold member. cbn [fst].
  assert (flat_map (children_named x) ms = [] /\ flat_map (decls_named x) ms = []) as [-> ->]; [|reflexivity].
  induction H as [|m ms (a & [ch s] & H1 & -> & H2) H IH]; [now split|]. cbn [flat_map]. destruct IH as [-> ->]. rewrite !app_nil_r.
  cbn [tgen_module children_named decls_named]. split.
  - replace (filter _ _) with (@nil (str * tmod)); [reflexivity|]. symmetry. apply filter_nil. intros e He. apply in_map_iff in He as ([k c] & <- & Hk).
    cbn [fst]. destruct (str_eqb _ _) eqn:E; [|reflexivity]. apply str_eqb_eq in E. exfalso. apply H2. left. exists k. split; [|now symmetry].
    eexists. apply sub_holds. apply (sub_child tree a _ k c H1 Hk).
  - apply filter_nil. intros t Ht. apply in_map_iff in Ht as (d & <- & Hd). rewrite decl_name.
    destruct (str_eqb _ _) eqn:E; [|reflexivity]. apply str_eqb_eq in E. exfalso. apply H2. right. exists s, d. split; [exact (sub_holds _ _ _ H1)|now split].
Qed.
(** Small names. *)
Lemma small_no_namespace a x : starts_small x = true -> ~ ts_has_namespace u tree a x.
Proof.
  intros Hx [(k & [s Hk] & E)|(s & d & Hh & Hd & E)]; subst x.
  - pose proof (keys_held _ _ Hkeys _ _ Hk) as G. apply Forall_app in G as [_ G]. inversion G; subst.
    rewrite (proj1 (pascal_name u Hu k H1)) in Hx. discriminate.
  - destruct (tree_decl u Hu schemas Hl Hv Hg' a s d d Hh Hd Hd) as [Gd _]. rewrite (proj1 (pascal_name u Hu _ Gd)) in Hx. discriminate.
Qed.
(** The namespaces around a declaration. *)
Lemma around ns s d a b : declared schemas ns s d -> dscope u ns (sd_name d) = a ++ b ->
  exists ms ds, namespace_at prog a = Some (ms, ds) /\ Forall (decl_made u) ds /\
    Forall (fun m => exists a' b' c, same_ns (ns ++ [sd_name d]) (a' ++ b') /\ length a' = length a /\ sub tree a' c /\ m = tgen_module u a' c) ms /\
    (b = [] -> exists here, same_ns ns here /\ holds tree here s /\ ds = [tgen_decl u ns s d]).
Proof.
  intros [Hin Hd] E. destruct (tree_place u Hu schemas Hl Hg' ns s Hin) as (here & H1 & H2 & H3).
  pose proof (proj1 (Hg' ns s Hin)) as Gn.
  assert (dscope u ns (sd_name d) = dscope u here (sd_name d)) as Es by (unfold dscope; now rewrite (nspaces_same ns here)).
  destruct b as [|y b] using rev_ind.
  - rewrite app_nil_r in E. subst a. rewrite Es. destruct (at_decl here s d H2 Hd) as (ms & A1 & A2). exists ms, [tgen_decl u here s d].
    split; [exact A1|]. split; [constructor; [now exists here, s, d|constructor]|]. split.
    + eapply Forall_impl; [|exact A2]. intros m (k & c & B1 & B2 & B3). exists (here ++ [k]), [], c. rewrite app_nil_r. split.
      * apply same_ns_app; [exact H1|]. constructor; [exact B1|constructor].
      * split; [|now split]. unfold dscope, nspaces. now rewrite !app_length, map_length.
    + intros _. exists here. split; [exact H1|]. split; [exact H2|]. f_equal. symmetry. now apply tgen_decl_same.
  - clear IHb. rewrite Es in E. unfold dscope in E. rewrite app_assoc in E. apply app_inj_tail in E as [E _].
    unfold nspaces in E. apply map_eq_app in E as (a0 & b0 & -> & Ea & Eb).
    destruct (holds_prefix tree a0 b0 s H2) as [sa Ha]. destruct (holds_sub _ _ _ Ha) as (ch & Hs).
    destruct (at_module a0 _ Hs) as (ds & D1 & D2). exists [tgen_module u a0 (SModule ch sa)], ds. rewrite <- Ea. split; [exact D2|]. split; [exact D1|]. split.
    + constructor; [|constructor]. exists a0, (b0 ++ [sd_name d]), (SModule ch sa). split; [|split; [now rewrite map_length|now split]].
      rewrite app_assoc. apply same_ns_app; [exact H1|apply same_ns_refl].
    + intros K. symmetry in K. now apply app_cons_not_nil in K.
Qed.
Lemma around_none ns s d x a b top_too : declared schemas ns s d -> ts_unhidden u schemas (ns ++ [sd_name d]) top_too x ->
  existsb (str_eqb x) own_names = false -> dscope u ns (sd_name d) = a ++ b -> a <> [] \/ top_too = true ->
  exists n, namespace_at prog a = Some n /\ member x n = None /\ fns_of x n = [].
Proof.
  intros Hd Hx Ho E Ha. destruct (around ns s d a b Hd E) as (ms & ds & E1 & D & M & _). exists (ms, ds). split; [exact E1|]. split; [|now apply (no_fns u)].
  apply no_member. eapply Forall_impl; [|exact M]. intros m (a' & b' & c & A & B & C & F). exists a', c. split; [exact C|]. split; [exact F|].
  apply (Hx a' b' A). destruct Ha as [Ha|Ha]; [left|now right]. destruct a'; [destruct a; [congruence|discriminate B]|discriminate].
Qed.
Lemma small_unhidden place t x : starts_small x = true -> ts_unhidden u schemas place t x.
Proof. intros H a b _ _. now apply small_no_namespace. Qed.

Lemma prefix_good_scope ns s d sc rest : declared schemas ns s d -> dscope u ns (sd_name d) = sc ++ rest -> good_scope find reach sc.
Proof.
  intros Hd Hsc. constructor.
  - intros c Hin. apply existsb_In in Hin.
    assert (ts_unhidden u schemas (ns ++ [sd_name d]) true c) as Hc'.
    { unfold relied_globals in Hin. apply in_app_iff in Hin as [Hin|Hin].
      - apply (cn_globals u schemas Hc ns s d c Hd). revert Hin. apply sublist. reflexivity.
      - apply small_unhidden. cbn in Hin. decompose [or] Hin; subst; try contradiction; reflexivity. }
    assert (existsb (str_eqb c) own_names = false) as Ho.
    { assert (forallb (fun c => negb (existsb (str_eqb c) own_names)) relied_globals = true) as F by reflexivity. rewrite forallb_forall in F.
      now apply negb_true_iff, F. }
    unfold reach, reaches_top. apply outward_top. intros a b E. rewrite E, <- app_assoc in Hsc.
    destruct (around_none ns s d c a (b ++ rest) true Hd Hc' Ho Hsc (or_intror eq_refl)) as (n & E1 & E2 & E3). now rewrite E1, E2, E3.
  - intros f fn Hf.
    assert (existsb (str_eqb f) (map jfn_name prelude_fns) = true) as Hin.
    { apply existsb_In. assert (In fn (fns_named f prelude_fns)) as K by (rewrite Hf; now left). apply filter_In in K as [K1 K2].
      apply str_eqb_eq in K2. rewrite K2. now apply in_map. }
    apply existsb_In in Hin.
    assert (forallb (fun c => starts_small c && negb (existsb (str_eqb c) own_names)) (map jfn_name prelude_fns) = true) as F by reflexivity.
    rewrite forallb_forall in F. specialize (F _ Hin). apply andb_true_iff in F as [F1 F2]. apply negb_true_iff in F2.
    unfold find, find_callee. rewrite outward_top; [now rewrite Hf|]. intros a b E. rewrite E, <- app_assoc in Hsc.
    destruct (around_none ns s d f a (b ++ rest) true Hd (small_unhidden _ _ _ F1) F2 Hsc (or_intror eq_refl)) as (n & E1 & E2 & E3). now rewrite E1, E2, E3.
Qed.
Lemma top_good_scope ns s d : declared schemas ns s d -> good_scope find reach [].
Proof. intros Hd. now apply (prefix_good_scope ns s d [] (dscope u ns (sd_name d))). Qed.
Lemma own_good_scope ns s d : declared schemas ns s d -> good_scope find reach (dscope u ns (sd_name d)).
Proof. intros Hd. apply (prefix_good_scope ns s d _ [] Hd). now rewrite app_nil_r. Qed.

(** The functions of a declaration. *)
Definition public_fns (ns : namespace) (s : sschema) (d : sdecl) : list (str * jfn) :=
  [(txt "size", tgen_size u (sd_name d) (sd_fields d)); (txt "serialize", tgen_serialize u d); (txt "deserialize", tgen_deserialize u (sd_name d))] ++
  decl_fns u ns s (sd_kind d) (sd_name d) (sd_fields d).
Lemma fns_found ns s d ms f : In f (public_fns ns s d) -> fns_of (fst f) (ms, [tgen_decl u ns s d]) = [snd f].
Proof.
  intros H. unfold fns_of, fns_named. cbn [snd flat_map]. rewrite app_nil_r. unfold tgen_decl. cbn in H.
  decompose [or] H; subst; try contradiction; destruct (sd_kind d); reflexivity.
Qed.
Lemma own_small ns s d f : In f (public_fns ns s d) -> starts_small (fst f) = true.
Proof. intros H. cbn in H. decompose [or] H; subst; try contradiction; reflexivity. Qed.
Lemma own_found ns s d f : declared schemas ns s d -> In f (public_fns ns s d) ->
  find (dscope u ns (sd_name d)) (CFn (fst f)) = Some (dscope u ns (sd_name d), snd f).
Proof.
  intros Hd Hf. unfold find, find_callee. set (sc := dscope u ns (sd_name d)).
  apply (outward_found _ _ sc sc []); [now rewrite app_nil_r| |].
  - destruct (around ns s d sc [] Hd) as (ms & ds & E1 & _ & M & K); [now rewrite app_nil_r|]. destruct (K eq_refl) as (here & _ & _ & ->).
    rewrite E1. rewrite (fns_found ns s d ms f Hf), no_member; [reflexivity|].
    eapply Forall_impl; [|exact M]. intros m (a' & b' & c & A & B & C & F). exists a', c. split; [exact C|]. split; [exact F|].
    apply small_no_namespace. now apply (own_small ns s d).
  - intros a' b' E L. rewrite E, app_length in L. lia.
Qed.
Lemma decl_tinstalled ns s d : declared schemas ns s d -> tinstalled u find reach ns s (sd_kind d) (sd_name d) (sd_fields d).
Proof.
  intros H. pose proof (proj2 Hv ns s d H) as V.
  assert (forall f, In f (sd_fields d) -> good_ident u (sf_name f)) as G.
  { intros f Hf. destruct H as [H1 H2]. exact (proj2 (Hg ns s H1) d f H2 Hf). }
  constructor.
  - now apply (own_good_scope ns s).
  - intros f Hf. apply (own_found ns s d f H). apply in_app_iff. now right.
  - assert (NoDup (map (tfield_name u) (sd_fields d))) as N1.
    { apply names_nodup; [|exact (vd_names _ _ _ _ V)]. intros a b Ha Hb E. unfold tfield_name in E.
      apply (ts_name_inj u Hu Camel None None) in E as [E _]; auto. discriminate. }
    assert (forall pre, NoDup pre -> (forall x, In x pre -> ~ In x (map (tfield_name u) (sd_fields d))) -> NoDup (pre ++ map (tfield_name u) (sd_fields d))) as K.
    { induction 1 as [|x pre P1 P2 IH]; intros Hp; [exact N1|]. cbn [app]. constructor.
      - intros Hin. apply in_app_iff in Hin as [Hin|Hin]; [now apply P1|]. apply (Hp x); [now left|exact Hin].
      - apply IH. intros y Hy. apply Hp. now right. }
    apply K.
    + apply all_different_nodup. reflexivity.
    + intros x Hx Hin. apply in_map_iff in Hin as (f & <- & Hf). now apply (field_fresh u Hu f (G f Hf)).
  - exact (vd_indices _ _ _ _ V).
Qed.

(** The references in a declaration. *)
Lemma reference_found ns s d f i n ns2 s2 d2 ns' : declared schemas ns s d -> In f (sd_fields d) -> mentions (sf_type f) i n ->
  leads_to ns s i ns' -> declared schemas ns2 s2 d2 -> same_q (ns2, sd_name d2) (ns', n) ->
  exists x p, ttype_path u ns s i n None = x :: p /\ local_ok x = false /\
    forall fn, In fn (public_fns ns2 s2 d2) -> find (dscope u ns (sd_name d)) (CPath (x :: p) (fst fn)) = Some (dscope u ns2 (sd_name d2), snd fn).
Proof.
  intros Hd Hf Hm Hlead Hd2 Hq. destruct (tree_place u Hu schemas Hl Hg' ns s (proj1 Hd)) as (here & P1 & P2 & P3).
  destruct (mention_target u Hu schemas Hl Hv Hg' ns s d f i n here Hd Hf Hm P1 P3) as (tns & ns3 & s3 & d3 & there & A & B1 & B2 & C & (ns'' & D1 & D2) & E & F & F' & G & H & I & J).
  pose proof (loaded_imports schemas Hl ns s (proj1 Hd)) as Hs.
  apply (type_namespace_iff ns s i ns' Hs) in Hlead. apply (type_namespace_iff ns s i ns'' Hs) in D1.
  assert (ns'' = ns') as -> by congruence.
  destruct (declared_unique schemas Hl Hv ns2 s2 d2 ns3 s3 d3 Hd2 C) as (<- & <- & <-).
  { apply (same_q_trans _ (ns', n)); [exact Hq|now apply same_q_sym]. }
  pose proof (proj1 (Hg' ns s (proj1 Hd))) as Gn. pose proof (proj1 (Hg' ns2 s2 (proj1 Hd2))) as Gn2.
  pose proof (cn_placed u schemas Hc ns2 s2 (proj1 Hd2)) as Hne. destruct there as [|k there]; [inversion E; subst; now destruct Hne|].
  assert (ts_path u s ns i n None = Some (dscope u ns2 (sd_name d2))) as Ep.
  { rewrite (ts_path_same u Hu s ns here P1 Gn P3). unfold ts_path. rewrite A. unfold dscope. do 2 f_equal.
    - transitivity (nspaces u (k :: there)); [now apply nspaces_same|]. symmetry. now apply nspaces_same.
    - f_equal. apply ts_name_same; auto. now apply same_ident_sym. }
  unfold dscope in Ep. rewrite (nspaces_same ns2 (k :: there)) in Ep by assumption. cbn [nspaces map app] in Ep.
  exists (ts_name u k Pascal None), (nspaces u there ++ [ts_name u (sd_name d2) Pascal None]).
  split; [unfold ttype_path; now rewrite Ep|]. split; [apply (pascal_not_local u Hu); now inversion H|].
  intros fn Hfn. unfold find, find_callee.
  assert (dscope u ns2 (sd_name d2) = ts_name u k Pascal None :: nspaces u there ++ [ts_name u (sd_name d2) Pascal None]) as Ed2.
  { unfold dscope. now rewrite (nspaces_same ns2 (k :: there)). }
  destruct (around ns2 s2 d2 (dscope u ns2 (sd_name d2)) [] Hd2) as (ms & ds & E1 & _ & M & K); [now rewrite app_nil_r|].
  destruct (K eq_refl) as (_ & _ & _ & ->). rewrite Ed2 in E1. unfold namespace_at in E1. cbn [descend] in E1.
  apply (outward_found _ _ _ [] (dscope u ns (sd_name d))); [reflexivity| |].
  - unfold namespace_at. cbn [descend]. destruct (member (ts_name u k Pascal None) ([prog], [])) as [n'|] eqn:En; [|discriminate E1].
    change (fns_of (ts_name u k Pascal None) ([prog], [])) with (@nil jfn). rewrite E1, (fns_found ns2 s2 d2 ms fn Hfn). cbn [app]. now rewrite Ed2.
  - intros a' b' Ea La.
    destruct (around_none ns s d (ts_name u k Pascal None) a' b' false Hd) as (n' & N1 & N2 & N3); auto.
    + apply (cn_types u schemas Hc ns s d f i n _ _ Hd Hf Hm Ep).
    + destruct (existsb _ own_names) eqn:Eo; [|reflexivity]. exfalso. apply existsb_In in Eo. inversion H as [|? ? Gk _]; subst.
      pose proof (proj1 (pascal_name u Hu k Gk)) as Sk.
      assert (forallb starts_small own_names = true) as Fo by reflexivity. rewrite forallb_forall in Fo. rewrite (Fo _ Eo) in Sk. discriminate.
    + left. intros ->. cbn in La. lia.
    + now rewrite N1, N2, N3.
Qed.
Lemma named_tlinked :
  (forall ns s t nt, named schemas ns s t nt -> forall d, declared schemas ns s d ->
     (forall i n, mentions t i n -> exists f, In f (sd_fields d) /\ mentions (sf_type f) i n) ->
     tlinked u find reach (dscope u ns (sd_name d)) ns s t nt) /\
  (forall ns s fs fts, named_fields schemas ns s fs fts -> forall d, declared schemas ns s d -> (forall f, In f fs -> In f (sd_fields d)) ->
     map fst fts = fs /\ allP (fun f => tlinked u find reach (dscope u ns (sd_name d)) ns s (sf_type (fst f)) (snd f)) fts).
Proof.
  apply (named_both schemas
    (fun ns s t nt _ => forall d, declared schemas ns s d ->
     (forall i n, mentions t i n -> exists f, In f (sd_fields d) /\ mentions (sf_type f) i n) ->
     tlinked u find reach (dscope u ns (sd_name d)) ns s t nt)
    (fun ns s fs fts _ => forall d, declared schemas ns s d -> (forall f, In f fs -> In f (sd_fields d)) ->
     map fst fts = fs /\ allP (fun f => tlinked u find reach (dscope u ns (sd_name d)) ns s (sf_type (fst f)) (snd f)) fts)).
  1: { intros ns s t T H IH d Hd Hm. cbn [tlinked]. exists t. split; [reflexivity|]. apply IH; auto. intros i n Hi. apply Hm. now constructor. }
  1-7: intros; reflexivity.
  - intros ns s i n ns' ns2 s2 d2 fs Hlead Hd2 Hq Hf IH d Hd Hm. destruct (Hm i n (mentions_custom i n)) as (f & A1 & A2).
    destruct (reference_found ns s d f i n ns2 s2 d2 ns' Hd A1 A2 Hlead Hd2 Hq) as (x & p & B1 & B2 & B3).
    destruct (IH d2 Hd2 (fun f H => H)) as [I1 I2]. cbn [tlinked]. rewrite I1. split; [|split; [now apply decl_tinstalled|exact I2]].
    exists i, n, x, p. repeat split; auto. intros fn Hfn. apply B3. apply in_app_iff. now right.
  - intros ns s d _ _. split; [reflexivity|exact I].
  - intros ns s f fs T Ts H1 IH1 H2 IH2 d Hd Hfs. destruct (IH2 d Hd) as [I1 I2]; [intros g Hg2; apply Hfs; now right|].
    cbn [map fst allP snd]. split; [now f_equal|]. split; [|exact I2]. apply IH1; auto. intros i n Hm. exists f. split; [apply Hfs; now left|exact Hm].
Qed.
Lemma decl_tlinked ns s d fs : declared schemas ns s d -> named_fields schemas ns s (sd_fields d) fs ->
  map fst fs = sd_fields d /\ tinstalled u find reach ns s (sd_kind d) (sd_name d) (map fst fs) /\
  allP (fun f => tlinked u find reach (dscope u ns (sd_name d)) ns s (sf_type (fst f)) (snd f)) fs.
Proof.
  intros Hd Hf. destruct (proj2 named_tlinked _ _ _ _ Hf d Hd (fun f H => H)) as [E H]. rewrite E. split; [reflexivity|].
  split; [now apply decl_tinstalled|exact H].
Qed.
End Linking.
