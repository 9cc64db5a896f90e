(** The items and the modules that RustGen.v makes are well-typed. *)
From Coq Require Import Permutation Sorted.
From Verif Require Import IdentFacts NamesFacts CodeFacts ModuleFacts ParserFacts CycleFacts RustDeserFacts TsLinkFacts.
From Verif Require Export RustTypingFacts3.

Lemma nodup_app {A} (a b : list A) : NoDup a -> NoDup b -> (forall x, In x a -> ~ In x b) -> NoDup (a ++ b).
Proof.
  intros Ha Hb H. induction Ha as [|x a Hx Ha IH]; [exact Hb|]. cbn [app]. constructor.
  - intros K. apply in_app_iff in K as [K|K]; [now apply Hx|]. now apply (H x (or_introl eq_refl)).
  - apply IH. intros y Hy. apply H. now right.
Qed.

(** ** Names of modules and names of types differ: the latter contain a capital letter *)
Section Capitals.
Context (u : unicode) (Hu : ascii_agrees u).
Lemma join_clean ws : Forall (proper u) ws -> Forall (fun c => is_uppercase u c = false) (join [underscore] ws).
Proof.
  assert (forall w, proper u w -> Forall (fun c => is_uppercase u c = false) w) as K by (intros w [_ Hw]; eapply Forall_impl; [|exact Hw]; now intros c [_ H]).
  induction 1 as [|w ws Hw Hws IH]; [constructor|]. cbn [join]. destruct ws; [now apply K|]. apply Forall_app. split; [now apply K|].
  apply Forall_app. split; [|exact IH]. constructor; [|constructor]. now apply (sep_not_upper u Hu).
Qed.
Lemma snake_small i : good_ident u i -> Forall (fun c => is_uppercase u c = false) (rust_name u i Snake None).
Proof.
  intros (E & Hc & _). rewrite E. unfold rust_name. cbv zeta. cbn [in_case with_suffix].
  assert (Forall (fun c => is_uppercase u c = false) (snake_case (ident_from u (original i)))) as K.
  { apply ident_chars_asciis in Hc. cbn [snake_case ident_from]. rewrite (lower_words u Hu) by exact Hc. apply join_clean.
    pose proof (words_shape u Hu _ Hc) as Hs. induction Hs; constructor; [now apply (alower_shape u Hu)|assumption]. }
  destruct (existsb _ _); [|exact K]. apply Forall_app. split; [|exact K]. repeat constructor; apply (agrees_upper u Hu); reflexivity.
Qed.
Lemma module_not_type i j x : good_ident u i -> good_ident u j -> rust_name u i Snake None <> type_name u j x.
Proof.
  intros Hi (Ej & Hj & _) E. pose proof (snake_small i Hi) as K. rewrite E in K. unfold type_name, rust_name in K. cbv zeta in K. rewrite Ej in K.
  destruct (pascal_suffix u Hu (original j) x Hj) as (p & Ep). rewrite Ep in K.
  assert (Forall (fun c => is_uppercase u c = false) (suffix_str x)) as L by (destruct (existsb _ _); repeat rewrite Forall_app in K; tauto).
  destruct (suffix_capital u Hu x) as (C & _). destruct x; inversion L as [|? ? L1 _]; rewrite (agrees_upper u Hu) in L1 by reflexivity; discriminate L1.
Qed.
End Capitals.

(** ** The items of a declaration *)
Section Decl.
Context (u : unicode) (Hu : ascii_agrees u) (schemas : list (namespace * sschema)).
Context (Hl : loaded schemas) (Hv : valid schemas) (Hg : plain_names schemas u).
Context (ns : namespace) (s : sschema) (d : sdecl) (Hd : declared schemas ns s d).
Context (Hstd : find_module (mods u ns ++ [txt "std"]) (rust_program u schemas) = None).
Let prog := rust_program u schemas.
Let ind := length ns.
Let m := mods u ns.
Let Hin : In (ns, s) schemas := proj1 Hd.
Let id x : tyid := (m, type_name u (sd_name d) x).
Notation fields := (sd_fields d). Notation name := (sd_name d).
Lemma data_ok x : item_ok prog m (data u ns s d x).
Proof.
  unfold data. destruct (sd_kind d) eqn:Hk.
  - unfold gen_struct, item_ok. split.
    + rewrite map_app, map_map. cbn [fst]. pose proof (field_names_distinct u Hu schemas Hl Hv Hg ns s d Hd) as K. destruct x; [exact K|now inversion K|now inversion K].
    + destruct (struct_decls u Hu schemas Hl Hv Hg ns s d Hd x Hk) as (n & ds & E & K).
      pose proof (decl_item u Hu schemas Hl Hv Hg ns s d x Hd) as E2. unfold data in E2. rewrite Hk in E2. unfold gen_struct in E2. unfold item_at in E, E2.
      rewrite E in E2. injection E2 as _ ->. cbn [fst] in K. clear E. induction K as [|f dd fs dds [_ H] K IH]; constructor; [now exists (snd f)|exact IH].
  - unfold gen_choice, item_ok. split.
    + rewrite map_map. exact (variants_distinct u Hu schemas Hl Hv Hg ns s d Hd).
    + apply Forall_forall. intros v Hv2. apply in_map_iff in Hv2 as (f & <- & Hf). cbn [snd].
      destruct (choice_types u Hu schemas Hl Hv Hg ns s d Hd x f Hk Hf) as (n & vs & types & E & Hin2 & K).
      pose proof (decl_item u Hu schemas Hl Hv Hg ns s d x Hd) as E2. unfold data in E2. rewrite Hk in E2. unfold gen_choice in E2. unfold item_at in E, E2.
      rewrite E in E2. injection E2 as _ ->. apply in_map_iff in Hin2 as (g & [= Eg <-] & Hg2).
      assert (g = f) as ->.
      { pose proof (variants_distinct u Hu schemas Hl Hv Hg ns s d Hd) as N. clear - Eg Hg2 Hf N. induction fields as [|h l IH]; [destruct Hf|]. cbn [map In] in *. inversion N as [|? ? N1 N2]; subst.
        destruct Hg2 as [->|Hg2], Hf as [->|Hf]; auto; exfalso; apply N1; [rewrite Eg|rewrite <- Eg]; now apply in_map. }
      cbn [fst] in K. clear - K. induction K as [|t k ts ks H K IH]; constructor; [now exists k|exact IH].
Qed.
Lemma is_item x : item_at prog (m, type_name u name x) <> None.
Proof. unfold prog, m. rewrite (decl_item u Hu schemas Hl Hv Hg ns s d x Hd). discriminate. Qed.
Lemma supers_ok t : TyPath (repeat (txt "super") ind ++ [t]) = TyPath (repeat (txt "super") (length m) ++ [t]).
Proof. unfold m, mods. now rewrite map_length. Qed.
Lemma items_ok : Forall (item_ok prog m) (gen_decl u ns s ind d).
Proof.
  pose proof (own_ty u Hu schemas Hl Hv Hg ns s d Hd) as Ho. unfold gen_decl. cbv zeta.
  repeat apply Forall_cons; try apply Forall_nil; try (now apply data_ok); unfold item_ok; cbv zeta; (split; [apply is_item|]); (split; [|try exact I]).
  - repeat apply Forall_cons; try apply Forall_nil.
    + eapply size_fn_ok; eassumption.
    + eapply serialize_fn_ok; eassumption.
  - left. exists (txt "Serialize"). eexists. split; [apply supers_ok|]. split; reflexivity.
  - repeat apply Forall_cons; try apply Forall_nil. eapply deserialize_fn_ok; eassumption.
  - left. exists (txt "Deserialize"). eexists. split; [apply supers_ok|]. split; reflexivity.
  - repeat apply Forall_cons; try apply Forall_nil. destruct (sd_kind d) eqn:Hk.
    + eapply struct_from_ok; eassumption.
    + eapply choice_from_ok; eassumption.
  - right. exists (TyPath [type_name u name SOut]), (KData (id SOut)), (txt "message"). split; [reflexivity|].
    split; [apply (free u Hu schemas Hl Hg ns s Hin); [reflexivity|relied]|]. split; [now apply Ho|]. now destruct (sd_kind d).
  - repeat apply Forall_cons; try apply Forall_nil; destruct (sd_kind d) eqn:Hk.
    + eapply struct_atlas_ok; eassumption.
    + eapply choice_atlas_ok; eassumption.
    + eapply struct_ser_ok; eassumption.
    + eapply choice_ser_ok; eassumption.
  - repeat apply Forall_cons; try apply Forall_nil; destruct (sd_kind d) eqn:Hk.
    + eapply struct_deser_ok; eassumption.
    + eapply choice_deser_ok; eassumption.
  - repeat apply Forall_cons; try apply Forall_nil; destruct (sd_kind d) eqn:Hk.
    + eapply struct_size_ok; eassumption.
    + eapply choice_size_ok; eassumption.
Qed.
End Decl.

(** ** What may occur only once *)
Section Once.
Context (u : unicode) (Hu : ascii_agrees u) (schemas : list (namespace * sschema)).
Definition about (k : once) : str := match k with OnceName n => n | OnceImpl _ t => t | OnceFn t _ => t end.
Lemma decl_keys ns s ind d k : In k (flat_map item_once (gen_decl u ns s ind d)) -> exists x, about k = type_name u (sd_name d) x.
Proof.
  unfold gen_decl, gen_struct, gen_choice. cbv zeta. intros H.
  destruct (sd_kind d); cbn [flat_map item_once map app In] in H; repeat (destruct H as [<-|H]; [eexists; reflexivity|]); destruct H.
Qed.
Lemma decl_once ns s ind d : good_ident u (sd_name d) -> NoDup (flat_map item_once (gen_decl u ns s ind d)).
Proof.
  intros Hg.
  assert (forall x y, x <> y -> type_name u (sd_name d) x <> type_name u (sd_name d) y) as N.
  { intros x y Hxy E. now apply (type_name_inj u Hu) in E as [_ E]. }
  assert (type_name u (sd_name d) SAtlas <> type_name u (sd_name d) SOut) as N1 by (apply N; discriminate).
  assert (type_name u (sd_name d) SAtlas <> type_name u (sd_name d) SIn) as N2 by (apply N; discriminate).
  assert (type_name u (sd_name d) SOut <> type_name u (sd_name d) SIn) as N3 by (apply N; discriminate).
  unfold gen_decl, gen_struct, gen_choice. cbv zeta.
  destruct (sd_kind d); cbn [flat_map item_once map app];
    (repeat (constructor; [cbn [In]; intros K; repeat (destruct K as [K|K]; [first [discriminate K|injection K; intros; first [congruence|discriminate]]|]); exact K|]); constructor).
Qed.
Lemma decls_once ns s ind ds : (forall d, In d ds -> good_ident u (sd_name d)) -> all_distinct (map sd_name ds) ->
  NoDup (flat_map item_once (flat_map (gen_decl u ns s ind) ds)).
Proof.
  intros Hg Hd. induction ds as [|d ds IH]; [constructor|]. cbn [flat_map map] in *. rewrite flat_map_app. unfold all_distinct in Hd. inversion Hd as [|? ? H1 H2]; subst.
  apply nodup_app.
  - apply decl_once. apply Hg. now left.
  - apply IH; [intros e He; apply Hg; now right|exact H2].
  - intros k Hk Hk2. apply decl_keys in Hk as (x & E1). apply in_flat_map in Hk2 as (i & Hi & Hk2). apply in_flat_map in Hi as (e & He & Hi).
    assert (In k (flat_map item_once (gen_decl u ns s ind e))) as K by (apply in_flat_map; now exists i).
    apply decl_keys in K as (y & E2). rewrite E1 in E2. apply (type_name_inj u Hu) in E2 as [E2 _]; [|apply Hg; now left|apply Hg; now right].
    rewrite Forall_forall in H1. apply (H1 (sd_name e)); [now apply in_map|exact E2].
Qed.
End Once.

(** ** Modules *)
Section Program.
Context (u : unicode) (schemas : list (namespace * sschema)) (Ha : accepted u schemas).
Let Hu : ascii_agrees u := ac_unicode u schemas Ha.
Let Hl : loaded schemas := ac_loaded u schemas Ha.
Let Hg : plain_names schemas u := ac_names u schemas Ha.
Let Hg' : forall ns s, In (ns, s) schemas -> good_file u ns s := fun ns s H => proj1 (Hg ns s H).
Let tree := module_tree schemas.
Let prog := rust_program u schemas.
(** Every module of the program is made from a module of the tree. *)
Lemma module_from h : forall m ns r, find_module h (gen_module u (length ns) ns m) = Some r ->
  exists p n, h = mods u p /\ sub m p n /\ r = gen_module u (length (ns ++ p)) (ns ++ p) n.
Proof.
  induction h as [|x h IH]; intros [ch s] ns r H.
  - cbn [find_module] in H. injection H as <-. exists [], (SModule ch s). rewrite app_nil_r. repeat split. constructor.
  - cbn [gen_module find_module] in H.
    assert (exists k c, In (k, c) ch /\ x = rust_name u k Snake None /\ find_module h (gen_module u (S (length ns)) (ns ++ [k]) c) = Some r) as (k & c & Hin & -> & Hf).
    { clear IH. revert H. induction ch as [|[k c] ch IHc]; cbn [map lookup fst snd]; [discriminate|]. destruct (str_eqb x _) eqn:E.
      - intros H. exists k, c. apply str_eqb_eq in E. split; [now left|]. split; [exact E|exact H].
      - intros H. destruct (IHc H) as (k' & c' & A & B). exists k', c'. split; [now right|exact B]. }
    replace (S (length ns)) with (length (ns ++ [k])) in Hf by (rewrite app_length; cbn [length]; lia).
    destruct (IH c (ns ++ [k]) r Hf) as (p & n & -> & Hs & ->). exists (k :: p), n. rewrite <- app_assoc. split; [reflexivity|]. split; [|reflexivity].
    now apply (sub_below ch s k c).
Qed.
Lemma sub_tree m p n : sub m p n -> tree_ok m -> tree_keys (good_ident u) m -> tree_ok n /\ tree_keys (good_ident u) n.
Proof.
  induction 1 as [m|ch s k c p n Hin H IH]; intros Ho Hk; [now split|]. inversion Ho as [? ? _ O]; subst. inversion Hk as [? ? K]; subst.
  rewrite Forall_forall in O, K. apply IH; [exact (proj2 (O _ Hin))|exact (proj2 (K _ Hin))].
Qed.
Lemma children_once (ch : list (ident * smodule)) : StronglySorted klt ch -> (forall e, In e ch -> good_ident u (fst e)) -> NoDup (map (fun e => OnceName (rust_name u (fst e) Snake None)) ch).
Proof.
  intros Hs. induction Hs as [|[k c] ch Hs IH Hlt]; intros Hk; [constructor|]. cbn [map]. constructor; [|apply IH; intros e He; apply Hk; now right].
  intros H. apply in_map_iff in H as (e & [= E] & He). cbn [fst] in E. rewrite Forall_forall in Hlt. specialize (Hlt e He).
  apply (rust_name_inj u Hu Snake None None) in E as [E _]; [|exact (Hk e (or_intror He))|exact (Hk (k, c) (or_introl eq_refl))|now left].
  apply same_ident_sym in E. apply same_cmp in E. unfold klt in Hlt. cbn [fst] in Hlt. congruence.
Qed.
(** No directory of a schema has a module [std]. *)
Context (Hstd : forall ns s, In (ns, s) schemas -> find_module (mods u ns ++ [txt "std"]) prog = None).
Lemma program_typed : well_typed prog.
Proof.
  intros h r Hr. unfold prog, rust_program in Hr. destruct (module_from h tree [] r Hr) as (p & [ch s] & -> & Hsub & ->). clear Hr. cbn [app gen_module module_ok].
  destruct (schemas_tree u Hu schemas Hl Hg') as (Ho & _ & Kh). pose proof (schemas_keys u schemas Hg') as Hk.
  destruct (sub_tree tree p _ Hsub Ho Hk) as [Ho2 Hk2]. inversion Ho2 as [? ? Hsort _]; subst. inversion Hk2 as [? ? Hk3]; subst.
  pose proof (sub_holds _ _ _ Hsub) as Hh. cbn [module_schema] in Hh.
  assert (forall e, In e ch -> good_ident u (fst e)) as Hch by (intros e He; rewrite Forall_forall in Hk3; exact (proj1 (Hk3 e He))).
  rewrite map_map. cbn [fst]. pose proof (children_once ch Hsort Hch) as Hc.
  destruct (Kh p s Hh) as [(ns & Hin & Hs)|(-> & _)].
  2: { cbn [flat_map ss_decls empty_schema]. split; [now rewrite app_nil_r|constructor]. }
  assert (forall d, In d (ss_decls s) -> good_ident u (sd_name d)) as Hgd by exact (proj1 (proj2 (Hg' ns s Hin))).
  assert (valid schemas) as Hv by (pose proof (validate_spec schemas Hl) as H; rewrite (ac_validated u schemas Ha) in H; apply H). split.
  - apply nodup_app; [exact Hc|apply decls_once; [exact Hu|exact Hgd|exact (proj1 Hv ns s Hin)]|].
    intros k K1 K2. apply in_map_iff in K1 as (e & <- & He). apply in_flat_map in K2 as (i & Hi & K2). apply in_flat_map in Hi as (d & Hd & Hi).
    assert (In (OnceName (rust_name u (fst e) Snake None)) (flat_map item_once (gen_decl u p s (length p) d))) as K by (apply in_flat_map; now exists i).
    apply decl_keys in K as (x & E). cbn [about] in E. apply (module_not_type u Hu) in E; auto.
  - apply Forall_forall. intros i Hi. apply in_flat_map in Hi as (d & Hd & Hi).
    assert (mods u p = mods u ns) as Em.
    { symmetry. apply (mods_same u Hu); [exact (proj1 (Hg' ns s Hin))|exact (keys_held _ _ Hk _ _ Hh)|exact Hs]. }
    assert (gen_decl u p s (length p) d = gen_decl u ns s (length ns) d) as Eg.
    { rewrite (same_ns_length _ _ Hs). symmetry. now apply gen_decl_same. }
    rewrite Em. rewrite Eg in Hi. pose proof (items_ok u Hu schemas Hl Hv Hg ns s d (conj Hin Hd) (Hstd ns s Hin)) as K.
    rewrite Forall_forall in K. now apply K.
Qed.
End Program.

Lemma app_same_ns a : forall b c, same_ns c (a ++ b) -> exists a' b', c = a' ++ b' /\ same_ns a' a /\ same_ns b' b.
Proof. intros b c H. apply Forall2_app_inv_r in H as (x & y & H1 & H2 & ->). now exists x, y. Qed.
(** Two module paths with the same names belong to the same namespace. *)
Lemma mods_inj u (Hu : ascii_agrees u) a b : Forall (good_ident u) a -> Forall (good_ident u) b -> mods u a = mods u b -> same_ns a b.
Proof.
  intros Ha. revert b. induction Ha as [|x a Hx Ha IH]; intros [|y b] Hb E; try discriminate E; [constructor|]. inversion Hb; subst. cbn [mods map] in E.
  injection E as E1 E2. constructor; [|now apply IH]. apply (rust_name_inj u Hu Snake None None) in E1; auto. tauto.
Qed.
Lemma std_free u schemas : accepted u schemas -> std_is_free u schemas ->
  forall ns s, In (ns, s) schemas -> find_module (mods u ns ++ [txt "std"]) (rust_program u schemas) = None.
Proof.
  intros Ha Hf ns s Hin. destruct (find_module _ _) as [r|] eqn:E; [|reflexivity]. exfalso.
  pose proof (ac_unicode u schemas Ha) as Hu. pose proof (ac_loaded u schemas Ha) as Hl.
  assert (forall ns s, In (ns, s) schemas -> good_file u ns s) as Hg by (intros a b H; exact (proj1 (ac_names u schemas Ha a b H))).
  apply (module_from u schemas Ha _ (module_tree schemas) []) in E as (p & n & Ep & Hsub & _). apply sub_holds in Hsub as Hh.
  pose proof (keys_held _ _ (schemas_keys u schemas Hg) _ _ Hh) as Hp.
  destruct (rev p) as [|k q] eqn:Er; [apply (f_equal (@rev ident)) in Er; rewrite rev_involutive in Er; subst p; symmetry in Ep; now apply app_cons_not_nil in Ep|].
  apply (f_equal (@rev ident)) in Er. rewrite rev_involutive in Er. cbn [rev] in Er. subst p.
  unfold mods in Ep. rewrite map_app in Ep. cbn [map] in Ep. apply app_inj_tail in Ep as [Ep Ek]. apply Forall_app in Hp as [Hp Hk]. inversion Hk as [|? ? Hk1 _]; subst.
  apply (mods_inj u Hu) in Ep; [|exact (proj1 (Hg ns s Hin))|exact Hp].
  assert (exists ns2 s2 rest, In (ns2, s2) schemas /\ same_ns ns2 ((rev q ++ [k]) ++ rest)) as (ns2 & s2 & rest & H2 & Hs).
  { destruct (schemas_tree u Hu schemas Hl Hg) as (_ & _ & Kh). destruct (Kh _ _ Hh) as [(ns2 & A & B)|(_ & [A|(ns2 & s2 & A & B)] & _)].
    - exists ns2, (module_schema n), []. now rewrite app_nil_r.
    - symmetry in A. now apply app_cons_not_nil in A.
    - destruct B as (pre & rest & -> & _ & B). exists (pre ++ rest), s2, rest. split; [exact A|]. apply same_ns_app; [now apply same_ns_sym|apply same_ns_refl]. }
  rewrite <- app_assoc in Hs. apply app_same_ns in Hs as (a & b & -> & A & B). cbn [app] in B. inversion B as [|k2 ? rest2 ? B1 B2]; subst.
  pose proof (proj1 (Hg _ _ H2)) as G. apply Forall_app in G as [Ga Gb]. inversion Gb; subst.
  apply (Hf ns s a k2 rest2 s2 Hin H2).
  - apply (same_ns_trans _ (rev q)); [exact Ep|now apply same_ns_sym].
  - assert (mods u [k2] = mods u [k]) as M by (apply mods_same; [exact Hu|now constructor|exact Hk|constructor; [exact B1|constructor]]).
    injection M as ->. now symmetry.
Qed.
Lemma accepted_well_typed u schemas : accepted u schemas -> std_is_free u schemas -> well_typed (rust_program u schemas).
Proof. intros Ha Hs. apply program_typed; [exact Ha|]. now apply std_free. Qed.
