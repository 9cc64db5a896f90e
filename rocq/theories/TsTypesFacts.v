(** The types in a generated TypeScript module: which definitions their names lead to, and which values they have. *)
From Verif Require Import TypesFacts IdentFacts NamesFacts ParserFacts ModuleFacts BaseFacts TreeFacts CodeFacts RustAtlasFacts.
From Verif Require Export TsTypes TsLinkFacts TsSimBase.

Section Defs.
Context (u : unicode).
Definition tdef_of (ns : namespace) (s : sschema) (k : skind) (name : ident) (fields : list sfield) (x : suffix) : tdef :=
  match k with SkStruct => tgen_struct u ns s name fields x | SkChoice => tgen_choice u ns s name fields x end.
Lemma tdef_of_name ns s k name fields x : tdef_name (tdef_of ns s k name fields x) = ttype_name u name x.
Proof. now destruct k. Qed.
Lemma decl_types ns s d : td_types (tgen_decl u ns s d) = map (tdef_of ns s (sd_kind d) (sd_name d) (sd_fields d)) [SAtlas; SOut; SIn].
Proof. unfold tgen_decl. now destruct (sd_kind d). Qed.
Lemma tdef_of_same (Hu : ascii_agrees u) ns here s k name fields x : same_ns ns here -> Forall (good_ident u) ns -> Forall (good_ident u) here ->
  tdef_of ns s k name fields x = tdef_of here s k name fields x.
Proof.
  intros H H1 H2. unfold tdef_of. destruct k.
  - unfold tgen_struct. do 2 f_equal. apply map_ext. intros f. now rewrite (tgen_type_same u Hu s ns here).
  - unfold tgen_choice. do 2 f_equal. apply map_ext. intros f. unfold tgen_case. now rewrite (tgen_type_same u Hu s ns here).
Qed.
(** The references of a type lead to the definitions of the tree. *)
Context (prog : tmod).
Definition built_in : list str := map txt ["number"; "bigint"; "boolean"; "string"; "null"; "undefined"; "ArrayBuffer"; "Error"]%string.
Record tyinstalled (ns : namespace) (s : sschema) (k : skind) (name : ident) (fields : list sfield) : Prop := mkTyInstalled {
  yi_own : forall x, find_type prog (nspaces u ns) [ttype_name u name x] = Some (nspaces u ns, tdef_of ns s k name fields x);
  yi_built : forall g, In g built_in -> find_type prog (nspaces u ns) [g] = None;
  yi_fields : NoDup (map txt ["$fallback"; "$field"]%string ++ map (tfield_name u) fields) }.
Fixpoint tylinked (sc : scope) (ns : namespace) (s : sschema) (t : sty) (nt : nty) {struct nt} : Prop :=
  match nt with
  | NUnit => t = SyUnit | NF64 => t = SyF64 | NU64 => t = SyU64 | NS64 => t = SyS64 | NBool => t = SyBool
  | NBytes => t = SyBytes | NString => t = SyString
  | NArray nt' => exists t', t = SyArray t' /\ tylinked sc ns s t' nt'
  | NDecl ns2 s2 k name fs =>
      (exists i n, t = SyCustom i n /\ forall x, find_type prog sc (ttype_path u ns s i n (Some x)) = Some (nspaces u ns2, tdef_of ns2 s2 k name (map fst fs) x)) /\
      tyinstalled ns2 s2 k name (map fst fs) /\ allP (fun f => tylinked (nspaces u ns2) ns2 s2 (sf_type (fst f)) (snd f)) fs
  end.
End Defs.

Section Linking.
Context (u : unicode) (Hu : ascii_agrees u) (schemas : list (namespace * sschema)).
Context (Hl : loaded schemas) (Hv : valid schemas) (Hg : plain_names schemas u) (Hc : ts_clear_names u schemas).
Let tree := module_tree schemas.
Let prog := ts_program u schemas.
Let Hg' : forall ns s, In (ns, s) schemas -> good_file u ns s := fun ns s H => proj1 (Hg ns s H).
Let Htree := schemas_tree u Hu schemas Hl Hg'.
Let Hkeys := schemas_keys u schemas Hg'.

Lemma types_unique here s ch d x ds : holds tree here s -> In d (ss_decls s) ->
  types_of (ttype_name u (sd_name d) x) ([tgen_module u here (SModule ch s)], ds) = [tdef_of u here s (sd_kind d) (sd_name d) (sd_fields d) x].
Proof.
  intros Hh Hd. unfold types_of. cbn [fst flat_map tgen_module]. rewrite app_nil_r.
  assert (NoDup (ss_decls s)) as Hnd.
  { destruct Htree as (_ & _ & K). destruct (K here s Hh) as [(ns0 & Hin & _)|(-> & _)]; [|destruct Hd].
    pose proof (proj1 Hv ns0 s Hin) as D. clear -D. unfold all_distinct in D. induction (ss_decls s) as [|d l IH]; [constructor|].
    cbn [map] in D. inversion D as [|? ? D1 D2]; subst. constructor; [|now apply IH]. intros Hin. rewrite Forall_forall in D1.
    apply (D1 (sd_name d)); [now apply in_map|apply same_ident_refl]. }
  destruct (tree_decl u Hu schemas Hl Hv Hg' here s d d Hh Hd Hd) as [G2 _].
  assert (forall l, (forall e, In e l -> In e (ss_decls s) /\ e <> d) ->
    filter (fun t => str_eqb (ttype_name u (sd_name d) x) (tdef_name t)) (flat_map td_types (map (tgen_decl u here s) l)) = []) as K.
  { intros l Hl2. apply filter_nil. intros t Ht. apply in_flat_map in Ht as (td & Htd & Ht). apply in_map_iff in Htd as (e & <- & He).
    rewrite decl_types in Ht. apply in_map_iff in Ht as (y & <- & _). rewrite tdef_of_name. destruct (str_eqb _ _) eqn:E; [|reflexivity]. exfalso.
    destruct (Hl2 e He) as [H1 H2]. destruct (tree_decl u Hu schemas Hl Hv Hg' here s e d Hh H1 Hd) as [G1 U1].
    apply str_eqb_eq in E. unfold ttype_name in E. apply ts_name_inj in E as [E _]; auto; [|discriminate|right; split; discriminate]. apply H2, U1. now apply same_ident_sym. }
  apply in_split in Hd as (l & r & E). rewrite E in *. rewrite map_app, flat_map_app, filter_app. cbn [map flat_map]. rewrite filter_app, decl_types.
  apply NoDup_remove_2 in Hnd. rewrite (K l), (K r), app_nil_r.
  2:{ intros e He. split; [apply in_app_iff; now right; right|]. intros ->. apply Hnd, in_app_iff. now right. }
  2:{ intros e He. split; [apply in_app_iff; now left|]. intros ->. apply Hnd, in_app_iff. now left. }
  cbn [app map]. assert (forall y, str_eqb (ttype_name u (sd_name d) x) (tdef_name (tdef_of u here s (sd_kind d) (sd_name d) (sd_fields d) y)) = true -> x = y) as U.
  { intros y Ey. rewrite tdef_of_name in Ey. apply str_eqb_eq in Ey. unfold ttype_name in Ey. apply ts_name_inj in Ey as [_ Ey]; auto; [congruence|discriminate|right; split; discriminate]. }
  assert (str_eqb (ttype_name u (sd_name d) x) (tdef_name (tdef_of u here s (sd_kind d) (sd_name d) (sd_fields d) x)) = true) as U1 by (rewrite tdef_of_name; apply str_eqb_refl).
  cbn [filter]. repeat (match goal with |- context [if str_eqb ?a ?b then _ else _] => destruct (str_eqb a b) eqn:?Q end);
    repeat match goal with Q : str_eqb _ _ = true |- _ => lazymatch type of Q with context [tdef_of _ _ _ _ _ _ x] => fail | _ => apply U in Q end end; subst; try congruence; try reflexivity; destruct x; congruence.
Qed.
Lemma no_type g a c ds : sub tree a c -> forallb (fun x => negb (ends_with (suffix_str x) g)) [SAtlas; SOut; SIn] = true ->
  types_of g ([tgen_module u a c], ds) = [].
Proof.
  intros Hs Hx. unfold types_of. cbn [fst flat_map]. rewrite app_nil_r. apply filter_nil. intros t Ht. destruct c as [ch s]. cbn [tgen_module] in Ht.
  apply in_flat_map in Ht as (td & Htd & Ht). apply in_map_iff in Htd as (d & <- & Hd). rewrite decl_types in Ht. apply in_map_iff in Ht as (x & <- & Hin).
  rewrite tdef_of_name. destruct (str_eqb _ _) eqn:E; [|reflexivity]. exfalso. apply str_eqb_eq in E.
  pose proof (sub_holds _ _ _ Hs) as Hh. cbn [module_schema] in Hh. destruct (tree_decl u Hu schemas Hl Hv Hg' a s d d Hh Hd Hd) as [(E1 & E2 & _) _].
  unfold ttype_name, ts_name in E. cbv zeta in E. rewrite forallb_forall in Hx. specialize (Hx x Hin).
  rewrite E1 in E. destruct (existsb _ _).
  - apply (suffixed_not_in u Hu (original (sd_name d)) x [g] (txt "_") E2); [cbn [forallb]; now rewrite Hx|]. left. exact E.
  - apply (suffixed_not_in u Hu (original (sd_name d)) x [g] [] E2); [cbn [forallb]; now rewrite Hx|]. left. exact E.
Qed.
Lemma find_type_path sc x rest : rest <> [] -> find_type prog sc (x :: rest) =
  outward (fun p =>
        match namespace_at prog p with
        | None => Some None
        | Some n =>
            match member x n with
            | None => None
            | Some n' =>
                Some (match descend (removelast rest) n' with
                      | Some n'' => match types_of (last rest []) n'' with [t] => Some (p ++ x :: removelast rest, t) | _ => None end
                      | None => None
                      end)
            end
        end) None (rev sc).
Proof. now destruct rest. Qed.
Lemma place_of ns s d : declared schemas ns s d -> exists here ch ds, same_ns ns here /\ Forall (good_ident u) here /\ holds tree here s /\ nspaces u ns = nspaces u here /\
  namespace_at prog (nspaces u ns) = Some ([tgen_module u here (SModule ch s)], ds).
Proof.
  intros [Hin Hd]. destruct (tree_place u Hu schemas Hl Hg' ns s Hin) as (here & H1 & H2 & H3). destruct (holds_sub _ _ _ H2) as (ch & Hs).
  destruct (at_module u Hu schemas Hl Hg here _ Hs) as (ds & _ & E). exists here, ch, ds.
  assert (nspaces u ns = nspaces u here) as Es by (apply (nspaces_same u Hu); auto; exact (proj1 (Hg' ns s Hin))).
  repeat (split; [assumption|]). now rewrite Es.
Qed.
Lemma own_type ns s d x : declared schemas ns s d ->
  find_type prog (nspaces u ns) [ttype_name u (sd_name d) x] = Some (nspaces u ns, tdef_of u ns s (sd_kind d) (sd_name d) (sd_fields d) x).
Proof.
  intros Hd. destruct (place_of ns s d Hd) as (here & ch & ds & H1 & H2 & H3 & H4 & H5). cbn [find_type].
  apply (outward_found _ _ (nspaces u ns) (nspaces u ns) []); [now rewrite app_nil_r| |].
  - rewrite H5, (types_unique here s ch d x ds H3 (proj2 Hd)). do 3 f_equal. symmetry. apply (tdef_of_same u Hu); auto. exact (proj1 (Hg' ns s (proj1 Hd))).
  - intros a' b' E L. rewrite E, app_length in L. lia.
Qed.
Lemma global_type ns s d g : declared schemas ns s d -> forallb (fun x => negb (ends_with (suffix_str x) g)) [SAtlas; SOut; SIn] = true ->
  find_type prog (nspaces u ns) [g] = None.
Proof.
  intros Hd Hx. cbn [find_type]. apply outward_top. intros a b E.
  destruct (place_of ns s d Hd) as (here & ch & ds & H1 & H2 & H3 & H4 & H5). rewrite H4 in E. unfold nspaces in E. apply map_eq_app in E as (a0 & b0 & -> & Ea & Eb).
  destruct (holds_prefix tree a0 b0 s H3) as [sa Ha]. destruct (holds_sub _ _ _ Ha) as (ch' & Hs).
  destruct (at_module u Hu schemas Hl Hg a0 _ Hs) as (ds' & _ & D). unfold nspaces in D. rewrite Ea in D. fold prog in D. rewrite D, (no_type g a0 _ ds' Hs Hx). reflexivity.
Qed.
(** A path from the top, written where its first name is not hidden. *)
Lemma path_type sc ns2 s2 d2 x : declared schemas ns2 s2 d2 ->
  (forall k rest, nspaces u ns2 = k :: rest -> forall a b, sc = a ++ b -> a <> [] -> exists n, namespace_at prog a = Some n /\ member k n = None) ->
  find_type prog sc (nspaces u ns2 ++ [ttype_name u (sd_name d2) x]) = Some (nspaces u ns2, tdef_of u ns2 s2 (sd_kind d2) (sd_name d2) (sd_fields d2) x).
Proof.
  intros Hd Hh. destruct (place_of ns2 s2 d2 Hd) as (here & ch & ds & H1 & H2 & H3 & H4 & H5).
  pose proof (cn_placed u schemas Hc ns2 s2 (proj1 Hd)) as Hne.
  destruct (nspaces u ns2) as [|k rest] eqn:Ek; [destruct ns2; [now destruct Hne|discriminate Ek]|]. cbn [app].
  rewrite find_type_path by (intros K; symmetry in K; now apply app_cons_not_nil in K). rewrite removelast_last, last_last.
  unfold namespace_at in H5. cbn [descend] in H5.
  apply (outward_found _ _ sc [] sc); [reflexivity| |].
  - unfold namespace_at. cbn [descend]. destruct (member k ([prog], [])) as [n'|] eqn:En; [|discriminate H5]. rewrite H5, (types_unique here s2 ch d2 x ds H3 (proj2 Hd)).
    cbn [app]. do 3 f_equal. symmetry. apply (tdef_of_same u Hu); auto. exact (proj1 (Hg' ns2 s2 (proj1 Hd))).
  - intros a b E L. destruct (Hh k rest eq_refl a b E) as (n & N1 & N2); [now destruct a; [cbn in L; lia|]|]. now rewrite N1, N2.
Qed.
Lemma top_type ns s d x : declared schemas ns s d ->
  find_type prog [] (nspaces u ns ++ [ttype_name u (sd_name d) x]) = Some (nspaces u ns, tdef_of u ns s (sd_kind d) (sd_name d) (sd_fields d) x).
Proof. intros Hd. apply path_type; [exact Hd|]. intros k rest _ a b E Ha. destruct a; [congruence|discriminate E]. Qed.
Lemma reference_type ns s d f i n ns2 s2 d2 ns' x : declared schemas ns s d -> In f (sd_fields d) -> mentions (sf_type f) i n ->
  leads_to ns s i ns' -> declared schemas ns2 s2 d2 -> same_q (ns2, sd_name d2) (ns', n) ->
  find_type prog (nspaces u ns) (ttype_path u ns s i n (Some x)) = Some (nspaces u ns2, tdef_of u ns2 s2 (sd_kind d2) (sd_name d2) (sd_fields d2) x).
Proof.
  intros Hd Hf Hm Hlead Hd2 Hq. destruct (tree_place u Hu schemas Hl Hg' ns s (proj1 Hd)) as (here & P1 & P2 & P3).
  destruct (mention_target u Hu schemas Hl Hv Hg' ns s d f i n here Hd Hf Hm P1 P3) as (tns & ns3 & s3 & d3 & there & A & B1 & B2 & C & (ns'' & D1 & D2) & E & F & F' & G & H & I & J).
  pose proof (loaded_imports schemas Hl ns s (proj1 Hd)) as Hs.
  apply (type_namespace_iff ns s i ns' Hs) in Hlead. apply (type_namespace_iff ns s i ns'' Hs) in D1.
  assert (ns'' = ns') as -> by congruence.
  destruct (declared_unique schemas Hl Hv ns2 s2 d2 ns3 s3 d3 Hd2 C) as (<- & <- & <-).
  { apply (same_q_trans _ (ns', n)); [exact Hq|now apply same_q_sym]. }
  pose proof (proj1 (Hg' ns s (proj1 Hd))) as Gn. pose proof (proj1 (Hg' ns2 s2 (proj1 Hd2))) as Gn2.
  assert (nspaces u tns = nspaces u ns2) as Et.
  { transitivity (nspaces u there); [now apply (nspaces_same u Hu)|]. symmetry. now apply (nspaces_same u Hu). }
  assert (forall y, ts_path u s ns i n y = Some (nspaces u ns2 ++ [ts_name u (sd_name d2) Pascal y])) as Ep.
  { intros y. rewrite (ts_path_same u Hu s ns here P1 Gn P3). unfold ts_path. rewrite A. fold (nspaces u tns). rewrite Et. do 3 f_equal. apply (ts_name_same u Hu); auto. now apply same_ident_sym. }
  unfold ttype_path. rewrite Ep. apply path_type; [exact Hd2|]. intros k rest Ek a b Ea Ha.
  pose proof (Ep None) as Ep'. rewrite Ek in Ep'. cbn [app] in Ep'.
  destruct (around_none u Hu schemas Hl Hv Hg ns s d k a (b ++ [ts_name u (sd_name d) Pascal None]) false Hd) as (n' & N1 & N2 & _).
  - exact (cn_types u schemas Hc ns s d f i n _ _ Hd Hf Hm Ep').
  - destruct ns2 as [|k0 ns2]; [discriminate Ek|]. cbn [nspaces map] in Ek. injection Ek as <- _. inversion Gn2 as [|? ? Gk _]; subst.
    destruct (existsb _ own_names) eqn:Eo; [|reflexivity]. exfalso. apply existsb_In in Eo. pose proof (proj1 (pascal_name u Hu k0 Gk)) as Sk.
    assert (forallb starts_small own_names = true) as Fo by reflexivity. rewrite forallb_forall in Fo. rewrite (Fo _ Eo) in Sk. discriminate.
  - unfold dscope. now rewrite Ea, <- app_assoc.
  - now left.
  - now exists n'.
Qed.
Lemma built_in_unsuffixed g : In g built_in -> forallb (fun x => negb (ends_with (suffix_str x) g)) [SAtlas; SOut; SIn] = true.
Proof. revert g. apply Forall_forall. repeat constructor. Qed.
Lemma top_global g : In g built_in -> find_type prog [] [g] = None.
Proof.
  intros Hin. cbn [find_type rev]. apply (outward_top _ _ []). intros a b E. symmetry in E. apply app_eq_nil in E as [-> ->].
  destruct (holds_sub _ _ _ (sub_holds _ [] _ (sub_here tree))) as (ch' & Hs).
  destruct (at_module u Hu schemas Hl Hg [] _ Hs) as (ds' & _ & D). cbn [nspaces map] in D. fold prog in D. rewrite D, (no_type g [] _ ds' Hs (built_in_unsuffixed g Hin)). reflexivity.
Qed.
Lemma decl_tyinstalled ns s d : declared schemas ns s d -> tyinstalled u prog ns s (sd_kind d) (sd_name d) (sd_fields d).
Proof.
  intros H. constructor; [intros x; now apply own_type|intros g Hin; apply (global_type ns s d); [exact H|revert Hin; apply built_in_unsuffixed]|].
  pose proof (ti_fields _ _ _ _ _ _ _ _ (decl_tinstalled u Hu schemas Hl Hv Hg Hc ns s d H)) as N1. cbn [map app] in *.
  inversion N1 as [|? ? _ N2]; subst. inversion N2 as [|? ? A1 N3]; subst. inversion N3 as [|? ? A2 N4]; subst. inversion N4 as [|? ? A3 N5]; subst.
  constructor; [|constructor; [|exact N5]].
  - intros [K|K]; [now apply A1; left|]. apply A1. right. now right.
  - intros K. apply A2. now right.
Qed.
Lemma named_tylinked :
  (forall ns s t nt, named schemas ns s t nt -> forall d, declared schemas ns s d ->
     (forall i n, mentions t i n -> exists f, In f (sd_fields d) /\ mentions (sf_type f) i n) ->
     tylinked u prog (nspaces u ns) ns s t nt) /\
  (forall ns s fs fts, named_fields schemas ns s fs fts -> forall d, declared schemas ns s d -> (forall f, In f fs -> In f (sd_fields d)) ->
     map fst fts = fs /\ allP (fun f => tylinked u prog (nspaces u ns) ns s (sf_type (fst f)) (snd f)) fts).
Proof.
  apply (named_both schemas
    (fun ns s t nt _ => forall d, declared schemas ns s d ->
     (forall i n, mentions t i n -> exists f, In f (sd_fields d) /\ mentions (sf_type f) i n) ->
     tylinked u prog (nspaces u ns) ns s t nt)
    (fun ns s fs fts _ => forall d, declared schemas ns s d -> (forall f, In f fs -> In f (sd_fields d)) ->
     map fst fts = fs /\ allP (fun f => tylinked u prog (nspaces u ns) ns s (sf_type (fst f)) (snd f)) fts)).
  1: { intros ns s t T H IH d Hd Hm. cbn [tylinked]. exists t. split; [reflexivity|]. apply (IH d); auto. intros i n Hi. apply Hm. now constructor. }
  1-7: intros; reflexivity.
  - intros ns s i n ns' ns2 s2 d2 fs Hlead Hd2 Hq Hf IH d Hd Hm. destruct (Hm i n (mentions_custom i n)) as (f & A1 & A2).
    destruct (IH d2 Hd2 (fun f H => H)) as [I1 I2]. cbn [tylinked]. rewrite I1. split; [|split; [now apply decl_tyinstalled|exact I2]].
    exists i, n. split; [reflexivity|]. intros x. now apply (reference_type ns s d f i n ns2 s2 d2 ns').
  - intros ns s d _ _. split; [reflexivity|exact I].
  - intros ns s f fs T Ts H1 IH1 H2 IH2 d Hd Hfs. destruct (IH2 d Hd) as [I1 I2]; [intros g Hg2; apply Hfs; now right|].
    cbn [map fst allP snd]. split; [now f_equal|]. split; [|exact I2]. apply (IH1 d); auto. intros i n Hm. exists f. split; [apply Hfs; now left|exact Hm].
Qed.
Lemma decl_tylinked ns s d fs : declared schemas ns s d -> named_fields schemas ns s (sd_fields d) fs ->
  map fst fs = sd_fields d /\ tyinstalled u prog ns s (sd_kind d) (sd_name d) (map fst fs) /\
  allP (fun f => tylinked u prog (nspaces u ns) ns s (sf_type (fst f)) (snd f)) fs.
Proof.
  intros Hd Hf. destruct (proj2 named_tylinked _ _ _ _ Hf d Hd (fun f H => H)) as [E H]. rewrite E. split; [reflexivity|].
  split; [now apply decl_tyinstalled|exact H].
Qed.
(** Types as they are written inside the namespace of a declaration. *)
Lemma types_of_modules g ms ds : Forall (fun m => types_of g ([m], []) = []) ms -> types_of g (ms, ds) = [].
Proof.
  intros H. unfold types_of in *. cbn [fst] in *. induction H as [|m ms H _ IH]; [reflexivity|]. cbn [flat_map] in *. rewrite app_nil_r in H. now rewrite filter_app, H, IH.
Qed.
Lemma inner_global ns s d g : declared schemas ns s d -> In g built_in -> find_type prog (dscope u ns (sd_name d)) [g] = None.
Proof.
  intros Hd Hin. cbn [find_type]. apply outward_top. intros a b E. destruct (around u Hu schemas Hl Hv Hg ns s d a b Hd E) as (ms & ds & E1 & _ & M & _).
  fold prog in E1. rewrite E1, types_of_modules; [reflexivity|]. eapply Forall_impl; [|exact M]. intros m (a' & b' & c & _ & _ & C & ->).
  exact (no_type g a' c [] C (built_in_unsuffixed g Hin)).
Qed.
Lemma inner_type ns s d x : declared schemas ns s d -> (forall ns' s' d', declared schemas ns' s' d' -> ~ same_ns ns' (ns ++ [sd_name d])) ->
  find_type prog (dscope u ns (sd_name d)) [ttype_name u (sd_name d) x] = Some (nspaces u ns, tdef_of u ns s (sd_kind d) (sd_name d) (sd_fields d) x).
Proof.
  intros Hd Hno. destruct (place_of ns s d Hd) as (here & ch & ds & H1 & H2 & H3 & H4 & H5). cbn [find_type].
  apply (outward_found _ _ (dscope u ns (sd_name d)) (nspaces u ns) [ts_name u (sd_name d) Pascal None]); [reflexivity| |].
  - rewrite H5, (types_unique here s ch d x ds H3 (proj2 Hd)). do 3 f_equal. symmetry. apply (tdef_of_same u Hu); auto. exact (proj1 (Hg' ns s (proj1 Hd))).
  - intros a' b' E L. assert (b' = []) as ->.
    { pose proof E as E'. apply (f_equal (@length _)) in E'. unfold dscope in E'. rewrite !app_length in E'. cbn [length] in E'. destruct b'; [reflexivity|]. cbn [length] in E'. lia. }
    destruct (around u Hu schemas Hl Hv Hg ns s d a' [] Hd E) as (ms & ds' & E1 & _ & M & _). fold prog in E1. rewrite E1, types_of_modules; [reflexivity|].
    eapply Forall_impl; [|exact M]. intros m (a2 & b2 & c & A & B & C & ->). pose proof (sub_holds _ _ _ C) as Hh.
    assert (b2 = []) as ->.
    { apply same_ns_length in A. rewrite !app_length in A. rewrite app_nil_r in E. rewrite <- E in B. unfold dscope, nspaces in B. rewrite app_length, map_length in B. cbn [length] in *. destruct b2; [reflexivity|cbn [length] in A; lia]. }
    rewrite app_nil_r in A. destruct Htree as (_ & _ & K). destruct c as [ch' s']. cbn [module_schema] in Hh.
    assert (ss_decls s' = []) as Ed.
    { destruct (K a2 s' Hh) as [(ns0 & Hin & Hs)|(-> & _)]; [|reflexivity]. destruct (ss_decls s') as [|d' l] eqn:Ed; [reflexivity|]. exfalso.
      apply (Hno ns0 s' d'); [split; [exact Hin|rewrite Ed; now left]|]. apply (same_ns_trans _ a2); [exact Hs|now apply same_ns_sym]. }
    unfold types_of. cbn [fst flat_map tgen_module]. rewrite Ed. reflexivity.
Qed.
End Linking.

(** ** Values *)
Lemma lookup_in {A} x (ps : list (str * A)) v : lookup x ps = Some v -> In x (map fst ps).
Proof. induction ps as [|[y w] ps IH]; [discriminate|]. cbn [lookup map fst]. destruct (str_eqb x y) eqn:E; [intros _; left; now apply str_eqb_eq in E|]. intros H. right. auto. Qed.
Lemma in_lookup {A} x (ps : list (str * A)) : In x (map fst ps) -> exists v, lookup x ps = Some v.
Proof. induction ps as [|[y w] ps IH]; intros H; [destruct H|]. cbn [lookup]. destruct (str_eqb x y) eqn:E; [eauto|]. destruct H as [H|H]; [cbn in H; subst; rewrite str_eqb_refl in E; discriminate|auto]. Qed.
Lemma own_get ps x : In x (map fst ps) -> exists v : jv, lookup x ps = Some v /\ obj_get ps x = v.
Proof. intros H. apply in_lookup in H as (v & E). exists v. unfold obj_get. now rewrite E. Qed.
Section Values.
Context (u : unicode) (prog : tmod) (h : heap).
Notation has := (ts_has prog true h).
Definition in_typed (v : val) : Prop :=
  (forall lo sc ns s t nt m, tylinked u prog sc ns s t nt -> find_type prog sc [txt "ArrayBuffer"] = None -> wt DIn v (erase nt) -> js_value u DIn h lo v nt m ->
     has sc (tgen_type u ns s t SIn) m) /\
  (forall lo ns s k name fs m, tyinstalled u prog ns s k name (map fst fs) -> allP (fun f => tylinked u prog (nspaces u ns) ns s (sf_type (fst f)) (snd f)) fs ->
     wt DIn v (erase (NDecl ns s k name fs)) -> js_value u DIn h lo v (NDecl ns s k name fs) m ->
     forall sc p, find_type prog sc p = Some (nspaces u ns, tdef_of u ns s k name (map fst fs) SIn) -> has sc (TtPath p) m).
Lemma by_decl v : (forall lo ns s k name fs m, tyinstalled u prog ns s k name (map fst fs) -> allP (fun f => tylinked u prog (nspaces u ns) ns s (sf_type (fst f)) (snd f)) fs ->
     wt DIn v (erase (NDecl ns s k name fs)) -> js_value u DIn h lo v (NDecl ns s k name fs) m ->
     forall sc p, find_type prog sc p = Some (nspaces u ns, tdef_of u ns s k name (map fst fs) SIn) -> has sc (TtPath p) m) ->
  (match v with VStruct _ | VChoice _ _ _ => True | _ => False end) -> in_typed v.
Proof.
  intros K Hv. split; [|exact K]. intros lo sc ns s t nt m Hk Hb Hw Hm.
  destruct nt; try (exfalso; destruct v; cbn [erase wt] in *; contradiction). destruct Hk as ((i & n & -> & Hp) & Hi & Hf).
  cbn [tgen_type]. apply (K lo _ _ _ _ _ m Hi Hf Hw Hm sc _ (Hp SIn)).
Qed.
Lemma values_typed : forall v, in_typed v.
Proof.
  induction v as [|x|n|z|x|bs|s|n|vs IH|ovs IH|i p fb IHp IHfb] using val_ind'.
  1-8: split; [intros lo sc ns s0 t nt m Hk Hb Hw Hm; destruct nt; cbn [erase wt] in Hw; try contradiction; cbn [tylinked js_value] in *|intros lo ns s0 k name fs m Hi Hf Hw; exfalso; destruct k; exact Hw].
  all: try (destruct k; contradiction).
  - subst. constructor.
  - subst t. destruct Hm as [-> |[_ ->]]; constructor.
  - subst. constructor.
  - subst. constructor.
  - subst. constructor.
  - subst t. destruct Hm as (r & -> & _ & Hr). econstructor; eassumption.
  - subst. constructor.
  - destruct Hk as (t' & -> & Hk). cbn [erase wt] in Hw. destruct nt; cbn [erase] in Hw; try contradiction; [|destruct k; contradiction].
    cbn [tylinked] in Hk. subst t'. destruct Hm as (r & -> & _ & Hr). cbn [tgen_type]. econstructor; [exact Hr|]. apply Forall_forall. intros y Hy. apply repeat_spec in Hy. subst. constructor.
  - split; [|intros lo ns s0 k name fs m Hi Hf Hw; exfalso; destruct k; exact Hw]. intros lo sc ns s t nt m Hk Hb Hw Hm.
    destruct nt; cbn [erase wt] in Hw; try contradiction; try (destruct k; contradiction).
    destruct Hk as (t' & -> & Hk). destruct Hw as [_ Hw]. cbn [js_value] in Hm. destruct Hm as (r & ms & -> & _ & Hr & Hm).
    cbn [tgen_type]. econstructor; [exact Hr|]. clear Hr. revert ms Hm. induction IH as [|v vs [Hv _] _ IHvs]; intros [|m ms] Hm; try contradiction; [constructor|].
    cbn [allP all2P] in *. destruct Hw as [Hw1 Hw2], Hm as [Hm1 Hm2]. constructor; [|auto]. now apply (Hv lo sc ns s t' nt m).
  - apply by_decl; [|exact I]. intros lo ns s k name fs m Hi Hf Hw Hm sc p Hp. destruct k; [|cbn [erase wt] in Hw; contradiction].
    cbn [tdef_of] in Hp. unfold tgen_struct in Hp. cbn [app] in Hp. apply (th_struct _ _ _ sc p _ _ _ m Hp). cbn [js_value] in Hm.
    destruct Hm as (ps & -> & En & Hm). specialize (En eq_refl). cbn [erase wt] in Hw. pose proof (yi_built _ _ _ _ _ _ _ Hi (txt "ArrayBuffer") ltac:(cbn; tauto)) as Hb. clear Hp Hi. constructor.
    2:{ intros _ x Hx. rewrite En in Hx. rewrite !map_map. cbn [fst]. exact Hx. }
    rewrite map_map. apply Forall_forall. intros e He. apply in_map_iff in He as (f & <- & Hin). cbn [fst snd].
    assert (In (tfield_name u (fst f)) (map fst ps)) as Hx by (rewrite En; apply in_map_iff; eauto).
    destruct (own_get ps _ Hx) as (w & E1 & E2). exists w. split; [exact E1|]. clear En Hx E1. subst w. revert Hw Hm. clear - IH Hin Hf Hb. revert fs Hf Hin.
    induction IH as [|ov ovs Hov _ IHo]; intros [|g fs] Hf Hin Hw Hm; try contradiction. cbn [map all2P allP] in *.
    destruct Hw as [Hw1 Hw2], Hm as [Hm1 Hm2], Hf as [Hf1 Hf2]. destruct Hin as [->|Hin]; [|now apply IHo with fs].
    cbn [f_type f_rule] in Hw1. destruct ov as [v|].
    + destruct Hov as [Hov _]. pose proof (Hov lo _ _ _ _ _ _ Hf1 Hb Hw1 Hm1) as K. destruct (sf_rule (fst f)); [|apply th_left..|]; try exact K. now apply th_left.
    + rewrite Hm1. destruct (sf_rule (fst f)); try discriminate Hw1; apply th_right; constructor.
  - apply by_decl; [|exact I]. intros lo ns s k name fs m Hi Hf Hw Hm sc p0 Hp. destruct k; [cbn [erase wt] in Hw; contradiction|].
    cbn [erase decl_type] in Hw. cbn [wt js_value] in Hw, Hm. change (map (fun f : sfield * nty => {| f_index := sf_index (fst f); f_rule := sf_rule (fst f); f_type := erase (snd f) |}) fs) with (map erase_field fs) in Hw.
    rewrite find_erased in Hw. destruct (named_field i fs) as [f|] eqn:Ef; [|contradiction]. cbn [erase_field f_type f_rule] in Hw. destruct Hw as [Hw1 Hw2].
    destruct Hm as (ps & -> & Hm1 & Hm2 & Hm3 & En). pose proof (named_in _ _ _ Ef) as [Hin _]. pose proof (yi_built _ _ _ _ _ _ _ Hi (txt "ArrayBuffer") ltac:(cbn; tauto)) as Hb.
    cbn [tdef_of] in Hp. unfold tgen_choice in Hp.
    apply (th_choice _ _ _ sc p0 _ _ _ (tgen_case u ns s name SIn (fst f)) _ Hp); [apply in_app_iff; left; apply in_map, in_map, Hin|].
    assert (tylinked u prog (nspaces u ns) ns s (sf_type (fst f)) (snd f)) as Hl by (clear -Hf Hin; induction fs as [|g fs IH]; [destruct Hin|]; cbn [allP] in Hf; destruct Hin as [->|Hin]; [apply Hf|apply IH; [apply Hf|exact Hin]]).
    assert (forall x, In x (map fst ps) -> exists v, lookup x ps = Some v /\ obj_get ps x = v) as Hget by (intros x Hx; now apply own_get).
    rewrite En in Hget. unfold tgen_case. constructor.
    + cbn [app]. constructor; [|constructor].
      * cbn [fst snd]. destruct (Hget (txt "$field")) as (w & G1 & G2); [now left|]. exists w. split; [exact G1|]. rewrite <- G2, Hm3. constructor.
      * cbn [fst snd]. destruct (Hget (tfield_name u (fst f))) as (w & G1 & G2); [now right; left|]. exists w. split; [exact G1|]. rewrite <- G2. now apply (proj1 IHp lo _ _ _ _ (snd f)).
      * destruct (sf_rule (fst f)) eqn:Er; [constructor| |constructor]. constructor; [|constructor]. destruct fb as [v'|]; [|discriminate Hw2]. cbn [fst snd].
        destruct (Hget (txt "$fallback")) as (w & G1 & G2); [now right; right; left|]. exists w. split; [exact G1|]. rewrite <- G2.
        destruct Hw2 as [_ Hw2]. apply (proj2 IHfb lo ns s SkChoice name fs _ Hi Hf Hw2 Hm2). exact (yi_own _ _ _ _ _ _ _ Hi SIn).
    + intros _ x Hx. rewrite En in Hx. cbn [app map fst] in *. destruct Hx as [<-|[<-|Hx]]; [now left|right; now left|]. right. right.
      destruct fb as [v'|]; [|destruct Hx]. destruct (sf_rule (fst f)); destruct Hw2 as [Hw2 _]; try discriminate Hw2. cbn [map fst]. exact Hx.
Qed.
End Values.
