(** The generated types have exactly the messages as values. *)
From Verif Require Import Spec TypesFacts IdentFacts NamesFacts ParserFacts.
From Verif Require Import TreeFacts CodeFacts.
From Verif Require Export RustLinkFacts RustTypes.

(** ** Induction on values *)
Section RvInd.
Context (P : rv -> Prop).
Context (HVec : forall l, Forall P l -> P (RvVec l)) (HOpt : forall o, optP P o -> P (RvOpt o)).
Context (HStruct : forall id fs, Forall (fun f => P (snd f)) fs -> P (RvStruct id fs)).
Context (HEnum : forall id c args, Forall P args -> P (RvEnum id c args)).
Context (HOther : forall v, match v with RvVec _ | RvOpt _ | RvStruct _ _ | RvEnum _ _ _ => False | _ => True end -> P v).
Fixpoint rv_ind' (v : rv) : P v :=
  match v with
  | RvVec l => HVec l ((fix go l : Forall P l := match l with [] => Forall_nil _ | v :: l' => Forall_cons _ (rv_ind' v) (go l') end) l)
  | RvOpt o => HOpt o (match o return optP P o with Some v => rv_ind' v | None => I end)
  | RvStruct id fs => HStruct id fs ((fix go l : Forall (fun f => P (snd f)) l := match l with [] => Forall_nil _ | f :: l' => @Forall_cons _ (fun f => P (snd f)) f l' (rv_ind' (snd f)) (go l') end) fs)
  | RvEnum id c args => HEnum id c args ((fix go l : Forall P l := match l with [] => Forall_nil _ | v :: l' => Forall_cons _ (rv_ind' v) (go l') end) args)
  | v => HOther v I
  end.
End RvInd.

(** ** Items *)
Definition data (u : unicode) (ns : namespace) (s : sschema) (d : sdecl) (x : suffix) : item :=
  match sd_kind d with SkStruct => gen_struct u ns s (sd_name d) (sd_fields d) x | SkChoice => gen_choice u ns s (sd_name d) (sd_fields d) x end.
Section Items.
Context (u : unicode) (Hu : ascii_agrees u).
Lemma find_item_app n a b : find_item n (a ++ b) = match find_item n a with Some i => Some i | None => find_item n b end.
Proof. induction a as [|[] a IH]; cbn [app find_item]; auto; destruct (str_eqb _ _); auto. Qed.
Lemma find_item_data n ns s d x l : find_item n (data u ns s d x :: l) =
  if str_eqb n (type_name u (sd_name d) x) then Some (data u ns s d x) else find_item n l.
Proof. unfold data, gen_struct, gen_choice. destruct (sd_kind d); reflexivity. Qed.
Lemma find_item_decl n ns s ind d : find_item n (gen_decl u ns s ind d) =
  if str_eqb n (type_name u (sd_name d) SAtlas) then Some (data u ns s d SAtlas) else
  if str_eqb n (type_name u (sd_name d) SOut) then Some (data u ns s d SOut) else
  if str_eqb n (type_name u (sd_name d) SIn) then Some (data u ns s d SIn) else None.
Proof. unfold gen_decl. cbv zeta. fold (data u ns s d SAtlas) (data u ns s d SOut) (data u ns s d SIn). now rewrite !find_item_data. Qed.
Lemma find_item_own ns s ind d x : good_ident u (sd_name d) -> find_item (type_name u (sd_name d) x) (gen_decl u ns s ind d) = Some (data u ns s d x).
Proof. intros Hg. rewrite find_item_decl, !(type_name_eqb u Hu) by exact Hg. destruct x; reflexivity. Qed.
Lemma find_item_among ns s ind ds d x : (forall e, In e ds -> good_ident u (sd_name e)) -> all_distinct (map sd_name ds) -> In d ds ->
  find_item (type_name u (sd_name d) x) (flat_map (gen_decl u ns s ind) ds) = Some (data u ns s d x).
Proof.
  intros Hg Hd Hin. induction ds as [|e ds IH]; [destruct Hin|]. cbn [flat_map map] in *. rewrite find_item_app.
  unfold all_distinct in Hd. inversion Hd as [|? ? H1 H2]; subst. destruct Hin as [<-|Hin].
  - rewrite find_item_own; [reflexivity|]. apply Hg. now left.
  - rewrite find_item_decl. rewrite Forall_forall in H1.
    assert (~ same_ident (sd_name d) (sd_name e)) as Hn by (intros E; apply (H1 (sd_name d)); [now apply in_map|now apply same_ident_sym]).
    assert (good_ident u (sd_name d)) as G1 by (apply Hg; now right). assert (good_ident u (sd_name e)) as G2 by (apply Hg; now left).
    rewrite !(type_name_neqb u Hu (sd_name d) (sd_name e)) by assumption.
    apply IH; auto. intros e' He. apply Hg. now right.
Qed.
Lemma find_item_name n ns s ind ds i : find_item n (flat_map (gen_decl u ns s ind) ds) = Some i ->
  exists d x, In d ds /\ n = type_name u (sd_name d) x.
Proof.
  induction ds as [|e ds IH]; cbn [flat_map]; [discriminate|]. rewrite find_item_app, find_item_decl. intros H.
  destruct (str_eqb n (type_name u (sd_name e) SAtlas)) eqn:E1; [apply str_eqb_eq in E1; exists e, SAtlas; split; [now left|exact E1]|].
  destruct (str_eqb n (type_name u (sd_name e) SOut)) eqn:E2; [apply str_eqb_eq in E2; exists e, SOut; split; [now left|exact E2]|].
  destruct (str_eqb n (type_name u (sd_name e) SIn)) eqn:E3; [apply str_eqb_eq in E3; exists e, SIn; split; [now left|exact E3]|].
  destruct (IH H) as (d & x & A & B). exists d, x. split; [now right|exact B].
Qed.
Lemma type_name_free d x p : good_ident u d -> In p rust_relied_on -> type_name u d x <> p.
Proof. intros (E & Hc & _) Hp H. apply (rust_types_not_captured u Hu (original d) x Hc). unfold type_name in H. rewrite <- E, H. exact Hp. Qed.
End Items.

Section Types.
Context (u : unicode) (Hu : ascii_agrees u) (schemas : list (namespace * sschema)).
Context (Hl : loaded schemas) (Hv : valid schemas) (Hg : plain_names schemas u).
Let tree := module_tree schemas.
Let prog := rust_program u schemas.
Let Hg' : forall ns s, In (ns, s) schemas -> good_file u ns s := fun ns s H => proj1 (Hg ns s H).
Definition owned (ns : namespace) (s : sschema) (t : sty) : Prop :=
  forall i n, mentions t i n -> exists d f, declared schemas ns s d /\ In f (sd_fields d) /\ mentions (sf_type f) i n.
Lemma decl_item ns s d x : declared schemas ns s d -> item_at prog (mods u ns, type_name u (sd_name d) x) = Some (data u ns s d x).
Proof.
  intros [Hin Hd]. unfold item_at. cbn [fst snd]. destruct (schema_module u Hu schemas Hl Hg ns s Hin) as (ch & E). fold prog in E. rewrite E.
  apply find_item_among; auto; [|exact (proj1 Hv ns s Hin)]. intros e He. exact (proj1 (proj2 (Hg' ns s Hin)) e He).
Qed.
Lemma no_item ns s p : In (ns, s) schemas -> In p rust_relied_on -> item_at prog (mods u ns, p) = None.
Proof.
  intros Hin Hp. unfold item_at. cbn [fst snd]. destruct (schema_module u Hu schemas Hl Hg ns s Hin) as (ch & E). fold prog in E. rewrite E.
  destruct (find_item _ _) eqn:Ef; [|reflexivity]. exfalso. apply find_item_name in Ef as (d & x & Hd & ->).
  now apply (type_name_free u Hu (sd_name d) x _ (proj1 (proj2 (Hg' ns s Hin)) d Hd) Hp).
Qed.
Lemma custom_resolves ns s i n nt x : In (ns, s) schemas -> owned ns s (SyCustom i n) -> named schemas ns s (SyCustom i n) nt ->
  exists ns2 s2 d2, declared schemas ns2 s2 d2 /\ decl_named schemas ns2 s2 d2 nt /\
    resolve prog (mods u ns) (type_path u ns s i n x) = Some (mods u ns2, type_name u (sd_name d2) x).
Proof.
  intros Hin Hm H. inversion H as [| | | | | | | |? ? ? ? ns' ns2 s2 d2 fs Hlead Hd Hq Hf]; subst.
  destruct (Hm i n (mentions_custom i n)) as (d & f & A1 & A2 & A3).
  destruct (rust_path_resolves u Hu schemas Hl Hv Hg' ns s d f i n x A1 A2 A3) as (here & path & ns3 & s3 & d3 & there & ns'' & B1 & B2 & B3 & B4 & B5 & B6 & B7 & B8 & B9 & _).
  pose proof (loaded_imports schemas Hl ns s Hin) as Hs.
  apply (type_namespace_iff ns s i ns' Hs) in Hlead. apply (type_namespace_iff ns s i ns'' Hs) in B5.
  assert (ns'' = ns') as -> by congruence.
  destruct (declared_unique schemas Hl Hv ns2 s2 d2 ns3 s3 d3 Hd B4) as (<- & <- & <-).
  { apply (same_q_trans _ (ns', n)); [exact Hq|now apply same_q_sym]. }
  exists ns2, s2, d2. split; [exact Hd|]. split; [exists fs; auto|].
  unfold type_path. rewrite (rust_path_same u s ns here i n x B1), B3.
  pose proof (proj1 (Hg' ns s Hin)) as Gn. pose proof (proj1 (Hg' ns2 s2 (proj1 Hd))) as Gn2.
  pose proof (keys_held _ _ (schemas_keys u schemas Hg') _ _ B2) as Gh. pose proof (keys_held _ _ (schemas_keys u schemas Hg') _ _ B8) as Gt.
  rewrite (mods_same u Hu ns here), (mods_same u Hu ns2 there) by assumption. now apply (resolve_path u Hu schemas Hl Hg).
Qed.
(** A path that leads to a declared type is not the name of a type that the code relies on. *)
Lemma resolved_free here p ns s d x q : declared schemas ns s d -> resolve prog here p = Some (mods u ns, type_name u (sd_name d) x) ->
  In q rust_relied_on -> p <> [q].
Proof.
  intros [Hin Hd] Hr Hq ->. cbn [resolve] in Hr. injection Hr as _ E. symmetry in E.
  now apply (type_name_free u Hu (sd_name d) x _ (proj1 (proj2 (Hg' ns s Hin)) d Hd) Hq).
Qed.

Lemma owned_field ns s d f : declared schemas ns s d -> In f (sd_fields d) -> owned ns s (sf_type f).
Proof. intros Hd Hf i n Hm. now exists d, f. Qed.
Lemma owned_array ns s t : owned ns s (SyArray t) -> owned ns s t.
Proof. intros H i n Hm. apply H. now constructor. Qed.
Definition field_type (dr : dir) (ns : namespace) (s : sschema) (f : sfield) : rtype :=
  let t := gen_type u ns s (sf_type f) (direction dr) in if always_present dr (sf_rule f) then t else option_type t.
Definition case_types (dr : dir) (ns : namespace) (s : sschema) (name : ident) (f : sfield) : list rtype :=
  (if is_unit_sty (sf_type f) then [] else [gen_type u ns s (sf_type f) (direction dr)]) ++
  (if has_fallback dr (sf_rule f) then [box (TyPath [type_name u name (direction dr)])] else []).
Lemma gen_struct_dir dr ns s name fields : gen_struct u ns s name fields (direction dr) =
  IStruct (type_name u name (direction dr)) (map (fun f => (field_name u f, field_type dr ns s f)) fields).
Proof.
  unfold gen_struct. f_equal. replace (match direction dr with SAtlas => [(txt "_size", ty_usize)] | _ => [] end) with (@nil (str * rtype)) by now destruct dr.
  cbn [app]. apply map_ext. intros f. unfold field_type. now destruct dr, (sf_rule f).
Qed.
Lemma gen_choice_dir dr ns s name fields : gen_choice u ns s name fields (direction dr) =
  IEnum (type_name u name (direction dr)) (map (fun f => (variant_name u f, case_types dr ns s name f)) fields).
Proof.
  unfold gen_choice. f_equal. apply map_ext. intros f. unfold case_types. now destruct dr, (sf_rule f).
Qed.
Lemma named_fields_fst ns s fs fts : named_fields schemas ns s fs fts -> map fst fts = fs.
Proof. induction 1; [reflexivity|]. cbn [map fst]. now f_equal. Qed.
Lemma named_fields_in ns s fs fts f nt : named_fields schemas ns s fs fts -> In (f, nt) fts -> In f fs /\ named schemas ns s (sf_type f) nt.
Proof.
  intros H. induction H as [|ns s g fs T Ts H1 H2 IH]; [intros []|]. intros [[= <- <-]|Hin]; [split; [now left|exact H1]|].
  destruct (IH Hin) as [A B]. split; [now right|exact B].
Qed.
Lemma named_field_in i fts f : named_field i fts = Some f -> In f fts /\ sf_index (fst f) = i.
Proof.
  induction fts as [|g fts IH]; cbn [named_field]; [discriminate|]. destruct (sf_index (fst g) =? i) eqn:E.
  - intros [= <-]. split; [now left|now apply N.eqb_eq].
  - intros H. destruct (IH H). split; [now right|assumption].
Qed.
Lemma find_named i fts : find_field i (map (fun f : sfield * nty => mkF (sf_index (fst f)) (sf_rule (fst f)) (erase (snd f))) fts) =
  match named_field i fts with Some f => Some (mkF i (sf_rule (fst f)) (erase (snd f))) | None => None end.
Proof.
  induction fts as [|f fts IH]; [reflexivity|]. cbn [map find_field named_field f_index]. destruct (sf_index (fst f) =? i) eqn:E; [|exact IH].
  apply N.eqb_eq in E. now rewrite E.
Qed.
Lemma named_unit ns s t nt : named schemas ns s t nt -> is_unit_sty t = is_unit (erase nt).
Proof. intros H. destruct H; try reflexivity. cbn [erase]. destruct (sd_kind d2); reflexivity. Qed.
Lemma gen_type_unit ns s t dr : gen_type u ns s t (direction dr) = TyUnit -> t = SyUnit.
Proof. destruct t, dr; cbn [gen_type direction]; try discriminate; reflexivity. Qed.
Lemma gen_type_u8 ns s t nt dr : In (ns, s) schemas -> owned ns s t -> named schemas ns s t nt -> gen_type u ns s t (direction dr) <> named_type "u8".
Proof.
  intros Hin Ho Hn. destruct t, dr; cbn [gen_type direction]; try discriminate; intros [= E];
    [destruct (custom_resolves ns s import name nt SOut Hin Ho Hn) as (ns2 & s2 & d2 & A & _ & C); change (direction DOut) with SOut in E
    |destruct (custom_resolves ns s import name nt SIn Hin Ho Hn) as (ns2 & s2 & d2 & A & _ & C); change (direction DIn) with SIn in E];
    eapply (resolved_free _ _ _ _ _ _ (txt "u8") A C); [apply existsb_In; reflexivity|exact E|apply existsb_In; reflexivity|exact E].
Qed.

(** ** Messages have the type *)
Lemma messages_typed dr v :
  (forall ns s t nt, In (ns, s) schemas -> owned ns s t -> named schemas ns s t nt -> wt dr v (erase nt) ->
     has_type prog (mods u ns) (gen_type u ns s t (direction dr)) (embed u dr v nt)) /\
  (forall ns s d nt here T, declared schemas ns s d -> decl_named schemas ns s d nt -> wt dr v (erase nt) ->
     refers_to prog here T (mods u ns, type_name u (sd_name d) (direction dr)) -> has_type prog here T (embed u dr v nt)).
Proof.
  assert (forall v, (forall ns s d nt here T, declared schemas ns s d -> decl_named schemas ns s d nt -> wt dr v (erase nt) ->
     refers_to prog here T (mods u ns, type_name u (sd_name d) (direction dr)) -> has_type prog here T (embed u dr v nt)) ->
    forall ns s i n nt, In (ns, s) schemas -> owned ns s (SyCustom i n) -> named schemas ns s (SyCustom i n) nt -> wt dr v (erase nt) ->
     has_type prog (mods u ns) (gen_type u ns s (SyCustom i n) (direction dr)) (embed u dr v nt)) as AB.
  { intros v' B ns s i n nt Hin Ho Hn Hw. destruct (custom_resolves ns s i n nt (direction dr) Hin Ho Hn) as (ns2 & s2 & d2 & H1 & H2 & H3).
    apply (B ns2 s2 d2 nt); auto. exists (type_path u ns s i n (direction dr)). split; [left; reflexivity|exact H3]. }
  induction v as [|x|n|z|x|bs|s0|n|vs IH|ovs IH|i p fb IHp IHfb] using val_ind'.
  1-8: split;
    [intros ns s t nt Hin Ho Hn Hw; destruct Hn; cbn [erase wt decl_type] in Hw; try contradiction; try (destruct (sd_kind d2); contradiction)
    |intros ns s d nt here T Hd (fs & Hf & ->) Hw; cbn [erase wt decl_type] in Hw; destruct (sd_kind d); contradiction].
  1-7: cbn [gen_type embed has_type]; destruct dr; cbn [direction]; repeat split; try exact Hw; auto; try apply Hw.
  - destruct T; cbn [erase] in Hw; try contradiction; try (destruct k; contradiction). inversion Hn; subst. cbn [gen_type embed has_type]. destruct dr; (split; [reflexivity|exact Hw]).
  - split.
    + intros ns s t nt Hin Ho Hn Hw. destruct Hn; cbn [erase wt decl_type] in Hw; try contradiction; try (destruct (sd_kind d2); contradiction).
      destruct Hw as [Hun Hw]. cbn [embed has_type gen_type].
      assert (match direction dr with SAtlas => if sized_sty t then TyPair ty_usize (TyApp (txt "Vec") (gen_type u ns s t (direction dr))) else ty_usize
        | _ => TyApp (txt "Vec") (gen_type u ns s t (direction dr)) end = vec (gen_type u ns s t (direction dr))) as -> by now destruct dr.
      exists (gen_type u ns s t (direction dr)). split; [reflexivity|]. split; [eapply gen_type_u8; eauto using owned_array|]. split.
      { intros E. apply gen_type_unit in E. subst t. inversion Hn; subst. discriminate Hun. }
      clear Hun. induction vs as [|v vs IHvs]; [exact I|]. cbn [allP map] in *. inversion IH; subst. destruct Hw as [Hw1 Hw2].
      split; [|now apply IHvs]. apply (proj1 H1); auto using owned_array.
    + intros ns s d nt here T Hd (fs & Hf & ->) Hw; cbn [erase wt decl_type] in Hw; destruct (sd_kind d); contradiction.
  - match goal with |- _ /\ ?B' => assert B' as HB end.
    2: { split; [|exact HB]. intros ns s t nt Hin Ho Hn Hw. destruct t; try (inversion Hn; subst; cbn [erase wt] in Hw; contradiction). now apply AB. }
    intros ns s d nt here T Hd (fts & Hf & ->) Hw Hr. cbn [erase wt decl_type] in Hw. destruct (sd_kind d) eqn:Ek; [|contradiction]. cbn [decl_type] in Hw. cbn [embed has_type].
    split; [exact Hr|]. rewrite (decl_item ns s d (direction dr) Hd). unfold data. rewrite Ek, gen_struct_dir. eexists. eexists. split; [reflexivity|]. cbn [fst].
    assert (forall f, In f (sd_fields d) -> owned ns s (sf_type f)) as Ho by (intros f Hin; now apply (owned_field ns s d)). pose proof (proj1 Hd) as Hin. clear Hr Ek Hd.
    revert fts Hf Hw. generalize dependent (sd_fields d). induction ovs as [|ov ovs IHo]; intros fields Ho fts Hf Hw; destruct Hf as [|ns s f fs T' Ts Hf1 Hf2]; cbn [map all2P] in Hw; try contradiction; [exact I|].
    cbn [map2 map all2P fst snd]. inversion IH as [|? ? I1 I2]; subst. destruct Hw as [Hw1 Hw2]. cbn [f_type f_rule fst snd] in Hw1. split.
    + split; [reflexivity|]. unfold field_type, slot. destruct ov as [v|].
      * destruct (always_present dr (sf_rule f)); cbn [has_type]; [apply (proj1 I1); auto; apply Ho; now left|].
        exists (gen_type u ns s (sf_type f) (direction dr)). split; [reflexivity|]. apply (proj1 I1); auto. apply Ho. now left.
      * rewrite Hw1. cbn [has_type]. eauto.
    + apply IHo; auto. intros g Hg2. apply Ho. now right.
  - match goal with |- _ /\ ?B' => assert B' as HB end.
    2: { split; [|exact HB]. intros ns s t nt Hin Ho Hn Hw. destruct t; try (inversion Hn; subst; cbn [erase wt] in Hw; contradiction). now apply AB. }
    intros ns s d nt here T Hd (fts & Hf & ->) Hw Hr. pose proof Hw as Hw0. cbn [erase decl_type] in Hw. destruct (sd_kind d) eqn:Ek; [cbn [wt decl_type] in Hw; contradiction|]. cbn [decl_type wt] in Hw. rewrite find_named in Hw. cbn [embed].
    destruct (named_field i fts) as [[f nf]|] eqn:Ei; [|contradiction]. cbn [f_type f_rule fst snd] in *. destruct Hw as [Hw1 Hw2]. cbn [has_type].
    split; [exact Hr|]. rewrite (decl_item ns s d (direction dr) Hd). unfold data. rewrite Ek, gen_choice_dir. eexists. eexists. exists (case_types dr ns s (sd_name d) f).
    destruct (named_field_in _ _ _ Ei) as [Hin Hix]. destruct (named_fields_in ns s _ _ f nf Hf Hin) as [Hin2 Hnf].
    split; [reflexivity|]. split; [apply in_map_iff; exists f; split; [reflexivity|exact Hin2]|]. cbn [fst]. unfold case_types. rewrite (named_unit ns s _ _ Hnf).
    assert (forall v', fb = Some v' -> has_type prog (mods u ns) (box (TyPath [type_name u (sd_name d) (direction dr)])) (embed u dr v' (NDecl ns s SkChoice (sd_name d) fts))) as Hfb.
    { intros v' ->. apply (proj2 IHfb ns s d); auto; [exists fts; now rewrite Ek|cbn [erase]; exact (proj2 Hw2)|]. eexists. split; [right; reflexivity|reflexivity]. }
    assert (all2P (fun v t => has_type prog (mods u ns) t v) (match fb with Some v' => [embed u dr v' (NDecl ns s SkChoice (sd_name d) fts)] | None => [] end)
      (if has_fallback dr (sf_rule f) then [box (TyPath [type_name u (sd_name d) (direction dr)])] else [])) as Hrest.
    { destruct fb as [v'|]; [destruct Hw2 as [-> _]|rewrite Hw2; exact I]. cbn [all2P]. auto. }
    destruct (is_unit (erase nf)); [exact Hrest|]. cbn [app all2P]. split; [|exact Hrest]. apply (proj1 IHp); auto; [exact (proj1 Hd)|now apply (owned_field ns s d)].
Qed.

(** ** What has the type is a message *)
Definition is_message (dr : dir) (m : rv) (nt : nty) : Prop := exists v, wt dr v (erase nt) /\ m = embed u dr v nt.
Definition by_type (dr : dir) (m : rv) : Prop := forall ns s t nt, In (ns, s) schemas -> owned ns s t -> named schemas ns s t nt ->
  has_type prog (mods u ns) (gen_type u ns s t (direction dr)) m -> is_message dr m nt.
Definition by_decl (dr : dir) (m : rv) : Prop := forall ns s d nt here T, declared schemas ns s d -> decl_named schemas ns s d nt ->
  refers_to prog here T (mods u ns, type_name u (sd_name d) (direction dr)) -> has_type prog here T m -> is_message dr m nt.
Lemma refers_same here T a b : refers_to prog here T a -> refers_to prog here T b -> a = b.
Proof.
  intros (p & Hp & Ep) (q & Hq & Eq). assert (p = q) as -> by (unfold box in *; destruct Hp as [->| ->], Hq as [Hq|Hq]; try discriminate; now injection Hq). congruence.
Qed.
Lemma refers_path here p id : refers_to prog here (TyPath p) id -> resolve prog here p = Some id.
Proof. intros (q & [[= <-]|H] & E); [exact E|discriminate H]. Qed.
Lemma by_decl_type dr m : by_decl dr m -> forall ns s i n nt, In (ns, s) schemas -> owned ns s (SyCustom i n) -> named schemas ns s (SyCustom i n) nt ->
  has_type prog (mods u ns) (gen_type u ns s (SyCustom i n) (direction dr)) m -> is_message dr m nt.
Proof.
  intros B ns s i n nt Hin Ho Hn Ht. destruct (custom_resolves ns s i n nt (direction dr) Hin Ho Hn) as (ns2 & s2 & d2 & H1 & H2 & H3).
  apply (B ns2 s2 d2 nt (mods u ns) (gen_type u ns s (SyCustom i n) (direction dr)) H1 H2); [|exact Ht]. eexists. split; [left; reflexivity|exact H3].
Qed.
(** A type that refers to a declaration is none of the others. *)
Lemma refers_only here T ns s d x : declared schemas ns s d -> refers_to prog here T (mods u ns, type_name u (sd_name d) x) ->
  T <> TyUnit /\ (forall e, T <> vec e) /\ (forall e, T <> option_type e) /\ forall q, In (txt q) rust_relied_on -> T <> named_type q.
Proof.
  intros Hd (p & [->| ->] & E).
  - split; [discriminate|]. split; [discriminate|]. split; [discriminate|]. intros q Hq [= ->]. now apply (resolved_free here _ ns s d x (txt q) Hd E Hq).
  - repeat split; intros; discriminate.
Qed.
Lemma gen_type_shape dr ns s t : match t with
  | SyArray e => gen_type u ns s t (direction dr) = vec (gen_type u ns s e (direction dr))
  | SyBool => gen_type u ns s t (direction dr) = named_type "bool"
  | SyBytes => gen_type u ns s t (direction dr) = vec (named_type "u8")
  | SyCustom i n => gen_type u ns s t (direction dr) = TyPath (type_path u ns s i n (direction dr))
  | SyF64 => gen_type u ns s t (direction dr) = named_type "f64"
  | SyS64 => gen_type u ns s t (direction dr) = named_type "i64"
  | SyString => gen_type u ns s t (direction dr) = named_type "String"
  | SyU64 => gen_type u ns s t (direction dr) = named_type "u64"
  | SyUnit => gen_type u ns s t (direction dr) = TyUnit
  end.
Proof. destruct t, dr; reflexivity. Qed.
Ltac relied := apply existsb_In; reflexivity.
Ltac shape dr ns s t := let K := fresh "K" in pose proof (gen_type_shape dr ns s t) as K; destruct t; cbn [gen_type] in K |- *.
(** A struct or an enum is only what a reference leads to. *)
Lemma object_custom dr ns s t id : In (ns, s) schemas -> refers_to prog (mods u ns) (gen_type u ns s t (direction dr)) id ->
  item_at prog id <> None -> exists i n, t = SyCustom i n.
Proof.
  intros Hin Hr Hi. pose proof (gen_type_shape dr ns s t) as K. destruct t; rewrite K in Hr; eauto; exfalso;
    try (destruct Hr as (p & [Hp|Hp] & _); discriminate Hp).
  all: apply refers_path in Hr; cbn [resolve] in Hr; injection Hr as <-; apply Hi; apply (no_item ns s); [exact Hin|relied].
Qed.
Lemma typed_messages dr m : by_type dr m /\ by_decl dr m /\ match m with RvOpt (Some m') => by_type dr m' | _ => True end.
Proof.
  induction m as [l IH|o IH|id fs IH|id c args IH|m Hm] using rv_ind'.
  - split; [|split; [|exact I]].
    + intros ns s t nt Hin Ho Hn (e & E & E1 & E2 & Ht). pose proof (gen_type_shape dr ns s t) as K. destruct Hn; rewrite K in E; try discriminate E.
      * injection E as <-. assert (exists vs, allP (fun v => wt dr v (erase T)) vs /\ l = map (fun v => embed u dr v T) vs) as (vs & A1 & A2).
        { apply owned_array in Ho. clear E1 E2 K. induction l as [|m l IHl]; [exists []; split; [exact I|reflexivity]|]. cbn [allP] in Ht. destruct Ht as [Ht1 Ht2].
          inversion IH as [|? ? I1 I2]; subst. destruct (IHl I2 Ht2) as (vs & B1 & ->). destruct (proj1 I1 ns s t T Hin Ho Hn Ht1) as (v & C1 & ->).
          exists (v :: vs). split; [split; assumption|reflexivity]. }
        exists (VArr vs). cbn [erase wt embed]. split; [|now rewrite A2]. split; [|exact A1].
        rewrite <- (named_unit ns s t T Hn). destruct t; try reflexivity. destruct E2. apply (gen_type_shape dr ns s SyUnit).
      * injection E as <-. now destruct E1.
    + intros ns s d nt here T Hd Hn Hr (e & -> & _). destruct (refers_only here _ ns s d _ Hd Hr) as (_ & H & _). now destruct (H e).
  - split; [|split; [|destruct o; [exact (proj1 IH)|exact I]]].
    + intros ns s t nt Hin Ho Hn (e & E & _). exfalso. pose proof (gen_type_shape dr ns s t) as K. destruct t; rewrite K in E; discriminate E.
    + intros ns s d nt here T Hd Hn Hr (e & -> & _). destruct (refers_only here _ ns s d _ Hd Hr) as (_ & _ & H & _). now destruct (H e).
  - match goal with |- _ /\ by_decl dr ?m /\ _ => assert (by_decl dr m) as HB end.
    2: { split; [|split; [exact HB|exact I]]. intros ns s t nt Hin Ho Hn Ht. pose proof Ht as (Hr & name & decls & Hi & _).
         destruct (object_custom dr ns s t id Hin Hr) as (i & n & ->); [congruence|]. now apply (by_decl_type dr _ HB ns s i n). }
    intros ns s d nt here T Hd (fts & Hf & ->) Hr (Hr2 & name & decls & Hi & Ht). rewrite (refers_same _ _ _ _ Hr2 Hr) in Hi, Ht |- *. clear Hr2 Hr.
    rewrite (decl_item ns s d (direction dr) Hd) in Hi. unfold data in Hi. destruct (sd_kind d) eqn:Ek; [|discriminate Hi]. rewrite gen_struct_dir in Hi.
    injection Hi as _ <-. cbn [fst] in Ht.
    assert (exists ovs, all2P (fun ov f => match ov with Some v => wt dr v (f_type f) | None => always_present dr (f_rule f) = false end) ovs
        (map (fun f => mkF (sf_index (fst f)) (sf_rule (fst f)) (erase (snd f))) fts) /\
      fs = map2 (fun ov f => (field_name u (fst f), slot (always_present dr (sf_rule (fst f))) (match ov with Some v => Some (embed u dr v (snd f)) | None => None end))) ovs fts) as (ovs & A1 & A2).
    { assert (forall f, In f (sd_fields d) -> owned ns s (sf_type f)) as Ho by (intros f Hin; now apply (owned_field ns s d)). pose proof (proj1 Hd) as Hin. clear Ek Hd.
      revert fts Hf Ht. generalize dependent (sd_fields d). induction fs as [|[x m] fs IHf]; intros fields Ho fts Hf Ht; destruct Hf as [|ns s f fs' T' Ts Hf1 Hf2]; cbn [map all2P] in Ht; try contradiction.
      { exists []. split; [exact I|reflexivity]. }
      destruct Ht as [[Ht1 Ht2] Ht3]. cbn [fst snd] in Ht1, Ht2. subst x. inversion IH as [|? ? I1 I2]; subst. cbn [snd] in I1.
      destruct (IHf I2 fs' (fun g Hg2 => Ho g (or_intror Hg2)) Ts Hf2 Ht3) as (ovs & B1 & ->). unfold field_type in Ht2. cbv zeta in Ht2.
      pose proof (Ho f (or_introl eq_refl)) as Hof. destruct (always_present dr (sf_rule f)) eqn:Ep.
      - destruct (proj1 I1 ns s _ T' Hin Hof Hf1 Ht2) as (v & C1 & ->). exists (Some v :: ovs). split; [split; [exact C1|exact B1]|]. cbn [map2 fst snd]. now rewrite Ep.
      - destruct m; cbn [has_type] in Ht2; try contradiction; try discriminate Ht2;
          try (exfalso; destruct Ht2 as [Ht2 _]; discriminate Ht2); try (exfalso; destruct Ht2 as [[Ht2|Ht2] _]; discriminate Ht2);
          try (exfalso; destruct Ht2 as (e & Ht2 & _); discriminate Ht2); try (exfalso; destruct Ht2 as ((p & [Ht2|Ht2] & _) & _); discriminate Ht2).
        destruct Ht2 as (e & [= <-] & Ht2). destruct o as [m|].
        + destruct (proj2 (proj2 I1) ns s _ T' Hin Hof Hf1 Ht2) as (v & C1 & ->). exists (Some v :: ovs). split; [split; [exact C1|exact B1]|]. cbn [map2 fst snd]. now rewrite Ep.
        + exists (None :: ovs). split; [split; [exact Ep|exact B1]|]. cbn [map2 fst snd]. now rewrite Ep. }
    exists (VStruct ovs). cbn [erase decl_type wt embed]. split; [exact A1|now rewrite A2].
  - match goal with |- _ /\ by_decl dr ?m /\ _ => assert (by_decl dr m) as HB end.
    2: { split; [|split; [exact HB|exact I]]. intros ns s t nt Hin Ho Hn Ht. pose proof Ht as (Hr & name & variants & types & Hi & _).
         destruct (object_custom dr ns s t id Hin Hr) as (i & n & ->); [congruence|]. now apply (by_decl_type dr _ HB ns s i n). }
    intros ns s d nt here T Hd (fts & Hf & ->) Hr (Hr2 & name & variants & types & Hi & Hc & Ht). rewrite (refers_same _ _ _ _ Hr2 Hr) in Hi, Ht |- *. clear Hr2 Hr.
    rewrite (decl_item ns s d (direction dr) Hd) in Hi. unfold data in Hi. destruct (sd_kind d) eqn:Ek; [discriminate Hi|]. rewrite gen_choice_dir in Hi.
    injection Hi as _ <-. cbn [fst] in Ht. apply in_map_iff in Hc as (f & [= <- <-] & Hin).
    assert (exists nf, In (f, nf) fts) as (nf & Hnf). { rewrite <- (named_fields_fst _ _ _ _ Hf) in Hin. apply in_map_iff in Hin as ([f' nf] & E & Hin). cbn [fst] in E. subst f'. eauto. }
    destruct (named_fields_in ns s _ _ f nf Hf Hnf) as [_ Hn].
    assert (named_field (sf_index f) fts = Some (f, nf)) as Ei.
    { pose proof (vd_indices _ _ _ _ (proj2 Hv ns s d Hd)) as Hnd. unfold field_indices in Hnd. rewrite <- (named_fields_fst _ _ _ _ Hf) in Hnd. clear - Hnd Hnf.
      induction fts as [|g fts IH]; [destruct Hnf|]. cbn [map named_field] in *. inversion Hnd as [|? ? N1 N2]; subst. destruct Hnf as [->|Hnf]; [cbn [fst]; now rewrite N.eqb_refl|].
      destruct (sf_index (fst g) =? sf_index f) eqn:E; [|now apply IH]. exfalso. apply N.eqb_eq in E. apply N1. rewrite E. apply in_map_iff. exists f. split; [reflexivity|].
      apply in_map_iff. exists (f, nf). auto. }
    unfold case_types in Ht.
    assert (forall rest m, rest = [m] -> has_type prog (mods u ns) (box (TyPath [type_name u (sd_name d) (direction dr)])) m -> by_decl dr m ->
      is_message dr m (NDecl ns s SkChoice (sd_name d) fts)) as Hfb.
    { intros rest m _ Hm Hb. apply (Hb ns s d (NDecl ns s SkChoice (sd_name d) fts) (mods u ns) (box (TyPath [type_name u (sd_name d) (direction dr)])) Hd); [exists fts; now rewrite Ek| |exact Hm]. eexists. split; [right; reflexivity|reflexivity]. }
    assert (forall rest, Forall (fun m => by_type dr m /\ by_decl dr m /\ match m with RvOpt (Some m') => by_type dr m' | _ => True end) rest ->
      all2P (fun v t => has_type prog (mods u ns) t v) rest (if has_fallback dr (sf_rule f) then [box (TyPath [type_name u (sd_name d) (direction dr)])] else []) ->
      exists fb, match fb with Some v' => has_fallback dr (sf_rule f) = true /\ wt dr v' (TChoice (map (fun f => mkF (sf_index (fst f)) (sf_rule (fst f)) (erase (snd f))) fts)) | None => has_fallback dr (sf_rule f) = false end /\
        rest = match fb with Some v' => [embed u dr v' (NDecl ns s SkChoice (sd_name d) fts)] | None => [] end) as Hrest.
    { intros rest Hq Hr. destruct (has_fallback dr (sf_rule f)).
      - destruct rest as [|m [|]]; cbn [all2P] in Hr; try contradiction; [|destruct Hr as [_ []]]. inversion Hq as [|? ? Q1 Q2]; subst.
        destruct (Hfb [m] m eq_refl (proj1 Hr) (proj1 (proj2 Q1))) as (v & C1 & ->). exists (Some v). split; [split; [reflexivity|exact C1]|reflexivity].
      - destruct rest; cbn [all2P] in Hr; [|contradiction]. exists None. auto. }
    assert (exists p fb, wt dr p (erase nf) /\ match fb with Some v' => has_fallback dr (sf_rule f) = true /\ wt dr v' (TChoice (map (fun f => mkF (sf_index (fst f)) (sf_rule (fst f)) (erase (snd f))) fts)) | None => has_fallback dr (sf_rule f) = false end /\
      args = (if is_unit_sty (sf_type f) then [] else [embed u dr p nf]) ++ match fb with Some v' => [embed u dr v' (NDecl ns s SkChoice (sd_name d) fts)] | None => [] end) as (p & fb & C1 & C2 & C3).
    { destruct (is_unit_sty (sf_type f)) eqn:Eu.
      - destruct (Hrest args IH Ht) as (fb & C2 & ->). exists VUnit, fb. split; [|auto]. rewrite (named_unit ns s _ _ Hn) in Eu. destruct (erase nf); try discriminate Eu. exact I.
      - cbn [app] in Ht. destruct args as [|m args]; cbn [all2P] in Ht; [contradiction|]. destruct Ht as [Ht1 Ht2]. inversion IH as [|? ? I1 I2]; subst.
        destruct (Hrest args I2 Ht2) as (fb & C2 & ->). destruct (proj1 I1 ns s _ nf (proj1 Hd) (owned_field ns s d f Hd Hin) Hn Ht1) as (p & C1 & ->).
        exists p, fb. auto. }
    exists (VChoice (sf_index f) p fb). cbn [erase decl_type wt embed]. rewrite find_named, Ei. cbn [fst snd f_type f_rule]. split; [auto|]. now rewrite C3.
  - split; [|split; [|destruct m; try exact I; destruct Hm]].
    + intros ns s t nt Hin Ho Hn Ht. destruct t as [e| | |i n| | | | |].
      4: { exfalso. destruct (custom_resolves ns s i n nt (direction dr) Hin Ho Hn) as (ns2 & s2 & d2 & H1 & H2 & H3).
        rewrite (gen_type_shape dr ns s (SyCustom i n)) in Ht.
        destruct (refers_only (mods u ns) (TyPath (type_path u ns s i n (direction dr))) ns2 s2 d2 _ H1 (ex_intro _ _ (conj (or_introl eq_refl) H3))) as (R1 & R2 & R3 & R4).
        destruct m; try destruct Hm; cbn [has_type] in Ht;
          first [contradiction | exact (R1 Ht) | destruct Ht as [[Ht|Ht] _]; revert Ht; apply R4; relied
                | destruct Ht as [Ht _]; first [exact (R2 _ Ht) | revert Ht; apply R4; relied] | revert Ht; apply R4; relied]. }
      all: match type of Hn with named _ _ _ ?t _ => rewrite (gen_type_shape dr ns s t) in Ht end; inversion Hn; subst;
        destruct m; try destruct Hm; cbn [has_type] in Ht; try contradiction; try discriminate Ht; try (destruct Ht as [[Ht|Ht] Hx]; discriminate Ht); try (destruct Ht as [Ht Hx]; try discriminate Ht).
      all: try (destruct Ht as [Ht|Ht]; discriminate Ht).
      all: try match goal with
        | |- is_message _ RvUnit _ => exists VUnit
        | |- is_message _ (RvBool ?b) _ => exists (VBool b)
        | |- is_message _ (RvInt ?b) _ => exists (VU64 b)
        | |- is_message _ (RvI64 ?b) _ => exists (VS64 b)
        | |- is_message _ (RvF64 ?b) _ => exists (VF64 b)
        | |- is_message _ (RvBytes ?b) _ => exists (VBytes b)
        | |- is_message _ (RvString ?b) _ => exists (VString b)
        | |- is_message _ (RvUnits ?b) _ => exists (VUnits b)
        end; cbn [erase wt embed]; try (split; [first [exact Hx|exact I]|reflexivity]).
      all: injection Ht as Ht.
      * destruct (gen_type_u8 ns s e T dr Hin (owned_array _ _ _ Ho) ltac:(assumption)). exact Ht.
      * apply gen_type_unit in Ht. subst e. inversion Hn; subst. match goal with H : named _ _ _ SyUnit _ |- _ => inversion H; subst end. cbn [erase]. split; [exact Hx|reflexivity].
    + intros ns s d nt here T Hd Hn Hr Ht. exfalso. destruct (refers_only here T ns s d _ Hd Hr) as (R1 & R2 & R3 & R4).
      destruct m; try destruct Hm; cbn [has_type] in Ht;
          first [contradiction | exact (R1 Ht) | destruct Ht as [[Ht|Ht] _]; revert Ht; apply R4; relied
                | destruct Ht as [Ht _]; first [exact (R2 _ Ht) | revert Ht; apply R4; relied] | revert Ht; apply R4; relied].
Qed.

(** ** Different messages are different values *)
Lemma slot_inj p (a b : option rv) : (p = true -> a <> None /\ b <> None) -> slot p a = slot p b -> a = b.
Proof. unfold slot. destruct p; [|intros _ [= ->]; reflexivity]. intros H. destruct (H eq_refl). destruct a, b; try congruence. Qed.
Lemma variant_inj (fts : list (sfield * nty)) f g : NoDup (map (variant_name u) (map fst fts)) -> In f fts -> In g fts ->
  variant_name u (fst f) = variant_name u (fst g) -> f = g.
Proof.
  induction fts as [|h fts IH]; intros Hn Hf Hg2 E; [destruct Hf|]. cbn [map] in Hn. inversion Hn as [|? ? N1 N2]; subst.
  destruct Hf as [->|Hf], Hg2 as [->|Hg2]; auto; exfalso; apply N1.
  - rewrite E. apply in_map, in_map. exact Hg2.
  - rewrite <- E. apply in_map, in_map. exact Hf.
Qed.
Lemma linked_unit ns s t nt : linked u prog ns s t nt -> is_unit_sty t = is_unit (erase nt).
Proof. destruct nt; cbn [linked erase is_unit]; [intros ->; reflexivity..| | ]; [intros (t' & -> & _); reflexivity|]. intros ((i & n & -> & _) & _). now destruct k. Qed.
Lemma unit_value d v : wt d v TUnit -> v = VUnit.
Proof. destruct v; cbn [wt]; try contradiction; reflexivity. Qed.
Lemma message_inj dr v :
  (forall v' ns s t nt, linked u prog ns s t nt -> wt dr v (erase nt) -> wt dr v' (erase nt) -> embed u dr v nt = embed u dr v' nt -> v = v') /\
  (forall v' ns s k name fts, installed u prog ns s k name (map fst fts) -> allP (fun f => linked u prog ns s (sf_type (fst f)) (snd f)) fts ->
     wt dr v (decl_type k (map (fun f => mkF (sf_index (fst f)) (sf_rule (fst f)) (erase (snd f))) fts)) ->
     wt dr v' (decl_type k (map (fun f => mkF (sf_index (fst f)) (sf_rule (fst f)) (erase (snd f))) fts)) ->
     embed u dr v (NDecl ns s k name fts) = embed u dr v' (NDecl ns s k name fts) -> v = v').
Proof.
  assert (forall v, (forall v' ns s k name fts, installed u prog ns s k name (map fst fts) -> allP (fun f => linked u prog ns s (sf_type (fst f)) (snd f)) fts ->
     wt dr v (decl_type k (map (fun f => mkF (sf_index (fst f)) (sf_rule (fst f)) (erase (snd f))) fts)) ->
     wt dr v' (decl_type k (map (fun f => mkF (sf_index (fst f)) (sf_rule (fst f)) (erase (snd f))) fts)) ->
     embed u dr v (NDecl ns s k name fts) = embed u dr v' (NDecl ns s k name fts) -> v = v') ->
    (forall v' ns s t nt, linked u prog ns s t nt -> wt dr v (erase nt) -> wt dr v' (erase nt) -> embed u dr v nt = embed u dr v' nt ->
      match nt with NDecl _ _ _ _ _ => v = v' | _ => True end)) as AB.
  { intros v0 B v' ns s t nt Hk Hw Hw' E. destruct nt; try exact I. cbn [linked] in Hk. destruct Hk as (_ & H1 & H2). now apply (B v' ns0 s0 k name fs). }
  induction v as [|x|n|z|x|bs|s0|n|vs IH|ovs IH|i p fb IHp IHfb] using val_ind'.
  1-8: match goal with |- _ /\ ?B' => assert B' as HB end;
    [intros v' ns s k name fts Hi Hk Hw Hw' E; destruct k; cbn [decl_type wt] in Hw; contradiction
    |split; [|exact HB]; intros v' ns s t nt Hk Hw Hw' E; destruct nt; cbn [erase wt] in Hw; try contradiction; try (destruct k; contradiction)].
  1-7: destruct v'; cbn [erase wt] in Hw'; try contradiction; cbn [embed] in E; congruence.
  - destruct nt; cbn [erase] in Hw, Hw'; try contradiction; try (destruct k; contradiction). destruct v'; cbn [wt] in Hw'; try contradiction; [cbn [embed] in E; congruence|destruct Hw' as [Hw' _]; discriminate Hw'].
  - split; [|intros v' ns s k name fts Hi Hk Hw Hw' E; destruct k; cbn [decl_type wt] in Hw; contradiction].
    intros v' ns s t nt Hk Hw Hw' E. destruct nt; cbn [erase wt] in Hw; try contradiction; [|destruct k; contradiction].
    destruct Hk as (t' & -> & Hk). destruct Hw as [Hun Hw]. destruct v'; cbn [erase wt] in Hw'; try contradiction; [destruct (erase nt); try contradiction; discriminate Hun|].
    destruct Hw' as [_ Hw']. cbn [embed] in E. injection E as E. f_equal. revert vs0 Hw' E.
    induction vs as [|v vs IHvs]; intros [|v' vs'] Hw' E; cbn [map] in E; try discriminate E; [reflexivity|]. cbn [allP] in Hw, Hw'. injection E as E1 E2. inversion IH as [|? ? I1 I2]; subst.
    f_equal; [|apply IHvs; auto; [exact (proj2 Hw)|exact (proj2 Hw')]]. apply (proj1 I1 v' ns s t' nt); auto; [exact (proj1 Hw)|exact (proj1 Hw')].
  - match goal with |- _ /\ ?B' => assert B' as HB end.
    2: { split; [|exact HB]. intros v' ns s t nt Hk Hw Hw' E. pose proof (AB _ HB v' ns s t nt Hk Hw Hw' E) as K. destruct nt; cbn [erase wt] in Hw; try contradiction. exact K. }
    intros v' ns s k name fts Hi Hk Hw Hw' E. destruct k; cbn [decl_type wt] in Hw; [|contradiction]. destruct v' as [| | | | | | | | |fields|]; cbn [decl_type wt] in Hw'; try contradiction.
    cbn [embed] in E. injection E as E. f_equal. clear Hi. revert fts fields Hk Hw Hw' E.
    induction ovs as [|ov ovs IHo]; intros [|f fts] [|ov' ovs'] Hk Hw Hw' E; cbn [map all2P] in Hw, Hw'; try contradiction; [reflexivity|].
    cbn [map2] in E. injection E as E1 E2. destruct Hw as [Hw1 Hw2], Hw' as [Hw1' Hw2']. cbn [allP] in Hk. destruct Hk as [Hk1 Hk2]. inversion IH as [|? ? I1 I2]; subst. cbn [f_type f_rule] in Hw1, Hw1'.
    f_equal; [|now apply (IHo I2 fts)].
    apply slot_inj in E1.
    + destruct ov as [v|], ov' as [v'|]; try discriminate E1; [|reflexivity]. injection E1 as E1. f_equal. now apply (proj1 I1 v' ns s (sf_type (fst f)) (snd f)).
    + intros Hp. rewrite Hp in Hw1, Hw1'. destruct ov, ov'; split; discriminate.
  - match goal with |- _ /\ ?B' => assert B' as HB end.
    2: { split; [|exact HB]. intros v' ns s t nt Hk Hw Hw' E. pose proof (AB _ HB v' ns s t nt Hk Hw Hw' E) as K. destruct nt; cbn [erase wt] in Hw; try contradiction. exact K. }
    intros v' ns s k name fts Hi Hk Hw Hw' E. destruct k; cbn [decl_type] in Hw, Hw'; [cbn [wt] in Hw; contradiction|]. destruct v' as [| | | | | | | | | |i' p' fb']; cbn [wt] in Hw'; try contradiction. cbn [wt] in Hw.
    rewrite find_named in Hw, Hw'. cbn [embed] in E. destruct (named_field i fts) as [f|] eqn:Ei; [|contradiction]. destruct (named_field i' fts) as [f'|] eqn:Ei'; [|contradiction].
    injection E as Ev Ea. destruct (named_field_in _ _ _ Ei) as [Hin Hix]. destruct (named_field_in _ _ _ Ei') as [Hin' Hix'].
    assert (f = f') as <- by exact (variant_inj fts f f' (in_variants _ _ _ _ _ _ _ Hi) Hin Hin' Ev). assert (i = i') as <- by congruence.
    cbn [f_type f_rule] in Hw, Hw'. destruct Hw as [Hw1 Hw2], Hw' as [Hw1' Hw2']. pose proof (proj1 (Forall_forall _ _) (proj1 (allP_Forall _ _) Hk) f Hin) as Hkf. cbv beta in Hkf.
    assert (match fb with Some v' => [embed u dr v' (NDecl ns s SkChoice name fts)] | None => [] end = match fb' with Some v' => [embed u dr v' (NDecl ns s SkChoice name fts)] | None => [] end -> fb = fb') as Hfb.
    { intros E. destruct fb as [v|], fb' as [v'|]; try discriminate E; [|reflexivity]. injection E as E. f_equal.
      apply (proj2 IHfb v' ns s SkChoice name fts); auto; cbn [decl_type]; [exact (proj2 Hw2)|exact (proj2 Hw2')]. }
    rewrite (linked_unit ns s _ _ Hkf) in Ea. destruct (is_unit (erase (snd f))) eqn:Eu.
    + cbn [app] in Ea. rewrite (Hfb Ea). destruct (erase (snd f)); try discriminate Eu. now rewrite (unit_value _ _ Hw1), (unit_value _ _ Hw1').
    + cbn [app] in Ea. injection Ea as Ea1 Ea2. rewrite (Hfb Ea2). f_equal. now apply (proj1 IHp p' ns s (sf_type (fst f)) (snd f)).
Qed.
End Types.
