(** Lemmas about the paths to types in generated code. *)
From Verif Require Import IdentFacts NamesFacts ParserFacts.
From Verif Require Export ModuleFacts.

(** ** Names *)
Section Names.
Context (u : unicode) (Hu : ascii_agrees u).
Lemma good_text i : good_ident u i -> str_ok (snake_case i).
Proof.
  intros (E & H & _). rewrite E. pose proof (snake_asciis u Hu (original i) (ident_chars_asciis _ H)) as A.
  unfold asciis in A. rewrite forallb_forall in A. unfold str_ok. apply Forall_forall. intros c Hc. specialize (A c Hc).
  unfold is_ascii in A. apply N.ltb_lt in A. left. lia.
Qed.
Lemma good_texts ns : Forall (good_ident u) ns -> text_namespace ns.
Proof. intros H. unfold text_namespace. eapply Forall_impl; [|exact H]. exact good_text. Qed.
Lemma converted_same c x a b : good_ident u a -> good_ident u b -> same_ident a b ->
  in_case u c (with_suffix u a x) = in_case u c (with_suffix u b x).
Proof.
  intros (Ea & Ha & _) (Eb & Hb & _) Es. apply ident_eqb_eq in Es. rewrite Ea, Eb in *. rewrite !with_suffix_from.
  apply ident_chars_asciis in Ha, Hb.
  destruct (orig_suffix_words u Hu (original a) x Ha) as [Aa Wa]. destruct (orig_suffix_words u Hu (original b) x Hb) as [Ab Wb].
  assert (snake_case (ident_from u (orig_suffix (original a) x)) = snake_case (ident_from u (orig_suffix (original b) x))) as E.
  { apply (words_of_snake u Hu) in Es; auto. apply (snake_of_words u Hu); auto. rewrite Wa, Wb, !map_app. now f_equal. }
  destruct (snake_determines u Hu _ _ Aa Ab E) as [P C]. now destruct c.
Qed.
Lemma rust_name_same c x a b : good_ident u a -> good_ident u b -> same_ident a b -> rust_name u a c x = rust_name u b c x.
Proof. intros Ha Hb E. unfold rust_name. cbv zeta. now rewrite (converted_same c x a b). Qed.
Lemma ts_name_same c x a b : good_ident u a -> good_ident u b -> same_ident a b -> ts_name u a c x = ts_name u b c x.
Proof. intros Ha Hb E. unfold ts_name. cbv zeta. now rewrite (converted_same c x a b). Qed.
Lemma rust_name_inj c x y a b : good_ident u a -> good_ident u b -> (x = y \/ (x <> None /\ y <> None)) ->
  rust_name u a c x = rust_name u b c y -> same_ident a b /\ x = y.
Proof.
  intros (Ea & Ha & La) (Eb & Hb & Lb) Hxy E. rewrite Ea, Eb in E. apply rust_names_injective in E; auto.
  destruct E as [E ->]. split; [|reflexivity]. unfold same_ident. now rewrite Ea, Eb.
Qed.
Lemma ts_name_inj c x y a b : good_ident u a -> good_ident u b -> c <> Snake -> (x = y \/ (x <> None /\ y <> None)) ->
  ts_name u a c x = ts_name u b c y -> same_ident a b /\ x = y.
Proof.
  intros (Ea & Ha & La) (Eb & Hb & Lb) Hc Hxy E. rewrite Ea, Eb in E. apply ts_names_injective in E; auto.
  destruct E as [E ->]. split; [|reflexivity]. unfold same_ident. now rewrite Ea, Eb.
Qed.
(** No module, type or field is called [super]. *)
Lemma rust_name_super a c x : rust_name u a c x <> txt "super".
Proof.
  unfold rust_name. cbv zeta. destruct (existsb _ RUST_KEYWORDS) eqn:E; intros H; [discriminate H|].
  rewrite H in E. vm_compute in E. discriminate E.
Qed.
Lemma names_same_ns a b : Forall (good_ident u) a -> Forall (good_ident u) b -> same_ns a b ->
  map (fun c => rust_name u c Snake None) a = map (fun c => rust_name u c Snake None) b /\
  map (fun c => ts_name u c Pascal None) a = map (fun c => ts_name u c Pascal None) b.
Proof.
  intros Ha Hb H. induction H as [|x y a b H1 H2 IH]; [auto|]. inversion Ha; subst. inversion Hb; subst.
  destruct (IH) as [I1 I2]; auto. cbn [map]. now rewrite I1, I2, (rust_name_same Snake None x y), (ts_name_same Pascal None x y).
Qed.
End Names.

(** ** Trees *)
Lemma holds_prefix m a : forall b s, holds m (a ++ b) s -> exists s', holds m a s'.
Proof.
  revert m. induction a as [|k a IH]; intros m b s H.
  - destruct m as [ch s0]. exists s0. constructor.
  - cbn in H. inversion H as [|? ? ? m' ? ? Hin Hh]; subst. destruct (IH m' b s Hh) as [s' Hs']. exists s'. now apply (holds_below _ _ _ m').
Qed.
Inductive tree_keys (P : ident -> Prop) : smodule -> Prop :=
| tree_keys_intro children s : Forall (fun e => P (fst e) /\ tree_keys P (snd e)) children -> tree_keys P (SModule children s).
Lemma keys_held P m : tree_keys P m -> forall ns s, holds m ns s -> Forall P ns.
Proof.
  intros Hk ns s H. induction H as [|ch s0 k m ns s Hin Hh IH]; [constructor|]. inversion Hk as [? ? Hc]; subst.
  rewrite Forall_forall in Hc. destruct (Hc _ Hin) as [A B]. constructor; auto.
Qed.
Lemma insert_keys P ns s : Forall P ns -> forall m, tree_keys P m -> tree_keys P (insert_schema ns s m).
Proof.
  induction ns as [|k ns IH]; intros Hp [ch s0] Hm; inversion Hm as [? ? Hc]; subst; cbn [insert_schema module_children module_schema].
  - now constructor.
  - inversion Hp as [|? ? P1 P2]; subst. specialize (IH P2). destruct (update_child k (insert_schema ns s) ch) as [ch'|] eqn:E.
    + apply update_child_some in E as (l & k' & v & r & -> & -> & _). constructor. rewrite Forall_app in *.
      destruct Hc as [C1 C2]. inversion C2 as [|? ? [C3 C4] C5]; subst. split; [exact C1|]. constructor; [|exact C5].
      split; [exact C3|]. now apply IH.
    + constructor. apply Forall_forall. intros [k2 m2] Hin. cbn [fst snd]. destruct (map_insert _ _ _) as [ch' b] eqn:Ei. cbn [fst] in Hin.
      assert (forall (V : Type) (q : ident) (v : V) l e, In e (fst (map_insert q v l)) -> In e l \/ snd e = v /\ (fst e = q \/ In (fst e) (map fst l))) as K.
      { clear. intros V q v l. induction l as [|[k' v'] l IHl]; intros e H; cbn [map_insert] in H.
        - destruct H as [<-|[]]. right. cbn. auto.
        - destruct (ident_cmp q k') eqn:E; cbn [fst] in H.
          + destruct H as [<-|H]; [right; cbn; auto|left; now right].
          + destruct H as [<-|H]; [right; cbn; auto|now left].
          + destruct (map_insert q v l) as [l' b] eqn:El. cbn [fst] in *. destruct H as [<-|H]; [left; now left|].
            apply IHl in H as [H|[H1 [H2|H2]]]; [left; now right|right; cbn; auto|right; cbn; auto]. }
      specialize (K _ k (insert_schema ns s (SModule [] empty_schema)) ch (k2, m2)). rewrite Ei in K. cbn [fst] in K.
      apply K in Hin as [Hin|[E1 E2]].
      * rewrite Forall_forall in Hc. exact (Hc _ Hin).
      * cbn [fst snd] in *. subst m2. split.
        -- destruct E2 as [->|E2]; [exact P1|]. apply in_map_iff in E2 as ([k3 m3] & <- & E3). rewrite Forall_forall in Hc. exact (proj1 (Hc _ E3)).
        -- apply IH. constructor. constructor.
Qed.
Lemma module_tree_keys P schemas : Forall (fun e => Forall P (fst e)) schemas -> tree_keys P (module_tree schemas).
Proof.
  unfold module_tree. assert (tree_keys P (SModule [] empty_schema)) as H0 by (constructor; constructor). revert H0.
  generalize (SModule [] empty_schema). induction schemas as [|[ns s] l IH]; intros m Hm H; [exact Hm|]. inversion H; subst.
  cbn [fold_left fst snd]. apply IH; [now apply insert_keys|assumption].
Qed.

(** ** Paths *)
Section Paths.
Context (u : unicode) (Hu : ascii_agrees u) (tree : smodule) (Hok : tree_ok tree) (Hkeys : tree_keys (good_ident u) tree).

Lemma rust_down base rel s d x : holds tree (base ++ rel) s -> In d (ss_decls s) ->
  rust_resolves u tree base (map (fun c => rust_name u c Snake None) rel ++ [rust_name u (sd_name d) Pascal (Some x)]) (base ++ rel) d x.
Proof.
  revert base. induction rel as [|k rel IH]; intros base Hh Hd.
  - rewrite app_nil_r in *. cbn [map app]. now apply (rust_item u tree base s).
  - cbn [map app]. replace (base ++ k :: rel) with ((base ++ [k]) ++ rel) in * by now rewrite <- app_assoc.
    apply rust_child; [|now apply IH]. destruct (holds_prefix tree (base ++ [k]) rel s Hh) as [s' Hs']. now exists s'.
Qed.
Lemma ts_down base rel s d x : holds tree (base ++ rel) s -> In d (ss_decls s) ->
  ts_members u tree base (map (fun c => ts_name u c Pascal None) rel ++ [ts_name u (sd_name d) Pascal x]) (base ++ rel) d x.
Proof.
  revert base. induction rel as [|k rel IH]; intros base Hh Hd.
  - rewrite app_nil_r in *. cbn [map app]. now apply (ts_item u tree base s).
  - cbn [map app]. replace (base ++ k :: rel) with ((base ++ [k]) ++ rel) in * by now rewrite <- app_assoc.
    apply ts_child; [|now apply IH]. destruct (holds_prefix tree (base ++ [k]) rel s Hh) as [s' Hs']. now exists s'.
Qed.
Lemma rust_up n here path there d x : (n <= length here)%nat ->
  rust_resolves u tree (firstn (length here - n) here) path there d x ->
  rust_resolves u tree here (repeat (txt "super") n ++ path) there d x.
Proof.
  revert here. induction n as [|n IH]; intros here Hn H.
  - rewrite Nat.sub_0_r, firstn_all in H. exact H.
  - destruct here as [|k ns _] using rev_ind; [cbn in Hn; lia|]. rewrite app_length in Hn, H. cbn [length] in Hn, H.
    cbn [repeat app]. apply rust_super. apply IH; [lia|].
    rewrite firstn_app in H. replace (length ns + 1 - S n - length ns)%nat with O in H by lia. cbn [firstn] in H. rewrite app_nil_r in H.
    now replace (length ns + 1 - S n)%nat with (length ns - n)%nat in H by lia.
Qed.
Lemma rust_top here item : rust_resolves_top item here (rust_top_path here item).
Proof.
  unfold rust_top_path. induction here as [|k ns IH] using rev_ind; [constructor|].
  rewrite app_length. cbn [length]. rewrite Nat.add_1_r. cbn [repeat app]. now apply rust_top_super.
Qed.
Lemma rust_resolves_nonempty ns path there d x : rust_resolves u tree ns path there d x -> path <> [].
Proof. intros H. now destruct H. Qed.
(** A path names one thing. *)
Lemma rust_resolves_unique ns path there d x : rust_resolves u tree ns path there d x ->
  (forall ns s d1 d2, holds tree ns s -> In d1 (ss_decls s) -> In d2 (ss_decls s) ->
     good_ident u (sd_name d1) /\ (same_ident (sd_name d1) (sd_name d2) -> d1 = d2)) ->
  forall there' d' x', rust_resolves u tree ns path there' d' x' -> there' = there /\ d' = d /\ x' = x.
Proof.
  intros H Hd. induction H as [ns k path there d x H IH|ns k path there d x He H IH|ns s d x Hh Hin]; intros there' d' x' H'.
  - remember (ns ++ [k]) as ns0 eqn:En. remember (txt "super" :: path) as p0 eqn:Ep. destruct H' as [ns1 k1 path1 there1 d1 x1 H1|ns1 k1 path1 there1 d1 x1 He1 H1|ns1 s1 d1 x1 Hh1 Hin1].
    + apply app_inj_tail in En as [-> ->]. injection Ep as ->. now apply IH.
    + injection Ep as E _. now apply rust_name_super in E.
    + injection Ep as E _. now apply rust_name_super in E.
  - remember (rust_name u k Snake None :: path) as p0 eqn:Ep. destruct H' as [ns1 k1 path1 there1 d1 x1 H1|ns1 k1 path1 there1 d1 x1 He1 H1|ns1 s1 d1 x1 Hh1 Hin1].
    + injection Ep as E _. symmetry in E. now apply rust_name_super in E.
    + injection Ep as E ->. destruct He as [s He], He1 as [s1 He1].
      pose proof (keys_held _ _ Hkeys _ _ He) as G. pose proof (keys_held _ _ Hkeys _ _ He1) as G1.
      apply Forall_app in G as [_ G]. apply Forall_app in G1 as [_ G1]. inversion G; subst. inversion G1; subst.
      apply rust_name_inj in E as [E _]; auto.
      destruct (holds_unique tree Hok _ _ _ _ He1 He) as [E2 _].
      { apply same_ns_app; [apply same_ns_refl|]. constructor; [exact E|constructor]. }
      apply app_inj_tail in E2 as [_ ->]. now apply IH.
    + injection Ep as _ E. subst path. now apply rust_resolves_nonempty in H.
  - remember [rust_name u (sd_name d) Pascal (Some x)] as p0 eqn:Ep. destruct H' as [ns1 k1 path1 there1 d1 x1 H1|ns1 k1 path1 there1 d1 x1 He1 H1|ns1 s1 d1 x1 Hh1 Hin1].
    + injection Ep as E _. symmetry in E. now apply rust_name_super in E.
    + injection Ep as _ E. subst path1. now apply rust_resolves_nonempty in H1.
    + injection Ep as E. destruct (holds_unique tree Hok _ _ _ _ Hh1 Hh) as [_ ->]; [apply same_ns_refl|].
      destruct (Hd ns1 s d1 d Hh Hin1 Hin) as [G1 K]. destruct (Hd ns1 s d d Hh Hin Hin) as [G2 _].
      apply rust_name_inj in E as [E [= ->]]; auto; try (right; split; discriminate).
Qed.
End Paths.

(** ** The paths that are written *)
Section Schemas.
Context (u : unicode) (Hu : ascii_agrees u) (schemas : list (namespace * sschema)).
Context (Hl : loaded schemas) (Hv : valid schemas) (Hg : forall ns s, In (ns, s) schemas -> good_file u ns s).
Let tree := module_tree schemas.
Lemma loaded_imports ns s : In (ns, s) schemas -> imports_ok s.
Proof. intros H. destruct Hl as (_ & H2 & _). exact (H2 ns s H). Qed.
Lemma schemas_tree : tree_holds schemas tree.
Proof.
  destruct Hl as (H & _). apply module_tree_spec; [exact H|]. apply Forall_forall. intros [ns s] Hin.
  apply (good_texts u Hu). exact (proj1 (Hg ns s Hin)).
Qed.
Lemma schemas_keys : tree_keys (good_ident u) tree.
Proof. apply module_tree_keys. apply Forall_forall. intros [ns s] Hin. exact (proj1 (Hg ns s Hin)). Qed.
Lemma tree_decl ns s d1 d2 : holds tree ns s -> In d1 (ss_decls s) -> In d2 (ss_decls s) ->
  good_ident u (sd_name d1) /\ (same_ident (sd_name d1) (sd_name d2) -> d1 = d2).
Proof.
  intros Hh H1 H2. destruct schemas_tree as (_ & _ & K). destruct (K ns s Hh) as [(ns0 & Hin & _)|(-> & _)]; [|destruct H1].
  split; [exact (proj1 (proj2 (Hg ns0 s Hin)) d1 H1)|]. intros E. destruct Hv as [Hv1 _]. specialize (Hv1 ns0 s Hin).
  clear - Hv1 H1 H2 E. unfold all_distinct in Hv1. induction (ss_decls s) as [|d l IH]; [destruct H1|]. cbn [map] in Hv1.
  inversion Hv1 as [|? ? A B]; subst. rewrite Forall_forall in A. destruct H1 as [->|H1], H2 as [->|H2]; auto.
  - exfalso. apply (A (sd_name d2)); [now apply in_map|exact E].
  - exfalso. apply (A (sd_name d1)); [now apply in_map|now apply same_ident_sym].
Qed.
Lemma tree_place ns s : In (ns, s) schemas -> exists here, same_ns ns here /\ holds tree here s /\ Forall (good_ident u) here.
Proof.
  intros H. destruct schemas_tree as (_ & K & _). destruct (K ns s H) as (here & A & B). exists here. repeat split; auto.
  exact (keys_held _ _ schemas_keys _ _ B).
Qed.
(** What a mention leads to. *)
Lemma mention_target ns s d f i n here : declared schemas ns s d -> In f (sd_fields d) -> mentions (sf_type f) i n ->
  same_ns ns here -> Forall (good_ident u) here ->
  exists tns ns2 s2 d2 there, reference_namespace s here i = Some tns /\ Forall (good_ident u) tns /\ good_ident u n /\
    declared schemas ns2 s2 d2 /\ (exists ns', leads_to ns s i ns' /\ same_q (ns2, sd_name d2) (ns', n)) /\
    same_ns ns2 there /\ holds tree there s2 /\ In d2 (ss_decls s2) /\ same_ns tns there /\ Forall (good_ident u) there /\
    good_ident u (sd_name d2) /\ same_ident (sd_name d2) n.
Proof.
  intros Hd Hf Hm Hs Hh. destruct Hv as [_ Hv2]. destruct (vd_resolves _ _ _ _ (Hv2 ns s d Hd) f i n Hf Hm) as (ns' & ns2 & s2 & d2 & R1 & R2 & R3).
  destruct Hd as [Hin Hd]. destruct R2 as [Hin2 Hd2]. destruct (tree_place ns2 s2 Hin2) as (there & T1 & T2 & T3).
  destruct (Hg ns s Hin) as (G1 & G2 & G3 & G4).
  assert (exists tns, reference_namespace s here i = Some tns /\ same_ns ns' tns /\ Forall (good_ident u) tns) as (tns & A1 & A2 & A3).
  { unfold reference_namespace. destruct R1 as [|i k im ns' Hk Hc Hn].
    - exists here. cbn [type_namespace]. auto.
    - exists ns'. assert (leads_to ns s (Some i) ns') as L by now apply (leads_import ns s i k im).
      apply (type_namespace_iff ns s (Some i) ns' (loaded_imports ns s Hin)) in L. cbn [type_namespace] in *. rewrite L.
      split; [reflexivity|]. split; [apply same_ns_refl|]. now apply (G4 k im). }
  exists tns, ns2, s2, d2, there. destruct R3 as [R3 R4]. cbn [fst snd] in R3, R4.
  split; [exact A1|]. split; [exact A3|]. split; [exact (G3 d f i n Hd Hf Hm)|]. split; [now split|].
  split; [exists ns'; split; [exact R1|now split]|]. split; [exact T1|]. split; [exact T2|]. split; [exact Hd2|].
  split; [|split; [exact T3|split; [|exact R4]]].
  - apply (same_ns_trans _ ns'); [now apply same_ns_sym|]. apply (same_ns_trans _ ns2); [now apply same_ns_sym|exact T1].
  - destruct (Hg ns2 s2 Hin2) as (_ & G2' & _). exact (G2' d2 Hd2).
Qed.

Lemma rust_path_resolves ns s d f i n x : declared schemas ns s d -> In f (sd_fields d) -> mentions (sf_type f) i n ->
  exists here path ns2 s2 d2 there ns',
    same_ns ns here /\ holds tree here s /\ rust_path u s here i n x = Some path /\
    declared schemas ns2 s2 d2 /\ leads_to ns s i ns' /\ same_q (ns2, sd_name d2) (ns', n) /\
    same_ns ns2 there /\ holds tree there s2 /\ rust_resolves u tree here path there d2 x /\
    forall there' d' x', rust_resolves u tree here path there' d' x' -> there' = there /\ d' = d2 /\ x' = x.
Proof.
  intros Hd Hf Hm. destruct (tree_place ns s (proj1 Hd)) as (here & P1 & P2 & P3).
  destruct (mention_target ns s d f i n here Hd Hf Hm P1 P3) as (tns & ns2 & s2 & d2 & there & A & B1 & B2 & C & (ns' & D1 & D2) & E & F & F' & G & H & I & J).
  exists here. unfold rust_path. rewrite A. pose proof (relativize_resolves tns here) as R.
  destruct (relativize_namespace tns here) as [rel ups] eqn:Er. destruct R as [R1 R2].
  eexists. exists ns2, s2, d2, there, ns'. split; [exact P1|]. split; [exact P2|]. split; [reflexivity|].
  assert (rust_resolves u tree here (repeat (txt "super") ups ++ map (fun c => rust_name u c Snake None) rel ++ [rust_name u n Pascal (Some x)]) there d2 x) as K.
  { unfold walk in R2. set (base := firstn (length here - ups) here) in *.
    assert (same_ns (base ++ rel) there) as S by (apply (same_ns_trans _ tns); auto).
    destruct (Forall2_app_inv_l _ _ S) as (base' & rel' & S1 & S2 & ->).
    assert (base' = base) as ->.
    { destruct (holds_prefix tree base' rel' s2 F) as [sb Hb].
      destruct (holds_prefix tree base (skipn (length here - ups) here) s) as [sb' Hb']; [unfold base; now rewrite firstn_skipn|].
      apply (holds_unique tree (proj1 schemas_tree) _ _ _ _ Hb Hb'). now apply same_ns_sym. }
    assert (Forall (good_ident u) rel) as Gr.
    { unfold relativize_namespace in Er. injection Er as <- _. rewrite <- (firstn_skipn (common_components tns here) tns), Forall_app in B1. tauto. }
    apply Forall_app in H as [_ H].
    destruct (names_same_ns u Hu rel rel' Gr H S2) as [-> _].
    rewrite (rust_name_same u Hu Pascal (Some x) n (sd_name d2)) by (auto; now apply same_ident_sym).
    apply rust_up; [exact R1|]. now apply (rust_down u tree base rel' s2). }
  repeat (split; [solve [auto]|]). intros there' d' x' K'.
  apply (rust_resolves_unique u Hu tree (proj1 schemas_tree) schemas_keys _ _ _ _ _ K) in K'; [exact K'|]. exact tree_decl.
Qed.

Lemma ts_members_length ns path there d x : ts_members u tree ns path there d x ->
  (length there + 1 = length ns + length path)%nat /\ path <> [].
Proof.
  intros H. induction H as [ns k path there d x He H [IH IH']|ns s d x Hh Hin]; cbn [length]; [|split; [lia|discriminate]].
  rewrite app_length in IH. cbn [length] in IH. split; [lia|discriminate].
Qed.
Lemma ts_members_unique ns path there d x : ts_members u tree ns path there d x ->
  forall there' d' x', (x' = None <-> x = None) -> ts_members u tree ns path there' d' x' -> there' = there /\ d' = d /\ x' = x.
Proof.
  intros H. induction H as [ns k path there d x He H IH|ns s d x Hh Hin]; intros there' d' x' Hx H'.
  - remember (ts_name u k Pascal None :: path) as p0 eqn:Ep. destruct H' as [ns1 k1 path1 there1 d1 x1 He1 H1|ns1 s1 d1 x1 Hh1 Hin1].
    + injection Ep as E ->. destruct He as [s He], He1 as [s1 He1].
      pose proof (keys_held _ _ schemas_keys _ _ He) as G. pose proof (keys_held _ _ schemas_keys _ _ He1) as G1.
      apply Forall_app in G as [_ G]. apply Forall_app in G1 as [_ G1]. inversion G; subst. inversion G1; subst.
      apply ts_name_inj in E as [E _]; auto; [|discriminate].
      destruct (holds_unique tree (proj1 schemas_tree) _ _ _ _ He1 He) as [E2 _].
      { apply same_ns_app; [apply same_ns_refl|]. constructor; [exact E|constructor]. }
      apply app_inj_tail in E2 as [_ ->]. now apply IH.
    + injection Ep as _ E. subst path. now apply ts_members_length in H.
  - remember [ts_name u (sd_name d) Pascal x] as p0 eqn:Ep. destruct H' as [ns1 k1 path1 there1 d1 x1 He1 H1|ns1 s1 d1 x1 Hh1 Hin1].
    + injection Ep as _ E. subst path1. now apply ts_members_length in H1.
    + injection Ep as E. destruct (holds_unique tree (proj1 schemas_tree) _ _ _ _ Hh1 Hh) as [_ ->]; [apply same_ns_refl|].
      destruct (tree_decl ns1 s d1 d Hh Hin1 Hin) as [G1 K]. destruct (tree_decl ns1 s d d Hh Hin Hin) as [G2 _].
      apply ts_name_inj in E as [E ->]; auto; [discriminate|]. destruct x as [x|], x1 as [x1|]; try (right; split; discriminate).
      * exfalso. destruct Hx as [Hx _]. now specialize (Hx eq_refl).
      * exfalso. destruct Hx as [_ Hx]. now specialize (Hx eq_refl).
      * now left.
Qed.
Lemma ts_resolves_unique here path there d x there' d' x' : (x' = None <-> x = None) ->
  ts_resolves u tree here path there d x -> ts_resolves u tree here path there' d' x' -> there' = there /\ d' = d /\ x' = x.
Proof.
  intros Hx (first & rest & outer & inner & k & E1 & E2 & H1 & H2 & H3 & H4) (first' & rest' & outer' & inner' & k' & E1' & E2' & H1' & H2' & H3' & H4').
  rewrite E1 in E1'. injection E1' as <- <-. rewrite E2 in E2'.
  assert (outer' = outer) as ->.
  { destruct (Nat.lt_trichotomy (length outer') (length outer)) as [L|[L|L]].
    - exfalso. assert (exists a, outer = outer' ++ a /\ a <> []) as (a & -> & Ha).
      { exists (skipn (length outer') outer). split.
        - assert (firstn (length outer') (outer ++ inner) = outer') as K by (rewrite E2'; rewrite firstn_app, Nat.sub_diag, firstn_all; cbn; apply app_nil_r).
          rewrite firstn_app in K. replace (length outer' - length outer)%nat with O in K by lia. cbn [firstn] in K. rewrite app_nil_r in K.
          rewrite <- K at 1. now rewrite firstn_skipn.
        - intros K. apply (f_equal (@length _)) in K. rewrite skipn_length in K. cbn in K. lia. }
      rewrite <- app_assoc in E2'. apply app_inv_head in E2'. apply (H1' a inner); [now rewrite <- E2'|exact Ha|]. left. now exists k.
    - clear - L E2'. revert outer' L E2'. induction outer as [|a o IH]; intros [|b o'] L E; try discriminate L; [reflexivity|].
      cbn in E. injection E as -> E. f_equal. apply IH; [cbn in L; lia|exact E].
    - exfalso. assert (exists a, outer' = outer ++ a /\ a <> []) as (a & -> & Ha).
      { exists (skipn (length outer) outer'). split.
        - assert (firstn (length outer) (outer' ++ inner') = outer) as K by (rewrite <- E2'; rewrite firstn_app, Nat.sub_diag, firstn_all; cbn; apply app_nil_r).
          rewrite firstn_app in K. replace (length outer - length outer')%nat with O in K by lia. cbn [firstn] in K. rewrite app_nil_r in K.
          rewrite <- K at 1. now rewrite firstn_skipn.
        - intros K. apply (f_equal (@length _)) in K. rewrite skipn_length in K. cbn in K. lia. }
      rewrite <- app_assoc in E2'. apply app_inv_head in E2'. apply (H1 a inner'); [now rewrite E2'|exact Ha|]. left. now exists k'. }
  destruct H3 as [s3 H3], H3' as [s3' H3'].
  pose proof (keys_held _ _ schemas_keys _ _ H3) as G. pose proof (keys_held _ _ schemas_keys _ _ H3') as G1.
  apply Forall_app in G as [_ G]. apply Forall_app in G1 as [_ G1]. inversion G; subst. inversion G1; subst.
  apply ts_name_inj in H2' as [E _]; auto; [|discriminate].
  destruct (holds_unique tree (proj1 schemas_tree) _ _ _ _ H3' H3) as [E3 _].
  { apply same_ns_app; [apply same_ns_refl|]. constructor; [exact E|constructor]. }
  apply app_inj_tail in E3 as [_ ->]. now apply (ts_members_unique _ _ _ _ _ H4).
Qed.
Lemma ts_path_resolves ns s d f i n x : (forall ns s, In (ns, s) schemas -> ns <> []) ->
  declared schemas ns s d -> In f (sd_fields d) -> mentions (sf_type f) i n ->
  exists here first rest ns2 s2 d2 there ns',
    same_ns ns here /\ holds tree here s /\ ts_path u s here i n x = Some (first :: rest) /\
    declared schemas ns2 s2 d2 /\ leads_to ns s i ns' /\ same_q (ns2, sd_name d2) (ns', n) /\
    same_ns ns2 there /\ holds tree there s2 /\
    ((forall a b, here = a ++ b -> a <> [] -> ~ ts_has_namespace u tree a first) <->
     ts_resolves u tree here (first :: rest) there d2 x) /\
    (forall there' d' x', (x' = None <-> x = None) -> ts_resolves u tree here (first :: rest) there d2 x ->
       ts_resolves u tree here (first :: rest) there' d' x' -> there' = there /\ d' = d2 /\ x' = x).
Proof.
  intros Hne Hd Hf Hm. destruct (tree_place ns s (proj1 Hd)) as (here & P1 & P2 & P3).
  destruct (mention_target ns s d f i n here Hd Hf Hm P1 P3) as (tns & ns2 & s2 & d2 & there & A & B1 & B2 & C & (ns' & D1 & D2) & E & F & F' & G & H & I & J).
  pose proof (Hne ns2 s2 (proj1 C)) as Hne2. destruct there as [|k there]; [inversion E; subst; now destruct Hne2|].
  destruct (names_same_ns u Hu tns (k :: there) B1 H G) as [_ En].
  exists here, (ts_name u k Pascal None), (map (fun c => ts_name u c Pascal None) there ++ [ts_name u n Pascal x]).
  exists ns2, s2, d2, (k :: there), ns'. unfold ts_path. rewrite A, En. split; [exact P1|]. split; [exact P2|].
  split; [reflexivity|]. repeat (split; [solve [auto]|]). split.
  - rewrite (ts_name_same u Hu Pascal x n (sd_name d2)) by (auto; now apply same_ident_sym). split.
    + intros Hsc. exists (ts_name u k Pascal None). eexists. exists [], here, k. split; [reflexivity|]. split; [reflexivity|].
      split; [exact Hsc|]. split; [reflexivity|]. split; [destruct (holds_prefix tree [k] there s2 F) as [sk Hk]; now exists sk|].
      now apply (ts_down u tree [k] there s2).
    + intros (first & rest & outer & inner & k' & E1 & E2 & H1 & H2 & H3 & H4). injection E1 as <- <-.
      apply ts_members_length in H4 as [H4 _]. rewrite !app_length, map_length in H4. cbn [length] in H4.
      destruct outer as [|? outer]; [|cbn [length] in H4; lia]. cbn [app] in *. subst inner. exact H1.
  - intros there' d' x' Hx. now apply ts_resolves_unique.
Qed.
End Schemas.

(** ** Names that must not be captured *)
Section Capture.
Context (u : unicode) (Hu : ascii_agrees u).
Lemma pascal_suffix s x : ident_chars s -> exists p, in_case u Pascal (with_suffix u (ident_from u s) (Some x)) = p ++ suffix_str x.
Proof.
  intros Hs. apply ident_chars_asciis in Hs. rewrite with_suffix_from. destruct (orig_suffix_words u Hu s (Some x) Hs) as [A W].
  cbn [in_case]. rewrite (pascal_words u Hu _ A), W, map_app, concat_app. exists (concat (map acap (split_words u s))).
  f_equal. now destruct x.
Qed.
Definition ends_with (w s : str) : bool := str_eqb (skipn (length s - length w) s) w.
Lemma ends_with_app p w : ends_with w (p ++ w) = true.
Proof.
  unfold ends_with. rewrite app_length. replace (length p + length w - length w)%nat with (length p) by lia.
  rewrite skipn_app, skipn_all, Nat.sub_diag. cbn. apply str_eqb_refl.
Qed.
Lemma suffixed_not_in s x l pre : ident_chars s -> forallb (fun n => negb (ends_with (suffix_str x) n)) l = true ->
  ~ In (pre ++ in_case u Pascal (with_suffix u (ident_from u s) (Some x))) l.
Proof.
  intros Hs Hl Hin. rewrite forallb_forall in Hl. apply Hl in Hin. destruct (pascal_suffix s x Hs) as [p Ep].
  rewrite Ep, app_assoc, ends_with_app in Hin. discriminate Hin.
Qed.
Lemma rust_types_not_captured s x : ident_chars s -> ~ In (rust_name u (ident_from u s) Pascal (Some x)) rust_relied_on.
Proof.
  intros Hs. unfold rust_name. cbv zeta. destruct (existsb _ RUST_KEYWORDS).
  - apply suffixed_not_in; [exact Hs|]. now destruct x.
  - apply (suffixed_not_in s x _ []); [exact Hs|]. now destruct x.
Qed.
Lemma ts_types_not_captured s x : ident_chars s -> ~ In (ts_name u (ident_from u s) Pascal (Some x)) ts_relied_on.
Proof.
  intros Hs. unfold ts_name. cbv zeta. destruct (existsb _ TYPESCRIPT_KEYWORDS).
  - apply suffixed_not_in; [exact Hs|]. now destruct x.
  - apply (suffixed_not_in s x _ []); [exact Hs|]. now destruct x.
Qed.
(** Local variables. *)
Lemma rust_local_inj a b : good_ident u a -> good_ident u b -> rust_local u a = rust_local u b -> same_ident a b.
Proof.
  intros Ha Hb E. unfold rust_local in E. apply app_inv_head in E. apply (rust_name_inj u Hu Snake None None) in E; auto. tauto.
Qed.
Lemma rust_local_legal s : ident_chars s -> starts_with_letter s ->
  (legal_rust_identifier (rust_local u (ident_from u s)) <-> ~ In (snake_case (ident_from u s)) RUST_KEYWORDS).
Proof.
  intros Hs Hl. unfold rust_local, rust_name. cbv zeta. cbn [in_case with_suffix].
  pose proof (converted_ident_chars u Hu Snake None s Hs) as C. cbn [in_case with_suffix] in C.
  pose proof (converted_starts u Hu Snake None s Hs Hl) as C1. cbn [in_case with_suffix] in C1.
  set (w := snake_case (ident_from u s)) in *.
  destruct (existsb (str_eqb w) RUST_KEYWORDS) eqn:E.
  - apply existsb_In in E. split; [|tauto]. intros H. exfalso. destruct H as [[[H _] _]|(s' & H & _)]; [|discriminate H].
    inversion H as [|? ? _ H2]; subst. now apply not_ident_hash in H2.
  - assert (~ In w RUST_KEYWORDS) as Hn by (rewrite <- existsb_In; congruence). split; [auto|]. intros _. left. split.
    + split; [constructor; [right; now right|exact C]|]. right. split; [reflexivity|]. destruct w; [destruct C1|discriminate].
    + intros H. apply in_map_iff in H as (k & Hk & Hin). repeat (destruct Hin as [<-|Hin]; [discriminate Hk|]). destruct Hin.
Qed.
End Capture.
