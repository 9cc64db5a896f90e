(** Lemmas about relative namespaces and the tree of modules. *)
From Verif Require Import IdentFacts NamesFacts ParserFacts.
From Verif Require Export ModuleSpec ValidatorFacts.

(** ** Relative namespaces *)
Lemma common_le a : forall b, (common_components a b <= length a /\ common_components a b <= length b)%nat.
Proof.
  induction a as [|x a IH]; intros [|y b]; cbn [common_components length]; try lia. destruct (ident_eqb x y); [|lia].
  specialize (IH b). lia.
Qed.
Lemma common_prefix a : forall b, same_ns (firstn (common_components a b) b) (firstn (common_components a b) a).
Proof.
  induction a as [|x a IH]; intros [|y b]; cbn [common_components firstn]; try constructor.
  destruct (ident_eqb x y) eqn:E; [|constructor]. cbn [firstn]. constructor; [now apply same_ident_sym|apply IH].
Qed.
Lemma common_max a : forall b k, (k <= length a)%nat -> (k <= length b)%nat -> same_ns (firstn k b) (firstn k a) ->
  (k <= common_components a b)%nat.
Proof.
  induction a as [|x a IH]; intros [|y b] k Ha Hb H; cbn [length] in *; try lia. destruct k as [|k]; [lia|].
  cbn [firstn] in H. inversion H as [|? ? ? ? H1 H2]; subst. cbn [common_components].
  apply same_ident_sym in H1. unfold same_ident in H1. rewrite H1. specialize (IH b k ltac:(lia) ltac:(lia) H2). lia.
Qed.
Lemma same_ns_app a b c d : same_ns a b -> same_ns c d -> same_ns (a ++ c) (b ++ d).
Proof. apply Forall2_app. Qed.
Lemma same_ns_length a b : same_ns a b -> length a = length b.
Proof. intros H. induction H; cbn; congruence. Qed.
Lemma same_ns_firstn a b n : same_ns a b -> same_ns (firstn n a) (firstn n b).
Proof.
  intros H. revert n. induction H as [|x y a b H1 H2 IH]; intros [|n]; cbn [firstn]; try constructor; auto. apply IH.
Qed.
Lemma relativize_resolves a b : let (path, ups) := relativize_namespace a b in
  (ups <= length b)%nat /\ same_ns (walk b ups path) a.
Proof.
  unfold relativize_namespace. cbv zeta. split; [lia|]. unfold walk. pose proof (common_le a b) as [Ha Hb].
  replace (length b - (length b - common_components a b))%nat with (common_components a b) by lia.
  apply (same_ns_trans _ (firstn (common_components a b) a ++ skipn (common_components a b) a)).
  - apply same_ns_app; [apply common_prefix|apply same_ns_refl].
  - rewrite firstn_skipn. apply same_ns_refl.
Qed.
Lemma relativize_shortest a b path' ups' : (ups' <= length b)%nat -> same_ns (walk b ups' path') a ->
  (snd (relativize_namespace a b) <= ups')%nat /\ (length (fst (relativize_namespace a b)) <= length path')%nat.
Proof.
  intros Hu H. unfold relativize_namespace, walk in *. cbn [fst snd]. set (k := (length b - ups')%nat) in *.
  pose proof (same_ns_length _ _ H) as Hl. rewrite app_length, firstn_length in Hl.
  assert (k <= common_components a b)%nat as Hk.
  { apply common_max; [lia|lia|]. apply (same_ns_firstn _ _ k) in H.
    rewrite firstn_app, firstn_length, firstn_firstn in H. replace (min k k) with k in H by lia.
    replace (k - min k (length b))%nat with O in H by lia. cbn [firstn] in H. now rewrite app_nil_r in H. }
  rewrite skipn_length. lia.
Qed.

(** ** Keys *)
Lemma text_cmp a b : str_ok (snake_case a) -> str_ok (snake_case b) -> (ident_cmp a b = Eq <-> same_ident a b).
Proof. intros Ha Hb. symmetry. now apply eqb_cmp. Qed.
Lemma text_same a b : same_ident a b -> str_ok (snake_case a) -> str_ok (snake_case b).
Proof. intros H Ha. apply ident_eqb_eq in H. now rewrite <- H. Qed.
Lemma text_same_ns a b : same_ns a b -> text_namespace a -> text_namespace b.
Proof.
  intros H. induction H as [|x y a b H1 H2 IH]; intros Ht; [constructor|]. inversion Ht; subst. constructor; [now apply (text_same x)|now apply IH].
Qed.
Lemma same_cmp a b : same_ident a b -> ident_cmp a b = Eq.
Proof. intros H. apply ident_eqb_eq in H. unfold ident_cmp. rewrite H. now apply bytes_cmp_eq. Qed.

(** ** Well-formed trees: the keys of every map increase. *)
Inductive tree_ok : smodule -> Prop :=
| tree_ok_intro children s : StronglySorted klt children -> Forall (fun e => str_ok (snake_case (fst e)) /\ tree_ok (snd e)) children ->
    tree_ok (SModule children s).
Lemma sorted_unique {V} (m : list (ident * V)) k1 v1 k2 v2 : StronglySorted klt m -> In (k1, v1) m -> In (k2, v2) m ->
  ident_cmp k1 k2 = Eq -> k1 = k2 /\ v1 = v2.
Proof.
  induction m as [|[k v] m IH]; intros Hs H1 H2 E; [destruct H1|]. inversion Hs as [|? ? Hs1 Hs2]; subst.
  rewrite Forall_forall in Hs2. destruct H1 as [[= -> ->]|H1], H2 as [[= -> ->]|H2].
  - auto.
  - specialize (Hs2 _ H2). unfold klt in Hs2. cbn [fst] in Hs2. congruence.
  - specialize (Hs2 _ H1). unfold klt in Hs2. cbn [fst] in Hs2. rewrite cmp_sym, E in Hs2. discriminate.
  - now apply IH.
Qed.
Lemma holds_unique m : tree_ok m -> forall ns1 s1 ns2 s2, holds m ns1 s1 -> holds m ns2 s2 -> same_ns ns1 ns2 -> ns1 = ns2 /\ s1 = s2.
Proof.
  intros Hm ns1 s1 ns2 s2 H. revert Hm ns2 s2. induction H as [children s|children s0 k m ns s Hin H IH]; intros Hm ns2 s2 H2 E.
  - inversion E; subst. now inversion H2.
  - inversion E as [|? k2 ? ns2' E1 E2]; subst. inversion H2 as [|? ? ? m2 ? ? Hin2 H2']; subst. inversion Hm as [? ? Hs Hf]; subst.
    destruct (sorted_unique children k m k2 m2 Hs Hin Hin2 (same_cmp _ _ E1)) as [<- <-].
    rewrite Forall_forall in Hf. destruct (Hf _ Hin) as [_ Hok]. destruct (IH Hok ns2' s2 H2' E2) as [<- <-]. auto.
Qed.

Lemma update_child_some k f m m' : update_child k f m = Some m' -> exists l k' v r, m = l ++ (k', v) :: r /\ m' = l ++ (k', f v) :: r /\ ident_cmp k k' = Eq.
Proof.
  revert m'. induction m as [|[k' v] m IH]; intros m'; cbn [update_child]; [discriminate|].
  assert (forall m'', update_child k f m = Some m'' -> exists l k2 v2 r, (k', v) :: m = l ++ (k2, v2) :: r /\ (k', v) :: m'' = l ++ (k2, f v2) :: r /\ ident_cmp k k2 = Eq) as K.
  { intros m'' E. destruct (IH m'' E) as (l & k2 & v2 & r & -> & -> & E2). exists ((k', v) :: l), k2, v2, r. auto. }
  destruct (ident_cmp k k') eqn:E.
  - intros [= <-]. exists [], k', v, m. auto.
  - destruct (update_child k f m) as [m''|]; [|discriminate]. intros [= <-]. now apply K.
  - destruct (update_child k f m) as [m''|]; [|discriminate]. intros [= <-]. now apply K.
Qed.
Lemma update_child_none k f m : update_child k f m = None -> Forall (fun e => ident_cmp k (fst e) <> Eq) m.
Proof.
  induction m as [|[k' v] m IH]; cbn [update_child]; [constructor|].
  destruct (ident_cmp k k') eqn:E; [discriminate| |]; destruct (update_child k f m); try discriminate; intros _; constructor; cbn; auto; congruence.
Qed.
Lemma sorted_keys (m m' : list (ident * smodule)) : map fst m = map fst m' -> StronglySorted klt m -> StronglySorted klt m'.
Proof.
  revert m'. induction m as [|[k v] m IH]; intros [|[k' v'] m'] E Hs; try discriminate; [constructor|]. injection E as <- E.
  inversion Hs as [|? ? H1 H2]; subst. constructor; [now apply IH|]. apply Forall_forall. intros [k2 v2] H. unfold klt. cbn [fst].
  assert (In k2 (map fst m)) as Hk by (rewrite E; change k2 with (fst (k2, v2)); now apply in_map).
  apply in_map_iff in Hk as ([k3 v3] & <- & H3). rewrite Forall_forall in H2. apply (H2 _ H3).
Qed.

(** ** Insertion *)
Definition tree_empty : smodule := SModule [] empty_schema.
Lemma insert_ok ns s : text_namespace ns -> forall m, tree_ok m -> tree_ok (insert_schema ns s m).
Proof.
  induction ns as [|k ns IH]; intros Ht m Hm; cbn [insert_schema].
  - destruct Hm as [children s0 H1 H2]. cbn. now constructor.
  - inversion Ht as [|? ? Hk Hns]; subst. destruct Hm as [children s0 H1 H2]. cbn [module_children module_schema].
    destruct (update_child k (insert_schema ns s) children) as [ch'|] eqn:E.
    + apply update_child_some in E as (l & k' & v & r & -> & -> & E). constructor.
      * apply (sorted_keys (l ++ (k', v) :: r)); [now rewrite !map_app|exact H1].
      * apply Forall_app in H2 as [A B]. inversion B as [|? ? [B0 B1] B2]; subst. apply Forall_app. split; [exact A|]. constructor; [|exact B2].
        split; [exact B0|]. now apply IH.
    + apply update_child_none in E. pose proof (map_insert_fresh _ children k (insert_schema ns s tree_empty) E) as Hf.
      destruct (map_insert k (insert_schema ns s tree_empty) children) as [ch' b] eqn:Ei. cbn [snd] in Hf. subst b.
      unfold tree_empty in Ei. rewrite Ei. cbn [fst]. destruct (map_insert_spec _ _ _ _ _ H1 Ei) as (P & S & _). constructor; [exact S|].
      apply (Permutation_Forall P). constructor; [|exact H2]. split; [exact Hk|]. apply IH; [exact Hns|]. constructor; constructor.
Qed.
(** What the tree holds after an insertion. *)
Lemma holds_insert ns s : text_namespace ns -> forall m, tree_ok m -> forall ns' s', holds (insert_schema ns s m) ns' s' ->
  (same_ns ns ns' /\ s' = s) \/ (~ same_ns ns ns' /\ holds m ns' s') \/ (above ns' ns /\ s' = empty_schema).
Proof.
  induction ns as [|k ns IH]; intros Ht m Hm ns' s' H; cbn [insert_schema] in H.
  - destruct m as [children s0]. cbn [module_children] in H. inversion H as [|? ? k2 m2 ns2 ? H1 H2]; subst.
    + left. split; [constructor|reflexivity].
    + right. left. split; [intros E; inversion E|]. now apply (holds_below _ _ k2 m2).
  - inversion Ht as [|? ? Hk Hns]; subst. destruct Hm as [children s0 H1 H2]. cbn [module_children module_schema] in H.
    rewrite Forall_forall in H2.
    assert (forall k' v, same_ident k k' -> tree_ok v ->
              (forall ns2, holds v ns2 s' -> holds (SModule children s0) (k' :: ns2) s' \/ ns2 = [] /\ v = tree_empty /\ s' = empty_schema) ->
              forall ns2, holds (insert_schema ns s v) ns2 s' ->
              (same_ns (k :: ns) (k' :: ns2) /\ s' = s) \/ (~ same_ns (k :: ns) (k' :: ns2) /\ holds (SModule children s0) (k' :: ns2) s') \/
              (above (k' :: ns2) (k :: ns) /\ s' = empty_schema)) as K.
    { intros k' v Ek Hv Hh ns2 Hn. destruct (IH Hns v Hv ns2 s' Hn) as [[A B]|[[A B]|[A B]]].
      - left. split; [now constructor|exact B].
      - destruct (Hh ns2 B) as [C|(-> & _ & C)].
        + right. left. split; [|exact C]. intros E. apply A. now inversion E.
        + right. right. split; [|exact C]. exists [k], ns. split; [reflexivity|]. split; [intros ->; apply A; constructor|].
          constructor; [now apply same_ident_sym|constructor].
      - right. right. split; [|exact B]. destruct A as (pre & rest & -> & R & E). exists (k :: pre), rest. split; [reflexivity|]. split; [exact R|].
        constructor; [now apply same_ident_sym|exact E]. }
    assert (ns' = [] -> s' = s0 -> (~ same_ns (k :: ns) [] /\ holds (SModule children s0) [] s')) as Kroot.
    { intros _ ->. split; [intros E; inversion E|constructor]. }
    destruct (update_child k (insert_schema ns s) children) as [ch'|] eqn:E.
    + apply update_child_some in E as (l & k' & v & r & -> & -> & E).
      inversion H as [|? ? k2 m2 ns2 ? Hin Hh]; subst; [right; left; now apply Kroot|].
      assert (In (k', v) (l ++ (k', v) :: r)) as Hkv by (apply in_app_iff; right; now left).
      destruct (H2 _ Hkv) as [Hk' Hv].
      assert (same_ident k k') as Ek by now apply text_cmp.
      apply in_app_iff in Hin as [Hin|[[= <- <-]|Hin]].
      * right. left. split.
        -- intros Es. inversion Es as [|? ? ? ? Es1 Es2]; subst.
           assert (In (k2, m2) (l ++ (k', v) :: r)) as Hin' by (apply in_app_iff; now left).
           assert (ident_cmp k2 k' = Eq) as E2 by (apply same_cmp, (same_ident_trans _ k); [now apply same_ident_sym|exact Ek]).
           clear - Hin E2 H1. apply in_split in Hin as (l1 & l2 & ->). rewrite <- app_assoc in H1.
           assert (forall (a b : list (ident * smodule)) x y, StronglySorted klt (a ++ x :: b) -> In y b -> klt x y) as Kl.
           { induction a as [|z a IHa]; intros b x y Hs Hy; inversion Hs as [|? ? P1 P2]; subst; [rewrite Forall_forall in P2; now apply P2|now apply (IHa b x y)]. }
           apply (Kl l1 (l2 ++ (k', v) :: r) (k2, m2) (k', v)) in H1; [unfold klt in H1; cbn in H1; congruence|].
           apply in_app_iff. right. now left.
        -- apply (holds_below _ _ k2 m2); [apply in_app_iff; now left|exact Hh].
      * apply (K k' v Ek Hv); [|exact Hh]. intros ns3 Hn. left. now apply (holds_below _ _ k' v).
      * right. left. split.
        -- intros Es. inversion Es as [|? ? ? ? Es1 Es2]; subst.
           assert (ident_cmp k' k2 = Eq) as E2 by (apply same_cmp, (same_ident_trans _ k); [now apply same_ident_sym|exact Es1]).
           assert (klt (k', v) (k2, m2)) as Hlt.
           { assert (forall (a b : list (ident * smodule)) x y, StronglySorted klt (a ++ x :: b) -> In y b -> klt x y) as Kl.
             { induction a as [|z a IHa]; intros b x y Hs Hy; inversion Hs as [|? ? P1 P2]; subst; [rewrite Forall_forall in P2; now apply P2|now apply (IHa b x y)]. }
             now apply (Kl l r). }
           unfold klt in Hlt. cbn in Hlt. congruence.
        -- apply (holds_below _ _ k2 m2); [apply in_app_iff; right; now right|exact Hh].
    + apply update_child_none in E. pose proof (map_insert_fresh _ children k (insert_schema ns s tree_empty) E) as Hf.
      destruct (map_insert k (insert_schema ns s tree_empty) children) as [ch' b] eqn:Ei. cbn [snd] in Hf. subst b.
      unfold tree_empty in Ei. rewrite Ei in H. cbn [fst] in H. destruct (map_insert_spec _ _ _ _ _ H1 Ei) as (P & S & _).
      inversion H as [|? ? k2 m2 ns2 ? Hin Hh]; subst; [right; left; now apply Kroot|].
      apply (Permutation_in _ (Permutation_sym P)) in Hin as [[= <- <-]|Hin].
      * apply (K k tree_empty (same_ident_refl k)); [constructor; constructor| |exact Hh].
        intros ns3 Hn. right. unfold tree_empty in Hn. inversion Hn as [|? ? ? ? ? ? Hnil]; subst; [auto|destruct Hnil].
      * right. left. split; [|now apply (holds_below _ _ k2 m2)]. intros Es. inversion Es as [|? ? ? ? Es1 Es2]; subst.
        rewrite Forall_forall in E. apply (E _ Hin). cbn [fst]. now apply same_cmp.
Qed.
Lemma holds_inserted ns s : text_namespace ns -> forall m, tree_ok m -> exists ns', same_ns ns ns' /\ holds (insert_schema ns s m) ns' s.
Proof.
  induction ns as [|k ns IH]; intros Ht m Hm; cbn [insert_schema].
  - exists []. split; [constructor|]. destruct m. constructor.
  - inversion Ht as [|? ? Hk Hns]; subst. destruct Hm as [children s0 H1 H2]. cbn [module_children module_schema].
    destruct (update_child k (insert_schema ns s) children) as [ch'|] eqn:E.
    + apply update_child_some in E as (l & k' & v & r & -> & -> & E). rewrite Forall_forall in H2.
      destruct (H2 (k', v)) as [Hk' Hv]; [apply in_app_iff; right; now left|]. destruct (IH Hns v Hv) as (ns' & A & B).
      exists (k' :: ns'). split; [constructor; [now apply text_cmp|exact A]|].
      apply (holds_below _ _ k' (insert_schema ns s v)); [apply in_app_iff; right; now left|exact B].
    + apply update_child_none in E. pose proof (map_insert_fresh _ children k (insert_schema ns s tree_empty) E) as Hf.
      destruct (map_insert k (insert_schema ns s tree_empty) children) as [ch' b] eqn:Ei. cbn [snd] in Hf. subst b.
      unfold tree_empty in Ei. rewrite Ei. cbn [fst]. destruct (map_insert_spec _ _ _ _ _ H1 Ei) as (P & S & _).
      destruct (IH Hns tree_empty) as (ns' & A & B); [constructor; constructor|]. exists (k :: ns'). split; [constructor; [apply same_ident_refl|exact A]|].
      apply (holds_below _ _ k (insert_schema ns s tree_empty)); [|exact B]. apply (Permutation_in _ P). now left.
Qed.
Lemma holds_kept ns s : text_namespace ns -> forall m, tree_ok m -> forall ns' s', holds m ns' s' -> ~ same_ns ns ns' ->
  holds (insert_schema ns s m) ns' s'.
Proof.
  induction ns as [|k ns IH]; intros Ht m Hm ns' s' H Hne; cbn [insert_schema].
  - destruct m as [children s0]. cbn [module_children]. inversion H; subst; [destruct Hne; constructor|]. econstructor; eassumption.
  - inversion Ht as [|? ? Hk Hns]; subst. destruct Hm as [children s0 H1 H2]. cbn [module_children module_schema].
    destruct (update_child k (insert_schema ns s) children) as [ch'|] eqn:E.
    + apply update_child_some in E as (l & k' & v & r & -> & -> & E). rewrite Forall_forall in H2.
      destruct (H2 (k', v)) as [Hk' Hv]; [apply in_app_iff; right; now left|].
      inversion H as [|? ? k2 m2 ns2 ? Hin Hh]; subst; [constructor|].
      apply in_app_iff in Hin as [Hin|[[= <- <-]|Hin]].
      * apply (holds_below _ _ k2 m2); [apply in_app_iff; now left|exact Hh].
      * apply (holds_below _ _ k' (insert_schema ns s v)); [apply in_app_iff; right; now left|].
        apply IH; auto. intros Es. apply Hne. constructor; [now apply text_cmp|exact Es].
      * apply (holds_below _ _ k2 m2); [apply in_app_iff; right; now right|exact Hh].
    + apply update_child_none in E. pose proof (map_insert_fresh _ children k (insert_schema ns s tree_empty) E) as Hf.
      destruct (map_insert k (insert_schema ns s tree_empty) children) as [ch' b] eqn:Ei. cbn [snd] in Hf. subst b.
      unfold tree_empty in Ei. rewrite Ei. cbn [fst]. destruct (map_insert_spec _ _ _ _ _ H1 Ei) as (P & S & _).
      inversion H as [|? ? k2 m2 ns2 ? Hin Hh]; subst; [constructor|].
      apply (holds_below _ _ k2 m2); [|exact Hh]. apply (Permutation_in _ P). now right.
Qed.

(** ** The tree of all schemas *)
Definition tree_holds (done : list (namespace * sschema)) (m : smodule) : Prop :=
  tree_ok m /\
  (forall ns s, In (ns, s) done -> exists ns', same_ns ns ns' /\ holds m ns' s) /\
  (forall ns' s', holds m ns' s' ->
     (exists ns, In (ns, s') done /\ same_ns ns ns') \/
     (s' = empty_schema /\ (ns' = [] \/ exists ns s, In (ns, s) done /\ above ns' ns) /\ forall ns s, In (ns, s) done -> ~ same_ns ns ns')).
Lemma module_tree_spec schemas : ForallOrdPairs (fun a b => ~ same_ns (fst a) (fst b)) schemas ->
  Forall (fun e => text_namespace (fst e)) schemas -> tree_holds schemas (module_tree schemas).
Proof.
  intros Hd Ht. unfold module_tree.
  assert (forall todo done m, schemas = done ++ todo -> tree_holds done m ->
    tree_holds schemas (fold_left (fun m e => insert_schema (fst e) (snd e) m) todo m)) as K.
  { induction todo as [|[ns s] todo IH]; intros done m E Hm; [rewrite app_nil_r in E; now subst|].
    cbn [fold_left fst snd]. apply (IH (done ++ [(ns, s)])); [now rewrite <- app_assoc|]. destruct Hm as (H1 & H2 & H3).
    assert (text_namespace ns) as Hns.
    { rewrite Forall_forall in Ht. apply (Ht (ns, s)). rewrite E. apply in_app_iff. right. now left. }
    assert (forall ns2 s2, In (ns2, s2) done -> ~ same_ns ns2 ns) as Hdist.
    { intros ns2 s2 Hin. rewrite E in Hd. clear - Hd Hin. induction done as [|e done IHd]; [destruct Hin|]. cbn in Hd.
      inversion Hd as [|? ? D1 D2]; subst. destruct Hin as [->|Hin]; [|now apply IHd]. rewrite Forall_forall in D1.
      apply (D1 (ns, s)). apply in_app_iff. right. now left. }
    split; [now apply insert_ok|]. split.
    - intros ns2 s2 Hin. apply in_app_iff in Hin as [Hin|[[= <- <-]|[]]].
      + destruct (H2 ns2 s2 Hin) as (ns' & A & B). exists ns'. split; [exact A|]. apply holds_kept; auto. intros Es.
        apply (Hdist ns2 s2 Hin). apply (same_ns_trans _ ns'); [exact A|now apply same_ns_sym].
      + now apply holds_inserted.
    - intros ns' s' Hh. pose proof Hh as Hh0. apply holds_insert in Hh as [[A ->]|[[A B]|[A B]]]; auto.
      + left. exists ns. split; [apply in_app_iff; right; now left|exact A].
      + apply H3 in B as [(ns2 & B1 & B2)|(-> & B & B3)].
        * left. exists ns2. split; [apply in_app_iff; now left|exact B2].
        * right. split; [reflexivity|]. split.
          -- destruct B as [->|(ns2 & s2 & B1 & B2)]; [now left|]. right. exists ns2, s2. split; [apply in_app_iff; now left|exact B2].
          -- intros ns2 s2 Hin. apply in_app_iff in Hin as [Hin|[[= <- <-]|[]]]; [now apply (B3 ns2 s2)|exact A].
      + assert ((exists ns2 s2, In (ns2, s2) done /\ same_ns ns2 ns') \/ forall ns2 s2, In (ns2, s2) done -> ~ same_ns ns2 ns') as [(ns2 & s2 & C1 & C2)|C].
        { clear. induction done as [|[ns2 s2] done IH]; [right; intros ? ? []|]. destruct (ns_eqb ns2 ns') eqn:E.
          - left. exists ns2, s2. split; [now left|now apply ns_eqb_iff].
          - destruct IH as [(a & b & H1 & H2)|H]; [left; exists a, b; split; [now right|exact H2]|]. right. intros a b [[= <- <-]|Hin]; [|now apply (H a b)].
            intros Es. apply ns_eqb_iff in Es. congruence. }
        * left. exists ns2. destruct (H2 ns2 s2 C1) as (ns3 & C3 & C4).
          assert (holds (insert_schema ns s m) ns3 s2) as C5.
          { apply holds_kept; auto. intros Es. apply (Hdist ns2 s2 C1). apply (same_ns_trans _ ns3); [exact C3|now apply same_ns_sym]. }
          destruct (holds_unique (insert_schema ns s m) (insert_ok ns s Hns m H1) ns3 s2 ns' s' C5 Hh0) as [_ E2].
          { apply (same_ns_trans _ ns2); [now apply same_ns_sym|exact C2]. }
          subst s2. split; [apply in_app_iff; now left|exact C2].
        * right. split; [exact B|]. split; [right; exists ns, s; split; [apply in_app_iff; right; now left|exact A]|].
          intros ns2 s2 Hin. apply in_app_iff in Hin as [Hin|[[= <- <-]|[]]]; [now apply (C ns2 s2)|]. intros Es.
          destruct A as (pre & rest & -> & R & A). apply same_ns_length in Es. apply same_ns_length in A. rewrite app_length in Es.
          destruct rest; [now destruct R|]. cbn in Es. lia. }
  apply (K schemas []); [reflexivity|]. split; [constructor; constructor|]. split; [intros ns s []|].
  intros ns' s' H. right. inversion H as [|? ? ? ? ? ? Hnil]; subst; [|destruct Hnil]. split; [reflexivity|]. split; [now left|]. intros ns s [].
Qed.
