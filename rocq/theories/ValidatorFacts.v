(** Lemmas about the validator: the checks before the search for cycles. *)
From Verif Require Import IdentFacts.
From Verif Require Export ValidSpec.

(** ** Equality *)
Lemma same_ident_refl a : same_ident a a. Proof. apply str_eqb_refl. Qed.
Lemma same_ident_sym a b : same_ident a b -> same_ident b a.
Proof. unfold same_ident. rewrite !ident_eqb_eq. congruence. Qed.
Lemma same_ident_trans a b c : same_ident a b -> same_ident b c -> same_ident a c.
Proof. unfold same_ident. rewrite !ident_eqb_eq. congruence. Qed.
Lemma same_ns_refl a : same_ns a a.
Proof. induction a; constructor; [apply same_ident_refl|assumption]. Qed.
Lemma same_ns_sym a b : same_ns a b -> same_ns b a.
Proof. induction 1; constructor; [now apply same_ident_sym|assumption]. Qed.
Lemma same_ns_trans a b c : same_ns a b -> same_ns b c -> same_ns a c.
Proof.
  intros H. revert c. induction H as [|x y a b H1 H2 IH]; intros c Hc; [exact Hc|].
  inversion Hc as [|? z ? c' H3 H4]; subst. constructor; [now apply (same_ident_trans x y)|now apply IH].
Qed.
Lemma same_q_refl a : same_q a a. Proof. split; [apply same_ns_refl|apply same_ident_refl]. Qed.
Lemma same_q_sym a b : same_q a b -> same_q b a.
Proof. intros [H1 H2]. split; [now apply same_ns_sym|now apply same_ident_sym]. Qed.
Lemma same_q_trans a b c : same_q a b -> same_q b c -> same_q a c.
Proof. intros [H1 H2] [H3 H4]. split; [now apply (same_ns_trans _ (fst b))|now apply (same_ident_trans _ (snd b))]. Qed.
Lemma ns_eqb_iff a : forall b, ns_eqb a b = true <-> same_ns a b.
Proof.
  induction a as [|x a IH]; intros [|y b]; cbn [ns_eqb]; try (split; [discriminate|intros H; inversion H]).
  - split; [constructor|reflexivity].
  - rewrite andb_true_iff, IH. split; [intros []; now constructor|]. intros H. inversion H; subst. auto.
Qed.
Lemma q_eqb_iff a b : q_eqb a b = true <-> same_q a b.
Proof. unfold q_eqb. rewrite andb_true_iff, ns_eqb_iff. reflexivity. Qed.
Lemma q_eqb_false a b : q_eqb a b = false <-> ~ same_q a b.
Proof. rewrite <- q_eqb_iff. destruct (q_eqb a b); split; congruence. Qed.

Lemma contains_ident x l : contains ident_eqb x l = true <-> exists y, In y l /\ same_ident x y.
Proof. apply existsb_exists. Qed.
Lemma contains_q x l : contains q_eqb x l = true <-> exists y, In y l /\ same_q x y.
Proof.
  unfold contains. rewrite existsb_exists. split; intros (y & H1 & H2); exists y; (split; [exact H1|]); now apply q_eqb_iff.
Qed.
Lemma contains_N x l : contains N.eqb x l = true <-> In x l.
Proof.
  unfold contains. rewrite existsb_exists. split; [intros (y & H1 & H2); apply N.eqb_eq in H2; now subst|].
  intros H. exists x. split; [exact H|apply N.eqb_refl].
Qed.
Lemma contains_false {A} (eqb : A -> A -> bool) x l P : (contains eqb x l = true <-> P) -> (contains eqb x l = false <-> ~ P).
Proof. intros <-. destruct (contains eqb x l); split; congruence. Qed.

(** ** Imports *)
Lemma cmp_refl_lt a : ident_cmp a a <> Lt.
Proof. unfold ident_cmp. rewrite (proj2 (bytes_cmp_eq _ _)) by reflexivity. discriminate. Qed.
Lemma map_get_in {V} (k : ident) (m : list (ident * V)) v : map_get k m = Some v -> exists k', In (k', v) m /\ ident_cmp k k' = Eq.
Proof.
  induction m as [|[k' v'] m IH]; [discriminate|]. cbn [map_get]. destruct (ident_cmp k k') eqn:E.
  - intros [= ->]. exists k'. split; [now left|exact E].
  - intros H. destruct (IH H) as (k2 & H1 & H2). exists k2. split; [now right|exact H2].
  - intros H. destruct (IH H) as (k2 & H1 & H2). exists k2. split; [now right|exact H2].
Qed.
Lemma in_map_get {V} (k : ident) (m : list (ident * V)) k' v : StronglySorted (fun a b => ident_cmp (fst a) (fst b) = Lt) m ->
  In (k', v) m -> ident_cmp k k' = Eq -> map_get k m = Some v.
Proof.
  intros Hs Hin E. induction Hs as [|[k2 v2] m H1 IH H2]; [destruct Hin|]. cbn [map_get].
  destruct Hin as [[= -> ->]|Hin]; [now rewrite E|].
  rewrite Forall_forall in H2. specialize (H2 _ Hin). cbn [fst] in H2.
  unfold ident_cmp in *. apply bytes_cmp_eq in E. rewrite E. rewrite bytes_cmp_antisym, H2. cbn [CompOpp]. now apply IH.
Qed.
Lemma map_get_none {V} (k : ident) (m : list (ident * V)) : map_get k m = None -> forall k' v, In (k', v) m -> ident_cmp k k' <> Eq.
Proof.
  induction m as [|[k2 v2] m IH]; intros H k' v; [intros []|]. cbn [map_get] in H.
  destruct (ident_cmp k k2) eqn:E; [discriminate| |]; (intros [[= -> ->]|Hin]; [congruence|]; now apply (IH H k' v)).
Qed.

Section Schemas.
Context (schemas : list (namespace * sschema)).
Notation declared := (declared schemas).

Definition imports_ok (s : sschema) : Prop :=
  StronglySorted (fun a b => ident_cmp (fst a) (fst b) = Lt) (ss_imports s) /\
  Forall (fun e => si_namespace (snd e) <> None) (ss_imports s).
Lemma type_namespace_iff ns s i ns' : imports_ok s -> type_namespace ns s i = Some (Some ns') <-> leads_to ns s i ns'.
Proof.
  intros [H1 H2]. unfold type_namespace. destruct i as [i|].
  - split.
    + destruct (map_get i (ss_imports s)) as [im|] eqn:E; [|discriminate]. intros [= E'].
      apply map_get_in in E as (k & Hin & Hk). now apply (leads_import ns s i k im).
    + intros H. remember (Some i) as oi eqn:Ei. destruct H as [|i' k im ns' Hin Hk Hn]; [discriminate|]. injection Ei as ->.
      now rewrite (in_map_get i _ k im H1 Hin Hk), Hn.
  - split; [intros [= <-]; constructor|]. intros H. remember (@None ident) as oi eqn:Ei. destruct H; [reflexivity|discriminate].
Qed.
Lemma type_namespace_populated ns s i : imports_ok s -> type_namespace ns s i <> Some None.
Proof.
  intros [H1 H2]. unfold type_namespace. destruct i as [i|]; [|discriminate].
  destruct (map_get i (ss_imports s)) as [im|] eqn:E; [|discriminate]. intros [= E'].
  apply map_get_in in E as (k & Hin & _). rewrite Forall_forall in H2. now apply (H2 _ Hin).
Qed.

(** ** The table of types *)
Lemma in_all_types q s d : In (q, (s, d)) (all_types schemas) <-> exists ns, q = (ns, sd_name d) /\ declared ns s d.
Proof.
  unfold all_types. rewrite <- in_rev, in_flat_map. split.
  - intros ([ns s'] & H1 & H2). apply in_map_iff in H2 as (d' & [= <- <- <-] & Hd). exists ns. split; [reflexivity|now split].
  - intros (ns & -> & H1 & H2). exists (ns, s). split; [exact H1|]. apply in_map_iff. exists d. auto.
Qed.
Lemma types_get_some q s d : types_get q (all_types schemas) = Some (s, d) ->
  exists ns, declared ns s d /\ same_q (ns, sd_name d) q.
Proof.
  unfold types_get. destruct (find _ _) as [[q' [s' d']]|] eqn:E; [|discriminate]. intros [= -> ->].
  apply find_some in E as [H1 H2]. apply in_all_types in H1 as (ns & -> & Hd). exists ns. split; [exact Hd|]. now apply q_eqb_iff.
Qed.
Lemma types_get_declared q ns s d : declared ns s d -> same_q (ns, sd_name d) q ->
  exists s' d', types_get q (all_types schemas) = Some (s', d').
Proof.
  intros H1 H2. unfold types_get. destruct (find _ _) as [[q' [s' d']]|] eqn:E; [do 2 eexists; reflexivity|]. exfalso.
  assert (In ((ns, sd_name d), (s, d)) (all_types schemas)) as Hin by (apply in_all_types; eauto).
  pose proof (find_none _ _ E _ Hin) as H3. cbn [fst] in H3. apply q_eqb_iff in H2. congruence.
Qed.

(** ** Types *)
Lemma validate_type_total ns s t : imports_ok s -> exists es, validate_type (all_types schemas) ns s t = Some es.
Proof.
  intros Hs. induction t as [t IH| | |i n| | | | |]; cbn [validate_type]; try (eexists; reflexivity); [exact IH|].
  pose proof (type_namespace_populated ns s i Hs) as Hp.
  destruct (type_namespace ns s i) as [[ns'|]|]; [eexists; reflexivity|congruence|eexists; reflexivity].
Qed.
Definition type_resolves (ns : namespace) (s : sschema) (t : sty) : Prop :=
  forall i n, mentions t i n ->
    exists ns' ns2 s2 d2, leads_to ns s i ns' /\ declared ns2 s2 d2 /\ same_q (ns2, sd_name d2) (ns', n).
Lemma validate_type_iff ns s t : imports_ok s -> validate_type (all_types schemas) ns s t = Some [] <-> type_resolves ns s t.
Proof.
  intros Hs. induction t as [t IH| | |i n| | | | |]; cbn [validate_type];
    try (split; [intros _ i n H; inversion H|reflexivity]).
  - rewrite IH. split; intros H i n Hm; [inversion Hm; subst; now apply H|]. apply H. now constructor.
  - destruct (type_namespace ns s i) as [[ns'|]|] eqn:E.
    + apply (type_namespace_iff ns s i ns' Hs) in E as Hl. split.
      * destruct (types_get (ns', n) (all_types schemas)) as [[s2 d2]|] eqn:Eg; [|discriminate]. intros _ i' n' Hm.
        inversion Hm; subst. apply types_get_some in Eg as (ns2 & H1 & H2). exists ns', ns2, s2, d2. auto.
      * intros H. destruct (H i n (mentions_custom i n)) as (ns'' & ns2 & s2 & d2 & H1 & H2 & H3).
        apply (type_namespace_iff ns s i ns'' Hs) in H1. rewrite E in H1. injection H1 as <-.
        destruct (types_get_declared (ns', n) ns2 s2 d2 H2 H3) as (? & ? & ->). reflexivity.
    + now apply type_namespace_populated in E.
    + split; [discriminate|]. intros H. destruct (H i n (mentions_custom i n)) as (ns'' & _ & _ & _ & H1 & _).
      apply (type_namespace_iff ns s i ns'' Hs) in H1. congruence.
Qed.

(** ** Fields *)
Lemma app_nil_iff {A} (a b : list A) : a ++ b = [] <-> a = [] /\ b = [].
Proof. split; [apply app_eq_nil|]. now intros [-> ->]. Qed.
Lemma cond_nil {A} (b : bool) (x : A) : (if b then [x] else []) = [] <-> b = false.
Proof. destruct b; split; congruence. Qed.
Definition field_fine (ns : namespace) (s : sschema) (deleted : list N) (f : sfield) : Prop :=
  ~ In (sf_index f) deleted /\ sf_index f <= 2 ^ 62 - 1 /\ type_resolves ns s (sf_type f).
Lemma validate_fields_spec ns s deleted fs : imports_ok s -> forall names idxs,
  exists es idxs', validate_fields (all_types schemas) ns s deleted names idxs fs = Some (es, idxs') /\
    (es = [] <->
       (Forall (fun f => forall y, In y names -> ~ same_ident (sf_name f) y) fs /\
        all_distinct (map sf_name fs) /\
        Forall (fun f => ~ In (sf_index f) idxs) fs /\ NoDup (map sf_index fs) /\
        Forall (field_fine ns s deleted) fs)) /\
    (Forall (fun f => ~ In (sf_index f) idxs) fs -> NoDup (map sf_index fs) -> idxs' = rev (map sf_index fs) ++ idxs).
Proof.
  intros Hs. induction fs as [|f fs IH]; intros names idxs; cbn [validate_fields].
  - exists [], idxs. split; [reflexivity|]. split; [|reflexivity]. split; [|reflexivity].
    intros _. repeat split; constructor.
  - cbv zeta. destruct (validate_type_total ns s (sf_type f) Hs) as (tes & Et). rewrite Et.
    set (dup := contains N.eqb (sf_index f) idxs).
    destruct (IH (sf_name f :: names) (if dup then idxs else sf_index f :: idxs)) as (es & idxs' & E & H1 & H2). rewrite E.
    eexists. exists idxs'. split; [reflexivity|].
    pose proof (contains_false _ _ _ _ (contains_ident (sf_name f) names)) as C1.
    pose proof (contains_false _ _ _ _ (contains_N (sf_index f) idxs)) as C2. fold dup in C2.
    pose proof (contains_false _ _ _ _ (contains_N (sf_index f) deleted)) as C3.
    pose proof (validate_type_iff ns s (sf_type f) Hs) as C4. rewrite Et in C4.
    assert (tes = [] <-> type_resolves ns s (sf_type f)) as C5.
    { rewrite <- C4. split; [now intros ->|now intros [= ->]]. }
    split.
    + rewrite !app_nil_iff, !cond_nil, C1, C2, C3, C5, H1. split.
      * intros (A1 & A2 & A3 & A4 & A5 & A6 & A7 & A8 & A9 & A10).
        replace dup with false in * by (symmetry; now apply C2).
        split; [|split; [|split; [|split]]].
        -- constructor; [intros y Hy Hsame; apply A1; eauto|]. eapply Forall_impl; [|exact A6]. cbv beta. intros g Hg y Hy.
           apply Hg. now right.
        -- constructor; [|exact A7]. apply Forall_forall. intros x Hx. apply in_map_iff in Hx as (g & <- & Hg).
           rewrite Forall_forall in A6. intros Hsame. apply (A6 g Hg (sf_name f)); [now left|now apply same_ident_sym].
        -- constructor; [exact A2|]. eapply Forall_impl; [|exact A8]. cbv beta. intros g Hg Hin. apply Hg. now right.
        -- cbn [map]. constructor; [|exact A9]. intros Hin. apply in_map_iff in Hin as (g & Eg & Hg). rewrite Forall_forall in A8.
           apply (A8 g Hg). left. congruence.
        -- constructor; [|exact A10]. split; [exact A3|]. split; [unfold max_index in A4; lia|exact A5].
      * intros (B1 & B2 & B3 & B4 & B5). inversion B1 as [|? ? B1a B1b]; subst. inversion B2 as [|? ? B2a B2b]; subst.
        inversion B3 as [|? ? B3a B3b]; subst. inversion B4 as [|? ? B4a B4b]; subst. inversion B5 as [|? ? (B5a & B5b & B5c) B5d]; subst.
        replace dup with false in * by (symmetry; now apply C2).
        split; [intros (y & Hy & Hsame); now apply (B1a y Hy)|]. split; [exact B3a|]. split; [exact B5a|]. split; [unfold max_index; lia|].
        split; [exact B5c|]. split; [|split; [exact B2b|split; [|split; [exact B4b|exact B5d]]]].
        -- apply Forall_forall. intros g Hg y [<-|Hy] Hsame.
           ++ rewrite Forall_forall in B2a. apply (B2a (sf_name g)); [now apply in_map|now apply same_ident_sym].
           ++ rewrite Forall_forall in B1b. now apply (B1b g Hg y Hy).
        -- apply Forall_forall. intros g Hg [Eg|Hin].
           ++ apply B4a. rewrite Eg. now apply in_map.
           ++ rewrite Forall_forall in B3b. now apply (B3b g Hg).
    + intros B3 B4. inversion B3 as [|? ? B3a B3b]; subst. inversion B4 as [|? ? B4a B4b]; subst.
      replace dup with false in * by (symmetry; now apply C2). rewrite H2; [cbn [map rev]; now rewrite <- app_assoc| |exact B4b].
      apply Forall_forall. intros g Hg [Eg|Hin].
      * apply B4a. rewrite Eg. now apply in_map.
      * rewrite Forall_forall in B3b. now apply (B3b g Hg).
Qed.

(** ** Gaps *)
Lemma in_count n : forall start i, In i (count_from start n) <-> start <= i < start + N.of_nat n.
Proof.
  induction n as [|n IH]; intros start i; cbn [count_from In]; [lia|]. rewrite IH. lia.
Qed.
Lemma count_length n : forall start, length (count_from start n) = n.
Proof. induction n as [|n IH]; intros start; [reflexivity|]. cbn. now rewrite IH. Qed.
Lemma count_nodup n : forall start, NoDup (count_from start n).
Proof. induction n as [|n IH]; intros start; cbn; constructor; [|apply IH]. rewrite in_count. lia. Qed.
Lemma gaps_nil_iff idxs deleted : gaps idxs deleted = [] <->
  forall i, i < N.of_nat (length idxs + length deleted) -> In i idxs \/ In i deleted.
Proof.
  unfold gaps. assert (forall {A} (p : A -> bool) l, filter p l = [] <-> forall x, In x l -> p x = false) as Hf.
  { intros A p l. split.
    - intros H x Hx. destruct (p x) eqn:E; [|reflexivity]. assert (In x (filter p l)) as Hin by now apply filter_In.
      rewrite H in Hin. destruct Hin.
    - intros H. induction l as [|x l IH]; [reflexivity|]. cbn. rewrite H by now left. apply IH. intros y Hy. apply H. now right. }
  rewrite Hf. split.
  - intros H i Hi. specialize (H i). rewrite in_count in H. specialize (H ltac:(lia)).
    apply andb_false_iff in H as [H|H]; apply negb_false_iff, contains_N in H; auto.
  - intros H i Hi. apply in_count in Hi. specialize (H i ltac:(lia)). apply andb_false_iff. rewrite !negb_false_iff, !contains_N. exact H.
Qed.
Lemma no_gaps_iff (idxs deleted : list N) : NoDup idxs -> NoDup deleted -> (forall i, In i idxs -> ~ In i deleted) ->
  gaps idxs deleted = [] <-> exists n, forall i, (In i idxs \/ In i deleted) <-> i < n.
Proof.
  intros H1 H2 H3. rewrite gaps_nil_iff.
  assert (NoDup (idxs ++ deleted)) as Hn.
  { clear - H1 H2 H3. induction H1 as [|x l Hx Hl IH]; [exact H2|]. cbn. constructor.
    - rewrite in_app_iff. intros [H|H]; [now apply Hx|]. apply (H3 x); [now left|exact H].
    - apply IH. intros i Hi. apply H3. now right. }
  set (n := (length idxs + length deleted)%nat).
  assert (length (idxs ++ deleted) = n) as Hl by apply app_length.
  split.
  - intros H. exists (N.of_nat n). intros i. split; [|apply H]. intros Hi.
    assert (incl (idxs ++ deleted) (count_from 0 n)) as Hincl.
    { apply NoDup_length_incl; [apply count_nodup|rewrite count_length; lia|].
      intros j Hj. apply in_count in Hj. apply in_app_iff, H. lia. }
    specialize (Hincl i ltac:(now apply in_app_iff)). apply in_count in Hincl. lia.
  - intros (m & Hm) i Hi. apply Hm.
    assert (n <= N.to_nat m)%nat as Hle; [|lia].
    rewrite <- Hl, <- (count_length (N.to_nat m) 0). apply NoDup_incl_length; [exact Hn|].
    intros j Hj. apply in_app_iff, Hm in Hj. apply in_count. lia.
Qed.
Lemma gaps_perm a b deleted : length a = length b -> (forall i, In i a <-> In i b) -> gaps a deleted = gaps b deleted.
Proof.
  intros Hl Hp. unfold gaps. rewrite Hl. apply filter_ext. intros i. f_equal. f_equal. apply eq_true_iff_eq. now rewrite !contains_N.
Qed.

(** ** Declarations and files *)
Lemma validate_decls_spec ns s : imports_ok s -> forall ds names, (forall d, In d ds -> NoDup (sd_deleted d)) ->
  exists es, validate_decls (all_types schemas) ns s names ds = Some es /\
    (es = [] <->
      (Forall (fun d => forall y, In y names -> ~ same_ident (sd_name d) y) ds /\ all_distinct (map sd_name ds) /\
       Forall (valid_decl schemas ns s) ds)).
Proof.
  intros Hs. induction ds as [|d ds IH]; intros names Hdel; cbn [validate_decls].
  - exists []. split; [reflexivity|]. split; [|reflexivity]. intros _. repeat split; constructor.
  - destruct (IH (sd_name d :: names)) as (es' & -> & He'); [intros; apply Hdel; now right|].
    destruct (validate_fields_spec ns s (sd_deleted d) (sd_fields d) Hs [] []) as (es & idxs & -> & H1 & H2).
    eexists. split; [reflexivity|].
    pose proof (contains_false _ _ _ _ (contains_ident (sd_name d) names)) as C1.
    assert (es ++ map VGap (gaps idxs (sd_deleted d)) = [] <-> valid_decl schemas ns s d) as Hv.
    { rewrite app_nil_iff. specialize (Hdel d (or_introl eq_refl)). split.
      - intros [E Eg]. apply H1 in E as (A1 & A2 & A3 & A4 & A5).
        rewrite (H2 A3 A4), app_nil_r in Eg. apply map_eq_nil in Eg. rewrite Forall_forall in A5.
        assert (forall i, In i (field_indices d) -> exists f, In f (sd_fields d) /\ sf_index f = i) as Hf.
        { intros i Hi. apply in_map_iff in Hi as (f & <- & Hf). eauto. }
        assert (forall i, In i (field_indices d) -> ~ In i (sd_deleted d)) as Hnd.
        { intros i Hi. destruct (Hf i Hi) as (f & Hin & <-). apply (A5 f Hin). }
        constructor.
        + exact A2.
        + exact A4.
        + exact Hnd.
        + intros i Hi. destruct (Hf i Hi) as (f & Hin & <-). apply (A5 f Hin).
        + rewrite (gaps_perm _ (field_indices d)) in Eg by (unfold field_indices; try (now rewrite rev_length); intros; now rewrite <- in_rev).
          now apply no_gaps_iff.
        + intros f i n Hin Hm. now apply (A5 f Hin).
      - intros [V1 V2 V3 V4 V5 V6].
        assert (Forall (fun f => ~ In (sf_index f) []) (sd_fields d)) as A3 by (apply Forall_forall; intros f _ []).
        split.
        + apply H1. split; [apply Forall_forall; intros f _ y []|]. split; [exact V1|]. split; [exact A3|]. split; [exact V2|].
          apply Forall_forall. intros f Hf. assert (In (sf_index f) (field_indices d)) by now apply in_map.
          split; [now apply V3|]. split; [now apply V4|]. intros i n Hm. now apply (V6 f).
        + rewrite (H2 A3 V2), app_nil_r.
          rewrite (gaps_perm _ (field_indices d)) by (unfold field_indices; try (now rewrite rev_length); intros; now rewrite <- in_rev).
          now rewrite (proj2 (no_gaps_iff (field_indices d) (sd_deleted d) V2 Hdel V3) V5). }
    rewrite (app_assoc es), app_nil_iff, (app_nil_iff (es ++ _)), cond_nil, C1, Hv, He'. split.
    + intros (B1 & B2 & B3 & B4 & B5). split; [|split; [|now constructor]].
      * constructor; [intros y Hy Hsame; apply B1; eauto|]. eapply Forall_impl; [|exact B3]. cbv beta. intros g Hg y Hy. apply Hg. now right.
      * constructor; [|exact B4]. apply Forall_forall. intros x Hx. apply in_map_iff in Hx as (g & <- & Hg).
        rewrite Forall_forall in B3. intros Hsame. apply (B3 g Hg (sd_name d)); [now left|now apply same_ident_sym].
    + intros (B1 & B2 & B3). inversion B1 as [|? ? B1a B1b]; subst. inversion B2 as [|? ? B2a B2b]; subst. inversion B3; subst.
      split; [intros (y & Hy & Hsame); now apply (B1a y Hy)|]. split; [assumption|]. split; [|now split].
      apply Forall_forall. intros g Hg y [<-|Hy] Hsame.
      * rewrite Forall_forall in B2a. apply (B2a (sd_name g)); [now apply in_map|now apply same_ident_sym].
      * rewrite Forall_forall in B1b. now apply (B1b g Hg y Hy).
Qed.
Lemma validate_files_spec : loaded schemas -> forall files, incl files schemas ->
  exists es, validate_files (all_types schemas) files = Some es /\
    (es = [] <-> (forall ns s, In (ns, s) files -> all_distinct (map sd_name (ss_decls s)) /\
                   forall d, In d (ss_decls s) -> valid_decl schemas ns s d)).
Proof.
  intros (L1 & L2 & L3) files. induction files as [|[ns s] files IH]; intros Hin; cbn [validate_files].
  - exists []. split; [reflexivity|]. split; [intros _ ns s []|reflexivity].
  - destruct IH as (es' & -> & He'); [intros x Hx; apply Hin; now right|].
    assert (In (ns, s) schemas) as Hns by (apply Hin; now left).
    destruct (validate_decls_spec ns s (L2 ns s Hns) (ss_decls s) []) as (es & -> & He); [intros d Hd; apply (L3 ns s); now split|].
    eexists. split; [reflexivity|]. rewrite app_nil_iff, He, He'. split.
    + intros ((_ & A2 & A3) & B) ns' s' [[= <- <-]|H]; [|now apply B]. split; [exact A2|]. now apply Forall_forall.
    + intros H. split; [|intros; apply H; now right]. destruct (H ns s (or_introl eq_refl)) as [A2 A3]. split; [|split; [exact A2|now apply Forall_forall]].
      apply Forall_forall. intros d _ y [].
Qed.
Lemma validate_files_iff : loaded schemas ->
  exists es, validate_files (all_types schemas) schemas = Some es /\ (es = [] <-> valid schemas).
Proof.
  intros L. destruct (validate_files_spec L schemas (incl_refl _)) as (es & E & H). exists es. split; [exact E|]. rewrite H. split.
  - intros K. split; [intros ns s Hin; apply (K ns s Hin)|]. intros ns s d [H1 H2]. now apply (K ns s H1).
  - intros [K1 K2] ns s Hin. split; [now apply (K1 ns)|]. intros d Hd. apply K2. now split.
Qed.
End Schemas.
