(** The simpler condition on names (TsApi.v) suffices. *)
From Verif Require Import ModuleFacts CodeFacts TreeFacts ValidatorFacts.
From Verif Require Export TsApi.

Section Clear.
Context (u : unicode) (Hu : ascii_agrees u) (schemas : list (namespace * sschema)).
Context (Hl : loaded schemas) (Hv : valid schemas) (Hg : plain_names schemas u) (Hd : ts_distinct_names u schemas).
Let Hgf : forall ns s, In (ns, s) schemas -> good_file u ns s.
Proof. intros ns s H. exact (proj1 (Hg ns s H)). Qed.
Lemma same_split a b pre : same_ns (a ++ b) pre -> exists a' b', pre = a' ++ b' /\ same_ns a a' /\ same_ns b b'.
Proof.
  revert pre. induction a as [|x a IH]; intros pre H; [exists [], pre; repeat split; [constructor|exact H]|].
  inversion H as [|? y ? l E1 E2]; subst. destruct (IH l E2) as (a' & b' & -> & H1 & H2). exists (y :: a'), b'. repeat split; auto. now constructor.
Qed.
Lemma named_in_schemas a name : ts_has_namespace u (module_tree schemas) a name ->
  exists ns s i, In (ns, s) schemas /\ ts_name u i Pascal None = name /\ In i (ns ++ map sd_name (ss_decls s)) /\ (a <> [] -> In i (tl ns ++ map sd_name (ss_decls s))).
Proof.
  pose proof (schemas_tree u Hu schemas Hl Hgf) as (_ & _ & K). pose proof (schemas_keys u schemas Hgf) as Kk.
  intros [(k & (s0 & Hh) & En)|(s0 & d & Hh & Hin & En)].
  - assert (exists ns s pre rest, In (ns, s) schemas /\ ns = pre ++ rest /\ same_ns (a ++ [k]) pre) as (ns & s & pre & rest & Hin & -> & Hs).
    { destruct (K _ _ Hh) as [(ns & Hin & Hs)|(_ & [E|(ns & s & Hin & pre & rest & E & _ & Hs)] & _)].
      - exists ns, s0, ns, []. split; [exact Hin|]. split; [now rewrite app_nil_r|]. now apply same_ns_sym.
      - now destruct a.
      - now exists ns, s, pre, rest. }
    apply same_split in Hs as (a' & b' & -> & H1 & H2). inversion H2 as [|? k' ? l E1 E2]; subst. inversion E2; subst. 
    assert (In k' ((a' ++ [k']) ++ rest)) as Hk by (apply in_app_iff; left; apply in_app_iff; right; now left).
    exists ((a' ++ [k']) ++ rest), s, k'. split; [exact Hin|]. split.
    + apply ts_name_same; auto.
      * pose proof (proj1 (Hgf _ _ Hin)) as G. rewrite Forall_forall in G. now apply G.
      * pose proof (keys_held _ _ Kk _ _ Hh) as G. rewrite Forall_forall in G. apply G. apply in_app_iff. right. now left.
      * now apply same_ident_sym.
    + split; [apply in_app_iff; now left|]. intros Ha. apply in_app_iff. left. destruct a' as [|x a']; [inversion H1; subst; now destruct Ha|].
      cbn [app tl]. apply in_app_iff. left. apply in_app_iff. right. now left.
  - destruct (K _ _ Hh) as [(ns & Hi & Hs)|(-> & _)]; [|destruct Hin]. exists ns, s0, (sd_name d). split; [exact Hi|]. split; [exact En|].
    split; intros; apply in_app_iff; right; now apply in_map.
Qed.
Lemma distinct_clear : ts_clear_names u schemas.
Proof.
  constructor.
  - exact (dn_placed u schemas Hd).
  - intros ns s d g _ Hin a b _ _ H. apply named_in_schemas in H as (ns' & s' & i & H1 & <- & H2 & _). exact (dn_globals u schemas Hd ns' s' i H1 H2 Hin).
  - intros ns s d f i n first rest Hdd Hf Hm Hp a b _ [Ha|Ha] H; [|discriminate Ha].
    apply named_in_schemas in H as (ns' & s' & j & H1 & Ej & _ & H2). specialize (H2 Ha).
    pose proof (Hgf _ _ (proj1 Hdd)) as (Gn & _).
    destruct (mention_target u Hu schemas Hl Hv Hgf ns s d f i n ns Hdd Hf Hm (same_ns_refl _) Gn) as (tns & ns2 & s2 & d2 & there & Hr & Gt & _ & Hd2 & _ & S2 & _ & _ & St & Gth & _).
    unfold ts_path in Hp. rewrite Hr in Hp. pose proof (dn_placed u schemas Hd ns2 s2 (proj1 Hd2)) as Hne.
    destruct ns2 as [|x ns2]; [now destruct Hne|]. inversion S2 as [|? y ? there' E1 E2]; subst there. inversion St as [|z ? tns' ? E3 E4]; subst.
    cbn [map app] in Hp. injection Hp as Ez _.
    apply (dn_types u schemas Hd (x :: ns2) s2 x ns' s' j (proj1 Hd2) eq_refl H1 H2). rewrite <- Ez.
    pose proof (Hgf _ _ (proj1 Hd2)) as (G2 & _). inversion G2; subst. inversion Gt; subst. inversion Gth; subst.
    transitivity (ts_name u y Pascal None); [now apply ts_name_same|]. apply ts_name_same; auto. now apply same_ident_sym.
Qed.
End Clear.
