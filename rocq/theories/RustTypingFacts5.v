(** The types of a generated program have a finite size. *)
From Verif Require Import IdentFacts NamesFacts CodeFacts ModuleFacts ParserFacts CycleFacts RustDeserFacts TreeFacts TsLinkFacts RustLinkFacts RustTop.
From Verif Require Export RustTypingFacts4.

(** ** A type that is written in a definition means one type *)
Lemma ty_of_unique prog m t k : ty_of prog (in_module m) t k -> forall k', ty_of prog (in_module m) t k' -> k' = k.
Proof.
  intros H. induction H as [name t P N|t P|t P|p id i R I|t k N H IH|t k N H IH|t k N H IH|t k H IH| |a b k l H1 IH1 H2 IH2|mu t k H IH]; intros k' H'.
  - inversion H' as [? ? P2 N2|? P2|? P2|? ? ? R2 I2| | | | | | |]; subst; try discriminate.
    + congruence.
    + cbn [resolve here in_module] in R2. injection R2 as <-. unfold not_redefined in N. cbn [here in_module] in N. congruence.
  - discriminate P.
  - discriminate P.
  - inversion H' as [? ? P2 N2|? P2|? P2|? ? ? R2 I2| | | | | | |]; subst; try discriminate.
    + cbn [resolve here in_module] in R. injection R as <-. unfold not_redefined in N2. cbn [here in_module] in N2. congruence.
    + congruence.
  - inversion H'; subst. f_equal. now apply IH.
  - inversion H'; subst. f_equal. now apply IH.
  - inversion H'; subst. f_equal. now apply IH.
  - inversion H'; subst. f_equal. now apply IH.
  - now inversion H'.
  - inversion H'; subst. f_equal; [now apply IH1|now apply IH2].
  - inversion H'; subst. f_equal. now apply IH.
Qed.
Lemma tys_unique prog m ts ks ks' : Forall2 (ty_of prog (in_module m)) ts ks -> Forall2 (ty_of prog (in_module m)) ts ks' -> ks' = ks.
Proof.
  intros H. revert ks'. induction H as [|t k ts ks H1 H2 IH]; intros ks' H'; inversion H'; subst; [reflexivity|]. f_equal; [now apply (ty_of_unique prog m t)|now apply IH].
Qed.

Section Program.
Context (u : unicode) (schemas : list (namespace * sschema)) (Ha : accepted u schemas).
Let Hu : ascii_agrees u := ac_unicode u schemas Ha.
Let Hl : loaded schemas := ac_loaded u schemas Ha.
Let Hg : plain_names schemas u := ac_names u schemas Ha.
Let Hg' : forall ns s, In (ns, s) schemas -> good_file u ns s := fun ns s H => proj1 (Hg ns s H).
Let tree := module_tree schemas.
Let prog := rust_program u schemas.
Lemma valid_here : valid schemas.
Proof. pose proof (validate_spec schemas Hl) as H. rewrite (ac_validated u schemas Ha) in H. apply H. Qed.
Let Hv : valid schemas := valid_here.
(** Every item is that of a declaration. *)
Lemma item_from b i : item_at prog b = Some i -> exists ns s d x, declared schemas ns s d /\ b = (mods u ns, type_name u (sd_name d) x).
Proof.
  destruct b as [h n]. unfold item_at. cbn [fst snd]. destruct (find_module h prog) as [[children items]|] eqn:E; [|discriminate]. intros H.
  unfold prog, rust_program in E. destruct (module_from u schemas Ha h tree [] _ E) as (p & [ch s] & -> & Hsub & Em). cbn [app gen_module] in Em. injection Em as _ ->.
  apply find_item_name in H as (d & x & Hd & ->). apply sub_holds in Hsub as Hh. cbn [module_schema] in Hh.
  destruct (schemas_tree u Hu schemas Hl Hg') as (_ & _ & Kh). destruct (Kh p s Hh) as [(ns & Hin & Hs)|(-> & _)]; [|destruct Hd].
  exists ns, s, d, x. split; [split; assumption|]. f_equal. symmetry.
  apply (mods_same u Hu); [exact (proj1 (Hg' ns s Hin))|exact (keys_held _ _ (schemas_keys u schemas Hg') _ _ Hh)|exact Hs].
Qed.
Lemma sem_inlines ns s t x a : inlines (sem u schemas ns s t x) a -> exists i n, t = SyCustom i n /\ a = target u schemas ns s i n x.
Proof.
  destruct t; cbn [sem]; intros H.
  - destruct x; [destruct (sized_sty t)|..]; inversion H as [|? ? K|? ? ? K|? ? ? K]; subst; inversion K.
  - destruct x; inversion H.
  - destruct x; inversion H.
  - inversion H. eauto.
  - destruct x; inversion H.
  - destruct x; inversion H.
  - destruct x; inversion H.
  - destruct x; inversion H.
  - destruct x; inversion H.
Qed.
(** The parts of a type are types of its fields. *)
Lemma parts ns s d x a : declared schemas ns s d -> part_of prog a (mods u ns, type_name u (sd_name d) x) ->
  exists f i n, In f (sd_fields d) /\ sf_type f = SyCustom i n /\ a = target u schemas ns s i n x.
Proof.
  intros Hd H. pose proof (decl_item u Hu schemas Hl Hv Hg ns s d x Hd) as E. unfold data in E.
  destruct H as [fields y t Hf Hin Hi|v ts t Hf Hin Hi].
  - destruct Hf as (n & ds & E1 & F). fold prog in E. rewrite E1 in E. destruct (sd_kind d) eqn:Hk; [|discriminate E].
    destruct (struct_decls u Hu schemas Hl Hv Hg ns s d Hd x Hk) as (n2 & ds2 & E2 & F2). fold prog in E2. rewrite E1 in E2. injection E2 as <- <-.
    assert (fields = decls u schemas ns s d x) as ->.
    { clear - F F2. revert F F2. generalize (decls u schemas ns s d x). cbn [fst]. intros l F. revert l. induction F as [|f dd fs dds [A B] F IH]; intros l F2; inversion F2 as [|f2 ? fs2 ? [A2 B2] F3]; subst; [reflexivity|].
      f_equal; [|now apply IH]. destruct f as [f1 f2'], f2 as [g1 g2]. cbn [fst snd] in *. subst. f_equal. eapply ty_of_unique; eassumption. }
    unfold decls in Hin. apply in_app_iff in Hin as [Hin|Hin].
    + destruct x; [destruct Hin as [[= <- <-]|[]]; inversion Hi|destruct Hin|destruct Hin].
    + apply in_map_iff in Hin as (f & [= <- <-] & Hf). exists f. assert (inlines (sem u schemas ns s (sf_type f) x) a) as K.
      { unfold fty in Hi. destruct (sf_rule f), x; try exact Hi; now inversion Hi. }
      apply sem_inlines in K as (i & n' & K1 & K2). eauto.
  - destruct Hf as (n & vs & types & E1 & Hvs & F). fold prog in E. rewrite E1 in E. destruct (sd_kind d) eqn:Hk; [discriminate E|]. unfold gen_choice in E. injection E as -> ->.
    apply in_map_iff in Hvs as (f & [= <- <-] & Hf). exists f.
    destruct (choice_types u Hu schemas Hl Hv Hg ns s d Hd x f Hk Hf) as (n2 & vs2 & types2 & E2 & Hin2 & F2). fold prog in E2. rewrite E1 in E2. injection E2 as _ <-.
    apply in_map_iff in Hin2 as (g & [= Eg <-] & Hg2).
    assert (g = f) as ->.
    { pose proof (variants_distinct u Hu schemas Hl Hv Hg ns s d Hd) as N. clear - Eg Hg2 Hf N. induction (sd_fields d) as [|h l IH]; [destruct Hf|]. cbn [map In] in *. inversion N as [|? ? N1 N2]; subst.
      destruct Hg2 as [->|Hg2], Hf as [->|Hf]; auto; exfalso; apply N1; [rewrite Eg|rewrite <- Eg]; now apply in_map. }
    cbn [fst] in F, F2. pose proof (tys_unique _ _ _ _ _ F2 F) as ->.
    assert (inlines (sem u schemas ns s (sf_type f) x) a) as K.
    { unfold cty in Hin. apply in_app_iff in Hin as [Hin|Hin]; [destruct x; [destruct Hin as [<-|[]]; inversion Hi|destruct Hin|destruct Hin]|].
      apply in_app_iff in Hin as [Hin|Hin].
      - destruct x; [destruct Hin as [<-|[]]; exact Hi|destruct (is_unit_sty _); [destruct Hin|destruct Hin as [<-|[]]; exact Hi]..].
      - destruct (sf_rule f), x; first [destruct Hin as [<-|[]]; inversion Hi|destruct Hin]. }
    apply sem_inlines in K as (i & n' & K1 & K2). eauto.
Qed.
Lemma tree_finite x nt : forall ns s d, declared schemas ns s d -> decl_named schemas ns s d nt -> Acc (part_of prog) (mods u ns, type_name u (sd_name d) x).
Proof.
  induction nt as [| | | | | | |e IH|ns0 s0 k0 name0 fs IH] using nty_ind'; intros ns s d Hd (fts & Hf & E); try discriminate E.
  injection E as -> -> -> -> ->. constructor. intros a Hp. destruct (parts ns s d x a Hd Hp) as (f & i & n & Hin & Et & ->).
  assert (exists nf, In (f, nf) fts /\ named schemas ns s (sf_type f) nf) as (nf & H1 & H2).
  { clear - Hf Hin. induction Hf as [|ns s g fs T Ts Hn Hf IH]; [destruct Hin|]. destruct Hin as [->|Hin]; [exists T; split; [now left|exact Hn]|].
    destruct (IH Hin) as (nf & A & B). exists nf. split; [now right|exact B]. }
  rewrite Et in H2. assert (owned schemas ns s (SyCustom i n)) as Ho by (rewrite <- Et; now apply (owned_field schemas ns s d)).
  destruct (custom_resolves u Hu schemas Hl Hv Hg ns s i n nf x (proj1 Hd) Ho H2) as (ns2 & s2 & d2 & A1 & A2 & A3).
  unfold target. rewrite A3. rewrite Forall_forall in IH. exact (IH (f, nf) H1 ns2 s2 d2 A1 A2).
Qed.
Lemma finite_program : finite_types prog.
Proof.
  intros b. constructor. intros a Hp.
  assert (exists i, item_at prog b = Some i) as (i & Ei) by (destruct Hp as [? ? ? (? & ? & E & _)|? ? ? (? & ? & ? & E & _)]; eexists; exact E).
  destruct (item_from b i Ei) as (ns & s & d & x & Hd & ->).
  assert (exists T, decl_denotes schemas ns s d T) as (T & HT).
  { pose proof (validate_spec schemas Hl) as H. rewrite (ac_validated u schemas Ha) in H. destruct H as [HV A]. destruct (acc_denotes schemas HV (ns, sd_name d) (A _) ns s d Hd (same_q_refl _)) as [Ts Hf]. eexists; exists Ts; split; [exact Hf|reflexivity]. } destruct (decl_denotes_named schemas ns s d T HT) as (nt & Hn & _).
  pose proof (tree_finite x nt ns s d Hd Hn) as A. inversion A as [K]. now apply K.
Qed.
End Program.
