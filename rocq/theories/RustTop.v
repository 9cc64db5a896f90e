(** The public functions of generated programs. *)
From Verif Require Import Spec TypesFacts DecodeFacts IdentFacts TruncFacts2 ParserFacts.
From Verif Require Import TreeFacts CodeFacts.
From Verif Require Import RustSerFacts RustDeserFacts RustFromFacts.
From Verif Require Export RustLinkFacts.

(** ** Generation does not panic *)
Section Modules.
Context (P : smodule -> Prop) (H : forall children s, Forall (fun c => P (snd c)) children -> P (SModule children s)).
Fixpoint smodule_ind' (m : smodule) : P m :=
  match m with
  | SModule children s => H children s
      ((fix all (l : list (ident * smodule)) : Forall (fun c => P (snd c)) l :=
          match l with [] => Forall_nil _ | c :: l' => Forall_cons c (smodule_ind' (snd c)) (all l') end) children)
  end.
End Modules.
Lemma module_panics_at m : forall ns, module_panics ns m = true -> exists path s, holds m path s /\ schema_panics (ns ++ path) s = true.
Proof.
  induction m as [ch s IH] using smodule_ind'. intros ns Hp. cbn [module_panics] in Hp. apply orb_true_iff in Hp as [Hp|Hp].
  - exists [], s. rewrite app_nil_r. split; [constructor|exact Hp].
  - apply existsb_exists in Hp as ([k m] & Hin & Hp). rewrite Forall_forall in IH. destruct (IH _ Hin _ Hp) as (path & s' & H1 & H2).
    exists (k :: path), s'. split; [now apply (holds_below ch s k m)|]. cbn [fst] in H2. now rewrite <- app_assoc in H2.
Qed.
Lemma type_panics_mention s ns t : type_panics s ns t = true -> exists i n, mentions t i n /\ reference_namespace s ns i = None.
Proof.
  induction t; cbn [type_panics]; try discriminate.
  - intros Hp. destruct (IHt Hp) as (i & n & A & B). exists i, n. split; [now constructor|exact B].
  - destruct (reference_namespace s ns import) eqn:E; [discriminate|]. intros _. eexists. eexists. split; [constructor|exact E].
Qed.

Lemma text_no_panic schemas : loaded schemas -> valid schemas -> Forall (fun e => text_namespace (fst e)) schemas ->
  module_panics [] (module_tree schemas) = false.
Proof.
  intros Hl Hv Ht. destruct (module_panics [] (module_tree schemas)) eqn:E; [|reflexivity]. exfalso.
  apply module_panics_at in E as (path & s & H1 & H2). cbn [app] in H2.
  destruct (module_tree_spec schemas (proj1 Hl) Ht) as (_ & _ & K). destruct (K path s H1) as [(ns & Hin & Hs)|(-> & _)]; [|discriminate H2].
  pose proof (loaded_imports schemas Hl ns s Hin) as Hi. unfold schema_panics in H2. apply orb_true_iff in H2 as [H2|H2].
  - apply existsb_exists in H2 as (e & He & H2). destruct Hi as [_ Hi]. rewrite Forall_forall in Hi. specialize (Hi e He). now destruct (si_namespace (snd e)).
  - apply existsb_exists in H2 as (d & Hd & H2). apply existsb_exists in H2 as (f & Hf & H2). apply type_panics_mention in H2 as (i & n & Hm & E).
    destruct (vd_resolves _ _ _ _ (proj2 Hv ns s d (conj Hin Hd)) f i n Hf Hm) as (ns' & _ & _ & _ & R & _).
    apply (type_namespace_iff ns s i ns' Hi) in R. unfold reference_namespace in E. destruct i as [i|]; cbn [type_namespace] in *; [|discriminate].
    rewrite R in E. discriminate E.
Qed.
Lemma text_generates u version schemas : loaded schemas -> valid schemas -> Forall (fun e => text_namespace (fst e)) schemas ->
  exists code, rust_code u version schemas = Some code.
Proof.
  intros Hl Hv Ht. unfold rust_code. rewrite text_no_panic by assumption. cbv zeta.
  destruct (module_children (module_tree schemas)), (ss_decls (module_schema (module_tree schemas))); eexists; reflexivity.
Qed.

Section Top.
Context (u : unicode) (Hu : ascii_agrees u) (schemas : list (namespace * sschema)).
Context (Hl : loaded schemas) (Hv : valid schemas) (Hg : plain_names schemas u).
Let Hg' : forall ns s, In (ns, s) schemas -> good_file u ns s := fun ns s H => proj1 (Hg ns s H).
Let prog := rust_program u schemas.
(** ** One tree for each declaration *)
Lemma named_unique :
  (forall ns s t nt, named schemas ns s t nt -> In (ns, s) schemas -> forall nt', named schemas ns s t nt' -> nt' = nt) /\
  (forall ns s fs fts, named_fields schemas ns s fs fts -> In (ns, s) schemas -> forall fts', named_fields schemas ns s fs fts' -> fts' = fts).
Proof.
  apply (named_both schemas
    (fun ns s t nt _ => In (ns, s) schemas -> forall nt', named schemas ns s t nt' -> nt' = nt)
    (fun ns s fs fts _ => In (ns, s) schemas -> forall fts', named_fields schemas ns s fs fts' -> fts' = fts)).
  1: { intros ns s t T H IH Hin nt' H'. inversion H'; subst. f_equal. now apply IH. }
  1-7: intros ns s Hin nt' H'; inversion H'; reflexivity.
  - intros ns s i n ns' ns2 s2 d2 fs H1 H2 H3 H4 IH Hin nt' H'. inversion H' as [| | | | | | | |? ? ? ? ns3 ns4 s4 d4 fs4 K1 K2 K3 K4]; subst.
    pose proof (loaded_imports schemas Hl ns s Hin) as Hi.
    apply (type_namespace_iff ns s i ns' Hi) in H1. apply (type_namespace_iff ns s i ns3 Hi) in K1. assert (ns3 = ns') as -> by congruence.
    destruct (declared_unique schemas Hl Hv ns2 s2 d2 ns4 s4 d4 H2 K2) as (<- & <- & <-).
    { apply (same_q_trans _ (ns', n)); [exact H3|now apply same_q_sym]. }
    f_equal. apply IH; [exact (proj1 H2)|exact K4].
  - intros ns s Hin fts' H'. now inversion H'.
  - intros ns s f fs T Ts H1 IH1 H2 IH2 Hin fts' H'. inversion H'; subst. f_equal; [f_equal; now apply IH1|now apply IH2].
Qed.
Lemma decl_named_unique ns s d nt nt' : declared schemas ns s d -> decl_named schemas ns s d nt -> decl_named schemas ns s d nt' -> nt' = nt.
Proof.
  intros Hd (fs & H1 & ->) (fs' & H1' & ->). f_equal. exact (proj2 named_unique ns s _ fs H1 (proj1 Hd) fs' H1').
Qed.
Lemma decl_named_denotes ns s d nt : decl_named schemas ns s d nt -> decl_denotes schemas ns s d (erase nt).
Proof. intros (fs & H1 & ->). eexists. split; [exact (proj2 (named_denotes schemas) _ _ _ _ H1)|reflexivity]. Qed.
Lemma decl_denotes_named ns s d T : decl_denotes schemas ns s d T -> exists nt, decl_named schemas ns s d nt /\ erase nt = T.
Proof.
  intros (Ts & H1 & ->). destruct (proj2 (denotes_named schemas) _ _ _ _ H1) as (fts & H2 & <-).
  exists (NDecl ns s (sd_kind d) (sd_name d) fts). split; [exists fts; auto|reflexivity].
Qed.

(** ** Calls *)
Context {W : Type} (w : writer W) (rounds : nat) (lim : N) (wraps : bool).
Ltac evs := repeat (ev_step; cbn [obind]).
Context (ns : namespace) (s : sschema) (d : sdecl) (nt : nty) (Hd : declared schemas ns s d) (Hn : decl_named schemas ns s d nt).
Lemma public_fn x name : method prog (mods u ns, type_name u (sd_name d) x) name = decl_method u ns s (length ns) d x name.
Proof. exact (proj1 (schema_method u Hu schemas Hl Hv Hg ns s d x name Hd)). Qed.

Lemma top_size v depth st : wt DOut v (erase nt) -> size v (erase nt) < two64 -> (vdepth v < depth)%nat ->
  call_size w rounds lim wraps u prog depth ns d (embed u DOut v nt) st = FVal (RvInt (size v (erase nt))) st.
Proof.
  intros Hw Hs Hdep. destruct Hn as (fs & Hf & E). destruct (decl_linked u Hu schemas Hl Hv Hg ns s d fs Hd Hf) as [Hi Hk].
  destruct depth as [|depth]; [lia|]. unfold call_size, run_method. rewrite public_fn. cbn [decl_method]. cbv zeta. cbn [find_fn fn_name gen_size_fn].
  rewrite str_eqb_refl. cbn [fst snd]. unfold gen_size_fn, vr. rewrite run_self, eb_eq. evs.
  rewrite E in *. rewrite (proj2 (atlas_sim w rounds lim wraps u prog v) ns s _ _ fs depth st Hi Hk Hw Hs ltac:(lia)). cbn [of_fres obind]. evs.
  pose proof (wt_custom_depth v _ Hw) as Hc. cbn [custom_depth] in Hc. destruct depth as [|depth]; [lia|].
  rewrite (size_call w rounds lim wraps u prog ns s _ _ fs _ depth st Hi) by now apply calc_awt. reflexivity.
Qed.
Lemma top_serialize v depth r x : wt DOut v (erase nt) -> size v (erase nt) < two64 -> (vdepth v < depth)%nat ->
  call_serialize w rounds lim wraps u prog depth ns d (embed u DOut v nt) (mkSt r x []) =
    serialize_outcome r (serialize_to w rounds x v (erase nt)).
Proof.
  intros Hw Hs Hdep. destruct Hn as (fs & Hf & E). destruct (decl_linked u Hu schemas Hl Hv Hg ns s d fs Hd Hf) as [Hi Hk].
  destruct depth as [|depth]; [lia|]. unfold call_serialize, run_method. rewrite public_fn. cbn [decl_method]. cbv zeta. cbn [find_fn fn_name gen_size_fn gen_serialize_fn].
  replace (str_eqb (txt "serialize") (txt "size")) with false by reflexivity. rewrite str_eqb_refl. cbn [fst snd]. unfold gen_serialize_fn. rewrite run_two, eb_eq.
  unfold lets, vr. evs. rewrite E in *.
  rewrite (proj2 (atlas_sim w rounds lim wraps u prog v) ns s _ _ fs depth _ Hi Hk Hw Hs ltac:(lia)). cbn [of_fres obind]. evs.
  rewrite (proj2 (ser_sim w rounds lim wraps u prog v) ns s _ _ fs _ depth _ Hi Hk Hw (calc_awt v true _ Hw) ltac:(lia)).
  unfold write_calls, serialize_to, serialize_outcome. cbn [st_writer st_written st_reader]. destruct (run_calls _ _ _ _ _) as [[[] y] o]; reflexivity.
Qed.
Lemma top_deserialize depth chunks x : chunks_ok chunks -> (length (concat chunks) < rounds)%nat -> (dd rounds nt < depth)%nat ->
  deserialize_outcome (fun v => embed u DIn v nt) (deserialize lim (erase nt) (concat chunks))
    (call_deserialize w rounds lim wraps u prog depth ns d chunks x).
Proof.
  intros Hc Hr Hdep. destruct Hn as (fs & Hf & E). destruct (decl_linked u Hu schemas Hl Hv Hg ns s d fs Hd Hf) as [Hi Hk].
  assert (ty_wf (erase nt)) as Hwf by (apply (decl_denotes_wf schemas Hv ns s d); [exact Hd|now apply decl_named_denotes]).
  destruct depth as [|depth]; [lia|]. unfold call_deserialize, run_method. rewrite public_fn. cbn [decl_method]. cbv zeta. cbn [find_fn fn_name gen_deserialize_fn].
  rewrite str_eqb_refl. cbn [fst snd]. unfold gen_deserialize_fn. rewrite run_one, eb_eq. unfold vr. evs.
  cbn [deserializer]. rewrite str_eqb_refl. rewrite public_fn. cbn [decl_method]. cbv zeta. cbn [find_fn fn_name gen_deserialize_fn fst snd].
  pose proof (in_deserialize _ _ _ _ _ _ _ Hi) as Hm. fold prog in Hm. rewrite public_fn in Hm. cbn [decl_method] in Hm. cbv zeta in Hm. cbn [find_fn fn_name gen_deserialize_fn] in Hm. rewrite Hm.
  pose proof (proj2 (deser_sim w rounds lim wraps u prog (NDecl ns s (sd_kind d) (sd_name d) fs))) as K. cbn [deser_call] in K.
  rewrite (K (RBase chunks) O depth (mkSt (RBase chunks) x []) Hi Hk ltac:(rewrite E in Hdep; lia) eq_refl true (lenN (concat chunks)) Hr). rewrite <- E.
  pose proof (chunked_outcome lim (erase nt) chunks rounds Hwf Hc Hr) as Ho. unfold cdeserialize in Ho.
  destruct (cdecode rounds lim (erase nt) true (lenN (concat chunks)) (RBase chunks)), (deserialize lim (erase nt) (concat chunks)); cbn [outcome_of outcome_of_res] in Ho; try discriminate;
    try (injection Ho as <-); cbn [deserialize_outcome io_value of_fres obind scoped fn_result]; eauto.
Qed.
Lemma top_from v depth st : wt DOut v (erase nt) -> (vdepth v <= depth)%nat ->
  call_from w rounds lim wraps u prog depth ns d (embed u DOut v nt) st = FVal (embed u DIn (to_in v (erase nt)) nt) st.
Proof.
  intros Hw Hdep. destruct Hn as (fs & Hf & E). destruct (decl_linked u Hu schemas Hl Hv Hg ns s d fs Hd Hf) as [Hi Hk]. rewrite E in *.
  pose proof (proj2 (into_sim w rounds lim wraps u prog v) ns s _ _ fs depth st Hi Hk Hw Hdep) as K. rewrite <- K. unfold call_into, call_from.
  assert (type_of (embed u DOut v (NDecl ns s (sd_kind d) (sd_name d) fs)) = Some (mods u ns, type_name u (sd_name d) SOut)) as ->.
  { destruct (sd_kind d), v; cbn [wt erase decl_type] in Hw; try contradiction; cbn [embed direction type_of]; try reflexivity.
    destruct (named_field i fs) eqn:Ef; [reflexivity|]. exfalso.
    replace (find_field i (map (fun f : sfield * nty => mkF (sf_index (fst f)) (sf_rule (fst f)) (erase (snd f))) fs)) with (@None (field_of ty)) in Hw; [exact Hw|].
    clear -Ef. induction fs as [|f fs IH]; cbn [map find_field f_index named_field] in *; [reflexivity|]. destruct (sf_index (fst f) =? i); [discriminate|]. now apply IH. }
  reflexivity.
Qed.
End Top.
