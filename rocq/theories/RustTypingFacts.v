(** The declarations of a generated program have the types that the typing rules look for. *)
From Verif Require Import Spec TypesFacts IdentFacts NamesFacts ParserFacts CycleFacts.
From Verif Require Import TreeFacts CodeFacts.
From Verif Require Export RustTypesFacts RustTyping.

Ltac relied := apply existsb_In; reflexivity.

Section Links.
Context (u : unicode) (Hu : ascii_agrees u) (schemas : list (namespace * sschema)).
Context (Hl : loaded schemas) (Hv : valid schemas) (Hg : plain_names schemas u).
Let tree := module_tree schemas.
Let prog := rust_program u schemas.
Let Hg' : forall ns s, In (ns, s) schemas -> good_file u ns s := fun ns s H => proj1 (Hg ns s H).

(** ** What the types of fields mean *)
Definition target (ns : namespace) (s : sschema) (i : option ident) (n : ident) (x : suffix) : tyid :=
  match resolve prog (mods u ns) (type_path u ns s i n x) with Some id => id | None => ([], []) end.
Fixpoint sem (ns : namespace) (s : sschema) (t : sty) (x : suffix) : rty :=
  match t with
  | SyArray inner =>
      match x with
      | SAtlas => if sized_sty inner then KPair KUsize (KVec (sem ns s inner x)) else KUsize
      | _ => KVec (sem ns s inner x)
      end
  | SyCustom i n => KData (target ns s i n x)
  | _ => match x with
         | SAtlas => KUsize
         | _ => match t with
                | SyBool => KBool | SyBytes => KVec KU8 | SyF64 => KF64 | SyS64 => KI64 | SyString => KString | SyU64 => KU64 | _ => KUnit
                end
         end
  end.
Lemma custom_target ns s i n : In (ns, s) schemas -> owned schemas ns s (SyCustom i n) ->
  exists ns2 s2 d2, declared schemas ns2 s2 d2 /\ forall x, target ns s i n x = (mods u ns2, type_name u (sd_name d2) x) /\
    resolve prog (mods u ns) (type_path u ns s i n x) = Some (mods u ns2, type_name u (sd_name d2) x).
Proof.
  intros Hin Ho. destruct (Ho i n (mentions_custom i n)) as (d & f & A1 & A2 & A3).
  assert (forall x, exists ns2 s2 d2 ns', declared schemas ns2 s2 d2 /\ leads_to ns s i ns' /\ same_q (ns2, sd_name d2) (ns', n) /\
    resolve prog (mods u ns) (type_path u ns s i n x) = Some (mods u ns2, type_name u (sd_name d2) x)) as K.
  { intros x. destruct (rust_path_resolves u Hu schemas Hl Hv Hg' ns s d f i n x A1 A2 A3) as (here & path & ns3 & s3 & d3 & there & ns'' & B1 & B2 & B3 & B4 & B5 & B6 & B7 & B8 & B9 & _).
    exists ns3, s3, d3, ns''. split; [exact B4|]. split; [exact B5|]. split; [exact B6|].
    unfold type_path. rewrite (rust_path_same u s ns here i n x B1), B3.
    pose proof (proj1 (Hg' ns s Hin)) as Gn. pose proof (proj1 (Hg' ns3 s3 (proj1 B4))) as Gn2.
    pose proof (keys_held _ _ (schemas_keys u schemas Hg') _ _ B2) as Gh. pose proof (keys_held _ _ (schemas_keys u schemas Hg') _ _ B8) as Gt.
    rewrite (mods_same u Hu ns here), (mods_same u Hu ns3 there) by assumption. now apply (resolve_path u Hu schemas Hl Hg). }
  destruct (K SOut) as (ns2 & s2 & d2 & ns' & H1 & H2 & H3 & H4). exists ns2, s2, d2. split; [exact H1|]. intros x.
  destruct (K x) as (ns3 & s3 & d3 & ns'' & E1 & E2 & E3 & E4).
  pose proof (loaded_imports schemas Hl ns s Hin) as Hs.
  apply (type_namespace_iff ns s i ns' Hs) in H2. apply (type_namespace_iff ns s i ns'' Hs) in E2. assert (ns'' = ns') as -> by congruence.
  destruct (declared_unique schemas Hl Hv ns2 s2 d2 ns3 s3 d3 H1 E1) as (<- & <- & <-).
  { apply (same_q_trans _ (ns', n)); [exact H3|now apply same_q_sym]. }
  unfold target. rewrite E4. auto.
Qed.
Section File.
Context (ns : namespace) (s : sschema) (Hin : In (ns, s) schemas).
Context (sp : scope) (Hsp : here sp = mods u ns).
Lemma free name : In name rust_relied_on -> not_redefined prog sp name.
Proof. intros H. unfold not_redefined. rewrite Hsp. now apply (no_item u Hu schemas Hl Hg ns s). Qed.
Lemma ty_usize_ok : ty_of prog sp ty_usize KUsize.
Proof. apply ty_prim; [reflexivity|apply free; relied]. Qed.
Lemma sem_ok t x : owned schemas ns s t -> ty_of prog sp (gen_type u ns s t x) (sem ns s t x).
Proof.
  induction t as [t IH| | |i n| | | | |]; intros Ho.
  1: { cbn [gen_type sem]. specialize (IH (owned_array schemas ns s t Ho)). destruct x; [destruct (sized_sty t); [|apply ty_usize_ok]; apply ty_pair; [apply ty_usize_ok|]| |];
    (apply ty_vec; [apply free; relied|exact IH]). }
  3: { cbn [gen_type sem]. destruct (custom_target ns s i n Hin Ho) as (ns2 & s2 & d2 & Hd & H). destruct (H x) as [E1 E2]. rewrite E1.
    apply (ty_data prog sp _ _ (data u ns2 s2 d2 x)); [rewrite Hsp; exact E2|]. now apply (decl_item u Hu schemas Hl Hv Hg). }
  all: cbn [gen_type sem]; destruct x; try apply ty_usize_ok; try apply ty_unit; try (apply ty_prim; [reflexivity|apply free; relied]).
  all: apply ty_vec; [apply free; relied|]; apply ty_prim; [reflexivity|apply free; relied].
Qed.
End File.

(** ** The functions of the types *)
Section Functions.
Context (ns : namespace) (s : sschema) (d : sdecl) (Hd : declared schemas ns s d).
Let m := mods u ns.
Let id x : tyid := (m, type_name u (sd_name d) x).
Lemma decl_ty self t x : ty_of prog (mkScope m self t) (TyPath [type_name u (sd_name d) x]) (KData (id x)).
Proof. apply (ty_data prog _ _ _ (data u ns s d x)); [reflexivity|]. now apply (decl_item u Hu schemas Hl Hv Hg). Qed.
Lemma self_ty k t : ty_of prog (mkScope m (Some k) t) (TyPath [txt "Self"]) k.
Proof. now apply ty_self. Qed.
Lemma usize_ty self t : ty_of prog (mkScope m self t) ty_usize KUsize.
Proof. now apply (ty_usize_ok ns s (proj1 Hd)). Qed.
Lemma result_ty sp t k : ty_of prog sp t k -> ty_of prog sp (io_result t) (KResult k).
Proof. apply ty_result. Qed.
Lemma param_ty self t : ty_of prog (mkScope m self (Some t)) (TyPath [txt "T"]) t.
Proof. now apply ty_param. Qed.
Lemma decl_found x (pick : sdecl -> fndef) fns name :
  In (IImpl None (type_name u (sd_name d) x) fns) (gen_decl u ns s (length ns) d) -> In (pick d) fns -> fn_name (pick d) = name -> is_public (pick d) = true ->
  inherent prog (id x) name (pick d).
Proof.
  intros H1 H2 H3 H4. destruct (schema_module u Hu schemas Hl Hg ns s (proj1 Hd)) as (ch & E). unfold inherent. cbn [fst snd id].
  eexists ch, _, fns. split; [exact E|]. split; [|auto]. apply in_flat_map. exists d. split; [exact (proj2 Hd)|exact H1].
Qed.
Definition atlas_of (d : sdecl) := match sd_kind d with SkStruct => struct_atlas u (length ns) (sd_name d) (sd_fields d) | SkChoice => choice_atlas u (length ns) (sd_name d) (sd_fields d) end.
Definition ser_of (d : sdecl) := match sd_kind d with SkStruct => struct_ser u (length ns) (sd_name d) (sd_fields d) | SkChoice => choice_ser u (length ns) (sd_name d) (sd_fields d) end.
Definition deser_of (d : sdecl) := match sd_kind d with SkStruct => struct_deser u ns s (length ns) (sd_name d) (sd_fields d) | SkChoice => choice_deser u ns s (length ns) (sd_name d) (sd_fields d) end.
Definition size_of (d : sdecl) := match sd_kind d with SkStruct => struct_size | SkChoice => choice_size u (sd_name d) (sd_fields d) end.
Ltac member := cbn [In]; repeat first [left; reflexivity | right].
Lemma atlas_found : inherent prog (id SOut) (txt "atlas") (atlas_of d).
Proof. apply (decl_found SOut atlas_of [atlas_of d; ser_of d]); unfold atlas_of, ser_of, deser_of, size_of; [unfold gen_decl; cbv zeta; destruct (sd_kind d); member|destruct (sd_kind d); member|now destruct (sd_kind d)..]. Qed.
Lemma ser_found : inherent prog (id SOut) (txt "serialize_with_atlas") (ser_of d).
Proof. apply (decl_found SOut ser_of [atlas_of d; ser_of d]); unfold atlas_of, ser_of, deser_of, size_of; [unfold gen_decl; cbv zeta; destruct (sd_kind d); member|destruct (sd_kind d); member|now destruct (sd_kind d)..]. Qed.
Lemma deser_found : inherent prog (id SIn) (txt "deserialize_from_reader_ref") (deser_of d).
Proof. apply (decl_found SIn deser_of [deser_of d]); unfold atlas_of, ser_of, deser_of, size_of; [unfold gen_decl; cbv zeta; destruct (sd_kind d); member|destruct (sd_kind d); member|now destruct (sd_kind d)..]. Qed.
Lemma size_found : inherent prog (id SAtlas) (txt "size") (size_of d).
Proof. apply (decl_found SAtlas size_of [size_of d]); unfold atlas_of, ser_of, deser_of, size_of; [unfold gen_decl; cbv zeta; destruct (sd_kind d); member|destruct (sd_kind d); member|now destruct (sd_kind d)..]. Qed.
Lemma atlas_call c G e G' : receives prog c G e ByShared (KData (id SOut)) G' -> has prog c G (EMethod e MAtlas []) (KData (id SAtlas)) G'.
Proof.
  intros H. eapply (h_own prog c G e MAtlas); [reflexivity|exact H|exact atlas_found|unfold atlas_of; now destruct (sd_kind d)| |apply ps_nil].
  cbn [fst id]. unfold signature, atlas_of, struct_atlas, choice_atlas.
  destruct (sd_kind d); exists None; (split; [exact I|]; split; [apply pt_self, pt_nil|apply decl_ty]).
Qed.
Lemma size_call c G e G' : receives prog c G e ByShared (KData (id SAtlas)) G' -> has prog c G (EMethod e MSize []) KUsize G'.
Proof.
  intros H. eapply (h_own prog c G e MSize); [reflexivity|exact H|exact size_found|unfold size_of; now destruct (sd_kind d)| |apply ps_nil].
  cbn [fst id]. unfold signature, size_of, struct_size, choice_size.
  destruct (sd_kind d); exists None; (split; [exact I|]; split; [apply pt_self, pt_nil|apply usize_ty]).
Qed.
Lemma ser_call c G e w a W G1 G2 G3 : receives prog c G e ByShared (KData (id SOut)) G1 -> implements Writes W ->
  passes prog true c G1 w (KRef true W) G2 -> passes prog true c G2 a (KRef false (KData (id SAtlas))) G3 ->
  has prog c G (EMethod e MSerializeWithAtlas [w; a]) (KResult KUnit) G3.
Proof.
  intros H HW H1 H2. eapply (h_own prog c G e MSerializeWithAtlas); [reflexivity|exact H|exact ser_found|unfold ser_of; now destruct (sd_kind d)| |
    eapply ps_cons; [exact H1|eapply ps_cons; [exact H2|apply ps_nil]]].
  cbn [fst id]. unfold signature, ser_of, struct_ser, choice_ser, serialize_with_atlas_fn.
  destruct (sd_kind d); exists (Some W); (split; [exists Writes; auto|]; split;
    [apply pt_self, pt_par; [apply ty_ref, param_ty|apply pt_par; [apply ty_ref, decl_ty|apply pt_nil]]|apply result_ty, ty_unit]).
Qed.
Lemma deser_call c G p a R G' : ty_of prog (sc c) (TyPath p) (KData (id SIn)) -> implements Reads R -> passes prog true c G a (KRef true R) G' ->
  has prog c G (ECall (CDeserialize p) [a]) (KResult (KData (id SIn))) G'.
Proof.
  intros H HR H1. eapply (h_deserialize prog c G p); [exact H|exact deser_found|unfold deser_of; now destruct (sd_kind d)| |
    eapply ps_cons; [exact H1|apply ps_nil]].
  cbn [fst id]. unfold signature, deser_of, struct_deser, choice_deser, deserialize_fn.
  destruct (sd_kind d); exists (Some R); (split; [exists Reads; auto|]; split;
    [apply pt_par; [apply ty_ref, param_ty|apply pt_nil]|apply result_ty, self_ty]).
Qed.
Lemma decl_converts : converts prog (KData (id SOut)) (KData (id SIn)).
Proof.
  right. destruct (schema_module u Hu schemas Hl Hg ns s (proj1 Hd)) as (ch & E).
  exists m, (type_name u (sd_name d) SOut), (type_name u (sd_name d) SIn). eexists ch, _, (TyPath [type_name u (sd_name d) SOut]),
    [match sd_kind d with SkStruct => struct_from u (sd_name d) (sd_fields d) | SkChoice => choice_from u (sd_name d) (sd_fields d) end].
  split; [reflexivity|]. split; [reflexivity|]. split; [exact E|]. split; [|apply decl_ty].
  apply in_flat_map. exists d. split; [exact (proj2 Hd)|]. unfold gen_decl. cbv zeta. destruct (sd_kind d); member.
Qed.
End Functions.
End Links.
