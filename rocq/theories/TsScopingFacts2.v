(** The code that is generated for types follows the rules of TsScoping.v. *)
From Verif Require Export TsScopingFacts.

(** ** Arrays *)
Lemma atlas_of_sized u ns s t f : sized_sty t = true -> tgen_atlas u ns s (SyArray t) f =
  [JBlock
     [jlet "size" (num 0); jlet "elements" (XArr false []); jconst "oldPayload" (jx "payload");
      over_old_payload
        (jdecl "payloadAtlas" :: tgen_atlas u ns s t false ++
         [JExpr (XMethod false (jx "elements") MtPush [jx "payloadAtlas"]);
          jconst "payloadSize" (tgen_lookup t);
          jadd "size" (jplus (jcall "varintSizeFromValue" [XCall false (CGlobal GBigInt) [jx "payloadSize"]]) (jx "payloadSize"))]);
      set_atlas (XObj false [(txt "$size", Some (jx "size")); (txt "$elements", Some (jx "elements"))])]].
Proof. destruct t; try discriminate; reflexivity. Qed.
Lemma atlas_of_integers u ns s t f : integer_encoded_sty t = true -> tgen_atlas u ns s (SyArray t) f =
  [JBlock
     [jlet "arraySize" (num 0); jconst "oldPayload" (jx "payload");
      over_old_payload (jlet "payloadAtlas" (num 0) :: tgen_atlas u ns s t false ++ [jadd "arraySize" (jx "payloadAtlas")]);
      set_atlas (jx "arraySize")]].
Proof. destruct t; try discriminate; reflexivity. Qed.
Lemma ser_of_sized u ns s t f : sized_sty t = true -> tgen_ser u ns s (SyArray t) f =
  [JBlock
     [jconst "oldPayload" (jx "payload"); jconst "oldPayloadAtlas" (jx "payloadAtlas");
      over_old_payload
        (jconst "payloadAtlas" (XIndex (prop_of (jx "oldPayloadAtlas") "$elements") (jx "i")) ::
         serialize_varint_stmt (XCall false (CGlobal GBigInt) [tgen_lookup t]) :: tgen_ser u ns s t false)]].
Proof. destruct t; try discriminate; reflexivity. Qed.
Lemma ser_of_small u ns s t f : sized_sty t = false -> is_unit_sty t = false -> tgen_ser u ns s (SyArray t) f =
  [JBlock [jconst "oldPayload" (jx "payload"); over_old_payload (tgen_ser u ns s t false)]].
Proof. destruct t; try discriminate; reflexivity. Qed.
Lemma deser_of_sized u ns s t f : sized_sty t = true -> tgen_deser u ns s (SyArray t) f =
  [JLet false (txt "payload") (Some (TtArray (tgen_type u ns s t SIn))) (Some (XArr false []));
   JBlock
     [jconst "dataViewAlias" (jx "dataView"); jconst "payloadAlias" (jx "payload");
      JBlock
        [JWhile (XBool true)
           ([jdecl "payloadSizeBig";
             JTry [JAssignTuple [txt "offset"; txt "payloadSizeBig"] (jcall "deserializeVarint" [jx "dataViewAlias"; jx "offset"])]
               (txt "e") break_on_range_error] ++
            sub_view (XCall false (CGlobal GNumber) [jx "payloadSizeBig"]) ++ tgen_deser u ns s t false ++
            [jadd "offset" (jx "oldOffset"); JExpr (XMethod false (jx "payloadAlias") MtPush [jx "payload"])])]]].
Proof. destruct t; try discriminate; reflexivity. Qed.
Lemma deser_of_small u ns s t f : sized_sty t = false -> is_unit_sty t = false -> tgen_deser u ns s (SyArray t) f =
  [JLet false (txt "payload") (Some (TtArray (tgen_type u ns s t SIn))) (Some (XArr false []));
   JBlock
     [jconst "payloadAlias" (jx "payload");
      JBlock [JWhile (XBool true) [JTry (tgen_deser u ns s t false ++ [JExpr (XMethod false (jx "payloadAlias") MtPush [jx "payload"])]) (txt "e") break_on_range_error]]]].
Proof. destruct t; try discriminate; reflexivity. Qed.

Section Types.
Context (u : unicode) (ns : namespace) (s : sschema).
Context (find : scope -> jcallee -> option (scope * jfn)) (reach : scope -> str -> bool) (here : scope) (Hs : good_scope find reach here).
Notation flist := (fine_list find reach here).

(** The references in a type lead to functions. *)
Definition referred (t : sty) : Prop := forall i n, mentions t i n -> exists x p, ttype_path u ns s i n None = x :: p /\ local_ok x = false /\
  takes find here (CPath (x :: p) (txt "atlas")) 1 /\ takes find here (CPath (x :: p) (txt "serializeWithAtlasUnsafe")) 4 /\
  takes find here (CPath (x :: p) (txt "deserializeUnsafe")) 1.
Lemma referred_inner t : referred (SyArray t) -> referred t.
Proof. intros H i n Hm. apply H. now constructor. Qed.
Lemma path_suffix i n x : ttype_path u ns s i n None <> [] -> ttype_path u ns s i n x <> [].
Proof. unfold ttype_path, ts_path. destruct (reference_namespace s ns i); [|auto]. intros _ K. symmetry in K. now apply app_cons_not_nil in K. Qed.
Lemma type_fine t x : referred t -> fine_type (tgen_type u ns s t x).
Proof.
  induction t as [t IH| | |i n| | | | |]; intros H; cbn [tgen_type].
  - specialize (IH (referred_inner t H)). destruct x; [|constructor; exact IH..].
    destruct (sized_sty t); [|repeat constructor; discriminate]. constructor; [snodup|]. repeat constructor; try discriminate. exact IH.
  - destruct x; repeat constructor; discriminate.
  - destruct x; repeat constructor; discriminate.
  - destruct (H i n (mentions_custom i n)) as (y & p & E & _). constructor. apply path_suffix. rewrite E. discriminate.
  - repeat constructor; discriminate.
  - destruct x; repeat constructor; discriminate.
  - destruct x; repeat constructor; discriminate.
  - destruct x; repeat constructor; discriminate.
  - destruct x; repeat constructor; discriminate.
Qed.
Lemma lookup_fine E t : readable (txt "payloadAtlas") E -> fine_expr find reach here E (tgen_lookup t).
Proof. intros H. destruct t as [t| | | | | | | |]; cbn [tgen_lookup]; try destruct (sized_sty t); sexpr. Qed.

(** What is done about the code for a type inside another. *)
Ltac inside IH k :=
  match goal with
  | |- fine_list _ _ _ _ _ (_ ++ _) _ => eapply fl_app; [eapply IH; [sclears | sread | slk | sread] | snorm; k]
  | |- _ => eapply IH; [sclears | sread | slk | sread]
  end.
Lemma atlas_fine t : referred t -> forall B E f b, clears E -> readable (txt "payload") E -> lookup (txt "payloadAtlas") E = Some (Let b) ->
  readable (txt "textEncoder") E -> flist B E (tgen_atlas u ns s t f) (Some (update (txt "payloadAtlas") (Let true) E)).
Proof.
  induction t as [t IH| | |i n| | | | |]; intros Ht B E f b Hc Hp Ha He.
  - specialize (IH (referred_inner _ Ht)).
    destruct (sized_sty t) eqn:Es; [|destruct (integer_encoded_sty t) eqn:Ei].
    + rewrite atlas_of_sized by assumption. slist ltac:(inside IH). apply lookup_fine. sread.
    + rewrite atlas_of_integers by assumption. slist ltac:(inside IH).
    + destruct t; try discriminate; cbn [tgen_atlas].
      * slist none_other.
      * destruct f; slist none_other.
  - destruct f; cbn [tgen_atlas]; slist none_other.
  - cbn [tgen_atlas]; slist none_other.
  - destruct (Ht i n (mentions_custom i n)) as (x & p & Ex & Lx & T1 & T2 & T3). cbn [tgen_atlas]. rewrite Ex. slist none_other.
  - destruct f; cbn [tgen_atlas]; slist none_other.
  - destruct f; cbn [tgen_atlas]; slist none_other.
  - cbn [tgen_atlas]; slist none_other.
  - destruct f; cbn [tgen_atlas]; slist none_other.
  - cbn [tgen_atlas]; slist none_other.
Qed.

Ltac inside_ser IH k :=
  match goal with
  | |- fine_list _ _ _ _ _ (_ ++ _) _ => eapply fl_app; [eapply IH; [sclears | sread | sread | sread | slk] | snorm; k]
  | |- _ => eapply IH; [sclears | sread | sread | sread | slk]
  end.
Lemma ser_fine t : referred t -> forall B E f, clears E -> readable (txt "payload") E -> readable (txt "payloadAtlas") E -> readable (txt "dataView") E ->
  lookup (txt "offset") E = Some (Let true) -> flist B E (tgen_ser u ns s t f) (Some E).
Proof.
  induction t as [t IH| | |i n| | | | |]; intros Ht B E f Hc Hp Ha Hd Ho.
  - specialize (IH (referred_inner _ Ht)).
    destruct (sized_sty t) eqn:Es; [|destruct (is_unit_sty t) eqn:Ei].
    + rewrite ser_of_sized by assumption. slist ltac:(inside_ser IH). apply lookup_fine. sread.
    + destruct t; try discriminate. destruct f; cbn [tgen_ser]; slist none_other.
    + rewrite ser_of_small by assumption. slist ltac:(inside_ser IH).
  - destruct f; cbn [tgen_ser]; slist none_other.
  - cbn [tgen_ser]; slist none_other.
  - destruct (Ht i n (mentions_custom i n)) as (x & p & Ex & Lx & T1 & T2 & T3). cbn [tgen_ser]. rewrite Ex. slist none_other.
  - destruct f; cbn [tgen_ser]; slist none_other.
  - destruct f; cbn [tgen_ser]; slist none_other.
  - cbn [tgen_ser]; slist none_other.
  - destruct f; cbn [tgen_ser]; slist none_other.
  - cbn [tgen_ser]; slist none_other.
Qed.

Lemma update_length {A} x (v : A) E : length (update x v E) = length E.
Proof. rewrite <- (map_length fst), update_names. apply map_length. Qed.
Ltac sswitch Eb := eapply (fs_switch _ _ _ _ _ _ _ _ (Some Eb) _ (Some Eb)); [sexpr | cbn [map fst]; sexprs_fst | cbn [map snd]; scases none_other | scase none_other
  | smeet_last | right; split; [reflexivity|]; eexists; split; [reflexivity|]; cbn [length]; rewrite ?update_length; reflexivity].
Lemma u64_fine B E f : clears E -> lookup (txt "payload") E = Some (Dead false) -> readable (txt "dataView") E ->
  lookup (txt "offset") E = Some (Let true) -> (f = true -> readable (txt "payloadSize") E) ->
  flist B E (tgen_deser_u64 f) (Some (update (txt "payload") (Let true) E)).
Proof.
  intros Hc Hp Hd Ho Hf. destruct f; unfold tgen_deser_u64.
  - specialize (Hf eq_refl). eapply fl_cons; [sstmt none_other|]. apply fl_one, fs_block.
    eapply (fb_known _ _ _ _ _ _ _ _ _ (Some (update (txt "payload") (Let true) E))); [sframe|snodup| |reflexivity].
    cbn [app]. apply fl_one. rewrite <- (update_twice (txt "payload") (Let true) (Let (for_field (txt "payload"))) E).
    sswitch (update (txt "payload") (Let true) (update (txt "payload") (Let (for_field (txt "payload"))) E)).
  - eapply fl_cons; [sstmt none_other|]. eapply fl_one_as; [sstmt none_other|]. cbn [declare_all fold_left]. snorm. now rewrite update_twice.
Qed.
Lemma from_u64_fine B E f e : clears E -> lookup (txt "payload") E = Some (Dead false) -> readable (txt "dataView") E ->
  lookup (txt "offset") E = Some (Let true) -> (f = true -> readable (txt "payloadSize") E) ->
  (forall E', clears E' -> readable (txt "payload") E' -> fine_expr find reach here E' e) ->
  flist B E (from_u64 f e) (Some (update (txt "payload") (Let true) E)).
Proof.
  intros Hc Hp Hd Ho Hf He. unfold from_u64. eapply fl_cons; [sstmt none_other|]. eapply fl_one_as; [|].
  - apply fs_block. eapply fb_known; [sframe|snodup| |]. cbn [app]. eapply fl_cons; [sstmt none_other|snorm].
    eapply fl_cons; [|].
    + apply fs_block. apply (fb_known _ _ _ _ _ _ _ [(txt "payload", Dead false)] (Some ((txt "newPayload", Let true) :: update (txt "payload") (Let false) E)) (Some ((txt "payload", Let true) :: (txt "newPayload", Let true) :: update (txt "payload") (Let false) E))); [destruct f; reflexivity|snodup| |].
      * cbn [app]. eapply fl_app; [apply u64_fine; [sclears|slk|sread|slk|intros Ef; specialize (Hf Ef); sread]|snorm].
        eapply fl_one. eapply fs_assign; [apply He; [sclears|sread]|slk].
      * sout. reflexivity.
    + snorm. slist none_other.
    + sout. reflexivity.
  - sout. now rewrite update_twice.
Qed.
Lemma deser_fine t : referred t -> forall B E f, clears E -> lookup (txt "payload") E = Some (Dead false) -> readable (txt "dataView") E ->
  lookup (txt "offset") E = Some (Let true) -> (f = true -> readable (txt "payloadSize") E) -> readable (txt "textDecoder") E ->
  flist B E (tgen_deser u ns s t f) (Some (update (txt "payload") (Let true) E)).
Proof.
  induction t as [t IH| | |i n| | | | |]; intros Ht B E f Hc Hp Hd Ho Hf Htd.
  - pose proof (type_fine t SIn (referred_inner _ Ht)) as Hty. specialize (IH (referred_inner _ Ht)).
    Ltac inside_deser IH k :=
      match goal with
      | |- fine_list _ _ _ _ _ (_ ++ _) _ => eapply fl_app; [eapply IH; [sclears | slk | sread | slk | discriminate | sread] | snorm; k]
      end.
    destruct (sized_sty t) eqn:Es; [|destruct (is_unit_sty t) eqn:Ei].
    + rewrite deser_of_sized by assumption. slist ltac:(inside_deser IH). inside_deser IH ltac:(idtac; slist ltac:(inside_deser IH)).
    + destruct t; try discriminate. cbn [tgen_deser]. apply from_u64_fine; auto. intros E' Hc' Hp'. sexpr.
    + rewrite deser_of_small by assumption. slist ltac:(inside_deser IH).
  - apply from_u64_fine; auto. intros E' Hc' Hp'. sexpr.
  - cbn [tgen_deser]; slist none_other.
  - destruct (Ht i n (mentions_custom i n)) as (x & p & Ex & Lx & T1 & T2 & T3). cbn [tgen_deser]. rewrite Ex. slist none_other.
  - destruct f; cbn [tgen_deser]; [|slist none_other]. specialize (Hf eq_refl). eapply fl_cons; [sstmt none_other|]. apply fl_one, fs_block.
    eapply (fb_known _ _ _ _ _ _ _ _ _ (Some (update (txt "payload") (Let true) E))); [sframe|snodup| |reflexivity].
    cbn [app]. apply fl_one. rewrite <- (update_twice (txt "payload") (Let true) (Let (for_field (txt "payload"))) E).
    sswitch (update (txt "payload") (Let true) (update (txt "payload") (Let (for_field (txt "payload"))) E)).
  - cbn [tgen_deser]. eapply fl_app; [now apply u64_fine|]. eapply fl_one_as; [sstmt none_other|]. now rewrite update_twice.
  - cbn [tgen_deser]; slist none_other.
  - cbn [tgen_deser]. now apply u64_fine.
  - cbn [tgen_deser]; slist none_other.
Qed.
End Types.
