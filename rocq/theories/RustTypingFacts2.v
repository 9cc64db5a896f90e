(** The expressions that RustGen.v makes from the type of a field are well-typed. *)
From Verif Require Import IdentFacts NamesFacts.
From Verif Require Export RustTypingFacts.

(** *** Scopes *)
Lemma leave_app G B : leave G (B ++ G) = G.
Proof.
  unfold leave. rewrite app_length. replace (length B + length G - length G)%nat with (length B) by lia.
  rewrite skipn_app, Nat.sub_diag, skipn_all. reflexivity.
Qed.
Inductive ends (G : tenv) : tenv -> Prop :=
| e_here : ends G G
| e_cons b G' : ends G G' -> ends G (b :: G')
| e_app B G' : ends G G' -> ends G (B ++ G').
Lemma ends_split G G' : ends G G' -> exists B, G' = B ++ G.
Proof. induction 1 as [|b G' _ (B & ->)|B' G' _ (B & ->)]; [now exists []|now exists (b :: B)|exists (B' ++ B); apply app_assoc]. Qed.
Lemma ends_leave G G' : ends G G' -> leave G G' = G.
Proof. intros H. apply ends_split in H as (B & ->). apply leave_app. Qed.
Ltac ends := repeat first [apply e_here | eassumption | apply e_cons | apply e_app].
(** Types that are copied. *)
Definition copies (t : rty) : bool :=
  match t with KUnit | KBool | KU8 | KU64 | KUsize | KI64 | KF64 | KBytes _ | KRef false _ | KErrorKind => true | _ => false end.
Lemma copies_copy t : copies t = true -> copy t.
Proof. destruct t as [| | | | | | | | | | | | | |[]| | | | | | | | |]; try discriminate; intros _; exact I. Qed.

Section File.
Context (u : unicode) (Hu : ascii_agrees u) (schemas : list (namespace * sschema)).
Context (Hl : loaded schemas) (Hv : valid schemas) (Hg : plain_names schemas u).
Context (ns : namespace) (s : sschema) (Hin : In (ns, s) schemas).
Context (Hstd : find_module (mods u ns ++ [txt "std"]) (rust_program u schemas) = None).
Let prog := rust_program u schemas.
Let ind := length ns.
Notation has := (has prog). Notation place := (place prog). Notation path_place := (path_place prog).
Notation passes := (passes prog). Notation passes_all := (passes_all prog). Notation receives := (receives prog).
Notation stmts_have := (stmts_have prog). Notation stmt_has := (stmt_has prog). Notation block_has := (block_has prog).
Notation sem := (sem u schemas ns s). Notation owned := (owned schemas ns s). Notation target := (target u schemas ns s).
Definition within (c : ctx) : Prop := here (sc c) = mods u ns.
Definition leads (x : String.string) (G : tenv) (t : rty) : Prop := exists m, usable m = true /\ lookup (txt x) G = Some (m, t).

(** *** Small things *)
Lemma ind_here c : within c -> ind = length (here (sc c)).
Proof. intros ->. unfold ind, mods. now rewrite map_length. Qed.
Lemma v_path G x t : leads x G t -> path_place G (vr x) true t.
Proof. intros (m & H & K). exact (p_var prog G _ m t K H). Qed.
Lemma v_has c G x t : copies t = true -> leads x G t -> has c G (vr x) t G.
Proof. intros C H. apply (h_copy prog c G _ true); [now apply v_path|now apply copies_copy]. Qed.
Lemma v_move c G x t : leads x G t -> has c G (vr x) t (gone (txt x) G).
Proof. intros H. apply (h_move prog c G); [now apply v_path|apply mv_var]. Qed.
Lemma v_place c G x t : leads x G t -> place c G (vr x) t G.
Proof. intros H. apply (pl_path prog c G _ true). now apply v_path. Qed.
Lemma passes_same b c G e t G' : has c G e t G' -> passes b c G e t G'.
Proof. intros H. apply (ps_has prog b c G e t); [exact H|apply co_same]. Qed.
Lemma v_again c G x t : leads x G (KRef true t) -> passes true c G (vr x) (KRef true t) G.
Proof. intros H. apply ps_again. now apply v_path. Qed.
Lemma one' b c G e t G' : passes b c G e t G' -> passes_all b c G [e] [t] G'.
Proof. intros H. eapply ps_cons; [exact H|apply ps_nil]. Qed.
Lemma one b c G e t G' : has c G e t G' -> passes_all b c G [e] [t] G'.
Proof. intros H. apply one'. now apply passes_same. Qed.
Lemma two b c G e f t k G1 G2 : has c G e t G1 -> has c G1 f k G2 -> passes_all b c G [e; f] [t; k] G2.
Proof. intros H H2. eapply ps_cons; [apply passes_same; exact H|now apply one]. Qed.
Lemma leads_here x m t G : usable m = true -> leads x ((txt x, (m, t)) :: G) t.
Proof. intros H. exists m. cbn [lookup]. now rewrite str_eqb_refl. Qed.
Lemma leads_skip x y v t G : str_eqb (txt x) (txt y) = false -> leads x G t -> leads x ((txt y, v) :: G) t.
Proof. intros E (m & H & K). exists m. cbn [lookup]. now rewrite E. Qed.
Lemma gone_here x v t (G : tenv) : gone (txt x) ((txt x, (v, t)) :: G) = (txt x, (Moved, t)) :: G.
Proof. unfold gone. cbn [becomes]. now rewrite str_eqb_refl. Qed.
Lemma v_move_here c G x m t : usable m = true -> has c ((txt x, (m, t)) :: G) (vr x) t ((txt x, (Moved, t)) :: G).
Proof. intros H. rewrite <- (gone_here x m). apply v_move. now apply leads_here. Qed.
Ltac here := apply leads_here; reflexivity.
Ltac var := first [here | eassumption | (apply leads_skip; [reflexivity|]); var].
Ltac vh := apply v_has; [reflexivity|var].
Lemma lets_has c G x e t G1 : has c G e t G1 -> stmt_has c G (lets x e) ((txt x, (Fixed, t)) :: G1) false.
Proof. intros H. apply (st_let prog c G (PVar false (txt x)) e t G1 [(txt x, (Fixed, t))]); [exact I|exact H|]. split; [apply pa_var|]. cbn [map fst]. constructor; [intros []|constructor]. Qed.
Lemma letm_has c G x e t G1 : has c G e t G1 -> stmt_has c G (letm x e) ((txt x, (Mut, t)) :: G1) false.
Proof. intros H. now apply (st_let_mut prog c G (txt x) None e t G1). Qed.
Lemma stmts_one c G a G' d : stmt_has c G a G' d -> stmts_have c G [a] G' d.
Proof. intros H. rewrite <- (orb_false_r d). apply (st_cons prog c G a [] G' d G' false); [exact H|apply st_nil]. Qed.
Lemma stmts_next c G a l G' G'' d : stmt_has c G a G' false -> stmts_have c G' l G'' d -> stmts_have c G (a :: l) G'' d.
Proof. intros H1 H2. exact (st_cons prog c G a l G' false G'' d H1 H2). Qed.
Lemma stmts_app c G a G' b G'' d : stmts_have c G a G' false -> stmts_have c G' b G'' d -> stmts_have c G (a ++ b) G'' d.
Proof.
  revert G. induction a as [|x a IH]; intros G H1 H2; inversion H1; subst; [exact H2|]. cbn [app].
  match goal with H : (?d || ?d')%bool = false |- _ => apply orb_false_iff in H as [-> ->] end.
  eapply stmts_next; [eassumption|]. eapply IH; eassumption.
Qed.
Lemma block_move c G i ss e G' d t G2 : stmts_have c G ss G' d -> has c G' e t G2 -> ends G G2 -> block_has c G (Blk i ss (Some e)) t G.
Proof. intros H1 H2 H3. rewrite <- (ends_leave G G2 H3) at 2. exact (bl_value prog c G i ss e G' d t G2 H1 H2). Qed.
Lemma block_value c G i ss e G' d t : stmts_have c G ss G' d -> has c G' e t G' -> ends G G' -> block_has c G (Blk i ss (Some e)) t G.
Proof. apply block_move. Qed.
Lemma block_unit c G i ss G' d : stmts_have c G ss G' d -> ends G G' -> block_has c G (Blk i ss None) KUnit G.
Proof. intros H1 H2. rewrite <- (ends_leave G G' H2) at 2. exact (bl_unit prog c G i ss G' d H1). Qed.
Lemma inline_move c G ss G' e t G2 : stmts_have c G ss G' false -> has c G' e t G2 -> ends G G2 -> has c G (inline_block ss e) t G.
Proof. intros H1 H2 H3. apply h_block. now apply (block_move c G true ss e G' false t G2). Qed.
Lemma inline_has c G ss G' e t : stmts_have c G ss G' false -> has c G' e t G' -> ends G G' -> has c G (inline_block ss e) t G.
Proof. apply inline_move. Qed.
Lemma arm_move c G a t p e l r Gp G1 : binds prog (here (sc c)) a t p Gp -> has c (Gp ++ G) e r G1 -> ends G G1 -> arms_have prog c G a t l r G ->
  arms_have prog c G a t (Arm p e :: l) r G.
Proof. intros H1 H2 H3 H4. eapply ar_cons; [exact H1|exact H2|now apply ends_leave|exact H4]. Qed.
Lemma arm_next c G a t p e l r Gp : binds prog (here (sc c)) a t p Gp -> has c (Gp ++ G) e r (Gp ++ G) -> arms_have prog c G a t l r G ->
  arms_have prog c G a t (Arm p e :: l) r G.
Proof. intros H1 H2 H3. eapply arm_move; [exact H1|exact H2|ends|exact H3]. Qed.
Lemma map_iter_move c G e x b t r G1 G2 : has c G e (KIter t) G1 -> has (closure c) ((x, (Fixed, t)) :: G1) b r G2 -> ends G1 G2 ->
  has c G (EMethod e MMap [EClosure [x] b]) (KIter r) G1.
Proof. intros H1 H2 H3. eapply h_map_iter; [exact H1|exact H2|now apply ends_leave]. Qed.
Lemma map_iter c G e x b t r : has c G e (KIter t) G -> has (closure c) ((x, (Fixed, t)) :: G) b r ((x, (Fixed, t)) :: G) ->
  has c G (EMethod e MMap [EClosure [x] b]) (KIter r) G.
Proof. intros H1 H2. eapply map_iter_move; [exact H1|exact H2|ends]. Qed.
Lemma map_option_move c G e x b t r G1 G2 : has c G e (KOption t) G1 -> has (closure c) ((x, (Fixed, t)) :: G1) b r G2 -> ends G1 G2 ->
  has c G (EMethod e MMap [EClosure [x] b]) (KOption r) G1.
Proof. intros H1 H2 H3. eapply h_map_option; [exact H1|exact H2|now apply ends_leave]. Qed.
Lemma map_option c G e x b t r : has c G e (KOption t) G -> has (closure c) ((x, (Fixed, t)) :: G) b r ((x, (Fixed, t)) :: G) ->
  has c G (EMethod e MMap [EClosure [x] b]) (KOption r) G.
Proof. intros H1 H2. eapply map_option_move; [exact H1|exact H2|ends]. Qed.
Lemma map_or c G e z x b t r : has c G e (KOption t) G -> has c G z r G -> has (closure c) ((x, (Fixed, t)) :: G) b r ((x, (Fixed, t)) :: G) ->
  has c G (EMethod e MMapOr [z; EClosure [x] b]) r G.
Proof. intros H1 H2 H3. eapply h_map_or; [exact H1|exact H2|exact H3|apply (leave_app G [_])]. Qed.
Lemma fold_has c G e z x y b t r : x <> y -> has c G e (KIter t) G -> has c G z r G ->
  has (closure c) ((y, (Fixed, t)) :: (x, (Fixed, r)) :: G) b r ((y, (Fixed, t)) :: (x, (Fixed, r)) :: G) ->
  has c G (EMethod e MFold [z; EClosure [x; y] b]) r G.
Proof. intros H0 H1 H2 H3. eapply h_fold; [exact H0|exact H1|exact H2|exact H3|apply (leave_app G [_; _])]. Qed.
Lemma usize_has c G n : n <= 18446744073709551615 -> has c G (usize_lit n) KUsize G.
Proof. intros H. now apply (h_int prog c G n (txt "usize") KUsize 18446744073709551615). Qed.
Lemma u64_has c G n : n <= 18446744073709551615 -> has c G (u64_lit n) KU64 G.
Proof. intros H. now apply (h_int prog c G n (txt "u64") KU64 18446744073709551615). Qed.
Lemma as_u64_has c G e G' : within c -> has c G e KUsize G' -> has c G (as_u64 e) KU64 G'.
Proof.
  intros Hc H. apply (h_cast prog c G e (txt "u64") KUsize); [exact H|reflexivity|split; discriminate|].
  apply (free u Hu schemas Hl Hg ns s Hin _ Hc). relied.
Qed.
Lemma as_usize_has c G e G' : within c -> has c G e KU64 G' -> has c G (as_usize e) KUsize G'.
Proof.
  intros Hc H. apply (h_cast prog c G e (txt "usize") KU64); [exact H|reflexivity|split; discriminate|].
  apply (free u Hu schemas Hl Hg ns s Hin _ Hc). relied.
Qed.
Lemma add_has c G a b G1 G2 : has c G a KUsize G1 -> has c G1 b KUsize G2 -> has c G (EBin OpAdd a b) KUsize G2.
Proof. intros H1 H2. eapply h_arith; [now left|discriminate|exact H1|exact H2]. Qed.
Lemma deref_path G x t : leads x G (KRef false t) -> path_place G (EDeref (vr x)) false t.
Proof. intros H. apply (p_deref prog G _ true false). now apply v_path. Qed.
Lemma deref_has c G x t : copy t -> leads x G (KRef false t) -> has c G (EDeref (vr x)) t G.
Proof. intros Hc H. apply (h_copy prog c G _ false); [|exact Hc]. now apply deref_path. Qed.
Lemma shared c G x t m k : leads x G t -> reaches true t m k -> receives c G (vr x) ByShared k G.
Proof. intros H R. apply (rv_shared prog c G _ true t m k); [now apply v_place|exact R]. Qed.
Lemma shared_ref c G x t : leads x G (KRef false t) -> receives c G (vr x) ByShared t G.
Proof. intros H. eapply shared; [exact H|apply rc_ref, rc_here]. Qed.
Lemma by_value c G e t G' : has c G e t G' -> receives c G e ByValue t G'.
Proof. apply rv_value. Qed.
Lemma value_ref c G x t : copy t -> leads x G (KRef false t) -> receives c G (vr x) ByValue t G.
Proof. intros Hc H. apply (rv_copied prog c G _ true (KRef false t) false t); [now apply v_path|apply rc_ref, rc_here|exact Hc]. Qed.
Lemma method0 c G e m how t r G' : std_method prog m how t [] r -> receives c G e how t G' -> has c G (EMethod e m []) r G'.
Proof. intros H1 H2. exact (h_method prog c G e m [] how t [] r G' G' H1 H2 (ps_nil prog false c G')). Qed.
Lemma method1 c G e m a how t k r G1 G2 : std_method prog m how t [k] r -> receives c G e how t G1 -> passes false c G1 a k G2 -> has c G (EMethod e m [a]) r G2.
Proof. intros H1 H2 H3. eapply (h_method prog c G e m [a] how t [k] r G1 G2); [exact H1|exact H2|]. now apply one'. Qed.
Lemma ref_has c G e t G' : has c G e t G' -> has c G (ERef false e) (KRef false t) G'.
Proof. intros H. apply (h_ref prog c G e). now apply pl_temporary. Qed.

(** *** The functions at the top of the file *)
Lemma top0 c G f args ts r G' : within c -> top_signature f ts r -> passes_all true c G args ts G' -> has c G (ECall (CTop ind f) args) r G'.
Proof. intros Hc. apply h_top. now apply ind_here. Qed.
Lemma encode_has c G e G' : within c -> has c G e KI64 G' -> has c G (ECall (CTop ind FnZigzagEncode) [e]) KU64 G'.
Proof. intros Hc H. eapply top0; [exact Hc| |apply one; exact H]. exists None. repeat constructor. Qed.
Lemma decode_has c G e G' : within c -> has c G e KU64 G' -> has c G (ECall (CTop ind FnZigzagDecode) [e]) KI64 G'.
Proof. intros Hc H. eapply top0; [exact Hc| |apply one; exact H]. exists None. repeat constructor. Qed.
Lemma varint_size_has c G e G' : within c -> has c G e KU64 G' -> has c G (ECall (CTop ind FnVarintSize) [e]) KUsize G'.
Proof. intros Hc H. eapply top0; [exact Hc| |apply one; exact H]. exists None. repeat constructor. Qed.
Lemma inst_reads R : implements Reads R -> instance (Some (txt "BufRead")) (Some R).
Proof. intros H. now exists Reads. Qed.
Lemma inst_writes W : implements Writes W -> instance (Some (txt "Write")) (Some W).
Proof. intros H. now exists Writes. Qed.
Lemma serialize_varint_has c G e w W G1 G2 : within c -> implements Writes W -> has c G e KU64 G1 -> passes true c G1 w (KRef true W) G2 ->
  has c G (ECall (CTop ind FnSerializeVarint) [e; w]) (KResult KUnit) G2.
Proof.
  intros Hc HW H1 H2. eapply top0; [exact Hc| |eapply ps_cons; [apply passes_same; exact H1|apply one'; exact H2]]. exists (Some W). split; [now apply inst_writes|].
  split; [repeat constructor|repeat constructor].
Qed.
Lemma deserialize_varint_has c G r R G' : within c -> implements Reads R -> passes true c G r (KRef true R) G' ->
  has c G (ECall (CTop ind FnDeserializeVarint) [r]) (KResult KU64) G'.
Proof.
  intros Hc HR H2. eapply top0; [exact Hc| |apply one'; exact H2]. exists (Some R). split; [now apply inst_reads|].
  split; [repeat constructor|repeat constructor].
Qed.
Lemma field_header_size_has c G a b d : within c -> has c G a KU64 G -> has c G b KUsize G -> has c G d KBool G ->
  has c G (ECall (CTop ind FnFieldHeaderSize) [a; b; d]) KUsize G.
Proof.
  intros Hc H1 H2 H3. eapply top0; [exact Hc| |eapply ps_cons; [apply passes_same; exact H1|eapply two; [exact H2|exact H3]]]. exists None. repeat constructor.
Qed.
Lemma serialize_field_header_has c G w a b d W : within c -> implements Writes W -> passes true c G w (KRef true W) G -> has c G a KU64 G -> has c G b KUsize G -> has c G d KBool G ->
  has c G (ECall (CTop ind FnSerializeFieldHeader) [w; a; b; d]) (KResult KUnit) G.
Proof.
  intros Hc HW H0 H1 H2 H3. eapply top0; [exact Hc| |eapply ps_cons; [exact H0|eapply ps_cons; [apply passes_same; exact H1|eapply two; [exact H2|exact H3]]]].
  exists (Some W). split; [now apply inst_writes|]. split; [repeat constructor|repeat constructor].
Qed.
Lemma deserialize_field_header_has c G r R G' : within c -> implements Reads R -> passes true c G r (KRef true R) G' ->
  has c G (ECall (CTop ind FnDeserializeFieldHeader) [r]) (KResult (KPair KU64 KUsize)) G'.
Proof.
  intros Hc HR H2. eapply top0; [exact Hc| |apply one'; exact H2]. exists (Some R). split; [now apply inst_reads|].
  split; [repeat constructor|repeat constructor].
Qed.
Lemma skip_has c G r a R G1 G2 : within c -> implements Reads R -> passes true c G r (KRef true R) G1 -> has c G1 a KUsize G2 ->
  has c G (ECall (CTop ind FnSkip) [r; a]) (KResult KUnit) G2.
Proof.
  intros Hc HR H1 H2. eapply top0; [exact Hc| |eapply ps_cons; [exact H1|apply one; exact H2]]. exists (Some R). split; [now apply inst_reads|].
  split; [repeat constructor|repeat constructor].
Qed.
Lemma finish_has c G r R G' : within c -> implements Reads R -> passes true c G r (KRef true R) G' ->
  has c G (ECall (CTop ind FnFinish) [r]) (KResult KUnit) G'.
Proof.
  intros Hc HR H2. eapply top0; [exact Hc| |apply one'; exact H2]. exists (Some R). split; [now apply inst_reads|].
  split; [repeat constructor|repeat constructor].
Qed.

(** *** Sizes *)
Lemma lookup_has c G t : within c -> owned t -> leads "payload_atlas" G (KRef false (sem t SAtlas)) -> has c G (gen_atlas_lookup t) KUsize G.
Proof.
  intros Hc Ho H. destruct t as [inner| | |i n| | | | |]; cbn [gen_atlas_lookup RustTypingFacts.sem] in *; try (apply deref_has; [exact I|exact H]).
  - destruct (sized_sty inner).
    + apply (h_copy prog c G _ false); [|exact I]. eapply p_first; [apply v_path; exact H|apply rc_ref, rc_here].
    + apply deref_has; [exact I|exact H].
  - destruct (custom_target u Hu schemas Hl Hv Hg ns s i n Hin Ho) as (ns2 & s2 & d2 & Hd & Ht). rewrite (proj1 (Ht SAtlas)) in H.
    apply (size_call u Hu schemas Hl Hg ns2 s2 d2 Hd). eapply shared_ref; exact H.
Qed.
Lemma varint_arms (p : list arm) max : max = 18446744073709551615 ->
  map arm_pat p = [PInt 0 (txt "u64"); PRange 1 567382630219903 (txt "u64"); PRange 567382630219904 18446744073709551615 (txt "u64")] ->
  forall h, exhaustive prog h (map arm_pat p) KU64.
Proof.
  intros -> -> h. apply (ex_int prog h _ KU64 18446744073709551615); [reflexivity|discriminate|]. intros n Hn.
  destruct (N.eq_dec n 0) as [->|H0]; [eexists; split; [left; reflexivity|reflexivity]|].
  destruct (N.le_gt_cases n 567382630219903) as [H1|H1].
  - eexists. split; [right; left; reflexivity|]. cbv beta iota. lia.
  - eexists. split; [right; right; left; reflexivity|]. cbv beta iota. lia.
Qed.
Lemma int_pat h a n : n <= 18446744073709551615 -> binds prog h a KU64 (PInt n (txt "u64")) [].
Proof. intros H. split; [|constructor]. eapply pa_int; [reflexivity|exact H|now right]. Qed.
Lemma range_pat h a lo hi : lo <= hi -> hi <= 18446744073709551615 -> binds prog h a KU64 (PRange lo hi (txt "u64")) [].
Proof. intros H H2. split; [|constructor]. eapply pa_range; [reflexivity|exact H|exact H2|reflexivity]. Qed.
Lemma usize_pat h a n : n <= 18446744073709551615 -> binds prog h a KUsize (PInt n (txt "usize")) [].
Proof. intros H. split; [|constructor]. eapply pa_int; [reflexivity|exact H|now right]. Qed.
Lemma wild_pat h a t : binds prog h a t PWild [].
Proof. split; constructor. Qed.
Lemma empty_block_has c G : block_has c G (Blk false [] None) KUnit G.
Proof. eapply block_unit; [apply st_nil|ends]. Qed.
Lemma atlas_u64_has c G f : within c -> leads "payload" G (KRef false KU64) -> has c G (gen_atlas_u64 ind f) KUsize G.
Proof.
  intros Hc H. unfold gen_atlas_u64. apply h_paren.
  assert (has c G (ECall (CTop ind FnVarintSize) [EDeref (vr "payload")]) KUsize G) as K.
  { apply varint_size_has; [exact Hc|]. apply deref_has; [exact I|exact H]. }
  destruct f; [|exact K].
  apply (h_match_place prog c G true _ false KU64).
  - now apply deref_path.
  - eapply arm_next; [apply int_pat; lia|eapply inline_has; [apply st_nil|apply usize_has; lia|ends]|].
    eapply arm_next; [apply range_pat; lia|eapply inline_has; [apply st_nil|exact K|ends]|].
    eapply arm_next; [apply range_pat; lia|eapply inline_has; [apply st_nil|apply usize_has; lia|ends]|apply ar_nil].
  - now apply (varint_arms _ _ eq_refl).
Qed.
Lemma iter_has c G x t : leads x G (KRef false (KVec t)) -> has c G (EMethod (vr x) MIter []) (KIter (KRef false t)) G.
Proof. intros H. eapply method0; [apply sm_iter|eapply shared_ref; exact H]. Qed.
Lemma calc_has t : forall c G f, within c -> owned t -> leads "payload" G (KRef false (sem t SOut)) ->
  has c G (gen_atlas_calc ind t f) (sem t SAtlas) G.
Proof.
  induction t as [inner IH| | |i n| | | | |]; intros c G f Hc Ho H; cbn [gen_atlas_calc RustTypingFacts.sem] in *.
  - specialize (fun c G f Hc => IH c G f Hc (owned_array schemas ns s inner Ho)).
    pose proof (fun c G => lookup_has c G inner) as Hlk.
    assert (sized_sty inner = true -> has c G (inline_block
                 [lets "atlases" (EMethod (EMethod (EMethod (vr "payload") MIter []) MMap
                                             [EClosure [txt "payload"] (gen_atlas_calc ind inner false)]) MCollect [])]
                 (EPair
                    (EMethod (EMethod (vr "atlases") MIter []) MFold
                       [usize_lit 0;
                        EClosure [txt "x"; txt "payload_atlas"]
                          (inline_block [lets "atlas_size" (gen_atlas_lookup inner)]
                             (EBin OpAdd (EBin OpAdd (vr "x") (ECall (CTop ind FnVarintSize) [as_u64 (vr "atlas_size")]))
                                (vr "atlas_size")))])
                    (vr "atlases"))) (KPair KUsize (KVec (sem inner SAtlas))) G) as A.
    { intros _. eapply inline_move.
      - apply stmts_one, lets_has. eapply method0; [apply sm_collect|]. apply by_value. eapply map_iter; [apply iter_has; exact H|].
        apply IH; [exact Hc|here].
      - eapply h_pair.
        + eapply fold_has; [discriminate| |apply usize_has; lia|].
          * eapply method0; [apply sm_iter|]. eapply shared; [here|apply rc_here].
          * eapply inline_has; [apply stmts_one, lets_has; apply Hlk; [exact Hc|exact (owned_array schemas ns s inner Ho)|here]| |ends].
            eapply add_has; [eapply add_has; [vh|apply varint_size_has; [exact Hc|apply as_u64_has; [exact Hc|vh]]]|vh].
        + apply v_move_here; reflexivity.
      - ends. }
    assert (forall t', sized_sty inner = false -> sem inner SOut = t' ->
      has c G (EMethod (EMethod (vr "payload") MIter []) MFold
                 [usize_lit 0; EClosure [txt "x"; txt "payload"] (EBin OpAdd (vr "x") (gen_atlas_calc ind inner false))]) KUsize G) as B.
    { intros t' Hs E. eapply fold_has; [discriminate|apply iter_has; exact H|apply usize_has; lia|].
      eapply add_has; [vh|].
      assert (sem inner SAtlas = KUsize) as <- by (clear - Hs; destruct inner; cbn in Hs |- *; (reflexivity || discriminate Hs)).
      apply IH; [exact Hc|here]. }
    destruct inner; cbn [sized_sty] in *; try (apply h_paren; now apply A); try (apply h_paren; eapply B; reflexivity).
    + apply h_paren. eapply h_arith; [now right|discriminate|apply usize_has; lia|]. eapply method0; [apply sm_len_vec|eapply shared_ref; exact H].
    + apply h_paren. eapply inline_has; [apply stmts_one, lets_has; apply ref_has, h_paren, as_u64_has; [exact Hc|]; eapply method0; [apply sm_len_vec|eapply shared_ref; exact H]| |ends].
      apply atlas_u64_has; [exact Hc|here].
  - apply h_paren. destruct f; [|apply usize_has; lia]. eapply (h_std prog); [apply (sg_usize_from KBool); cbn [In]; auto|]. apply one. apply deref_has; [exact I|exact H].
  - apply h_paren. eapply method0; [apply sm_len_vec|eapply shared_ref; exact H].
  - apply h_paren. destruct (custom_target u Hu schemas Hl Hv Hg ns s i n Hin Ho) as (ns2 & s2 & d2 & Hd & Ht). rewrite (proj1 (Ht SAtlas)). rewrite (proj1 (Ht SOut)) in H.
    apply (atlas_call u Hu schemas Hl Hv Hg ns2 s2 d2 Hd). eapply shared_ref; exact H.
  - apply h_paren. destruct f; [|apply usize_has; lia]. eapply h_if.
    + eapply (h_compare prog c G OpEq _ _ KU64); [now left|discriminate| |apply u64_has; lia]. eapply method0; [apply sm_to_bits|]. apply value_ref; [exact I|exact H].
    + eapply block_value; [apply st_nil|apply usize_has; lia|ends].
    + eapply block_value; [apply st_nil|apply usize_has; lia|ends].
  - apply h_paren. eapply inline_has.
    + eapply stmts_next; [apply lets_has, encode_has; [exact Hc|]; apply deref_has; [exact I|exact H]|].
      apply stmts_one, lets_has. apply (h_ref prog). apply v_place. here.
    + apply atlas_u64_has; [exact Hc|here].
    + ends.
  - apply h_paren. eapply method0; [apply sm_len_string|eapply shared_ref; exact H].
  - now apply atlas_u64_has.
  - apply h_paren. apply usize_has; lia.
Qed.

(** *** Serialization *)
Lemma write_all_has c G e W r G' : leads "writer" G (KRef true W) -> implements Writes W -> returns c = Some (KResult r) -> passes false c G e (KRef false KSlice) G' ->
  has c G (gen_write_all e) KUnit G'.
Proof.
  intros Hw HW Hr H. apply (h_try prog c G _ KUnit r _ Hr). eapply method1; [apply sm_write_all; exact HW| |exact H].
  apply (rv_borrowed prog c G). now apply v_path.
Qed.
Lemma semi_has c G e t G' : RustTyping.has prog c G e t G' -> diverges e = false -> stmts_have c G [SSemi e] G' false.
Proof. intros H E. apply stmts_one. rewrite <- E. exact (st_semi prog c G e t G' H). Qed.
Lemma varint_stmt_has c G e W r : within c -> leads "writer" G (KRef true W) -> implements Writes W -> returns c = Some (KResult r) -> has c G e KU64 G ->
  has c G (ETry (ECall (CTop ind FnSerializeVarint) [e; vr "writer"])) KUnit G.
Proof.
  intros Hc Hw HW Hr H. apply (h_try prog c G _ KUnit r _ Hr). eapply serialize_varint_has; [exact Hc|exact HW|exact H|now apply v_again].
Qed.
Lemma ser_block_has c G f e W r : within c -> leads "writer" G (KRef true W) -> implements Writes W -> returns c = Some (KResult r) -> has c G e KU64 G ->
  stmts_have c G (ser_block ind f e) G false.
Proof.
  intros Hc Hw HW Hr H. unfold ser_block. apply stmts_one, st_expr, h_block.
  assert (leads "writer" ((txt "varint", (Fixed, KU64)) :: G) (KRef true W)) as Hw' by var.
  assert (has c ((txt "varint", (Fixed, KU64)) :: G) (ETry (ECall (CTop ind FnSerializeVarint) [vr "varint"; vr "writer"])) KUnit ((txt "varint", (Fixed, KU64)) :: G)) as K.
  { eapply varint_stmt_has; [exact Hc|exact Hw'|exact HW|exact Hr|]. vh. }
  apply (block_unit c G false _ ((txt "varint", (Fixed, KU64)) :: G) false); [|ends]. eapply stmts_next; [apply lets_has; exact H|]. unfold gen_u64_ser. destruct f; [|eapply semi_has; [exact K|reflexivity]].
  apply stmts_one, st_expr. eapply (h_match prog c _ false _ KU64).
  - vh.
  - eapply arm_next; [apply int_pat; lia|apply h_block, empty_block_has|].
    eapply arm_next; [apply range_pat; lia|exact K|].
    eapply arm_next; [apply range_pat; lia| |apply ar_nil]. cbn [app].
    eapply write_all_has; [exact Hw'|exact HW|exact Hr|]. eapply ps_has; [|apply co_array]. apply ref_has. eapply method0; [apply sm_to_le_u64|]. apply by_value. vh.
  - now apply (varint_arms _ _ eq_refl).
Qed.
Lemma pair_binds h x y t k : str_eqb (txt x) (txt y) = false ->
  binds prog h Owned (KPair t k) (PPair (pv x) (pv y)) [(txt y, (Fixed, k)); (txt x, (Fixed, t))].
Proof.
  intros E. split; [apply (pa_pair prog h Owned t k (pv x) (pv y) [(txt x, (Fixed, t))] [(txt y, (Fixed, k))]); apply pa_var|].
  cbn [map fst]. constructor; [|constructor; [intros []|constructor]]. intros [H|[]]. rewrite H, str_eqb_refl in E. discriminate E.
Qed.
Lemma gen_ser_has t : forall c G f W r, within c -> owned t -> returns c = Some (KResult r) -> implements Writes W -> leads "writer" G (KRef true W) ->
  leads "payload" G (KRef false (sem t SOut)) -> leads "payload_atlas" G (KRef false (sem t SAtlas)) ->
  stmts_have c G (gen_ser ind t f) G false.
Proof.
  induction t as [inner IH| | |i n| | | | |]; intros c G f W r Hc Ho Hr HW Hw H Ha; cbn [gen_ser RustTypingFacts.sem] in *.
  - pose proof (owned_array schemas ns s inner Ho) as Hoi. specialize (fun c G f W r Hc => IH c G f W r Hc Hoi).
    pose proof (fun c G Hc => lookup_has c G inner Hc Hoi) as Hlk.
    assert (sized_sty inner = true -> stmts_have c G
      [SFor (PPair (pv "payload") (pv "payload_atlas"))
             (EMethod (EMethod (vr "payload") MIter []) MZip [EMethod (EField (vr "payload_atlas") (txt "1")) MIter []])
             (Blk false
                (SSemi (ETry (ECall (CTop ind FnSerializeVarint) [as_u64 (gen_atlas_lookup inner); vr "writer"])) ::
                 gen_ser ind inner false) None)] G false) as A.
    { intros E. rewrite E in Ha. apply stmts_one. eapply (st_for prog); [split; exact I| |now apply pair_binds| |].
      - apply it_iter. eapply method1; [apply sm_zip|apply by_value, iter_has; exact H|]. apply passes_same. eapply method0; [apply sm_iter|].
        eapply (rv_shared prog c G _ false); [eapply (pl_path prog c G _ false); eapply p_second; [apply v_path; exact Ha|apply rc_ref, rc_here]|apply rc_here].
      - cbn [app].
        set (G' := (txt "payload_atlas", (Fixed, KRef false (sem inner SAtlas))) :: (txt "payload", (Fixed, KRef false (sem inner SOut))) :: G).
        assert (leads "writer" G' (KRef true W)) as Hw' by (unfold G'; var).
        assert (leads "payload_atlas" G' (KRef false (sem inner SAtlas))) as Ha' by here.
        apply (block_unit _ _ false _ G' false); [|ends]. set (c' := looping c (Some G)).
        change (stmts_have c' G' ([SSemi (ETry (ECall (CTop ind FnSerializeVarint) [as_u64 (gen_atlas_lookup inner); vr "writer"]))] ++ gen_ser ind inner false) G' false).
        eapply stmts_app.
        + eapply semi_has; [|reflexivity]. eapply (varint_stmt_has c'); [exact Hc|exact Hw'|exact HW|exact Hr|].
          apply as_u64_has; [exact Hc|]. apply (Hlk c'); [exact Hc|exact Ha'].
        + eapply (IH c'); [exact Hc|exact Hr|exact HW|exact Hw'|unfold G'; var|exact Ha'].
      - apply (leave_app G [_; _]). }
    assert (sized_sty inner = false -> stmts_have c G [SFor (pv "payload") (vr "payload") (Blk false (gen_ser ind inner false) None)] G false) as B.
    { intros E. rewrite E in Ha. apply stmts_one. eapply (st_for prog); [exact I|apply it_vec; apply v_has; [reflexivity|exact H]|split; [apply pa_var|cbn [map fst]; constructor; [intros []|constructor]]| |].
      - cbn [app]. eapply block_unit; [|apply e_here]. eapply (IH (looping c (Some G))); [exact Hc|exact Hr|exact HW|var|here|].
        assert (sem inner SAtlas = KUsize) as -> by (clear - E; destruct inner; cbn in E |- *; (reflexivity || discriminate E)). var.
      - apply (leave_app G [_]). }
    destruct inner; cbn [sized_sty] in *; try (now apply A); try (now apply B).
    eapply ser_block_has; [exact Hc|exact Hw|exact HW|exact Hr|]. apply as_u64_has; [exact Hc|]. eapply method0; [apply sm_len_vec|eapply shared_ref; exact H].
  - eapply ser_block_has; [exact Hc|exact Hw|exact HW|exact Hr|]. eapply (h_std prog); [apply (sg_u64_from KBool); cbn [In]; auto|]. apply one. apply deref_has; [exact I|exact H].
  - eapply semi_has; [|reflexivity]. eapply write_all_has; [exact Hw|exact HW|exact Hr|]. apply (ps_has prog false c G _ (KRef false (KVec KU8))); [apply v_has; [reflexivity|exact H]|apply co_vec].
  - eapply semi_has; [|reflexivity]. apply (h_try prog c G _ KUnit r _ Hr).
    destruct (custom_target u Hu schemas Hl Hv Hg ns s i n Hin Ho) as (ns2 & s2 & d2 & Hd & Ht). rewrite (proj1 (Ht SAtlas)) in Ha. rewrite (proj1 (Ht SOut)) in H.
    eapply (ser_call u Hu schemas Hl Hv Hg ns2 s2 d2 Hd); [eapply shared_ref; exact H|exact HW|apply v_again; exact Hw|apply passes_same, v_has; [reflexivity|exact Ha]].
  - assert (stmts_have c G [SSemi (gen_write_all (ERef false (EMethod (vr "payload") MToLeBytes [])))] G false) as K.
    { eapply semi_has; [|reflexivity]. eapply write_all_has; [exact Hw|exact HW|exact Hr|]. eapply ps_has; [|apply co_array]. apply ref_has. eapply method0; [apply sm_to_le_f64|]. apply value_ref; [exact I|exact H]. }
    cbv zeta. destruct f; [|exact K]. apply stmts_one, st_if.
    + eapply (h_compare prog c G OpNe _ _ KU64); [now right|discriminate| |apply u64_has; lia]. eapply method0; [apply sm_to_bits|]. apply value_ref; [exact I|exact H].
    + eapply block_unit; [exact K|ends].
  - eapply ser_block_has; [exact Hc|exact Hw|exact HW|exact Hr|]. apply encode_has; [exact Hc|]. apply deref_has; [exact I|exact H].
  - eapply semi_has; [|reflexivity]. eapply write_all_has; [exact Hw|exact HW|exact Hr|]. apply passes_same. eapply method0; [apply sm_as_bytes|]. eapply shared_ref; exact H.
  - eapply ser_block_has; [exact Hc|exact Hw|exact HW|exact Hr|]. apply deref_has; [exact I|exact H].
  - apply st_nil.
Qed.

(** *** Deserialization *)
Lemma semi_has' c G e t G' : has c G e t G' -> stmts_have c G [SSemi e] G' (diverges e).
Proof. intros H. apply stmts_one. exact (st_semi prog c G e t G' H). Qed.
Lemma leads_here_mut x (t : rty) (G : tenv) : lookup (txt x) ((txt x, (Mut, t)) :: G : tenv) = Some (Mut, t).
Proof. cbn [lookup]. now rewrite str_eqb_refl. Qed.
Lemma eof_arms_have c G ok t e blank r q G0 G2 : within c -> returns c = Some (KResult q) -> in_loop c = Some G0 -> ends G0 G ->
  has c ((txt ok, (Fixed, t)) :: G) e r G2 -> ends G G2 -> arms_have prog c G Owned (KResult t) (eof_arms ok e blank) r G.
Proof.
  intros Hc Hr Hlp He0 He He2. unfold eof_arms. eapply (arm_move c G Owned _ _ _ _ _ [(txt ok, (Fixed, t))]).
  - split; [|cbn [map fst]; constructor; [intros []|constructor]]. apply (pa_con prog _ _ _ _ _ [t]); [apply cn_ok|].
    apply (pas_cons prog _ Owned t [] (pv ok) [] [(txt ok, (Fixed, t))] []); [apply pa_var|apply pas_nil].
  - exact He.
  - exact He2.
  - apply (arm_next c G Owned _ _ _ _ _ [(txt "err", (Fixed, KError))]); [|apply h_block|apply ar_nil].
    + split; [|cbn [map fst]; constructor; [intros []|constructor]]. apply (pa_con prog _ _ _ _ _ [KError]); [apply cn_err|].
      apply (pas_cons prog _ Owned KError [] (pv "err") [] [(txt "err", (Fixed, KError))] []); [apply pa_var|apply pas_nil].
    + cbn [app]. set (G' := (txt "err", (Fixed, KError)) :: G). apply (bl_diverges prog c G' false _ ((txt "err", (Moved, KError)) :: G)).
      apply (stmts_next _ _ _ _ G').
      * apply (st_if_let prog c G' _ _ _ KErrorKind [] G' G').
        -- eapply method0; [apply sm_kind|]. eapply shared; [apply leads_here; reflexivity|apply rc_here].
        -- split; [|constructor]. apply (pa_con prog _ _ _ _ _ []); [|apply pas_nil]. apply cn_eof. rewrite Hc. exact Hstd.
        -- apply (block_unit c _ false _ G' true); [|apply e_here]. apply (semi_has' c G' EBreak KUnit G'). eapply h_break; [exact Hlp|].
           apply ends_leave. apply e_cons, He0.
        -- apply ends_leave, e_here.
      * assert (stmts_have c G' [SSemi (EReturn (ECall (CStd FnErr) [vr "err"]))] ((txt "err", (Moved, KError)) :: G) true) as K.
        { apply (semi_has' c G' (EReturn (ECall (CStd FnErr) [vr "err"])) KUnit). eapply (h_return prog c G' _ KUnit); [exact Hr|]. apply passes_same. eapply (h_std prog); [apply sg_err|].
          apply one, v_move_here. reflexivity. }
        destruct blank; [|exact K]. cbn [app]. eapply stmts_next; [apply st_blank|exact K].
Qed.
Lemma eof_exhaustive h ok e blank t : exhaustive prog h (map arm_pat (eof_arms ok e blank)) (KResult t).
Proof.
  apply (ex_result prog h _ t (pv ok) (pv "err")); [now left|right; now left|exact I|exact I].
Qed.
Lemma mut_path G x R : lookup (txt x) G = Some (Mut, R) -> path_place G (vr x) true R.
Proof. intros H. apply v_path. exists Mut. now split. Qed.
Lemma mut_place c G x R : lookup (txt x) G = Some (Mut, R) -> has c G (ERef true (vr x)) (KRef true R) G.
Proof.
  intros H. apply (h_ref_mut prog c G _ true); [now apply mut_path|]. exact (ch_var prog G _ R H).
Qed.
Lemma mut_lookup_skip x y v t (G : tenv) : str_eqb (txt x) (txt y) = false -> lookup (txt x) G = Some (Mut, t) -> lookup (txt x) ((txt y, v) :: G) = Some (Mut, t).
Proof. intros E H. cbn [lookup]. now rewrite E. Qed.
Lemma mutable_method c G x m a t k r G' : std_method prog m ByMutable t [k] r -> lookup (txt x) G = Some (Mut, t) -> has c G a k G' -> has c G (EMethod (vr x) m [a]) r G'.
Proof.
  intros H1 H2 H3. eapply method1; [exact H1| |apply passes_same; exact H3]. apply (rv_mutable prog c G _ true); [now apply mut_path|].
  exact (ch_var prog G _ t H2).
Qed.
(** What a piece of code may leave behind. *)
Definition scratch (B : tenv) : Prop := Forall (fun b => In (fst b) (map txt ["payload"; "buffer"; "deserialize_element"]%string)) B.
Definition yields (c : ctx) (G : tenv) (ss : list stmt) (t : rty) : Prop :=
  exists B, stmts_have c G ss (B ++ G) false /\ leads "payload" B t /\ scratch B.
Lemma becomes_map x f (B : tenv) : map fst (becomes x f B) = map fst B.
Proof. induction B as [|[y [m t]] B IH]; [reflexivity|]. cbn [becomes]. destruct (str_eqb x y); cbn [map fst]; [reflexivity|now rewrite IH]. Qed.
Lemma becomes_app x f (B G : tenv) v : lookup x B = Some v -> becomes x f (B ++ G) = becomes x f B ++ G.
Proof.
  induction B as [|[y [m t]] B IH]; [discriminate|]. cbn [becomes lookup app]. destruct (str_eqb x y); [reflexivity|]. intros H. cbn [app]. now rewrite IH.
Qed.
Lemma scratch_gone x B : scratch B -> scratch (gone x B).
Proof. unfold scratch. rewrite <- !(Forall_map fst (fun n => In n _)). unfold gone. now rewrite becomes_map. Qed.
Lemma leads_app x B G t : leads x B t -> leads x (B ++ G) t.
Proof.
  intros (m & Hm & H). exists m. split; [exact Hm|]. induction B as [|[y w] B IH]; [discriminate H|]. cbn [app lookup] in *. destruct (str_eqb (txt x) y); [exact H|now apply IH].
Qed.
Lemma take_payload c B G t : leads "payload" B t -> has c (B ++ G) (vr "payload") t (gone (txt "payload") B ++ G).
Proof.
  intros H. replace (gone (txt "payload") B ++ G) with (gone (txt "payload") (B ++ G)); [now apply v_move, leads_app|].
  destruct H as (m & _ & H). exact (becomes_app _ _ B G _ H).
Qed.
Lemma scratch_lookup {x B G v} : scratch B -> forallb (fun y => negb (str_eqb x y)) (map txt ["payload"; "buffer"; "deserialize_element"]%string) = true ->
  lookup x (B ++ G) = v -> lookup x G = v.
Proof.
  intros H E <-. induction H as [|[y w] B Hy H IH]; [reflexivity|]. cbn [app lookup fst] in *. rewrite forallb_forall in E. specialize (E y Hy).
  destruct (str_eqb x y); [discriminate E|exact IH].
Qed.
Lemma scratch_kept {x B} {G : tenv} {v} : scratch B -> forallb (fun y => negb (str_eqb x y)) (map txt ["payload"; "buffer"; "deserialize_element"]%string) = true ->
  lookup x G = v -> lookup x (B ++ G) = v.
Proof. intros H E <-. symmetry. now apply (scratch_lookup H E). Qed.
Lemma leads_one (m : held) t : usable m = true -> leads "payload" [(txt "payload", (m, t))] t.
Proof. now apply leads_here. Qed.
Lemma yields_let c G e t : has c G e t G -> yields c G [lets "payload" e] t.
Proof.
  intros H. exists [(txt "payload", (Fixed, t))]. split; [|split; [now apply leads_here|constructor; [now left|constructor]]]. cbn [app]. apply stmts_one. now apply lets_has.
Qed.
Lemma yields_then c G a e t t' : yields c G a t -> (forall B, scratch B -> leads "payload" (B ++ G) t -> has c (B ++ G) e t' (B ++ G)) -> yields c G (a ++ [lets "payload" e]) t'.
Proof.
  intros (B & H1 & H2 & H3) H. exists ((txt "payload", (Fixed, t')) :: B). split; [|split; [now apply leads_here|constructor; [now left|exact H3]]].
  cbn [app]. eapply stmts_app; [exact H1|]. apply stmts_one, lets_has. apply H; [exact H3|now apply leads_app].
Qed.
Lemma read_exact_has c G R r : implements Reads R -> returns c = Some (KResult r) -> lookup (txt "sub_reader") G = Some (Mut, R) ->
  forall e, e = ERef true (vr "buffer") \/ e = ERef true (EWhole (vr "buffer")) ->
  stmts_have c G [letm "buffer" (EZeros 8); SSemi (ETry (ECall (CStd FnReadExact) [mut_sub_reader; e]))] ((txt "buffer", (Mut, KBytes 8)) :: G) false.
Proof.
  intros HR Hr Hs e He. eapply stmts_next; [apply letm_has, h_zeros|]. eapply semi_has; [|reflexivity]. apply (h_try prog c _ _ KUnit r _ Hr).
  eapply (h_std prog); [apply sg_read_exact; exact HR|]. eapply ps_cons; [apply passes_same, mut_place; now apply mut_lookup_skip|]. eapply ps_cons; [|apply ps_nil].
  destruct He as [->| ->].
  - eapply ps_has; [apply mut_place; apply (leads_here_mut "buffer")|apply co_array].
  - apply passes_same. apply (h_ref_mut prog c _ _ false).
    + apply (p_whole prog _ _ true 8). apply v_path, leads_here. reflexivity.
    + apply ch_whole. apply (ch_var prog _ _ (KBytes 8)). apply (leads_here_mut "buffer").
Qed.
Lemma deserialize_varint_try c G R r : within c -> implements Reads R -> returns c = Some (KResult r) -> lookup (txt "sub_reader") G = Some (Mut, R) ->
  has c G (ETry (ECall (CTop ind FnDeserializeVarint) [mut_sub_reader])) KU64 G.
Proof.
  intros Hc HR Hr Hs. apply (h_try prog c G _ KU64 r _ Hr). eapply deserialize_varint_has; [exact Hc|exact HR|]. apply passes_same. now apply mut_place.
Qed.
Lemma deser_u64_yields c G f R r : within c -> implements Reads R -> returns c = Some (KResult r) -> lookup (txt "sub_reader") G = Some (Mut, R) ->
  (f = true -> leads "payload_size" G KUsize) -> yields c G (gen_deser_u64 ind f) KU64.
Proof.
  intros Hc HR Hr Hs Hp. unfold gen_deser_u64. assert (has c G (ETry (ECall (CTop ind FnDeserializeVarint) [mut_sub_reader])) KU64 G) as K by (eapply deserialize_varint_try; [exact Hc|exact HR|exact Hr|exact Hs]).
  destruct f; [|apply yields_let; exact K]. apply yields_let. eapply (h_match prog c G false _ KUsize).
  - apply v_has; [reflexivity|now apply Hp].
  - eapply arm_next; [apply usize_pat; lia|apply u64_has; lia|]. eapply arm_next; [apply usize_pat; lia| |eapply arm_next; [apply wild_pat|exact K|apply ar_nil]].
    apply h_block. cbn [app]. eapply block_value; [eapply read_exact_has; [exact HR|exact Hr|exact Hs|now right]| |ends].
    eapply (h_std prog); [apply sg_u64|]. apply one. vh.
  - apply (ex_any prog _ _ _ PWild); [right; right; now left|exact I].
Qed.
Lemma vec_new_has c G t : has c G (ECall (CStd FnVecNew) []) (KVec t) G.
Proof. eapply (h_std prog); [apply sg_vec|apply ps_nil]. Qed.
Lemma gen_deser_yields t : forall c G f R r, within c -> owned t -> returns c = Some (KResult r) -> implements Reads R -> lookup (txt "sub_reader") G = Some (Mut, R) ->
  ((f || sized_sty t)%bool = true -> leads "payload_size" G KUsize) -> yields c G (gen_deser u ns s ind t f) (sem t SIn).
Proof.
  induction t as [inner IH| | |i n| | | | |]; intros c G f R r Hc Ho Hr HR Hs Hp; cbn [gen_deser RustTypingFacts.sem] in *.
  - pose proof (owned_array schemas ns s inner Ho) as Hoi. specialize (fun c G f R r Hc => IH c G f R r Hc Hoi).
    assert (leads "payload_size" G KUsize) as Hps by (apply Hp; apply orb_true_r).
    assert (yields c G
          [letm "payload" (ECall (CStd FnVecNew) []);
           SLoop (Blk false
             [lets "payload_size" (EMatch false (ECall (CTop ind FnDeserializeVarint) [mut_sub_reader])
                                     (eof_arms "payload_size" (as_usize (vr "payload_size")) false));
              letm "sub_reader" (ECall (CStd FnTake) [mut_sub_reader; as_u64 (vr "payload_size")]);
              SSemi (EMethod (vr "payload") MPush [EBlock (Blk false (gen_deser u ns s ind inner false) (Some (vr "payload")))])] None)] (KVec (sem inner SIn))) as A.
    { exists [(txt "payload", (Mut, KVec (sem inner SIn)))]. split; [|split; [apply leads_here; reflexivity|constructor; [now left|constructor]]]. cbn [app].
      set (G1 := (txt "payload", (Mut, KVec (sem inner SIn))) :: G).
      eapply stmts_next; [apply letm_has, vec_new_has|]. apply stmts_one, st_loop. fold G1. set (c' := looping c (Some G1)).
      set (G2 := (txt "payload_size", (Fixed, KUsize)) :: G1). set (G3 := (txt "sub_reader", (Mut, KTake (KRef true R))) :: G2).
      assert (lookup (txt "sub_reader") G2 = Some (Mut, R)) as Hs2 by exact Hs.
      apply (block_unit c' G1 false _ G3 false); [|apply e_cons, e_cons, e_here].
      apply (stmts_next c' G1 _ _ G2); [|apply (stmts_next c' G2 _ _ G3)].
      - apply lets_has. eapply (h_match prog c' G1 false _ (KResult KU64)).
        + eapply (deserialize_varint_has c'); [exact Hc|exact HR|]. apply passes_same, mut_place. exact Hs.
        + eapply eof_arms_have with (q := r); [exact Hc|exact Hr|reflexivity|apply e_here| |].
          * apply (as_usize_has c'); [exact Hc|]. vh.
          * ends.
        + apply eof_exhaustive.
      - apply letm_has. eapply (h_std prog); [apply (sg_take (KRef true R)); exact HR|]. eapply two; [apply mut_place; exact Hs2|]. apply (as_u64_has c'); [exact Hc|]. apply v_has; [reflexivity|here].
      - assert (yields c' G3 (gen_deser u ns s ind inner false) (sem inner SIn)) as (B & Y1 & Y2 & Y3).
        { apply (IH c' G3 false (KTake (KRef true R)) r); [exact Hc|exact Hr|split; [reflexivity|exact HR]|reflexivity|]. intros _. unfold G3, G2. var. }
        eapply semi_has; [|reflexivity]. eapply (mutable_method c' G3 "payload" MPush _ (KVec (sem inner SIn)) (sem inner SIn)); [apply sm_push|reflexivity|].
        apply h_block. eapply block_move; [exact Y1|apply take_payload; exact Y2|ends]. }
    assert (forall res : bool, (res = true -> True) -> sized_sty inner = false ->
      yields c G ([SFn (FnDef false (txt "deserialize_element") (Some (txt "::std::io::BufRead")) false
                  [Par true (txt "sub_reader") (TyRef true (TyPath [txt "T"]))] (io_result (gen_type u ns s inner SIn))
                  (Blk false (gen_deser u ns s ind inner false) (Some (ECall (CStd FnOk) [vr "payload"]))));
           letm "payload" (ECall (CStd FnVecNew) [])] ++
          (if res then [SSemi (EMethod (vr "payload") MReserveExact [vr "payload_size"])] else []) ++
          [SLoop (Blk false
             [SSemi (EMethod (vr "payload") MPush
                [EMatch false (ECall (CLocal (txt "deserialize_element")) [mut_sub_reader]) (eof_arms "element" (vr "element") false)])] None)]) (KVec (sem inner SIn))) as B.
    { intros res _ Hz. set (fn := FnDef _ _ _ _ _ _ _). set (G1 := (txt "payload", (Mut, KVec (sem inner SIn))) :: (txt "deserialize_element", (Fixed, KFn fn)) :: G).
      exists [(txt "payload", (Mut, KVec (sem inner SIn))); (txt "deserialize_element", (Fixed, KFn fn))].
      split; [|split; [apply leads_here; reflexivity|constructor; [now left|constructor; [right; right; now left|constructor]]]]. change (stmts_have c G ([SFn fn; letm "payload" (ECall (CStd FnVecNew) [])] ++
          (if res then [SSemi (EMethod (vr "payload") MReserveExact [vr "payload_size"])] else []) ++
          [SLoop (Blk false
             [SSemi (EMethod (vr "payload") MPush
                [EMatch false (ECall (CLocal (txt "deserialize_element")) [mut_sub_reader]) (eof_arms "element" (vr "element") false)])] None)]) G1 false).
      assert (forall self targ, ty_of prog (mkScope (here (sc c)) self targ) (gen_type u ns s inner SIn) (sem inner SIn)) as Hty.
      { intros self0 targ0. apply (sem_ok u Hu schemas Hl Hv Hg ns s Hin); [exact Hc|exact Hoi]. }
      eapply stmts_app; [eapply stmts_next; [apply st_fn|apply stmts_one, letm_has, vec_new_has]|].
      - unfold fn. set (sp := mkScope (here (sc c)) None (Some (KParam Reads))). set (G' := [(txt "sub_reader", (Mut, KRef true (KParam Reads)))]).
        eapply fn_ok with (t := Some (KParam Reads)) (G' := G'); [exists Reads; split; reflexivity| | |apply ty_result, Hty|].
        + apply (pb_par prog sp true (txt "sub_reader") _ (KRef true (KParam Reads)) [] []); [apply ty_ref; now apply ty_param|apply pb_nil].
        + cbn [map fst]. constructor; [intros []|constructor].
        + set (c' := mkCtx sp (Some (KResult (sem inner SIn))) None).
          assert (yields c' G' (gen_deser u ns s ind inner false) (sem inner SIn)) as (B & Y1 & Y2 & Y3).
          { apply (IH c' G' false (KRef true (KParam Reads)) (sem inner SIn)); [exact Hc|reflexivity|reflexivity|reflexivity|]. rewrite Hz. discriminate. }
          eapply block_move; [exact Y1| |].
          * eapply (h_std prog); [apply sg_ok|]. apply one. apply take_payload; exact Y2.
          * ends.
      - change ((txt "payload", (Mut, KVec (sem inner SIn))) :: (fn_name fn, (Fixed, KFn fn)) :: G) with G1.
        eapply (stmts_app c G1 _ G1).
        + destruct res; [|apply st_nil]. eapply semi_has; [|reflexivity]. eapply (mutable_method c G1 "payload" MReserveExact _ (KVec (sem inner SIn)) KUsize); [apply sm_reserve_vec|reflexivity|].
          apply v_has; [reflexivity|]. unfold G1. var.
        + apply stmts_one, st_loop. set (c' := looping c (Some G1)). apply (block_unit c' G1 false _ G1 false); [|apply e_here]. eapply semi_has; [|reflexivity].
          eapply (mutable_method c' G1 "payload" MPush _ (KVec (sem inner SIn)) (sem inner SIn)); [apply sm_push|reflexivity|].
          eapply (h_match prog c' G1 false _ (KResult (sem inner SIn))).
          * eapply (h_local prog c' G1 _ fn _ [KRef true R]); [reflexivity| |apply one, mut_place; exact Hs].
            exists (Some R). split; [exists Reads; split; [reflexivity|exact HR]|]. split; [|apply ty_result; apply Hty].
            apply pt_par; [apply ty_ref; now apply ty_param|apply pt_nil].
          * eapply eof_arms_have with (q := r); [exact Hc|exact Hr|reflexivity|apply e_here|apply v_move_here; reflexivity|ends].
          * apply eof_exhaustive. }
    destruct inner; cbn [sized_sty] in *; try exact A; try exact (B false ltac:(auto) eq_refl); try exact (B true ltac:(auto) eq_refl).
    eapply yields_then; [eapply deser_u64_yields; [exact Hc|exact HR|exact Hr|exact Hs|intros _; exact Hps]|]. intros B0 _ H.
    apply h_vec_units. apply as_usize_has; [exact Hc|]. apply v_has; [reflexivity|exact H].
  - eapply yields_then; [eapply deser_u64_yields; [exact Hc|exact HR|exact Hr|exact Hs|intros ->; apply Hp; reflexivity]|]. intros B0 _ H.
    eapply (h_compare prog c _ OpNe _ _ KU64); [now right|discriminate|apply v_has; [reflexivity|exact H]|apply u64_has; lia].
  - exists [(txt "payload", (Mut, KVec KU8))]. split; [|split; [apply leads_here; reflexivity|constructor; [now left|constructor]]]. cbn [app].
    set (G1 := _ :: G). assert (leads "payload_size" G1 KUsize) as Hp1 by (unfold G1; apply leads_skip; [reflexivity|apply Hp; apply orb_true_r]).
    eapply stmts_next; [apply letm_has, h_vec_empty|]. apply (stmts_app c G1 [_] G1 [_]).
    + eapply semi_has; [|reflexivity]. eapply (mutable_method c G1 "payload" MReserveExact _ (KVec KU8) KUsize); [apply sm_reserve_vec|reflexivity|]. apply v_has; [reflexivity|exact Hp1].
    + eapply semi_has; [|reflexivity]. apply (h_try prog c G1 _ KUsize r _ Hr). eapply (h_std prog); [apply sg_read_to_end; exact HR|]. eapply two; apply mut_place; [exact Hs|reflexivity].
  - apply yields_let. destruct (custom_target u Hu schemas Hl Hv Hg ns s i n Hin Ho) as (ns2 & s2 & d2 & Hd & Ht). destruct (Ht SIn) as [-> E].
    apply (h_try prog c G _ _ r _ Hr). eapply (deser_call u Hu schemas Hl Hg ns2 s2 d2 Hd); [|exact HR|apply passes_same, mut_place; exact Hs].
    eapply ty_data; [rewrite Hc; exact E|]. apply (decl_item u Hu schemas Hl Hv Hg ns2 s2 d2 SIn Hd).
  - assert (stmts_have c G eight_bytes ((txt "buffer", (Mut, KBytes 8)) :: G) false) as K by (eapply read_exact_has; [exact HR|exact Hr|exact Hs|now left]).
    assert (has c ((txt "buffer", (Mut, KBytes 8)) :: G) (ECall (CStd FnF64FromLeBytes) [vr "buffer"]) KF64 ((txt "buffer", (Mut, KBytes 8)) :: G)) as K2.
    { eapply (h_std prog); [apply sg_f64|]. apply one. vh. }
    destruct f.
    + apply yields_let. eapply h_if.
      * eapply (h_compare prog c G OpEq _ _ KUsize); [now left|discriminate|apply v_has; [reflexivity|apply Hp; reflexivity]|apply usize_has; lia].
      * eapply block_value; [apply st_nil|apply h_f64|ends].
      * eapply block_value; [exact K|exact K2|ends].
    + exists [(txt "payload", (Fixed, KF64)); (txt "buffer", (Mut, KBytes 8))].
      split; [|split; [apply leads_here; reflexivity|constructor; [now left|constructor; [right; now left|constructor]]]]. cbn [app].
      eapply stmts_app; [exact K|]. apply stmts_one, lets_has. exact K2.
  - eapply yields_then; [eapply deser_u64_yields; [exact Hc|exact HR|exact Hr|exact Hs|intros ->; apply Hp; reflexivity]|]. intros B0 _ H.
    apply decode_has; [exact Hc|]. apply v_has; [reflexivity|exact H].
  - exists [(txt "payload", (Mut, KString))]. split; [|split; [apply leads_here; reflexivity|constructor; [now left|constructor]]]. cbn [app].
    set (G1 := _ :: G). assert (leads "payload_size" G1 KUsize) as Hp1 by (unfold G1; apply leads_skip; [reflexivity|apply Hp; apply orb_true_r]).
    eapply stmts_next; [apply letm_has; eapply (h_std prog); [apply sg_string|apply ps_nil]|]. apply (stmts_app c G1 [_] G1 [_]).
    + eapply semi_has; [|reflexivity]. eapply (mutable_method c G1 "payload" MReserveExact _ KString KUsize); [apply sm_reserve_string|reflexivity|]. apply v_has; [reflexivity|exact Hp1].
    + eapply semi_has; [|reflexivity]. apply (h_try prog c G1 _ KUsize r _ Hr). eapply (h_std prog); [apply sg_read_to_string; exact HR|]. eapply two; apply mut_place; [exact Hs|reflexivity].
  - eapply deser_u64_yields; [exact Hc|exact HR|exact Hr|exact Hs|intros ->; apply Hp; reflexivity].
  - apply yields_let. apply h_unit.
Qed.

(** *** Conversion *)
Lemma into_reflexive c G e t G' : has c G e t G' -> has c G (EMethod e MInto []) t G'.
Proof. intros H. eapply method0; [apply sm_into; now left|]. apply by_value. exact H. Qed.
Lemma sem_no_custom t : innermost_custom t = false -> sem t SOut = sem t SIn.
Proof. induction t; cbn [innermost_custom RustTypingFacts.sem]; try reflexivity; [intros H; now rewrite IHt|discriminate]. Qed.
Lemma layers_has t : forall c G e G', owned t -> innermost_custom t = true -> has c G e (sem t SOut) G' -> has c G (into_layers t e) (sem t SIn) G'.
Proof.
  induction t as [inner IH| | |i n| | | | |]; intros c G e G' Ho Hi H; try discriminate Hi; cbn [into_layers RustTypingFacts.sem innermost_custom] in *.
  - eapply method0; [apply sm_collect|]. apply by_value. eapply map_iter_move.
    + eapply method0; [apply sm_into_iter|]. apply by_value. exact H.
    + apply IH; [exact (owned_array schemas ns s inner Ho)|exact Hi|]. apply v_move_here. reflexivity.
    + ends.
  - destruct (custom_target u Hu schemas Hl Hv Hg ns s i n Hin Ho) as (ns2 & s2 & d2 & Hd & Ht). rewrite (proj1 (Ht SOut)) in H. rewrite (proj1 (Ht SIn)).
    eapply method0; [apply sm_into; now apply (decl_converts u Hu schemas Hl Hv Hg ns2 s2 d2)|]. apply by_value. exact H.
Qed.
Lemma into_has t c G e G' : owned t -> has c G e (sem t SOut) G' -> has c G (gen_into t e) (sem t SIn) G'.
Proof.
  intros Ho H. unfold gen_into. destruct (innermost_custom t) eqn:E; [now apply layers_has|]. rewrite <- (sem_no_custom t E). now apply into_reflexive.
Qed.
End File.
