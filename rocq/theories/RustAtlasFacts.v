(** The generated [atlas] functions compute the model's atlases. *)
From Verif Require Import TypesFacts IdentFacts RustPrimFacts2.
From Verif Require Export RustEval.

(** ** Lists *)
Lemma all2P_Forall2 {A B C} (P : A -> B -> Prop) (g : C -> B) l : forall l', all2P P l (map g l') -> Forall2 (fun x y => P x (g y)) l l'.
Proof.
  induction l as [|x l IH]; intros [|y l']; cbn [map all2P]; intros H; try contradiction; constructor; try apply IH; apply H.
Qed.
Fixpoint sumN (l : list N) : N := match l with [] => 0 | x :: l' => x + sumN l' end.
Lemma fold_sum {A} (g : A -> N) l : forall x, fold_left (fun x a => x + g a) l x = x + sumN (map g l).
Proof. induction l as [|a l IH]; intros x; cbn [fold_left map sumN]; [lia|]. rewrite IH. lia. Qed.
Lemma fold_add l x : fold_left N.add l x = x + sumN l.
Proof. revert x. induction l as [|a l IH]; intros x; cbn [fold_left sumN]; [lia|]. rewrite IH. lia. Qed.
Lemma sum_bound x l : In x l -> x <= sumN l.
Proof. induction l as [|y l IH]; [intros []|]. cbn [sumN]. intros [->|H]; [lia|]. specialize (IH H). lia. Qed.
Lemma max_bound l n : (fold_right Nat.max O l <= n)%nat -> Forall (fun x => (x <= n)%nat) l.
Proof. induction l as [|x l IH]; cbn [fold_right]; intros H; constructor; [|apply IH]; lia. Qed.

(** ** Types *)
Section Types.
Context (u : unicode) (prog : rmod).
Lemma mods_length ns : length (mods u ns) = length ns. Proof. apply map_length. Qed.
Lemma linked_sized ns s t nt : linked u prog ns s t nt -> sized_sty t = sized_element (erase nt).
Proof.
  destruct nt; cbn [linked]; intros H; try (subst; reflexivity).
  - destruct H as (t' & -> & _). reflexivity.
  - destruct H as ((i & n & -> & _) & _). destruct k; reflexivity.
Qed.
Lemma linked_unit ns s t nt : linked u prog ns s t nt -> is_unit_sty t = is_unit (erase nt).
Proof.
  destruct nt; cbn [linked]; intros H; try (subst; reflexivity).
  - destruct H as (t' & -> & _). reflexivity.
  - destruct H as ((i & n & -> & _) & _). destruct k; reflexivity.
Qed.
Lemma linked_integer ns s t nt : linked u prog ns s t nt -> integer_encoded_sty t = integer_encoded (erase nt).
Proof.
  destruct nt; cbn [linked]; intros H; try (subst; reflexivity).
  - destruct H as (t' & -> & _). reflexivity.
  - destruct H as ((i & n & -> & _) & _). destruct k; reflexivity.
Qed.
End Types.
Definition erase_field (f : sfield * nty) : field_of ty := mkF (sf_index (fst f)) (sf_rule (fst f)) (erase (snd f)).
Lemma find_erased i fs : find_field i (map erase_field fs) = match named_field i fs with Some f => Some (erase_field f) | None => None end.
Proof. induction fs as [|f fs IH]; [reflexivity|]. cbn [map find_field named_field erase_field f_index]. destruct (sf_index (fst f) =? i); auto. Qed.
Lemma named_in i fs f : named_field i fs = Some f -> In f fs /\ sf_index (fst f) = i.
Proof.
  induction fs as [|g fs IH]; [discriminate|]. cbn [named_field]. destruct (sf_index (fst g) =? i) eqn:E.
  - intros [= <-]. split; [now left|lia].
  - intros H. destruct (IH H). split; [now right|assumption].
Qed.

(** ** Arms of a [match] *)
Section Arms.
Context {W : Type} (w : writer W) (rounds : nat) (lim : N) (wraps : bool) (prog : rmod).
Context (call : list str -> str -> fndef -> list rv -> st W -> fres W) (here : list str) (self_type : str).
Notation ev := (eval w rounds lim wraps prog call here self_type).
Notation arms_of := (run_arms w rounds lim wraps prog call here self_type).
(** The arm for one of several things told apart by a name. *)
Lemma select_arm {A K} (key : A -> K) (p : A -> pat) (e : A -> expr) v E s l rest x bound :
  NoDup (map key l) -> In x l -> (forall y, In y l -> key y <> key x -> match_pat here (p y) v = None) ->
  match_pat here (p x) v = Some bound ->
  arms_of v E s (map (fun y => Arm (p y) (e y)) l ++ rest) = scoped E (ev (e x) (bound ++ E) s).
Proof.
  intros Hn Hin Ho Hx. induction l as [|y l IH]; [destruct Hin|]. cbn [map] in Hn. inversion Hn as [|? ? Hni Hn']; subst.
  cbn [map app]. destruct Hin as [->|Hin].
  - apply arms_take. exact Hx.
  - rewrite arms_skip.
    + apply IH; auto. intros z Hz. apply Ho. now right.
    + apply Ho; [now left|]. intros E1. apply Hni. rewrite E1. now apply in_map.
Qed.
Lemma no_arm {A} (p : A -> pat) (e : A -> expr) v E s l rest :
  (forall y, In y l -> match_pat here (p y) v = None) ->
  arms_of v E s (map (fun y => Arm (p y) (e y)) l ++ rest) = arms_of v E s rest.
Proof. intros H. induction l as [|y l IH]; [reflexivity|]. cbn [map app]. rewrite arms_skip; [apply IH; intros z Hz|]; apply H; [now right|now left]. Qed.
End Arms.
Lemma strs_eqb_refl l : strs_eqb l l = true.
Proof. induction l as [|x l IH]; [reflexivity|]. cbn [strs_eqb]. now rewrite str_eqb_refl, IH. Qed.

(** ** The model's atlases *)
Lemma calc_arr_sized f vs e : sized_element e = true -> calc_atlas f (VArr vs) (TArray e) =
  let atlases := map (fun v => calc_atlas false v e) vs in
  AArr (fold_left (fun x a => x + varint_size_from_value (atlas_lookup a) + atlas_lookup a) atlases 0) atlases.
Proof. destruct e; try discriminate; reflexivity. Qed.
Lemma calc_arr_small f vs e : integer_encoded e = true -> calc_atlas f (VArr vs) (TArray e) =
  ASize (fold_left (fun x v => x + atlas_lookup (calc_atlas false v e)) vs 0).
Proof. destruct e; try discriminate; reflexivity. Qed.
Lemma calc_awt v : forall f t, wt DOut v t -> awt (calc_atlas f v t) t.
Proof.
  induction v as [| | | | | | | |vs IH|ovs IH|i p fb IHp IHfb] using val_ind'; intros f t H; destruct t as [| | | | | | |e|fs|fs]; cbn [wt] in H; try contradiction;
    try (cbn [calc_atlas awt]; exact I).
  - destruct e; try contradiction. cbn [calc_atlas awt sized_element]. exact I.
  - destruct H as [Hu H]. destruct (sized_element e) eqn:Hs.
    + rewrite calc_arr_sized by exact Hs. cbn [awt]. rewrite Hs. apply allP_Forall. apply allP_Forall in H.
      apply Forall_forall. intros a Ha. apply in_map_iff in Ha as (v & <- & Hv). rewrite Forall_forall in IH, H. apply IH; auto.
    + destruct e; try discriminate; cbn [calc_atlas awt sized_element]; exact I.
  - cbn [calc_atlas awt]. revert fs H. induction ovs as [|ov ovs IHl]; intros [|g fs] H; cbn [map2 all2P] in *; try contradiction; auto.
    inversion IH as [|? ? Hov IH']; subst. destruct H as [H1 H2]. split; [|now apply IHl].
    destruct ov as [v|]; [now apply Hov|exact H1].
  - cbn [calc_atlas]. destruct (find_field i fs) as [g|] eqn:Eg; [|contradiction]. destruct H as [H1 H2].
    cbv zeta. destruct (f_rule g) eqn:Er, fb as [v'|]; cbn [has_fallback] in H2; try discriminate; try (destruct H2; discriminate); cbn [awt]; rewrite Eg, Er; cbn [has_fallback].
    + split; [now apply IHp|]. split; [reflexivity|]. destruct H2 as [_ H2]. now apply IHfb.
    + split; [now apply IHp|]. split; [reflexivity|]. destruct H2 as [_ H2]. now apply IHfb.
    + split; [now apply IHp|]. reflexivity.
Qed.

(** ** Atlases *)
Section Atlas.
Context {W : Type} (w : writer W) (rounds : nat) (lim : N) (wraps : bool) (u : unicode) (prog : rmod).
Notation run := (run_fn w rounds lim wraps prog).
Notation ev d ns self := (eval w rounds lim wraps prog (run d) (mods u ns) self).
Notation ex d ns self := (exec w rounds lim wraps prog (run d) (mods u ns) self).

Ltac evs := repeat (ev_step; cbn [obind]).

(** What a size is looked up in. *)
Lemma size_call ns s k name fs a depth st : installed u prog ns s k name (map fst fs) -> awt a (erase (NDecl ns s k name fs)) ->
  call_own prog (run (S depth)) MSize (embed_atlas u a (NDecl ns s k name fs)) [] st = FVal (RvInt (atlas_lookup a)) st.
Proof.
  intros Hi Ha. cbn [erase] in Ha. fold erase_field in Ha. destruct k; cbn [decl_type] in Ha.
  - destruct a as [n|n l|n l|i n pa fa]; cbn [awt] in Ha; try contradiction. cbn [embed_atlas].
    unfold call_own. cbn [type_of]. change (meth_str MSize) with (txt "size"). rewrite (in_size _ _ _ _ _ _ _ Hi). cbn [fst snd].
    unfold struct_size. rewrite run_self. change (vr "self") with (EVar (txt "self")). evs. cbn [field_of_value]. rewrite lookup_here. cbn [scoped fn_result]. reflexivity.
  - destruct a as [n|n l|n l|i n pa fa]; cbn [awt] in Ha; try contradiction. change (map _ fs) with (map erase_field fs) in Ha. rewrite find_erased in Ha. cbn [embed_atlas].
    destruct (named_field i fs) as [f|] eqn:Ef; [|contradiction]. destruct Ha as [_ Hf].
    unfold call_own. cbn [type_of]. change (meth_str MSize) with (txt "size"). rewrite (in_size _ _ _ _ _ _ _ Hi). cbn [fst snd].
    unfold choice_size. rewrite run_self. unfold vr. evs.
    destruct (named_in _ _ _ Ef) as [Hin _].
    set (v := RvEnum _ _ _). rewrite <- (app_nil_r (map _ (map fst fs))).
    rewrite (select_arm w rounds lim wraps prog (run depth) (mods u ns) (type_name u name SAtlas) (variant_name u)
       (fun f => PCon [type_name u name SAtlas; variant_name u f] ([pref "size"; PWild] ++ (if has_fallback_out f then [PWild] else [])))
       (fun _ => EDeref (EVar (txt "size"))) v [(txt "self", v)] st (map fst fs) [] (fst f) [(txt "size", RvInt n)]).
    + evs. cbn [scoped fn_result app]. reflexivity.
    + exact (in_variants _ _ _ _ _ _ _ Hi).
    + now apply in_map.
    + intros y _ Hne. cbn [match_pat match_con]. unfold v. cbn [match_con]. rewrite strs_eqb_refl, str_eqb_refl. cbn [andb].
      rewrite str_eqb_neq by congruence. reflexivity.
    + cbn [match_pat]. unfold v. cbn [match_con]. rewrite strs_eqb_refl, !str_eqb_refl. cbn [andb].
      cbn [erase_field f_rule] in Hf. unfold has_fallback_out. destruct (sf_rule (fst f)), fa; cbn [has_fallback app] in *; try (destruct Hf; discriminate); try discriminate; reflexivity.
Qed.

Definition custom_depth (nt : nty) : nat := match nt with NDecl _ _ _ _ _ => 1%nat | _ => O end.
Lemma wt_custom_depth v nt : wt DOut v (erase nt) -> (custom_depth nt <= vdepth v)%nat.
Proof.
  destruct nt; cbn [custom_depth]; try lia. cbn [erase]. intros H. destruct k, v; cbn [wt decl_type] in H; try contradiction; cbn [vdepth]; lia.
Qed.
Lemma lookup_sim ns s t nt a depth self E st : linked u prog ns s t nt -> awt a (erase nt) -> (custom_depth nt <= depth)%nat ->
  lookup (txt "payload_atlas") E = Some (embed_atlas u a nt) ->
  ev depth ns self (gen_atlas_lookup t) E st = OVal (RvInt (atlas_lookup a)) E st.
Proof.
  intros Hl Ha Hd HE. destruct nt.
  1-7: cbn [linked] in Hl; subst t; cbn [gen_atlas_lookup]; unfold vr; evs; destruct a; try contradiction; reflexivity.
  - destruct Hl as (t' & -> & Hl). pose proof (linked_sized _ _ _ _ _ _ Hl) as Hs. cbn [gen_atlas_lookup]. rewrite Hs.
    cbn [erase] in Ha. revert Ha. destruct a as [n|n l|n l|i n pa fa]; cbn [awt]; destruct (sized_element (erase nt)); intros Ha; try contradiction; unfold vr.
    + evs. reflexivity.
    + evs. cbn [field_of_value embed_atlas atlas_lookup]. reflexivity.
  - destruct Hl as ((i & n & -> & _) & Hi & _). cbn [custom_depth] in Hd. destruct depth as [|depth]; [lia|].
    cbn [gen_atlas_lookup]. unfold vr. evs. rewrite (size_call _ _ _ _ _ _ _ _ Hi Ha). reflexivity.
Qed.
Lemma arith_ok n E (st : st W) : n < two64 -> arith wraps n E st = OVal (RvInt n) E st.
Proof. intros H. unfold arith. destruct (n <? two64) eqn:X; [reflexivity|lia]. Qed.

Lemma atlas_u64_sim ns self depth E st is_field n : lookup (txt "payload") E = Some (RvInt n) -> n < two64 ->
  ev depth ns self (gen_atlas_u64 (length ns) is_field) E st = OVal (RvInt (atlas_u64 is_field n)) E st.
Proof.
  intros HE Hn. unfold gen_atlas_u64, atlas_u64, inline_block, usize_lit, vr. rewrite <- (mods_length u ns). destruct is_field; evs.
  - destruct (n =? 0) eqn:E0; [|destruct (n <=? 567382630219903) eqn:E1].
    + rewrite (arms_take _ _ _ _ _ _ _ _ _ _ _ _ _ _ []) by (cbn [match_pat]; now rewrite E0). cbn [app]. evs. cbn [scoped]. now rewrite !leave_self.
    + rewrite arms_skip by (cbn [match_pat]; now rewrite E0).
      rewrite (arms_take _ _ _ _ _ _ _ _ _ _ _ _ _ _ []).
      2:{ cbn [match_pat]. replace (1 <=? n) with true by lia. now rewrite E1. }
      cbn [app]. evs. cbn [call_top of_fres scoped]. now rewrite !leave_self.
    + rewrite arms_skip by (cbn [match_pat]; now rewrite E0).
      rewrite arms_skip by (cbn [match_pat]; rewrite E1; now rewrite Bool.andb_false_r).
      rewrite (arms_take _ _ _ _ _ _ _ _ _ _ _ _ _ _ []).
      2:{ cbn [match_pat]. replace (567382630219904 <=? n) with true by lia. replace (n <=? 18446744073709551615) with true by (unfold two64 in Hn; lia). reflexivity. }
      cbn [app]. evs. cbn [scoped]. now rewrite !leave_self.
  - cbn [call_top of_fres]. reflexivity.
Qed.

(** Mapping and folding over vectors. *)
Lemma map_sim {A} (f g : A -> rv) d ns self x body l E st :
  (forall a, In a l -> ev d ns self body ((x, f a) :: E) st = OVal (g a) ((x, f a) :: E) st) ->
  run_list (fun v E s => closed E (ev d ns self body ((x, v) :: E) s)) (map f l) E st = OVal (map g l) E st.
Proof.
  intros H. induction l as [|a l IH]; [reflexivity|]. cbn [map]. rewrite run_cons, (H a) by now left. cbn [closed obind].
  change ((x, f a) :: E) with ([(x, f a)] ++ E). rewrite leave_app by reflexivity. rewrite IH; [reflexivity|]. intros b Hb. apply H. now right.
Qed.
Lemma fold_sim {A} (f : A -> rv) (g : A -> N) d ns self x y body l E st : forall n, n + sumN (map g l) < two64 ->
  (forall a m, In a l -> m + g a < two64 ->
     ev d ns self body ((y, f a) :: (x, RvInt m) :: E) st = OVal (RvInt (m + g a)) ((y, f a) :: (x, RvInt m) :: E) st) ->
  run_fold (fun a v E s => closed E (ev d ns self body ((y, v) :: (x, a) :: E) s)) (map f l) (RvInt n) E st =
    OVal (RvInt (n + sumN (map g l))) E st.
Proof.
  induction l as [|a l IH]; intros n Hn H; cbn [map sumN run_fold] in *.
  - now rewrite N.add_0_r.
  - rewrite (H a n); [|now left|lia]. cbn [closed obind]. change ((y, f a) :: (x, RvInt n) :: E) with ([(y, f a); (x, RvInt n)] ++ E).
    rewrite leave_app by reflexivity. rewrite IH.
    + f_equal. f_equal. lia.
    + lia.
    + intros b m Hb. apply H. now right.
Qed.

Definition atlas_stmt (v : val) : Prop := forall nt ns s t is_field depth E st self,
  linked u prog ns s t nt -> wt DOut v (erase nt) -> atlas_lookup (calc_atlas is_field v (erase nt)) < two64 ->
  (vdepth v <= depth)%nat -> lookup (txt "payload") E = Some (embed u DOut v nt) ->
  ev depth ns self (gen_atlas_calc (length ns) t is_field) E st =
    OVal (embed_atlas u (calc_atlas is_field v (erase nt)) nt) E st.

Lemma gen_calc_sized n t f : sized_sty t = true -> gen_atlas_calc n (SyArray t) f =
  EParen (inline_block
    [lets "atlases" (EMethod (EMethod (EMethod (vr "payload") MIter []) MMap [EClosure [txt "payload"] (gen_atlas_calc n t false)]) MCollect [])]
    (EPair
       (EMethod (EMethod (vr "atlases") MIter []) MFold
          [usize_lit 0;
           EClosure [txt "x"; txt "payload_atlas"]
             (inline_block [lets "atlas_size" (gen_atlas_lookup t)]
                (EBin OpAdd (EBin OpAdd (vr "x") (ECall (CTop n FnVarintSize) [as_u64 (vr "atlas_size")])) (vr "atlas_size")))])
       (vr "atlases"))).
Proof. destruct t; try discriminate; reflexivity. Qed.
Lemma gen_calc_small n t f : integer_encoded_sty t = true -> gen_atlas_calc n (SyArray t) f =
  EParen (EMethod (EMethod (vr "payload") MIter []) MFold
    [usize_lit 0; EClosure [txt "x"; txt "payload"] (EBin OpAdd (vr "x") (gen_atlas_calc n t false))]).
Proof. destruct t; try discriminate; reflexivity. Qed.

Lemma sized_size_sum l : fold_left (fun x a => x + varint_size_from_value (atlas_lookup a) + atlas_lookup a) l 0 =
  sumN (map (fun a => varint_size_from_value (atlas_lookup a) + atlas_lookup a) l).
Proof.
  transitivity (fold_left (fun x a => x + (varint_size_from_value (atlas_lookup a) + atlas_lookup a)) l 0); [|rewrite fold_sum; lia].
  generalize 0. induction l as [|a l IH]; intros x; [reflexivity|]. cbn [fold_left]. rewrite IH. f_equal. lia.
Qed.

Lemma atlas_array_sized vs : Forall atlas_stmt vs -> forall e ns s t is_field depth E st self,
  sized_element (erase e) = true -> linked u prog ns s t e -> Forall (fun v => wt DOut v (erase e)) vs ->
  atlas_lookup (calc_atlas is_field (VArr vs) (TArray (erase e))) < two64 ->
  (vdepth (VArr vs) <= depth)%nat -> lookup (txt "payload") E = Some (embed u DOut (VArr vs) (NArray e)) ->
  ev depth ns self (gen_atlas_calc (length ns) (SyArray t) is_field) E st =
    OVal (embed_atlas u (calc_atlas is_field (VArr vs) (TArray (erase e))) (NArray e)) E st.
Proof.
  intros IH e ns s t is_field depth E st self Hs Hl Hw Hsz Hd HE. rewrite gen_calc_sized by (now rewrite (linked_sized _ _ _ _ _ _ Hl)).
  rewrite calc_arr_sized in * by exact Hs. cbv zeta in *. cbn [atlas_lookup embed_atlas embed] in *. rewrite sized_size_sum in *.
  cbn [vdepth] in Hd. apply max_bound in Hd. rewrite Forall_forall in *.
  assert (forall v, In v vs -> (vdepth v <= depth)%nat) as Hd' by (intros v Hv; apply Hd; now apply in_map). clear Hd.
  unfold inline_block, lets, vr. evs. cbn [call_method of_fres obind].
  rewrite (map_sim (fun v => embed u DOut v e) (fun v => embed_atlas u (calc_atlas false v (erase e)) e)).
  2:{ intros v Hv. apply (IH v Hv e ns s); auto; try apply lookup_here.
      rewrite map_map in Hsz. eapply N.le_lt_trans; [|exact Hsz].
      eapply N.le_trans; [|apply sum_bound; apply in_map_iff; exists v; split; [reflexivity|exact Hv]]. cbv beta. lia. }
  cbn [obind]. evs. cbn [call_method of_fres obind]. evs.
  cbn [call_method of_fres obind]. unfold usize_lit. evs. rewrite <- (map_map (fun v => calc_atlas false v (erase e)) (fun a => embed_atlas u a e)).
  rewrite (fold_sim (fun a => embed_atlas u a e) (fun a => varint_size_from_value (atlas_lookup a) + atlas_lookup a)).
  2: rewrite N.add_0_l; exact Hsz.
  2:{ intros a m Ha Hm. apply in_map_iff in Ha as (v & <- & Hv). unfold as_u64. rewrite <- (mods_length u ns). evs.
      rewrite (lookup_sim ns s t e (calc_atlas false v (erase e))); auto.
      2: now apply calc_awt, Hw.
      2: pose proof (wt_custom_depth v e (Hw v Hv)); specialize (Hd' v Hv); lia.
      cbn [obind match_pat]. evs. cbn [call_top of_fres obind]. cbn [bin_value]. rewrite arith_ok by lia. cbn [obind]. evs. cbn [bin_value].
      rewrite arith_ok by lia. cbn [obind scoped]. rewrite <- N.add_assoc. f_equal.
      match goal with |- leave ?E0 (?x :: ?E1) = _ => apply (leave_app [x] E1 E0 eq_refl) end. }
  cbn [obind]. evs. cbn [scoped]. rewrite N.add_0_l. f_equal.
  match goal with |- leave ?E0 (?x :: ?E1) = _ => apply (leave_app [x] E1 E0 eq_refl) end.
Qed.

Ltac drop := first [rewrite leave1 | rewrite leave2 | rewrite leave_self].

Lemma atlas_array_small vs : Forall atlas_stmt vs -> forall e ns s t is_field depth E st self,
  integer_encoded (erase e) = true -> linked u prog ns s t e -> Forall (fun v => wt DOut v (erase e)) vs ->
  atlas_lookup (calc_atlas is_field (VArr vs) (TArray (erase e))) < two64 ->
  (vdepth (VArr vs) <= depth)%nat -> lookup (txt "payload") E = Some (embed u DOut (VArr vs) (NArray e)) ->
  ev depth ns self (gen_atlas_calc (length ns) (SyArray t) is_field) E st =
    OVal (embed_atlas u (calc_atlas is_field (VArr vs) (TArray (erase e))) (NArray e)) E st.
Proof.
  intros IH e ns s t is_field depth E st self Hs Hl Hw Hsz Hd HE. rewrite gen_calc_small by (now rewrite (linked_integer _ _ _ _ _ _ Hl)).
  rewrite calc_arr_small in * by exact Hs. cbn [atlas_lookup embed_atlas embed] in *. rewrite (fold_sum (fun v => atlas_lookup (calc_atlas false v (erase e)))) in *.
  cbn [vdepth] in Hd. apply max_bound in Hd. rewrite Forall_forall in *.
  assert (forall v, In v vs -> (vdepth v <= depth)%nat) as Hd' by (intros v Hv; apply Hd; now apply in_map). clear Hd.
  unfold vr, usize_lit. evs. cbn [call_method of_fres obind]. evs.
  rewrite (fold_sim (fun v => embed u DOut v e) (fun v => atlas_lookup (calc_atlas false v (erase e)))).
  - reflexivity.
  - exact Hsz.
  - intros v m Hv Hm. evs. rewrite (IH v Hv e ns s); auto; try apply lookup_here; [|lia].
    assert (embed_atlas u (calc_atlas false v (erase e)) e = RvInt (atlas_lookup (calc_atlas false v (erase e)))) as ->.
    { pose proof (calc_awt v false _ (Hw v Hv)) as Ha. destruct e; try discriminate; cbn [erase] in *; try (destruct k; discriminate);
        destruct (calc_atlas _ v _); try contradiction; reflexivity. }
    cbn [obind]. cbn [bin_value]. now rewrite arith_ok by lia.
Qed.

(** Fields of a struct: the local variables for their atlases. *)
Definition slots_atlas (ovs : list (option val)) (fs : list (sfield * nty)) : list (option atlas) :=
  map2 (fun ov f => match ov with Some v => Some (calc_atlas true v (erase (snd f))) | None => None end) ovs fs.
Definition rv_slot (oa : option atlas) (f : sfield * nty) : rv :=
  slot (always_present DOut (sf_rule (fst f))) (match oa with Some a => Some (embed_atlas u a (snd f)) | None => None end).
Definition locals (oas : list (option atlas)) (fs : list (sfield * nty)) : env :=
  map2 (fun oa f => (local_name u (fst f), rv_slot oa f)) oas fs.
Definition field_ok (ns : namespace) (s : sschema) (depth : nat) (ov : option val) (f : sfield * nty) : Prop :=
  linked u prog ns s (sf_type (fst f)) (snd f) /\
  match ov with
  | Some v => atlas_stmt v /\ wt DOut v (erase (snd f)) /\ atlas_lookup (calc_atlas true v (erase (snd f))) < two64 /\ (vdepth v <= depth)%nat
  | None => always_present DOut (sf_rule (fst f)) = false
  end.
Definition self_slot (flds : list (str * rv)) (ov : option val) (f : sfield * nty) : Prop :=
  lookup (field_name u (fst f)) flds =
    Some (slot (always_present DOut (sf_rule (fst f))) (match ov with Some v => Some (embed u DOut v (snd f)) | None => None end)).
Lemma let_sim ns s depth self tid flds ov f E st : field_ok ns s depth ov f -> self_slot flds ov f ->
  lookup (txt "self") E = Some (RvStruct tid flds) ->
  ex depth ns self (struct_atlas_let u (length ns) (fst f)) E st =
    OVal tt ((local_name u (fst f), rv_slot (match ov with Some v => Some (calc_atlas true v (erase (snd f))) | None => None end) f) :: E) st.
Proof.
  intros [Hl Hv] Hs HE. unfold self_slot in Hs. unfold struct_atlas_let, inline_block, lets, self_field, vr, rv_slot. rewrite ex_let_var.
  destruct (sf_rule (fst f)) eqn:Er; cbn [always_present slot] in *.
  - destruct ov as [v|]; [|discriminate]. destruct Hv as (IH & Hw & Hsz & Hd). evs. cbn [field_of_value]. rewrite Hs. cbn [obind]. evs.
    rewrite (IH (snd f) ns s); auto; try apply lookup_here. cbn [obind scoped]. now drop.
  - evs. cbn [field_of_value]. rewrite Hs. cbn [obind]. evs. cbn [call_method of_fres obind].
    destruct ov as [v|]; [|reflexivity]. destruct Hv as (IH & Hw & Hsz & Hd).
    rewrite (IH (snd f) ns s); auto; try apply lookup_here. cbn [closed obind]. now drop.
  - destruct ov as [v|]; [|discriminate]. destruct Hv as (IH & Hw & Hsz & Hd). evs. cbn [field_of_value]. rewrite Hs. cbn [obind]. evs.
    rewrite (IH (snd f) ns s); auto; try apply lookup_here. cbn [obind scoped]. now drop.
Qed.
Lemma lets_sim ns s depth self tid flds ovs : forall fs E st, Forall2 (field_ok ns s depth) ovs fs -> Forall2 (self_slot flds) ovs fs ->
  lookup (txt "self") E = Some (RvStruct tid flds) ->
  run_list (ex depth ns self) (map (struct_atlas_let u (length ns)) (map fst fs)) E st =
    OVal (map (fun _ => tt) fs) (rev (locals (slots_atlas ovs fs) fs) ++ E) st.
Proof.
  induction ovs as [|ov ovs IH]; intros [|f fs] E st H1 H2 HE; inversion H1 as [|? ? ? ? A1 A2]; inversion H2 as [|? ? ? ? B1 B2]; subst; try reflexivity.
  cbn [map]. rewrite run_cons, (let_sim ns s depth self tid flds ov f E st A1 B1 HE). cbn [obind]. rewrite IH; auto.
  cbn [obind slots_atlas map2 locals rev]. fold (slots_atlas ovs fs). fold (locals (slots_atlas ovs fs) fs). now rewrite <- app_assoc.
Qed.
Lemma locals_names oas : forall fs, length oas = length fs -> map fst (locals oas fs) = map (local_name u) (map fst fs).
Proof.
  induction oas as [|oa oas IH]; intros [|f fs] H; cbn [length] in H; try discriminate; [reflexivity|].
  cbn [locals map2 map fst]. fold (locals oas fs). f_equal. apply IH. lia.
Qed.
Lemma slots_length ovs : forall fs, length ovs = length fs -> length (slots_atlas ovs fs) = length fs.
Proof. induction ovs as [|ov ovs IH]; intros [|f fs] H; cbn [length] in H; try discriminate; [reflexivity|]. cbn [slots_atlas map2 length]. fold (slots_atlas ovs fs). f_equal. apply IH. lia. Qed.
(** The value of each of the sums of a struct's size. *)
Definition size_term (f : sfield * nty) (oa : option atlas) : N :=
  match oa with
  | Some a => field_header_size (sf_index (fst f)) (atlas_lookup a) (integer_encoded (erase (snd f))) + atlas_lookup a
  | None => 0
  end.
Definition term_ok (ns : namespace) (s : sschema) (depth : nat) (f : sfield * nty) (oa : option atlas) : Prop :=
  linked u prog ns s (sf_type (fst f)) (snd f) /\
  match oa with
  | Some a => awt a (erase (snd f)) /\ (custom_depth (snd f) <= depth)%nat
  | None => always_present DOut (sf_rule (fst f)) = false
  end.
Lemma header_size_sim ns s depth self f n E st : linked u prog ns s (sf_type (fst f)) (snd f) ->
  lookup (txt "payload_size") E = Some (RvInt n) ->
  ev depth ns self (header_size (length ns) (fst f)) E st =
    OVal (RvInt (field_header_size (sf_index (fst f)) n (integer_encoded (erase (snd f))))) E st.
Proof.
  intros Hl HE. unfold header_size, u64_lit, vr. rewrite <- (mods_length u ns). evs. cbn [call_top of_fres].
  now rewrite (linked_integer _ _ _ _ _ _ Hl).
Qed.
Lemma term_sim ns s depth self f oa E st : term_ok ns s depth f oa -> lookup (local_name u (fst f)) E = Some (rv_slot oa f) ->
  size_term f oa < two64 ->
  ev depth ns self (struct_size_term u (length ns) (fst f)) E st = OVal (RvInt (size_term f oa)) E st.
Proof.
  intros [Hl Ha] HE Hn. unfold struct_size_term, rv_slot, inline_block, lets, usize_lit, vr, size_term in *.
  destruct (sf_rule (fst f)) eqn:Er; cbn [always_present slot] in *.
  - destruct oa as [a|]; [|discriminate]. destruct Ha as [Ha Hd]. evs. rewrite (lookup_sim ns s _ (snd f) a); auto; try apply lookup_here. cbn [obind]. evs.
    rewrite (header_size_sim ns s depth self f (atlas_lookup a)); auto; try apply lookup_here. cbn [obind]. evs. cbn [bin_value]. rewrite arith_ok by exact Hn. cbn [scoped]. now drop.
  - evs. cbn [call_method of_fres obind]. evs. destruct oa as [a|]; [|reflexivity]. destruct Ha as [Ha Hd].
    evs. rewrite (lookup_sim ns s _ (snd f) a); auto; try apply lookup_here. cbn [obind]. evs.
    rewrite (header_size_sim ns s depth self f (atlas_lookup a)); auto; try apply lookup_here. cbn [obind]. evs. cbn [bin_value]. rewrite arith_ok by exact Hn.
    cbn [scoped closed]. drop. now drop.
  - destruct oa as [a|]; [|discriminate]. destruct Ha as [Ha Hd]. evs. rewrite (lookup_sim ns s _ (snd f) a); auto; try apply lookup_here. cbn [obind]. evs.
    rewrite (header_size_sim ns s depth self f (atlas_lookup a)); auto; try apply lookup_here. cbn [obind]. evs. cbn [bin_value]. rewrite arith_ok by exact Hn. cbn [scoped]. now drop.
Qed.
Lemma sum_sim ns s depth self fs : forall oas E st n, Forall2 (term_ok ns s depth) fs oas ->
  Forall2 (fun f oa => lookup (local_name u (fst f)) E = Some (rv_slot oa f)) fs oas -> n + sumN (map2 size_term fs oas) < two64 ->
  run_sum w rounds lim wraps prog (run depth) (mods u ns) self (map (struct_size_term u (length ns)) (map fst fs)) (RvInt n) E st =
    OVal (RvInt (n + sumN (map2 size_term fs oas))) E st.
Proof.
  induction fs as [|f fs IH]; intros oas E st n H1 H2 Hn; inversion H1 as [|? oa ? oas' A1 A2]; subst; inversion H2 as [|? ? ? ? B1 B2]; subst.
  - cbn [map run_sum map2 sumN]. now rewrite N.add_0_r.
  - cbn [map run_sum map2 sumN] in *. rewrite (term_sim ns s depth self f oa E st A1 B1) by lia. cbn [obind]. rewrite arith_ok by lia. cbn [obind].
    rewrite (IH oas'); auto; [f_equal; f_equal; lia|lia].
Qed.
Lemma esum_sim ns s depth self fs oas E st : Forall2 (term_ok ns s depth) fs oas ->
  Forall2 (fun f oa => lookup (local_name u (fst f)) E = Some (rv_slot oa f)) fs oas -> sumN (map2 size_term fs oas) < two64 ->
  ev depth ns self (ESum (map (struct_size_term u (length ns)) (map fst fs))) E st = OVal (RvInt (sumN (map2 size_term fs oas))) E st.
Proof.
  intros H1 H2 Hn. rewrite ev_sum. destruct fs as [|f fs]; inversion H1 as [|? oa ? oas' A1 A2]; subst; inversion H2 as [|? ? ? ? B1 B2]; subst; [reflexivity|].
  cbn [map map2 sumN] in *. rewrite (term_sim ns s depth self f oa E st A1 B1) by lia. cbn [obind].
  rewrite (sum_sim ns s depth self fs oas'); auto.
Qed.

Lemma map2_map_r {A B C D} (g : A -> B -> C) (h : D -> B) l : forall l', map2 g l (map h l') = map2 (fun a d => g a (h d)) l l'.
Proof. induction l as [|a l IH]; intros [|d l']; cbn [map map2]; auto. now rewrite IH. Qed.
Lemma map2_map_l {A B C D} (g : B -> C -> D) (h : A -> B) l : forall l', map2 g (map h l) l' = map2 (fun a c => g (h a) c) l l'.
Proof. induction l as [|a l IH]; intros [|d l']; cbn [map map2]; auto. now rewrite IH. Qed.
Lemma calc_struct ovs fs : calc_atlas true (VStruct ovs) (TStruct (map erase_field fs)) =
  AStruct (sumN (map2 size_term fs (slots_atlas ovs fs))) (slots_atlas ovs fs).
Proof.
  cbn [calc_atlas]. cbv zeta. rewrite fold_add, N.add_0_l, map2_map_l, map2_map_r. reflexivity.
Qed.
Lemma Forall2_map2 {A B C} (P : A -> B -> Prop) (Q : B -> C -> Prop) (g : A -> B -> C) l : forall l',
  (forall a b, P a b -> Q b (g a b)) -> Forall2 P l l' -> Forall2 Q l' (map2 g l l').
Proof. intros l' H H1. induction H1; cbn [map2]; constructor; auto. Qed.
Lemma Forall2_len {A B} (P : A -> B -> Prop) l l' : Forall2 P l l' -> length l = length l'.
Proof. induction 1; cbn [length]; auto. Qed.

Lemma map2_lookup {A B V} (key : B -> str) (g : A -> B -> V) l : forall l' L, length l = length l' -> NoDup (map fst L) ->
  incl (map2 (fun a b => (key b, g a b)) l l') L -> Forall2 (fun a b => lookup (key b) L = Some (g a b)) l l'.
Proof.
  induction l as [|a l IH]; intros [|b l'] L Hlen Hn Hi; cbn [length] in Hlen; try discriminate; constructor.
  - apply lookup_nodup; [exact Hn|]. apply Hi. now left.
  - apply IH; auto. intros x Hx. apply Hi. now right.
Qed.
Lemma map2_keys {A B V} (key : B -> str) (g : A -> B -> V) l : forall l', length l = length l' ->
  map fst (map2 (fun a b => (key b, g a b)) l l') = map key l'.
Proof. induction l as [|a l IH]; intros [|b l'] Hlen; cbn [length] in Hlen; try discriminate; [reflexivity|]. cbn [map2 map fst]. f_equal. apply IH. now injection Hlen. Qed.
Lemma Forall2_imp {A B} (P Q : A -> B -> Prop) l l' : (forall a b, P a b -> Q a b) -> Forall2 P l l' -> Forall2 Q l l'.
Proof. intros H. induction 1; constructor; auto. Qed.
Lemma Forall2_flip {A B} (P : A -> B -> Prop) l l' : Forall2 P l l' -> Forall2 (fun b a => P a b) l' l.
Proof. induction 1; constructor; auto. Qed.

Lemma locals_lookup oas fs E : NoDup (map (local_name u) (map fst fs)) -> length oas = length fs ->
  Forall2 (fun f oa => lookup (local_name u (fst f)) (rev (locals oas fs) ++ E) = Some (rv_slot oa f)) fs oas.
Proof.
  intros Hn Hlen. apply Forall2_flip.
  assert (Forall2 (fun oa f => lookup (local_name u (fst f)) (rev (locals oas fs)) = Some (rv_slot oa f)) oas fs) as K.
  { apply (map2_lookup (fun f => local_name u (fst f)) rv_slot); [exact Hlen| |].
    - rewrite map_rev. apply NoDup_rev. rewrite locals_names; auto.
    - intros x Hx. apply -> in_rev. exact Hx. }
  eapply Forall2_imp; [|exact K]. cbv beta. intros oa f H. rewrite lookup_app. now rewrite H.
Qed.
Lemma slots_lookup (g : option val -> sfield * nty -> rv) ovs fs : NoDup (map (field_name u) (map fst fs)) -> length ovs = length fs ->
  Forall2 (fun ov f => lookup (field_name u (fst f)) (map2 (fun ov f => (field_name u (fst f), g ov f)) ovs fs) = Some (g ov f)) ovs fs.
Proof.
  intros Hn Hlen. apply (map2_lookup (fun f => field_name u (fst f)) g); [exact Hlen| |intros x Hx; exact Hx].
  rewrite (map2_keys (fun f => field_name u (fst f)) g) by exact Hlen. now rewrite <- (map_map fst (field_name u)).
Qed.
(** The fields of the atlas of a struct. *)
Lemma fields_sim ns depth self fs : forall oas E st,
  Forall2 (fun f oa => lookup (local_name u (fst f)) E = Some (rv_slot oa f)) fs oas ->
  run_list (fun f E s => obind (ev depth ns self (snd f) E s) (fun v E s => OVal (fst f, v) E s))
    (map (fun f => (field_name u f, EVar (local_name u f))) (map fst fs)) E st =
  OVal (map2 (fun oa f => (field_name u (fst f), rv_slot oa f)) oas fs) E st.
Proof.
  induction fs as [|f fs IH]; intros oas E st H; inversion H as [|? oa ? oas' A1 A2]; subst; [reflexivity|].
  cbn [map fst snd]. rewrite run_cons. cbn [snd fst]. rewrite (ev_var _ _ _ _ _ _ _ _ _ _ _ _ A1). cbn [obind]. rewrite (IH oas'); auto.
Qed.

Lemma struct_atlas_call ns s name fs ovs depth st : Forall (optP atlas_stmt) ovs ->
  installed u prog ns s SkStruct name (map fst fs) -> allP (fun f => linked u prog ns s (sf_type (fst f)) (snd f)) fs ->
  wt DOut (VStruct ovs) (TStruct (map erase_field fs)) ->
  atlas_lookup (calc_atlas true (VStruct ovs) (TStruct (map erase_field fs))) < two64 ->
  (vdepth (VStruct ovs) <= S depth)%nat ->
  call_own prog (run (S depth)) MAtlas (embed u DOut (VStruct ovs) (NDecl ns s SkStruct name fs)) [] st =
    FVal (embed_atlas u (calc_atlas true (VStruct ovs) (TStruct (map erase_field fs))) (NDecl ns s SkStruct name fs)) st.
Proof.
  intros IH Hi Hl Hw Hsz Hd. rewrite calc_struct in *. cbn [atlas_lookup embed_atlas] in *. cbn [wt] in Hw. apply all2P_Forall2 in Hw. apply allP_Forall in Hl.
  cbn [vdepth] in Hd. apply le_S_n, max_bound in Hd.
  assert (length ovs = length fs) as Hlen by exact (Forall2_len _ _ _ Hw).
  assert (Forall2 (field_ok ns s depth) ovs fs) as Hok.
  { clear Hi. revert ovs Hw Hlen IH Hsz Hd. induction Hl as [|f fs Hf Hl IHl]; intros ovs Hw Hlen IH Hsz Hd; inversion Hw as [|ov ? ovs' ? A1 A2]; subst; [constructor|].
    inversion IH as [|? ? B1 B2]; subst. cbn [map] in Hd. inversion Hd as [|? ? D1 D2]; subst. cbn [slots_atlas map2 sumN] in Hsz. fold (slots_atlas ovs' fs) in Hsz.
    constructor; [|apply IHl; auto; lia]. split; [exact Hf|]. destruct ov as [v|]; [|exact A1].
    cbn [erase_field f_type] in A1. cbn [optP] in B1. cbn [size_term] in Hsz. repeat split; auto. lia. }
  assert (Forall2 (term_ok ns s depth) fs (slots_atlas ovs fs)) as Ht.
  { apply (Forall2_map2 (field_ok ns s depth)); [|exact Hok]. intros ov f [K1 K2]. split; [exact K1|]. destruct ov as [v|]; [|exact K2].
    destruct K2 as (_ & K2 & _ & K3). split; [now apply calc_awt|]. pose proof (wt_custom_depth v (snd f) K2). lia. }
  pose proof (in_fields _ _ _ _ _ _ _ Hi) as Hnf. inversion Hnf as [|? ? Hns Hnf']; subst.
  unfold call_own. cbn [embed type_of direction]. change (meth_str MAtlas) with (txt "atlas"). rewrite (in_atlas _ _ _ _ _ _ _ Hi). cbn [fst snd].
  unfold struct_atlas. rewrite run_self. rewrite eb_eq.
  set (flds := map2 _ ovs fs). set (tid := (mods u ns, type_name u name SOut)).
  assert (run_list (ex depth ns (type_name u name SOut)) (match map fst fs with [] => [] | _ => map (struct_atlas_let u (length ns)) (map fst fs) ++ [SBlank] end)
            [(txt "self", RvStruct tid flds)] st =
          OVal (match fs with [] => [] | _ => map (fun _ => tt) fs ++ [tt] end) (rev (locals (slots_atlas ovs fs) fs) ++ [(txt "self", RvStruct tid flds)]) st) as E1.
  { destruct fs as [|f fs]; [inversion Hw; reflexivity|]. cbn [map]. rewrite <- !map_cons, run_list_app.
    rewrite (lets_sim ns s depth _ tid flds ovs (f :: fs)); [| exact Hok | |apply lookup_here].
    - cbn [obind]. evs. reflexivity.
    - unfold self_slot, flds. apply (slots_lookup (fun ov f => slot (always_present DOut (sf_rule (fst f))) (match ov with Some v => Some (embed u DOut v (snd f)) | None => None end))); auto. }
  unfold tid in *. cbn [direction] in *. rewrite E1. cbn [obind]. rewrite ev_struct, run_cons. cbn [snd fst].
  pose proof (locals_lookup (slots_atlas ovs fs) fs [(txt "self", RvStruct (mods u ns, type_name u name SOut) flds)] (in_locals _ _ _ _ _ _ _ Hi) (slots_length _ _ Hlen)) as Hlk.
  rewrite (esum_sim ns s depth _ fs (slots_atlas ovs fs)); auto. cbn [obind].
  rewrite (fields_sim ns depth _ fs (slots_atlas ovs fs)); auto.
Qed.

(** Cases of a choice. *)
Definition case_env (f : sfield * nty) (p : rv) (fb : option rv) : env :=
  match fb with Some v' => [(txt "fallback", v')] | None => [] end ++ (if is_unit_sty (sf_type (fst f)) then [] else [(txt "payload", p)]).
Definition case_value (here : list str) (type : str) (f : sfield * nty) (p : rv) (fb : option rv) : rv :=
  RvEnum (here, type) (variant_name u (fst f))
    ((if is_unit_sty (sf_type (fst f)) then [] else [p]) ++ match fb with Some v' => [v'] | None => [] end).
Lemma case_match here name by_ref f p fb : (match fb with Some _ => true | None => false end) = has_fallback_out (fst f) ->
  match_pat here (case_out u name by_ref (fst f)) (case_value here (type_name u name SOut) f p fb) = Some (case_env f p fb).
Proof.
  intros H. unfold case_out, case_value, case_args, case_env. cbn [match_pat match_con]. rewrite strs_eqb_refl, !str_eqb_refl. cbn [andb].
  destruct (is_unit_sty (sf_type (fst f))), fb, (has_fallback_out (fst f)); try discriminate; reflexivity.
Qed.
Lemma case_other here name by_ref f g type p fb : variant_name u g <> variant_name u (fst f) ->
  match_pat here (case_out u name by_ref g) (case_value here type f p fb) = None.
Proof.
  intros H. unfold case_out, case_value. cbn [match_pat match_con]. rewrite (str_eqb_neq (variant_name u (fst f))) by congruence.
  now rewrite Bool.andb_false_r.
Qed.
Lemma fallback_present (f : sfield * nty) fb t : match fb with
    | Some v' => has_fallback DOut (sf_rule (fst f)) = true /\ wt DOut v' t
    | None => has_fallback DOut (sf_rule (fst f)) = false
    end -> (match fb with Some _ => true | None => false end) = has_fallback_out (fst f).
Proof. unfold has_fallback_out. destruct (sf_rule (fst f)), fb; cbn [has_fallback]; intros H; try reflexivity; try discriminate; destruct H; discriminate. Qed.

Lemma choice_atlas_call ns s name fs i p fb depth st : atlas_stmt p ->
  optP (fun v' => wt DOut v' (TChoice (map erase_field fs)) ->
    atlas_lookup (calc_atlas true v' (TChoice (map erase_field fs))) < two64 -> (vdepth v' <= depth)%nat ->
    call_own prog (run depth) MAtlas (embed u DOut v' (NDecl ns s SkChoice name fs)) [] st =
      FVal (embed_atlas u (calc_atlas true v' (TChoice (map erase_field fs))) (NDecl ns s SkChoice name fs)) st) fb ->
  installed u prog ns s SkChoice name (map fst fs) -> allP (fun f => linked u prog ns s (sf_type (fst f)) (snd f)) fs ->
  wt DOut (VChoice i p fb) (TChoice (map erase_field fs)) ->
  atlas_lookup (calc_atlas true (VChoice i p fb) (TChoice (map erase_field fs))) < two64 ->
  (vdepth (VChoice i p fb) <= S depth)%nat ->
  call_own prog (run (S depth)) MAtlas (embed u DOut (VChoice i p fb) (NDecl ns s SkChoice name fs)) [] st =
    FVal (embed_atlas u (calc_atlas true (VChoice i p fb) (TChoice (map erase_field fs))) (NDecl ns s SkChoice name fs)) st.
Proof.
  intros IHp IHfb Hi Hl Hw Hsz Hd. cbn [wt calc_atlas vdepth] in *. rewrite find_erased in *.
  cbn [embed]. destruct (named_field i fs) as [f|] eqn:Ef; [|contradiction]. destruct Hw as [Hw Hf]. cbn [erase_field f_rule f_type f_index] in *.
  destruct (named_in _ _ _ Ef) as [Hin Hidx]. apply allP_Forall in Hl. rewrite Forall_forall in Hl. specialize (Hl f Hin).
  pose proof (fallback_present f fb _ Hf) as Hfp.
  set (efb := match fb with Some v' => Some (embed u DOut v' (NDecl ns s SkChoice name fs)) | None => None end).
  assert (RvEnum (mods u ns, type_name u name (direction DOut)) (variant_name u (fst f))
    ((if is_unit_sty (sf_type (fst f)) then [] else [embed u DOut p (snd f)]) ++ match fb with Some v' => [embed u DOut v' (NDecl ns s SkChoice name fs)] | None => [] end) =
    case_value (mods u ns) (type_name u name SOut) f (embed u DOut p (snd f)) efb) as Ev.
  { unfold case_value, efb. destruct fb; reflexivity. }
  rewrite Ev.
  assert ((match efb with Some _ => true | None => false end) = has_fallback_out (fst f)) as Hfp' by (rewrite <- Hfp; unfold efb; destruct fb; reflexivity).
  unfold call_own. unfold case_value at 1. cbn [type_of]. change (meth_str MAtlas) with (txt "atlas"). rewrite (in_atlas _ _ _ _ _ _ _ Hi). cbn [fst snd].
  unfold choice_atlas. rewrite run_self. unfold vr at 1. evs. set (v := case_value _ _ _ _ _).
  rewrite <- (app_nil_r (map _ (map fst fs))). unfold choice_atlas_arm. cbv zeta.
  match goal with |- context [map (fun f0 => Arm (case_out u name true f0) (@?B f0)) (map fst fs) ++ []] =>
    rewrite (select_arm w rounds lim wraps prog (run depth) (mods u ns) (type_name u name SOut) (variant_name u)
       (case_out u name true) B v [(txt "self", v)] st (map fst fs) [] (fst f) (case_env f (embed u DOut p (snd f)) efb)) end.
  2: exact (in_variants _ _ _ _ _ _ _ Hi).
  2: now apply in_map.
  2: intros y _ Hne; now apply case_other.
  2: now apply case_match.
  cbv beta. rewrite ev_block, eb_eq.
  set (E0 := case_env _ _ _ ++ _).
  set (pa := calc_atlas true p (erase (snd f))) in *.
  set (hs := field_header_size (sf_index (fst f)) (atlas_lookup pa) (integer_encoded (erase (snd f)))) in *.
  assert (hs + atlas_lookup pa < two64) as Hb1.
  { destruct (sf_rule (fst f)), fb; cbn [atlas_lookup] in Hsz; cbn [has_fallback] in Hf; try discriminate; try (destruct Hf; discriminate); lia. }
  assert (run_list (ex depth ns (type_name u name SOut)) (if is_unit_sty (sf_type (fst f)) then [lets "payload" (ERef false EUnit)] else []) E0 st =
    OVal (if is_unit_sty (sf_type (fst f)) then [tt] else []) ((if is_unit_sty (sf_type (fst f)) then [(txt "payload", embed u DOut p (snd f))] else []) ++ E0) st) as E1.
  { destruct (is_unit_sty (sf_type (fst f))) eqn:Hun; [|reflexivity]. unfold lets. evs. cbn [app].
    assert (embed u DOut p (snd f) = RvUnit) as ->; [|reflexivity].
    rewrite (linked_unit _ _ _ _ _ _ Hl) in Hun. destruct (erase (snd f)); try discriminate. destruct p; try contradiction. reflexivity. }
  rewrite run_list_app, E1. cbn [obind]. set (E2 := _ ++ E0).
  assert (lookup (txt "payload") E2 = Some (embed u DOut p (snd f))) as L1.
  { unfold E2, E0, case_env. destruct (is_unit_sty (sf_type (fst f))); [apply lookup_here|]. destruct efb; cbn [app]; lk. }
  rewrite run_list_app. unfold lets, inline_block, vr. evs.
  rewrite (IHp (snd f) ns s); auto; [|fold pa; lia|lia]. fold pa. cbn [obind]. evs.
  rewrite (lookup_sim ns s _ (snd f) pa); auto.
  2: now apply calc_awt.
  2: pose proof (wt_custom_depth p (snd f) Hw); lia.
  cbn [obind scoped]. drop. cbn [obind]. evs.
  unfold has_fallback_out in *. destruct (sf_rule (fst f)) eqn:Er, fb as [v'|]; unfold efb in *; cbn [app has_fallback optP] in *; try discriminate; try (destruct Hf; discriminate).
  - destruct Hf as [_ Hf]. cbn [atlas_lookup] in Hsz. evs.
    assert (lookup (txt "fallback") E2 = Some (embed u DOut v' (NDecl ns s SkChoice name fs))) as L2.
    { unfold E2, E0, case_env, efb. destruct (is_unit_sty (sf_type (fst f))); cbn [app]; lk. }
    evs. rewrite IHfb by (try exact Hf; lia). cbn [of_fres obind]. evs. rewrite (header_size_sim ns s depth _ f (atlas_lookup pa)); auto; try lk.
    cbn [obind]. evs. cbn [bin_value]. fold hs. rewrite arith_ok by exact Hb1. cbn [obind]. evs.
    destruct depth as [|depth]; [destruct v'; cbn [wt vdepth] in *; try contradiction; lia|].
    rewrite (size_call ns s SkChoice name fs); [|exact Hi|exact (calc_awt v' true _ Hf)]. cbn [of_fres obind bin_value]. rewrite arith_ok by exact Hsz. cbn [obind]. evs.
    cbn [call_std of_fres obind]. evs. cbn [scoped fn_result]. cbn [embed_atlas]. rewrite Ef. reflexivity.
  - destruct Hf as [_ Hf]. cbn [atlas_lookup] in Hsz. evs.
    assert (lookup (txt "fallback") E2 = Some (embed u DOut v' (NDecl ns s SkChoice name fs))) as L2.
    { unfold E2, E0, case_env, efb. destruct (is_unit_sty (sf_type (fst f))); cbn [app]; lk. }
    evs. rewrite IHfb by (try exact Hf; lia). cbn [of_fres obind]. evs. rewrite (header_size_sim ns s depth _ f (atlas_lookup pa)); auto; try lk.
    cbn [obind]. evs. cbn [bin_value]. fold hs. rewrite arith_ok by exact Hb1. cbn [obind]. evs.
    destruct depth as [|depth]; [destruct v'; cbn [wt vdepth] in *; try contradiction; lia|].
    rewrite (size_call ns s SkChoice name fs); [|exact Hi|exact (calc_awt v' true _ Hf)]. cbn [of_fres obind bin_value]. rewrite arith_ok by exact Hsz. cbn [obind]. evs.
    cbn [call_std of_fres obind]. evs. cbn [scoped fn_result]. cbn [embed_atlas]. rewrite Ef. reflexivity.
  - evs. rewrite (header_size_sim ns s depth _ f (atlas_lookup pa)); auto; try lk. cbn [obind]. evs. cbn [bin_value]. fold hs. rewrite arith_ok by exact Hb1. cbn [obind]. evs.
    cbn [scoped fn_result embed_atlas]. rewrite Ef. reflexivity.
Qed.

Definition atlas_call (v : val) : Prop := forall ns s k name fs depth st,
  installed u prog ns s k name (map fst fs) -> allP (fun f => linked u prog ns s (sf_type (fst f)) (snd f)) fs ->
  wt DOut v (erase (NDecl ns s k name fs)) -> atlas_lookup (calc_atlas true v (erase (NDecl ns s k name fs))) < two64 ->
  (vdepth v <= depth)%nat ->
  call_own prog (run depth) MAtlas (embed u DOut v (NDecl ns s k name fs)) [] st =
    FVal (embed_atlas u (calc_atlas true v (erase (NDecl ns s k name fs))) (NDecl ns s k name fs)) st.
Lemma calc_custom v k fs f : calc_atlas f v (decl_type k fs) = calc_atlas true v (decl_type k fs).
Proof. destruct k, v; reflexivity. Qed.
Lemma custom_sim v : atlas_call v -> forall ns2 s2 k name fs ns i n is_field depth E st self,
  installed u prog ns2 s2 k name (map fst fs) -> allP (fun f => linked u prog ns2 s2 (sf_type (fst f)) (snd f)) fs ->
  wt DOut v (erase (NDecl ns2 s2 k name fs)) -> atlas_lookup (calc_atlas is_field v (erase (NDecl ns2 s2 k name fs))) < two64 ->
  (vdepth v <= depth)%nat -> lookup (txt "payload") E = Some (embed u DOut v (NDecl ns2 s2 k name fs)) ->
  ev depth ns self (gen_atlas_calc (length ns) (SyCustom i n) is_field) E st =
    OVal (embed_atlas u (calc_atlas is_field v (erase (NDecl ns2 s2 k name fs))) (NDecl ns2 s2 k name fs)) E st.
Proof.
  intros Hc ns2 s2 k name fs ns i n is_field depth E st self Hi Hl Hw Hsz Hd HE. cbn [gen_atlas_calc]. unfold vr. evs.
  cbn [erase] in *. rewrite calc_custom in *. specialize (Hc ns2 s2 k name fs depth st). cbn [erase] in Hc. rewrite Hc; auto.
Qed.
Lemma atlas_custom v : atlas_call v -> forall nt ns s t is_field depth E st self,
  (exists ns2 s2 k name fs, nt = NDecl ns2 s2 k name fs) ->
  linked u prog ns s t nt -> wt DOut v (erase nt) -> atlas_lookup (calc_atlas is_field v (erase nt)) < two64 ->
  (vdepth v <= depth)%nat -> lookup (txt "payload") E = Some (embed u DOut v nt) ->
  ev depth ns self (gen_atlas_calc (length ns) t is_field) E st =
    OVal (embed_atlas u (calc_atlas is_field v (erase nt)) nt) E st.
Proof.
  intros Hc nt ns s t is_field depth E st self (ns2 & s2 & k & name & fs & ->) Hl Hw Hsz Hd HE.
  destruct Hl as ((i & n & -> & _) & Hi & Hl). now apply custom_sim.
Qed.

Theorem atlas_sim v : atlas_stmt v /\ atlas_call v.
Proof.
  induction v as [|b|n|z|b|bs|text|n|vs IH|ovs IH|i p fb IHp IHfb] using val_ind'.
  9: split; [|intros ns s k name fs depth st _ _ Hw; cbn [erase] in Hw; destruct k; cbn [decl_type wt] in Hw; contradiction].
  1-8: split; [|intros ns s k name fs depth st _ _ Hw; cbn [erase] in Hw; destruct k; cbn [decl_type wt] in Hw; contradiction].
  1-9: intros nt ns s t is_field depth E st self Hl Hw Hsz Hd HE; destruct nt as [| | | | | | |e|? ? k]; cbn [erase] in *; try (destruct k); cbn [wt decl_type] in Hw; try contradiction.
  - cbn [linked] in Hl. subst t. cbn [gen_atlas_calc]. unfold usize_lit. evs. reflexivity.
  - cbn [linked] in Hl. subst t. cbn [gen_atlas_calc calc_atlas embed_atlas]. unfold usize_lit, u64_lit, vr. destruct is_field.
    + cbn [embed] in HE. evs. cbn [call_method of_fres obind]. evs. cbn [bin_value obind]. destruct (b =? 0); evs; cbn [scoped]; now drop.
    + evs. reflexivity.
  - cbn [linked] in Hl. subst t. cbn [gen_atlas_calc calc_atlas embed_atlas]. now apply atlas_u64_sim.
  - cbn [linked] in Hl. subst t. cbn [gen_atlas_calc calc_atlas embed_atlas embed] in *. unfold inline_block, lets, vr. rewrite <- (mods_length u ns). evs.
    cbn [call_top of_fres obind]. evs. rewrite mods_length. rewrite (atlas_u64_sim ns self depth _ st is_field (zigzag_encode z)); [|lk|now apply zigzag_encode_lt].
    cbn [scoped]. now drop.
  - cbn [linked] in Hl. subst t. cbn [gen_atlas_calc calc_atlas embed_atlas embed] in *. unfold usize_lit, vr. destruct is_field; evs; cbn [call_std of_fres]; reflexivity.
  - cbn [linked] in Hl. subst t. cbn [gen_atlas_calc calc_atlas embed_atlas embed] in *. unfold vr. evs. reflexivity.
  - cbn [linked] in Hl. subst t. cbn [gen_atlas_calc calc_atlas embed_atlas embed] in *. unfold vr. evs. reflexivity.
  - destruct e; cbn [erase] in *; try contradiction; try (destruct k; contradiction). destruct Hl as (t' & -> & Hl). cbn [linked] in Hl. subst t'.
    cbn [gen_atlas_calc calc_atlas embed_atlas embed] in *. unfold inline_block, lets, vr, as_u64. evs. cbn [call_method of_fres obind]. evs.
    rewrite (atlas_u64_sim ns self depth _ st is_field n); [|lk|exact Hw]. cbn [scoped]. now drop.
  - destruct Hl as (t' & -> & Hl). destruct Hw as [Hu Hw]. apply allP_Forall in Hw.
    assert (Forall atlas_stmt vs) as IH' by (eapply Forall_impl; [|exact IH]; intros a Ha; apply Ha).
    destruct (sized_element (erase e)) eqn:Hs.
    + now apply (atlas_array_sized vs IH' e ns s).
    + destruct (integer_encoded (erase e)) eqn:Hin; [now apply (atlas_array_small vs IH' e ns s)|].
      destruct e; try discriminate; try (destruct k; discriminate). cbn [linked] in Hl. subst t'.
      cbn [gen_atlas_calc calc_atlas embed_atlas embed erase atlas_lookup] in *. unfold vr, usize_lit. evs. cbn [call_method of_fres obind]. evs. cbn [bin_value].
      unfold lenN in *. rewrite map_length. now rewrite arith_ok.
  - assert (atlas_call (VStruct ovs)) as Hc.
    { intros ns s k name fs depth st Hi Hl Hw Hsz Hd. cbn [erase] in *. destruct k; cbn [decl_type] in *; [|contradiction].
      destruct depth as [|depth]; [cbn [vdepth] in Hd; lia|]. apply struct_atlas_call; auto.
      eapply Forall_impl; [|exact IH]. intros [v|] Hv; cbn [optP] in *; [apply Hv|exact I]. }
    split; [|exact Hc]. intros nt ns s t is_field depth E st self Hl Hw Hsz Hd HE. apply (atlas_custom _ Hc nt ns s); auto.
    destruct nt; cbn [erase wt] in Hw; try contradiction. eauto 6.
  - assert (atlas_call (VChoice i p fb)) as Hc.
    { intros ns s k name fs depth st Hi Hl Hw Hsz Hd. cbn [erase] in *. destruct k; cbn [decl_type] in *; [contradiction|].
      destruct depth as [|depth]; [cbn [vdepth] in Hd; lia|]. apply choice_atlas_call; auto; [apply IHp|].
      destruct fb as [v'|]; cbn [optP] in *; [|exact I]. intros Hw' Hsz' Hd'. destruct IHfb as [_ IHfb].
      exact (IHfb ns s SkChoice name fs depth st Hi Hl Hw' Hsz' Hd'). }
    split; [|exact Hc]. intros nt ns s t is_field depth E st self Hl Hw Hsz Hd HE. apply (atlas_custom _ Hc nt ns s); auto.
    destruct nt; cbn [erase wt] in Hw; try contradiction. eauto 6.
Qed.
End Atlas.
