(** The generated [atlas] functions compute the atlases of the model. *)
From Verif Require Import TypesFacts IdentFacts BaseFacts TsPrimFacts RustAtlasFacts.
From Verif Require Export TsLoops.

Lemma zigzag_pos z : (0 <= ts_zigzag_encode z)%Z.
Proof. unfold ts_zigzag_encode. cbv zeta. rewrite Z.shiftl_mul_pow2 by lia. destruct (Z.ltb_spec z 0); lia. Qed.
Lemma ts_arr_sized f vs e : sized_element e = true -> ts_atlas f (VArr vs) (TArray e) =
  JArr (fold_left (fun x a => x + (ts_varint_size (jlookup a) + jlookup a)) (map (fun v => ts_atlas false v e) vs) 0) (map (fun v => ts_atlas false v e) vs).
Proof. destruct e; try discriminate; reflexivity. Qed.
Lemma ts_arr_small f vs e : integer_encoded e = true -> ts_atlas f (VArr vs) (TArray e) =
  JSize (fold_left (fun x v => x + jlookup (ts_atlas false v e)) vs 0).
Proof. destruct e; try discriminate; reflexivity. Qed.
Lemma tgen_atlas_sized u ns s t f : sized_sty t = true -> tgen_atlas u ns s (SyArray t) f =
  [JBlock
     [jlet "size" (num 0); jlet "elements" (XArr false []); jconst "oldPayload" (jx "payload");
      over_old_payload
        (jdecl "payloadAtlas" :: tgen_atlas u ns s t false ++
         [JExpr (XMethod false (jx "elements") MtPush [jx "payloadAtlas"]);
          jconst "payloadSize" (tgen_lookup t);
          jadd "size" (jplus (jcall "varintSizeFromValue" [XCall false (CGlobal GBigInt) [jx "payloadSize"]]) (jx "payloadSize"))]);
      set_atlas (XObj false [(txt "$size", Some (jx "size")); (txt "$elements", Some (jx "elements"))])]].
Proof. destruct t; try discriminate; reflexivity. Qed.
Lemma tgen_atlas_small u ns s t f : integer_encoded_sty t = true -> tgen_atlas u ns s (SyArray t) f =
  [JBlock
     [jlet "arraySize" (num 0); jconst "oldPayload" (jx "payload");
      over_old_payload (jlet "payloadAtlas" (num 0) :: tgen_atlas u ns s t false ++ [jadd "arraySize" (jx "payloadAtlas")]);
      set_atlas (jx "arraySize")]].
Proof. destruct t; try discriminate; reflexivity. Qed.

Lemma all2P_F2 {A B} (P : A -> B -> Prop) l : forall l', all2P P l l' <-> Forall2 P l l'.
Proof.
  induction l as [|a l IH]; intros [|b l']; cbn [all2P]; (split; intros H; [|inversion H; subst]); try contradiction; try constructor; try tauto.
  - apply IH. tauto.
  - now apply IH.
Qed.
Lemma Forall2_nth {A B} (P : A -> B -> Prop) l l' k b : Forall2 P l l' -> nth_error l' k = Some b -> exists a, nth_error l k = Some a /\ P a b.
Proof. intros H. revert k. induction H as [|x y l l' Hxy _ IH]; intros [|k] E; try discriminate; [injection E as <-; exists x; auto|now apply IH]. Qed.
Lemma Forall2_imp {A B} (P Q : A -> B -> Prop) l l' : (forall a b, P a b -> Q a b) -> Forall2 P l l' -> Forall2 Q l l'.
Proof. intros H. induction 1; constructor; auto. Qed.
Lemma Forall2_len {A B} (P : A -> B -> Prop) l l' : Forall2 P l l' -> length l = length l'.
Proof. induction 1; cbn [length]; congruence. Qed.
Lemma firstn_snoc {A} (l : list A) k x : nth_error l k = Some x -> firstn (S k) l = firstn k l ++ [x].
Proof.
  revert k. induction l as [|y l IH]; intros [|k] H; try discriminate; [now injection H as ->|]. rewrite firstn_cons, IH by exact H. reflexivity.
Qed.
Lemma sum_app a b : sumN (a ++ b) = sumN a + sumN b.
Proof. induction a as [|x a IH]; cbn [app sumN]; [lia|]. rewrite IH. lia. Qed.

Lemma max_each {A} (g : A -> nat) l n : (fold_right Nat.max O (map g l) <= n)%nat -> Forall (fun x => (g x <= n)%nat) l.
Proof. intros H. apply max_bound in H. now rewrite Forall_map in H. Qed.
Lemma max_each_lt {A} (g : A -> nat) l n : (fold_right Nat.max O (map g l) < n)%nat -> Forall (fun x => (g x < n)%nat) l.
Proof. intros H. destruct n; [lia|]. apply Forall_impl with (P := fun x => (g x <= n)%nat); [intros; lia|]. apply max_each. lia. Qed.

Section Atlas.
Context (rounds : nat) (find : scope -> jcallee -> option (scope * jfn)) (reach : scope -> str -> bool) (u : unicode).
Context (Hg0 : good_scope find reach []).
Notation run := (run_jfn rounds find reach).
Notation ev d here := (jeval find reach (run d) here).
Notation ex d here := (jexec rounds find reach (run d) here).
Notation rs d here := (run_stmts (jexec rounds find reach (run d) here)).
Notation tlinked := (tlinked u find reach).
Ltac jfn_call := erewrite callee_fn; [|jlocal|jprelude].

(** ** Looking up sizes *)
Lemma lookup_sim ns s here here' d f t nt v h lo m E : tlinked here ns s t nt -> wt DOut v (erase nt) -> js_atlas u h lo (ts_atlas f v (erase nt)) nt m ->
  var (txt "payloadAtlas") E = Some m ->
  ev d here' (tgen_lookup t) E h = ExVal (JvNum (jlookup (ts_atlas f v (erase nt)))) h.
Proof.
  intros Hk Hw Ha HE. destruct nt as [| | | | | | |e|ns2 s2 k name fs].
  1-7: cbn [TsValue.tlinked] in Hk; subst t; destruct v; cbn [wt erase] in Hw; try contradiction; cbn [ts_atlas erase js_atlas jlookup] in *;
    unfold tgen_lookup; tsu.
  7: { destruct Ha as (r & -> & _ & Hr). js. reflexivity. }
  1-6: subst m; js; reflexivity.
  - destruct Hk as (t' & -> & Hk). apply tlinked_sized in Hk. cbn [erase] in *. destruct (sized_element (erase e)) eqn:Es.
    + unfold tgen_lookup. rewrite Hk. tsu. destruct v; cbn [wt] in Hw; try contradiction; [destruct (erase e); try contradiction; discriminate|].
      rewrite ts_arr_sized in * by exact Es. cbn [js_atlas] in Ha. destruct Ha as (r & ms & -> & _). js. reflexivity.
    + unfold tgen_lookup. rewrite Hk. tsu. js.
      assert (exists n, ts_atlas f v (TArray (erase e)) = JSize n) as (n & En).
      { destruct v; cbn [wt] in Hw; try contradiction; [destruct (erase e); try contradiction; cbn [ts_atlas]; eauto|].
        destruct Hw as [Hu _]. destruct (erase e); try discriminate; cbn [ts_atlas]; eauto. }
      rewrite En in *. cbn [js_atlas] in Ha. subst m. reflexivity.
  - destruct Hk as ((i & n & x & p & -> & _) & _). unfold tgen_lookup. tsu. destruct k; cbn [erase decl_type] in *.
    + destruct v; cbn [wt] in Hw; try contradiction. cbn [ts_atlas js_atlas jlookup] in *. destruct Ha as (ps & -> & _). js. reflexivity.
    + destruct v as [| | | | | | | | | |j q fb]; cbn [wt] in Hw; try contradiction. cbn [ts_atlas] in *. destruct (find_field j _) as [g|] eqn:Ef; [|contradiction].
      change (fun f => mkF (sf_index (fst f)) (sf_rule (fst f)) (erase (snd f))) with erase_field in *. rewrite find_erased in Ef. destruct (named_field j fs) as [g'|] eqn:En; [|discriminate].
      destruct Hw as [_ Hw]. destruct (f_rule g), fb as [v'|]; cbn [has_fallback] in Hw; try discriminate; try (destruct Hw; discriminate);
        cbn [js_atlas jlookup] in *; rewrite En in Ha; destruct Ha as (mp & mf & -> & _); js; reflexivity.
Qed.

Lemma atlas_u64_sim here d f n E h x : good_scope find reach here -> clear E -> var (txt "payload") E = Some (JvBig (Z.of_N n)) ->
  lookup (txt "payloadAtlas") E = Some (SVar x) ->
  rs (S d) here (tgen_atlas_u64 f) E h = SoNext (update (txt "payloadAtlas") (SVar (JvNum (ts_atlas_u64 f n))) E) h.
Proof.
  intros Hg Hc Hp Ha. unfold tgen_atlas_u64, set_atlas, ts_atlas_u64. cbv zeta. tsu. destruct f.
  - jnum. rewrite zn_eqb. destruct (n =? 0); [jblock; js; reflexivity|]. jnum.
    destruct (n <? 567382630219904); [|jnum; jblock; js; reflexivity]. jblock. js. jfn_call. rewrite call_varint_size by exact Hg0. jop. reflexivity.
  - js. jfn_call. rewrite call_varint_size by exact Hg0. jop. reflexivity.
Qed.

(** ** Arrays *)
Definition atlas_stmt (v : val) : Prop := forall here ns s t nt f d E h m x, good_scope find reach here -> tlinked here ns s t nt ->
  wt DOut v (erase nt) -> js_value u DOut h 1 v nt m -> (0 < length h)%nat -> clear E -> var (txt "payload") E = Some m ->
  lookup (txt "payloadAtlas") E = Some (SVar x) -> var (txt "textEncoder") E = Some JvEncoder -> (vdepth v + 2 <= d)%nat -> (vwidth v < rounds)%nat ->
  exists a h', rs d here (tgen_atlas u ns s t f) E h = SoNext (update (txt "payloadAtlas") (SVar a) E) h' /\ grows h h' /\
    js_atlas u h' (length h) (ts_atlas f v (erase nt)) nt a.

Lemma atlas_array_sized vs : Forall atlas_stmt vs -> forall here ns s t e f d E h m x, good_scope find reach here -> tlinked here ns s t e ->
  sized_element (erase e) = true -> Forall (fun v => wt DOut v (erase e)) vs -> js_value u DOut h 1 (VArr vs) (NArray e) m -> (0 < length h)%nat -> clear E -> var (txt "payload") E = Some m ->
  lookup (txt "payloadAtlas") E = Some (SVar x) -> var (txt "textEncoder") E = Some JvEncoder -> (vdepth (VArr vs) + 2 <= d)%nat -> (vwidth (VArr vs) < rounds)%nat ->
  exists a h', rs d here (tgen_atlas u ns s (SyArray t) f) E h = SoNext (update (txt "payloadAtlas") (SVar a) E) h' /\ grows h h' /\
    js_atlas u h' (length h) (ts_atlas f (VArr vs) (TArray (erase e))) (NArray e) a.
Proof.
  intros IH here ns s t e f d E h0 m x Hg Hk Hs Hw Hm Hh Hc Hp Ha Ht Hd Hr. pose proof (tlinked_sized _ _ _ _ _ _ _ _ Hk) as Hs'. rewrite Hs in Hs'.
  rewrite (tgen_atlas_sized _ _ _ _ _ Hs'), ts_arr_sized by exact Hs. cbn [js_value] in Hm. destruct Hm as (ra & ms & -> & Hra & Hms & Hvs). rewrite all2P_F2 in Hvs.
  cbn [vwidth vdepth] in *. assert (length vs = length ms) as Hlen by now apply Forall2_len in Hvs.
  assert (Forall (fun v => (vdepth v + 2 <= d)%nat) vs) as Hds. { eapply Forall_impl; [|apply (max_each vdepth vs (d - 2)); lia]. cbn beta. intros. lia. }
  assert (Forall (fun v => (vwidth v < rounds)%nat) vs) as Hws by (apply max_each_lt; lia).
  set (g := fun a => ts_varint_size (jlookup a) + jlookup a). set (r := length h0).
  pose (inv := fun (k : nat) (E' : jenv) (h : heap) => exists l,
    E' = [(txt "size", SVar (JvNum (sumN (map (fun v => g (ts_atlas false v (erase e))) (firstn k vs))))); (txt "elements", SVar (JvArr r)); (txt "oldPayload", SConst (JvArr ra))] ++ E /\
    grows h0 h /\ nth_error h r = Some (CellArr l) /\ Forall2 (fun v m => js_atlas u h (S r) (ts_atlas false v (erase e)) e m) (firstn k vs) l).
  tsu. unfold set_atlas. tsu. rewrite run_stmts_cons, jx_block. jblock_as [(txt "size", SDead false); (txt "elements", SDead false); (txt "oldPayload", SDead true)]. js.
  destruct (over_loop rounds find reach (run d) here inv
     (JLet false (txt "payloadAtlas") None None :: tgen_atlas u ns s t false ++
         [JExpr (XMethod false (XVar (txt "elements")) MtPush [XVar (txt "payloadAtlas")]); JLet true (txt "payloadSize") None (Some (tgen_lookup t));
          JOpAssign (txt "size") BAdd (XBin None BAdd (XCall false (CFn (txt "varintSizeFromValue")) [XCall false (CGlobal GBigInt) [XVar (txt "payloadSize")]]) (XVar (txt "payloadSize")))])
     [(txt "payloadAtlas", SDead false); (txt "payloadSize", SDead true)] ra ms) with
     (E := [(txt "size", SVar (JvNum 0)); (txt "elements", SVar (JvArr r)); (txt "oldPayload", SConst (JvArr ra))] ++ E) (h := alloc (CellArr []) h0) as (E1 & h1 & R & l & -> & H1 & H2 & H3).
  - lia.
  - rewrite frame_cons, frame_app, frame_atlas. reflexivity.
  - reflexivity.
  - intros k E' h (l & -> & H1 & H2 & H3). split; [reflexivity|]. eapply grows_cell; [exact H1|lia|exact Hms].
  - intros k E' h m Em (l & -> & H1 & H2 & H3). destruct (Forall2_nth _ _ _ _ _ Hvs Em) as (v & Ev & Hv). pose proof (nth_error_In _ _ Ev) as Hin.
    rewrite Forall_forall in IH, Hw, Hds, Hws. cbn [app]. js. rewrite run_stmts_app.
    edestruct (IH v Hin here ns s t e false d) with (E := (txt "payload", SConst m) :: (txt "payloadAtlas", SVar JvUndef) :: (txt "payloadSize", SDead true) ::
       (txt "i", SVar (JvNum (N.of_nat k))) :: (txt "size", SVar (JvNum (sumN (map (fun v => g (ts_atlas false v (erase e))) (firstn k vs))))) :: (txt "elements", SVar (JvArr r)) :: (txt "oldPayload", SConst (JvArr ra)) :: E) (h := h)
       as (a & h' & R & G & A); [exact Hg|exact Hk|now apply Hw| |destruct H1; lia|jclear|jvar|jlk|jvar|now apply Hds|now apply Hws|].
    { eapply js_value_grows; [exact H1|lia|exact Hv]. }
    rewrite R. js. cbn [call_jmethod]. assert (nth_error h' r = Some (CellArr l)) as H2' by (eapply grows_cell; [exact G|lia|exact H2]).
    replace (array r h') with (Some l) by (symmetry; now apply array_cell). jred. js.
    assert (js_atlas u (put r (CellArr (l ++ [a])) h') (S r) (ts_atlas false v (erase e)) e a) as A'.
    { eapply js_atlas_mono; [| |exact A]; [apply nth_lt in H2; lia|]. intros q c Hq Hc'. rewrite nth_put_other; [exact Hc'|apply nth_lt in H2; lia]. }
    erewrite (lookup_sim ns s here here d false t e v _ _ a); [|exact Hk|now apply Hw|exact A'|jvar]. jop. rewrite callee_global; [|jlocal|jreach]. cbn [call_global]. jop.
    destruct d as [|d]; [specialize (Hds v Hin); lia|]. jfn_call. rewrite call_varint_size by exact Hg0. jop.
    eexists [_; _], _, _. split; [reflexivity|]. split; [reflexivity|]. exists (l ++ [a]). split; [|split; [|split]].
    + rewrite (firstn_snoc _ _ _ Ev), map_app, sum_app. cbn [map sumN app]. unfold g. rewrite N.add_0_r. reflexivity.
    + apply grows_put; [eapply grows_trans; eassumption|lia].
    + apply nth_put. now apply nth_lt in H2'.
    + rewrite (firstn_snoc _ _ _ Ev). apply Forall2_app; [|constructor; [exact A'|constructor]]. eapply Forall2_imp; [|exact H3].
      cbn beta. intros v0 m0 H0. eapply js_atlas_mono; [apply Nat.le_refl| |exact H0]. intros q c Hq Hc'.
      rewrite nth_put_other by lia. eapply grows_cell; [exact G|lia|exact Hc'].
  - exists []. cbn [firstn map sumN app]. repeat split; try apply grows_alloc; [apply nth_alloc|constructor].
  - cbn [app] in R. fold r. rewrite R. jop. rewrite jev_obj by reflexivity. unfold eval_property. cbn [fst snd]. jop. eexists _, h1. split; [reflexivity|]. split; [exact H1|].
    rewrite <- Hlen, firstn_all in *.
    cbn [js_atlas]. eexists r, l. split; [|split; [lia|split; [exact H2|]]].
    + rewrite fold_sum, map_map. reflexivity.
    + apply all2P_F2. clear - H3. subst r. induction H3 as [|v m vs l H _ IHl]; cbn [map]; constructor; [|exact IHl].
      eapply js_atlas_mono; [| |exact H]; [lia|auto].
Qed.
Lemma atlas_array_small vs : Forall atlas_stmt vs -> forall here ns s t e f d E h m x, good_scope find reach here -> tlinked here ns s t e ->
  integer_encoded (erase e) = true -> is_unit (erase e) = false -> Forall (fun v => wt DOut v (erase e)) vs -> js_value u DOut h 1 (VArr vs) (NArray e) m -> (0 < length h)%nat -> clear E -> var (txt "payload") E = Some m ->
  lookup (txt "payloadAtlas") E = Some (SVar x) -> var (txt "textEncoder") E = Some JvEncoder -> (vdepth (VArr vs) + 2 <= d)%nat -> (vwidth (VArr vs) < rounds)%nat ->
  exists h', rs d here (tgen_atlas u ns s (SyArray t) f) E h = SoNext (update (txt "payloadAtlas") (SVar (JvNum (jlookup (ts_atlas f (VArr vs) (TArray (erase e)))))) E) h' /\ grows h h'.
Proof.
  intros IH here ns s t e f d E h0 m x Hg Hk Hs Hnu Hw Hm Hh Hc Hp Ha Ht Hd Hr. pose proof (tlinked_integer _ _ _ _ _ _ _ _ Hk) as Hs'. rewrite Hs in Hs'.
  rewrite (tgen_atlas_small _ _ _ _ _ Hs'), ts_arr_small by exact Hs. cbn [js_value] in Hm. destruct Hm as (ra & ms & -> & Hra & Hms & Hvs). rewrite all2P_F2 in Hvs.
  cbn [vwidth vdepth] in *. assert (length vs = length ms) as Hlen by now apply Forall2_len in Hvs.
  assert (Forall (fun v => (vdepth v + 2 <= d)%nat) vs) as Hds. { eapply Forall_impl; [|apply (max_each vdepth vs (d - 2)); lia]. cbn beta. intros. lia. }
  assert (Forall (fun v => (vwidth v < rounds)%nat) vs) as Hws by (apply max_each_lt; lia).
  pose (inv := fun (k : nat) (E' : jenv) (h : heap) =>
    E' = [(txt "arraySize", SVar (JvNum (sumN (map (fun v => jlookup (ts_atlas false v (erase e))) (firstn k vs))))); (txt "oldPayload", SConst (JvArr ra))] ++ E /\
    grows h0 h).
  tsu. unfold set_atlas. tsu. rewrite run_stmts_cons, jx_block. jblock_as [(txt "arraySize", SDead false); (txt "oldPayload", SDead true)]. js.
  destruct (over_loop rounds find reach (run d) here inv
     (JLet false (txt "payloadAtlas") None (Some (XNum Plain 0)) :: tgen_atlas u ns s t false ++ [JOpAssign (txt "arraySize") BAdd (XVar (txt "payloadAtlas"))])
     [(txt "payloadAtlas", SDead false)] ra ms) with
     (E := [(txt "arraySize", SVar (JvNum 0)); (txt "oldPayload", SConst (JvArr ra))] ++ E) (h := h0) as (E1 & h1 & R & -> & H1).
  - lia.
  - rewrite frame_cons, frame_app, frame_atlas. reflexivity.
  - reflexivity.
  - intros k E' h (-> & H1). split; [reflexivity|]. eapply grows_cell; [exact H1|lia|exact Hms].
  - intros k E' h m Em (-> & H1). destruct (Forall2_nth _ _ _ _ _ Hvs Em) as (v & Ev & Hv). pose proof (nth_error_In _ _ Ev) as Hin.
    rewrite Forall_forall in IH, Hw, Hds, Hws. cbn [app]. js. rewrite run_stmts_app.
    edestruct (IH v Hin here ns s t e false d) with (E := (txt "payload", SConst m) :: (txt "payloadAtlas", SVar (JvNum 0)) ::
       (txt "i", SVar (JvNum (N.of_nat k))) :: (txt "arraySize", SVar (JvNum (sumN (map (fun v => jlookup (ts_atlas false v (erase e))) (firstn k vs))))) :: (txt "oldPayload", SConst (JvArr ra)) :: E) (h := h)
       as (a & h' & R & G & A); [exact Hg|exact Hk|now apply Hw| |destruct H1; lia|jclear|jvar|jlk|jvar|now apply Hds|now apply Hws|].
    { eapply js_value_grows; [exact H1|lia|exact Hv]. }
    rewrite R. assert (a = JvNum (jlookup (ts_atlas false v (erase e)))) as ->.
    { clear - A Hs Hw Hin. specialize (Hw v Hin). destruct (erase e); try discriminate; destruct v; cbn [wt] in Hw; try contradiction; cbn [ts_atlas js_atlas jlookup] in *; exact A. }
    jop. eexists [_], _, _. split; [reflexivity|]. split; [reflexivity|]. split; [|eapply grows_trans; eassumption].
    rewrite (firstn_snoc _ _ _ Ev), map_app, sum_app. cbn [map sumN app]. rewrite N.add_0_r. reflexivity.
  - split; [reflexivity|apply grows_refl].
  - cbn [app] in R. rewrite R. jop. eexists h1. split; [|exact H1]. rewrite <- Hlen, firstn_all. cbn [jlookup]. rewrite fold_sum. reflexivity.
Qed.
End Atlas.
