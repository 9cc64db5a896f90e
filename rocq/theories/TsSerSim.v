(** The generated serialization code writes what the model writes: parts. *)
From Verif Require Import TypesFacts IdentFacts BaseFacts TsPrimFacts RustAtlasFacts.
From Verif Require Export TsAtlasFacts3.

(** ** Writers keep the size of the buffer *)
Definition keeps (w : jwriter) : Prop := forall buf off buf' off', w buf off = JOk (buf', off') -> lenN buf' = lenN buf.
Lemma keeps_skip : keeps jskip. Proof. intros ? ? ? ? [= -> ->]. reflexivity. Qed.
Lemma keeps_throw : keeps jthrow. Proof. intros ? ? ? ? [=]. Qed.
Lemma keeps_put bs : keeps (jput bs).
Proof. intros ? ? ? ? H. unfold jput in H. apply jbind_ok in H as (b & H1 & [= <- _]). now apply vset_length in H1. Qed.
Lemma keeps_varint n : keeps (jvarint n). Proof. intros ? ? ? ? H. now apply serialize_varint_length in H. Qed.
Lemma keeps_then a b : keeps a -> keeps b -> keeps (jthen a b).
Proof. intros Ha Hb ? ? ? ? H. unfold jthen in H. apply jbind_ok in H as ([b1 o1] & H1 & H2). apply Ha in H1. apply Hb in H2. cbn [fst] in H2. congruence. Qed.
Lemma keeps_seq l : Forall keeps l -> keeps (jseq l).
Proof. induction 1; [apply keeps_skip|]. now apply keeps_then. Qed.
Lemma keeps_header i n ie : keeps (jheader i n ie).
Proof.
  intros buf off buf' off' H. unfold jheader, ts_serialize_header in H. cbv zeta in H.
  repeat match type of H with (if ?c then _ else _) = _ => destruct c end; try (now apply serialize_varint_length in H);
  apply jbind_ok in H as ([b1 o1] & H1 & H2); apply serialize_varint_length in H1, H2; cbn [fst] in *; congruence.
Qed.
Lemma keeps_u64 f n : keeps (ts_ser_u64 f n).
Proof. unfold ts_ser_u64. destruct f; [destruct (_ <? _); [|destruct (negb _)]|]; auto using keeps_skip, keeps_put, keeps_varint. Qed.
Lemma keeps_map {A} (g : A -> jwriter) l : Forall (fun a => keeps (g a)) l -> Forall keeps (map g l).
Proof. intros H. now rewrite Forall_map. Qed.
Lemma keeps_map2 {A B} (g : A -> B -> jwriter) l : Forall (fun a => forall b, keeps (g a b)) l -> forall l', Forall keeps (map2 g l l').
Proof. induction 1 as [|a l Ha _ IH]; intros [|b l']; cbn [map2]; constructor; auto. Qed.
Lemma keeps_ser v : forall f t a, keeps (ts_ser f v t a).
Proof.
  induction v as [|x|n|z|x|bs|st|n|vs IH|ovs IH|i p fb IHp IHfb] using val_ind'; intros f t a; cbn [ts_ser]; destruct t; auto using keeps_throw, keeps_skip, keeps_put, keeps_u64.
  - destruct f; [destruct (negb _)|]; auto using keeps_skip, keeps_put.
  - destruct a; auto using keeps_throw, keeps_put.
  - destruct t; auto using keeps_throw, keeps_u64.
  - destruct t; try (apply keeps_seq, keeps_map; eapply Forall_impl; [|exact IH]; auto);
      (destruct a; [apply keeps_throw|apply keeps_throw| |apply keeps_throw|apply keeps_throw]; apply keeps_seq, keeps_map2; eapply Forall_impl; [|exact IH];
       cbn beta; intros v Hv pa; apply keeps_then; [apply keeps_varint|apply Hv]).
  - destruct a; try apply keeps_throw. apply keeps_seq, keeps_map2. eapply Forall_impl; [|exact IH]. intros [v|] Hv [g [pa|]]; cbn [fst snd]; try apply keeps_skip.
    apply keeps_then; [apply keeps_header|apply Hv].
  - destruct (find_field i fs) as [g|]; [|apply keeps_throw]. destruct a; try apply keeps_throw. destruct (i =? _); [|apply keeps_throw].
    apply keeps_then; [apply keeps_then; [apply keeps_header|apply IHp]|]. destruct (f_rule g); try apply keeps_skip; (destruct fb as [v'|]; [|apply keeps_throw]; destruct fallback; [apply IHfb|apply keeps_throw]).
Qed.

(** ** The buffer that is written is the newest cell *)
Definition target (buf : bytes) (F : heap) : heap := alloc (CellBuf buf) F.
Lemma target_cell buf F : nth_error (target buf F) (length F) = Some (CellBuf buf). Proof. apply nth_alloc. Qed.
Lemma target_put buf buf' F : put (length F) (CellBuf buf') (target buf F) = target buf' F. Proof. apply put_last. Qed.
Lemma target_old buf F r c : nth_error F r = Some c -> nth_error (target buf F) r = Some c.
Proof. intros H. unfold target. rewrite nth_alloc_old; [exact H|]. now apply nth_lt in H. Qed.
Lemma target_value u d buf F lo v t m : js_value u d F lo v t m -> js_value u d (target buf F) lo v t m.
Proof. apply js_value_mono; [lia|]. intros r c _. apply target_old. Qed.
Lemma target_atlas u buf F lo a t m : js_atlas u F lo a t m -> js_atlas u (target buf F) lo a t m.
Proof. apply js_atlas_mono; [lia|]. intros r c _. apply target_old. Qed.
Lemma target_set F buf off data buf' : vset buf off data = JOk buf' ->
  view_set (length F) 0 (lenN buf) (JvNum off) data (target buf F) = ExVal JvUndef (target buf' F).
Proof.
  intros H. rewrite <- (target_put buf buf F) at 1. rewrite (view_set_ok _ _ _ _ _ _ _ H eq_refl); [|unfold target; rewrite alloc_length; lia].
  now rewrite target_put.
Qed.
Lemma set64_target F buf off n buf' : vset buf off (le_bytes 8 n) = JOk buf' ->
  call_jmethod MtSetBigUint64 (JvView (length F) 0 (lenN buf)) [JvNum off; JvBig (Z.of_N n); JvBool true] (target buf F) = ExVal JvUndef (target buf' F).
Proof.
  intros H. assert (length F < length (target buf F))%nat as Hl by (unfold target; rewrite alloc_length; lia).
  rewrite <- (target_put buf buf F) at 1. rewrite (set64_ok _ _ Hl _ _ _ _ eq_refl _ H). now rewrite target_put.
Qed.

Section Ser.
Context (rounds : nat) (find : scope -> jcallee -> option (scope * jfn)) (reach : scope -> str -> bool) (u : unicode).
Context (Hg0 : good_scope find reach []).
Notation run := (run_jfn rounds find reach).
Notation ev d here := (jeval find reach (run d) here).
Notation ex d here := (jexec rounds find reach (run d) here).
Notation rs d here := (run_stmts (jexec rounds find reach (run d) here)).
Notation tlinked := (tlinked u find reach).
Notation tinstalled := (tinstalled u find reach).
Ltac jfn_call := erewrite callee_fn; [|jlocal|jprelude].

(** The statements [ss] do with the variables [E] what [w] does. *)
Definition writes d here (ss : list jstmt) (E : jenv) (F : heap) (w : jwriter) : Prop := forall buf off buf' off',
  w buf off = JOk (buf', off') -> lookup (txt "offset") E = Some (SVar (JvNum off)) -> var (txt "dataView") E = Some (JvView (length F) 0 (lenN buf)) ->
  rs d here ss E (target buf F) = SoNext (update (txt "offset") (SVar (JvNum off')) E) (target buf' F).

Lemma put_target d F buf off n buf' off' : ts_serialize_varint buf off n = JOk (buf', off') ->
  run (S d) [] fn_serialize_varint [JvView (length F) 0 (lenN buf); JvNum off; JvBig (Z.of_N n)] (target buf F) = ExVal (JvNum off') (target buf' F).
Proof. intros H. erewrite put_varint; [|exact Hg0|apply target_cell|exact H]. now rewrite target_put. Qed.

Lemma ser_u64_sim here d f n E F : good_scope find reach here -> clear E -> var (txt "varint") E = Some (JvBig (Z.of_N n)) ->
  writes (S d) here (tgen_ser_u64 f) E F (ts_ser_u64 f n).
Proof.
  intros Hg Hc Hn buf off buf' off' H Ho Hd. unfold tgen_ser_u64, ts_ser_u64, serialize_varint_stmt in *. tsu.
  assert (var (txt "offset") E = Some (JvNum off)) as Ho' by (unfold var; now rewrite Ho).
  destruct f.
  - jnum. destruct (567382630219903 <? n).
    + unfold jput in H. apply jbind_ok in H as (b & H1 & [= <- <-]). jblock. js. rewrite (set64_target _ _ _ _ _ H1). jop. reflexivity.
    + jnum. rewrite zn_eqb. destruct (n =? 0); cbn [negb] in *; jop.
      * injection H as <- <-. now rewrite update_same.
      * jblock. js. jfn_call. rewrite (put_target _ _ _ _ _ _ _ H). jop. reflexivity.
  - js. jfn_call. rewrite (put_target _ _ _ _ _ _ _ H). jop. reflexivity.
Qed.

(** Whether the code for a value uses its atlas. *)
Definition needs_atlas (f : bool) (t : ty) : bool := f || sized_element t.
Definition ser_stmt (v : val) : Prop := forall here ns s t nt f d E F m ma a, good_scope find reach here -> tlinked here ns s t nt ->
  wt DOut v (erase nt) -> js_value u DOut F 1 v nt m -> clear E -> var (txt "payload") E = Some m ->
  (needs_atlas f (erase nt) = true -> a = ts_atlas f v (erase nt) /\ js_atlas u F 1 a nt ma /\ var (txt "payloadAtlas") E = Some ma) ->
  (vdepth v + 2 <= d)%nat -> (vwidth v < rounds)%nat -> writes d here (tgen_ser u ns s t f) E F (ts_ser f v (erase nt) a).

Lemma ser_block_sim here d f n E F e : good_scope find reach here -> clear E ->
  (forall buf, ev (S d) here e ((txt "varint", SDead true) :: E) (target buf F) = ExVal (JvBig (Z.of_N n)) (target buf F)) ->
  writes (S d) here (ser_varint_block f e) E F (ts_ser_u64 f n).
Proof.
  intros Hg Hc He buf off buf' off' H Ho Hd. unfold ser_varint_block. tsu. js.
  rewrite (run_block_eq _ _ _ _ _ [(txt "varint", SDead true)]); [|rewrite frame_cons; unfold tgen_ser_u64; now destruct f|reflexivity]. cbn [app length].
  rewrite run_stmts_cons, jx_let, He. jop. rewrite (ser_u64_sim here d f n _ F Hg) with (off := off) (buf' := buf') (off' := off'); [|jclear|jvar|exact H|jlk|jvar]. jop. reflexivity.
Qed.

Lemma jseq_cons w l : jseq (w :: l) = jthen w (jseq l). Proof. reflexivity. Qed.
Lemma skipn_nth {A} (l : list A) k x : nth_error l k = Some x -> skipn k l = x :: skipn (S k) l.
Proof. revert k. induction l as [|y l IH]; intros [|k] H; try discriminate; [now injection H as ->|]. cbn [nth_error] in H. now rewrite skipn_cons, (IH _ H). Qed.
Lemma nth_map2 {A B C} (g : A -> B -> C) l : forall l' k a b, nth_error l k = Some a -> nth_error l' k = Some b -> nth_error (map2 g l l') k = Some (g a b).
Proof. induction l as [|x l IH]; intros [|y l'] [|k] a b Ha Hb; cbn [nth_error map2] in *; try discriminate; [congruence|eauto]. Qed.
Lemma Forall2_nth_l {A B} (P : A -> B -> Prop) l l' k a : Forall2 P l l' -> nth_error l k = Some a -> exists b, nth_error l' k = Some b /\ P a b.
Proof. intros H. revert k. induction H as [|x y l l' Hxy _ IH]; intros [|k] E; try discriminate; [injection E as <-; exists y; auto|now apply IH]. Qed.
Lemma map2_length {A B C} (g : A -> B -> C) l : forall l', length l = length l' -> length (map2 g l l') = length l.
Proof. induction l as [|x l IH]; intros [|y l']; cbn [length map2]; try discriminate; auto. Qed.

Lemma tgen_ser_sized ns s t f : sized_sty t = true -> tgen_ser u ns s (SyArray t) f =
  [JBlock
     [jconst "oldPayload" (jx "payload"); jconst "oldPayloadAtlas" (jx "payloadAtlas");
      over_old_payload
        (jconst "payloadAtlas" (XIndex (prop_of (jx "oldPayloadAtlas") "$elements") (jx "i")) ::
         serialize_varint_stmt (XCall false (CGlobal GBigInt) [tgen_lookup t]) :: tgen_ser u ns s t false)]].
Proof. destruct t; try discriminate; reflexivity. Qed.
Lemma tgen_ser_small ns s t f : sized_sty t = false -> is_unit_sty t = false -> tgen_ser u ns s (SyArray t) f =
  [JBlock [jconst "oldPayload" (jx "payload"); over_old_payload (tgen_ser u ns s t false)]].
Proof. destruct t; try discriminate; reflexivity. Qed.
Lemma ts_ser_sized f vs e n l : sized_element e = true -> ts_ser f (VArr vs) (TArray e) (JArr n l) =
  jseq (map2 (fun v pa => jthen (jvarint (jlookup pa)) (ts_ser false v e pa)) vs l).
Proof. destruct e; try discriminate; reflexivity. Qed.
Lemma ts_ser_small f vs e a : sized_element e = false -> is_unit e = false -> ts_ser f (VArr vs) (TArray e) a = jseq (map (fun v => ts_ser false v e a) vs).
Proof. destruct e; try discriminate; reflexivity. Qed.

Lemma ser_array_sized vs : Forall ser_stmt vs -> forall here ns s t e f d E F m ma, good_scope find reach here -> tlinked here ns s t e ->
  sized_element (erase e) = true -> Forall (fun v => wt DOut v (erase e)) vs -> js_value u DOut F 1 (VArr vs) (NArray e) m -> clear E -> var (txt "payload") E = Some m ->
  js_atlas u F 1 (ts_atlas f (VArr vs) (TArray (erase e))) (NArray e) ma -> var (txt "payloadAtlas") E = Some ma ->
  (vdepth (VArr vs) + 2 <= d)%nat -> (vwidth (VArr vs) < rounds)%nat ->
  writes d here (tgen_ser u ns s (SyArray t) f) E F (ts_ser f (VArr vs) (TArray (erase e)) (ts_atlas f (VArr vs) (TArray (erase e)))).
Proof.
  intros IH here ns s t e f d E F m ma Hg Hk Hs Hw Hm Hc Hp Hma Hpa Hd Hr buf off buf' off' H Ho Hdv. pose proof (tlinked_sized _ _ _ _ _ _ _ _ Hk) as Hs'. rewrite Hs in Hs'.
  rewrite (tgen_ser_sized _ _ _ _ Hs'). rewrite ts_arr_sized in H, Hma by exact Hs. rewrite ts_ser_sized in H by exact Hs.
  cbn [js_value] in Hm. destruct Hm as (ra & ms & -> & Hra & Hms & Hvs). apply all2P_F2 in Hvs. cbn [js_atlas] in Hma. destruct Hma as (rb & mas & -> & Hrb & Hmas & Has). apply all2P_F2 in Has.
  cbn [vwidth vdepth] in *. assert (length vs = length ms) as Hlen by now apply Forall2_len in Hvs.
  assert (Forall (fun v => (vdepth v + 2 <= d)%nat) vs) as Hds. { eapply Forall_impl; [|apply (max_each vdepth vs (d - 2)); lia]. cbn beta. intros. lia. }
  assert (Forall (fun v => (vwidth v < rounds)%nat) vs) as Hws by (apply max_each_lt; lia).
  set (l := map2 (fun v pa => jthen (jvarint (jlookup pa)) (ts_ser false v (erase e) pa)) vs (map (fun v => ts_atlas false v (erase e)) vs)) in H.
  assert (length l = length ms) as Hll. { unfold l. rewrite map2_length; [exact Hlen|now rewrite map_length]. }
  match type of Hpa with _ = Some ?o => set (atl := o) in * end.
  pose (inv := fun (k : nat) (E' : jenv) (h : heap) => exists bk ok, h = target bk F /\ lenN bk = lenN buf /\ jseq (skipn k l) bk ok = JOk (buf', off') /\
    E' = [(txt "oldPayload", SConst (JvArr ra)); (txt "oldPayloadAtlas", SConst atl)] ++ update (txt "offset") (SVar (JvNum ok)) E).
  tsu. rewrite run_stmts_cons, jx_block. jblock_as [(txt "oldPayload", SDead true); (txt "oldPayloadAtlas", SDead true)]. js.
  destruct (over_loop rounds find reach (run d) here inv
     (JLet true (txt "payloadAtlas") None (Some (XIndex (XProp (XVar (txt "oldPayloadAtlas")) (txt "$elements")) (XVar (txt "i")))) ::
         serialize_varint_stmt (XCall false (CGlobal GBigInt) [tgen_lookup t]) :: tgen_ser u ns s t false)
     [(txt "payloadAtlas", SDead true)] ra ms) with
     (E := [(txt "oldPayload", SConst (JvArr ra)); (txt "oldPayloadAtlas", SConst atl)] ++ E) (h := target buf F) as (E1 & h1 & R & b1 & o1 & -> & L1 & J1 & ->).
  - lia.
  - rewrite !frame_cons, frame_ser. reflexivity.
  - reflexivity.
  - intros k E' h (bk & ok & -> & H1 & H2 & ->). split; [reflexivity|]. now apply target_old.
  - intros k E' h mk Em (bk & ok & -> & H1 & H2 & ->). destruct (Forall2_nth _ _ _ _ _ Hvs Em) as (v & Ev & Hv). pose proof (nth_error_In _ _ Ev) as Hin.
    rewrite Forall_forall in IH, Hw, Hds, Hws.
    assert (nth_error (map (fun v => ts_atlas false v (erase e)) vs) k = Some (ts_atlas false v (erase e))) as Ea by exact (map_nth_error (fun v => ts_atlas false v (erase e)) k vs Ev).
    destruct (Forall2_nth_l _ _ _ _ _ Has Ea) as (mak & Emak & Hmak).
    rewrite (skipn_nth l k (jthen (jvarint (jlookup (ts_atlas false v (erase e)))) (ts_ser false v (erase e) (ts_atlas false v (erase e))))) in H2.
    2:{ unfold l. now apply nth_map2 with (g := fun v pa => jthen (jvarint (jlookup pa)) (ts_ser false v (erase e) pa)). }
    rewrite jseq_cons in H2. unfold jthen at 1 in H2. apply jbind_ok in H2 as ([b2 o2] & H2 & H3). unfold jthen in H2. apply jbind_ok in H2 as ([b3 o3] & H2 & H4). cbn [fst snd] in *.
    unfold serialize_varint_stmt. cbn [app]. tsu. js. unfold atl at 1. cbn [get_prop]. unfold obj_get. rewrite lookup_skip, lookup_here by reflexivity. jop. cbn [index_value].
    replace (array rb (target bk F)) with (Some mas) by (symmetry; apply array_cell; now apply target_old). rewrite Nat2N.id, Emak. jop.
    erewrite (lookup_sim rounds find reach u ns s here here d false t e v); [|exact Hk|now apply Hw|apply target_atlas; exact Hmak|jvar]. jop. rewrite callee_global; [|jlocal|jreach]. cbn [call_global]. jop.
    destruct d as [|d]; [specialize (Hds v Hin); lia|]. jfn_call. rewrite <- H1 in *. rewrite (put_target _ _ _ _ _ _ _ H2). jop. rewrite update_twice.
    pose proof (keeps_varint _ _ _ _ _ H2) as K1. pose proof (keeps_ser _ _ _ _ _ _ _ _ H4) as K2.
    erewrite (IH v Hin here ns s t e false (S d) _ F mk mak); [|exact Hg|exact Hk|now apply Hw|exact Hv|jclear|jvar| |now apply Hds|now apply Hws|exact H4|jlk|].
    2:{ intros _. split; [reflexivity|]. split; [exact Hmak|jvar]. }
    2:{ rewrite K1. jvar. }
    jop. rewrite update_twice. eexists [_], _, _. split; [reflexivity|]. split; [reflexivity|]. exists b2, o2. split; [reflexivity|]. split; [congruence|]. split; [exact H3|reflexivity].
  - exists buf, off. split; [reflexivity|]. split; [reflexivity|]. split; [exact H|]. now rewrite (update_same _ _ _ Ho).
  - cbn [app] in R. rewrite R. jop. rewrite <- Hll, skipn_all in J1. cbn in J1. injection J1 as -> ->. reflexivity.
Qed.
Lemma ser_array_small vs : Forall ser_stmt vs -> forall here ns s t e f d E F m a, good_scope find reach here -> tlinked here ns s t e ->
  sized_element (erase e) = false -> is_unit (erase e) = false -> Forall (fun v => wt DOut v (erase e)) vs -> js_value u DOut F 1 (VArr vs) (NArray e) m -> clear E -> var (txt "payload") E = Some m ->
  (vdepth (VArr vs) + 2 <= d)%nat -> (vwidth (VArr vs) < rounds)%nat ->
  writes d here (tgen_ser u ns s (SyArray t) f) E F (ts_ser f (VArr vs) (TArray (erase e)) a).
Proof.
  intros IH here ns s t e f d E F m a Hg Hk Hs Hnu Hw Hm Hc Hp Hd Hr buf off buf' off' H Ho Hdv.
  pose proof (tlinked_sized _ _ _ _ _ _ _ _ Hk) as Hs'. rewrite Hs in Hs'. pose proof (tlinked_unit _ _ _ _ _ _ _ _ Hk) as Hu'. rewrite Hnu in Hu'.
  rewrite (tgen_ser_small _ _ _ _ Hs' Hu'). rewrite ts_ser_small in H by assumption.
  cbn [js_value] in Hm. destruct Hm as (ra & ms & -> & Hra & Hms & Hvs). apply all2P_F2 in Hvs.
  cbn [vwidth vdepth] in *. assert (length vs = length ms) as Hlen by now apply Forall2_len in Hvs.
  assert (Forall (fun v => (vdepth v + 2 <= d)%nat) vs) as Hds. { eapply Forall_impl; [|apply (max_each vdepth vs (d - 2)); lia]. cbn beta. intros. lia. }
  assert (Forall (fun v => (vwidth v < rounds)%nat) vs) as Hws by (apply max_each_lt; lia).
  set (l := map (fun v => ts_ser false v (erase e) a) vs) in H.
  assert (length l = length ms) as Hll. { unfold l. now rewrite map_length. }
  pose (inv := fun (k : nat) (E' : jenv) (h : heap) => exists bk ok, h = target bk F /\ lenN bk = lenN buf /\ jseq (skipn k l) bk ok = JOk (buf', off') /\
    E' = [(txt "oldPayload", SConst (JvArr ra))] ++ update (txt "offset") (SVar (JvNum ok)) E).
  tsu. rewrite run_stmts_cons, jx_block. jblock_as [(txt "oldPayload", SDead true)]. js.
  destruct (over_loop rounds find reach (run d) here inv (tgen_ser u ns s t false) [] ra ms) with
     (E := [(txt "oldPayload", SConst (JvArr ra))] ++ E) (h := target buf F) as (E1 & h1 & R & b1 & o1 & -> & L1 & J1 & ->).
  - lia.
  - apply frame_ser.
  - reflexivity.
  - intros k E' h (bk & ok & -> & H1 & H2 & ->). split; [reflexivity|]. now apply target_old.
  - intros k E' h mk Em (bk & ok & -> & H1 & H2 & ->). destruct (Forall2_nth _ _ _ _ _ Hvs Em) as (v & Ev & Hv). pose proof (nth_error_In _ _ Ev) as Hin.
    rewrite Forall_forall in IH, Hw, Hds, Hws.
    rewrite (skipn_nth l k (ts_ser false v (erase e) a)) in H2.
    2:{ exact (map_nth_error (fun v => ts_ser false v (erase e) a) k vs Ev). }
    rewrite jseq_cons in H2. unfold jthen in H2. apply jbind_ok in H2 as ([b2 o2] & H2 & H3). cbn [fst snd] in *.
    pose proof (keeps_ser _ _ _ _ _ _ _ _ H2) as K2. cbn [app].
    erewrite (IH v Hin here ns s t e false d _ F mk JvUndef); [|exact Hg|exact Hk|now apply Hw|exact Hv|jclear|jvar| |now apply Hds|now apply Hws|exact H2|jlk|].
    2:{ unfold needs_atlas. cbn [orb]. rewrite Hs. discriminate. }
    2:{ rewrite H1. jvar. }
    jop. rewrite update_twice. eexists [], _, _. split; [reflexivity|]. split; [reflexivity|]. exists b2, o2. split; [reflexivity|]. split; [congruence|]. split; [exact H3|reflexivity].
  - exists buf, off. split; [reflexivity|]. split; [reflexivity|]. split; [exact H|]. now rewrite (update_same _ _ _ Ho).
  - cbn [app] in R. rewrite R. jop. rewrite <- Hll, skipn_all in J1. cbn in J1. injection J1 as -> ->. reflexivity.
Qed.
End Ser.
