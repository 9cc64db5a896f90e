(** The same for the functions that read, and for those for headers. *)
From Verif Require Import TypesFacts IdentFacts BaseFacts TsPrimFacts.
From Verif Require Export TsPreludeFacts.

Lemma view_get_eq r off len o n h bs k : nth_error h r = Some (CellBuf bs) ->
  view_get r off len (JvNum o) n h k = match vget (mkView bs off len) o n with JOk b => k b | _ => range_error h end.
Proof. intros H. unfold view_get, vget. apply buffer_cell in H. rewrite H. cbn [vlen voff vbuf]. now destruct (_ <=? _). Qed.
Lemma get8_eq r off len o h bs : nth_error h r = Some (CellBuf bs) ->
  call_jmethod MtGetUint8 (JvView r off len) [JvNum o] h = match get_u8 (mkView bs off len) o with JOk b => ExVal (JvNum b) h | _ => range_error h end.
Proof. intros H. cbn [call_jmethod]. rewrite (view_get_eq _ _ _ _ _ _ bs) by exact H. unfold get_u8, jmap. now destruct (vget _ _ _). Qed.
Lemma get64_eq r off len o h bs : nth_error h r = Some (CellBuf bs) ->
  call_jmethod MtGetBigUint64 (JvView r off len) [JvNum o; JvBool true] h =
  match get_u64 (mkView bs off len) o with JOk n => ExVal (JvBig (Z.of_N n)) h | _ => range_error h end.
Proof. intros H. cbn [call_jmethod in_order]. rewrite (view_get_eq _ _ _ _ _ _ bs) by exact H. unfold get_u64, jmap. now destruct (vget _ _ _). Qed.
Lemma getf64_eq r off len o h bs : nth_error h r = Some (CellBuf bs) ->
  call_jmethod MtGetFloat64 (JvView r off len) [JvNum o; JvBool true] h =
  match get_u64 (mkView bs off len) o with JOk n => ExVal (JvFlt (js_bits n)) h | _ => range_error h end.
Proof. intros H. cbn [call_jmethod in_order]. rewrite (view_get_eq _ _ _ _ _ _ bs) by exact H. unfold get_u64, jmap. now destruct (vget _ _ _). Qed.
Lemma get_u8_byte v o b : bytes_ok (vbuf v) -> get_u8 v o = JOk b -> b < 256.
Proof.
  intros H. unfold get_u8, jmap, vget. destruct (_ <=? _) eqn:E; [|discriminate]. cbn [jbind]. intros [= <-].
  rewrite takeN_firstn, dropN_skipn. change (N.to_nat 1) with 1%nat. destruct (skipn _ (vbuf v)) as [|c l] eqn:Es; [reflexivity|].
  cbn [firstn le_val]. assert (c < 256); [|lia]. unfold bytes_ok in H. rewrite Forall_forall in H. apply H.
  rewrite <- (firstn_skipn (N.to_nat (voff v + o)) (vbuf v)), Es. apply in_or_app. right. now left.
Qed.
Lemma get_u8_cases v o : match get_u8 v o with JOk _ | JRange => True | _ => False end.
Proof. unfold get_u8, jmap, vget. now destruct (_ <=? _). Qed.
Lemma get_u64_cases v o : match get_u64 v o with JOk _ | JRange => True | _ => False end.
Proof. unfold get_u64, jmap, vget. now destruct (_ <=? _). Qed.
Lemma get_bytes_length v k : forall o l, get_bytes v o k = JOk l -> length l = k.
Proof.
  induction k as [|k IH]; intros o l; cbn [get_bytes]; [now intros [= <-]|]. destruct (get_u8 v o); cbn [jbind]; try discriminate.
  unfold jmap. destruct (get_bytes v (o + 1) k) eqn:E; cbn [jbind]; try discriminate. intros [= <-]. cbn [length]. now rewrite (IH _ _ E).
Qed.
Lemma get_bytes_cases v k : forall o, match get_bytes v o k with JOk _ | JRange => True | _ => False end.
Proof.
  induction k as [|k IH]; intros o; cbn [get_bytes]; [exact I|]. pose proof (get_u8_cases v o). destruct (get_u8 v o); cbn [jbind]; try exact I; try contradiction.
  unfold jmap. specialize (IH (o + 1)). now destruct (get_bytes v (o + 1) k).
Qed.
Lemma le_val_zeros l k : le_val (l ++ repeat 0 k) = le_val l.
Proof.
  induction l as [|b l IH]; cbn [app le_val]; [|now rewrite IH]. induction k as [|k IH]; [reflexivity|]. cbn [repeat le_val]. lia.
Qed.
Lemma trailing_le k : forall b, ts_trailing_zeros k b <= N.of_nat k.
Proof. induction k as [|k IH]; intros b; cbn [ts_trailing_zeros]; [lia|]. destruct (_ =? _); [lia|]. specialize (IH (N.shiftr b 1)). lia. Qed.
(** The scratch buffer after [i] bytes. *)
Lemma scratch_set (got : bytes) b k : put_bytes (got ++ repeat 0 (S k)) (lenN got) [b] = (got ++ [b]) ++ repeat 0 k.
Proof.
  unfold put_bytes. rewrite takeN_firstn, dropN_skipn. unfold lenN. rewrite Nat2N.id, firstn_app, firstn_all, Nat.sub_diag. cbn [firstn length repeat].
  rewrite app_nil_r, <- app_assoc. f_equal. cbn [app]. f_equal. replace (N.to_nat _) with (length got + 1)%nat by lia.
  rewrite skipn_app, skipn_all2 by lia. replace (_ + 1 - _)%nat with 1%nat by lia. reflexivity.
Qed.

Lemma increment_num x n E h : lookup x E = Some (SVar (JvNum n)) -> increment x E h = SoNext (update x (SVar (JvNum (n + 1))) E) h.
Proof. intros H. unfold increment. rewrite (var_lookup _ _ _ H). cbn [slot_value apply_op]. rewrite (assign_let _ _ _ _ H). reflexivity. Qed.
Lemma option_length s8 : length s8 = 8%nat -> takeN 0 s8 ++ le_bytes 8 0 ++ dropN (0 + lenN (le_bytes 8 0)) s8 = repeat 0 8.
Proof. intros H. rewrite dropN_skipn, takeN_firstn. change (N.to_nat (0 + lenN (le_bytes 8 0))) with 8%nat. rewrite skipn_all2 by lia. reflexivity. Qed.

Section Prelude.
Context (rounds : nat) (find : scope -> jcallee -> option (scope * jfn)) (reach : scope -> str -> bool) (Hg : good_scope find reach []).
Context (Hr : (9 <= rounds)%nat).
Notation run := (run_jfn rounds find reach).

(** *** Reading *)
Definition scratch (h : heap) : Prop := exists s8, nth_error h 0 = Some (CellBuf s8) /\ length s8 = 8%nat.
(** The heap, but for the scratch buffer. *)
Definition scratched (h h' : heap) : Prop := exists s8, length s8 = 8%nat /\ h' = put 0 (CellBuf s8) h.
Definition read_result {A} (f : A -> jv) (h : heap) (x : jres A) (out : jout jv) : Prop :=
  match x with
  | JOk a => exists h', scratched h h' /\ out = ExVal (f a) h'
  | JRange => exists h', scratched h h' /\ out = ExThrow (JvError KRange) h'
  | _ => False
  end.
Definition pair_value (on : N * N) : jv := JvTuple [JvNum (fst on); JvBig (Z.of_N (snd on))].
Lemma put0_other r s h bs : r <> O -> nth_error h r = Some (CellBuf bs) -> nth_error (put 0 (CellBuf s) h) r = Some (CellBuf bs).
Proof. intros H1 H2. rewrite nth_put_other; auto. Qed.
Lemma copy_loop d r off len bs h o E : r <> O -> nth_error h r = Some (CellBuf bs) -> bytes_ok bs -> (0 < length h)%nat ->
  var (txt "dataView") E = Some (JvView r off len) -> var (txt "dataView64") E = Some (JvView 0 0 8) -> var (txt "offsetPlusOne") E = Some (JvNum o) ->
  forall j k, var (txt "sizeMinusOne") E = Some (JvNum k) -> forall n got, (length got + j = N.to_nat k)%nat -> k <= 8 -> (j < n)%nat ->
  let out := run_while (condition find reach (run (S d)) [] (XBin None BLt (XVar (txt "i")) (XVar (txt "sizeMinusOne"))))
    (fun E h => snext (run_block (jexec rounds find reach (run (S d)) []) []
       [JExpr (XMethod false (XVar (txt "dataView64")) MtSetUint8
          [XVar (txt "i"); XMethod false (XVar (txt "dataView")) MtGetUint8 [XBin None BAdd (XVar (txt "offsetPlusOne")) (XVar (txt "i"))]])] E h) (increment (txt "i")))
    n ((txt "i", SVar (JvNum (lenN got))) :: E) (put 0 (CellBuf (got ++ repeat 0 (8 - length got))) h) in
  match get_bytes (mkView bs off len) (o + lenN got) j with
  | JOk rest => out = SoNext ((txt "i", SVar (JvNum k)) :: E) (put 0 (CellBuf ((got ++ rest) ++ repeat 0 (8 - N.to_nat k))) h)
  | JRange => exists E' h', scratched h h' /\ out = SoThrow (JvError KRange) E' h'
  | _ => False
  end.
Proof.
  intros Hr0 Hb Hbs Hh V1 V2 V3 j k V4. induction j as [|j IH]; intros n got Hk H8 Hn out; subst out; (destruct n as [|n]; [lia|]); rewrite while_step; jnum.
  - replace (lenN got <? k) with false by (symmetry; apply N.ltb_ge; unfold lenN; lia). jred. cbn [get_bytes]. rewrite app_nil_r.
    replace (lenN got) with k by (unfold lenN; lia). replace (8 - length got)%nat with (8 - N.to_nat k)%nat by lia. reflexivity.
  - replace (lenN got <? k) with true by (symmetry; apply N.ltb_lt; unfold lenN; lia). jblock. jnum.
    rewrite (get8_eq _ _ _ _ _ bs) by now apply put0_other. cbn [get_bytes].
    pose proof (get_u8_cases (mkView bs off len) (o + lenN got)) as Hc. pose proof (fun b => get_u8_byte (mkView bs off len) (o + lenN got) b Hbs) as Hbyte.
    destruct (get_u8 (mkView bs off len) (o + lenN got)) as [b| | |]; try contradiction; cbn [jbind].
    2:{ eexists _, _. split; [|reflexivity]. exists (got ++ repeat 0 (8 - length got)). split; [|reflexivity]. rewrite app_length, repeat_length. lia. }
    jnum. cbn [call_jmethod]. rewrite le_mod1. unfold view_set. replace (buffer 0 (put 0 (CellBuf (got ++ repeat 0 (8 - length got))) h)) with (Some (got ++ repeat 0 (8 - length got)))
      by (symmetry; apply buffer_cell, nth_put, Hh).
    cbn [le_bytes]. replace (lenN got + lenN [b mod 256] <=? 8) with true by (symmetry; apply N.leb_le; unfold lenN in *; cbn [length]; lia).
    jnum. erewrite increment_num by jlk. jred. jop. rewrite N.add_0_l.
    replace (8 - length got)%nat with (S (8 - length (got ++ [b mod 256]))) by (rewrite app_length; cbn [length]; lia). rewrite scratch_set, put_put.
    replace (lenN got + 1) with (lenN (got ++ [b mod 256])) by (unfold lenN; rewrite app_length; cbn [length]; lia).
    specialize (IH n (got ++ [b mod 256])). cbv zeta in IH. 
    replace (o + lenN got + 1) with (o + lenN (got ++ [b mod 256])) by (unfold lenN; rewrite app_length; cbn [length]; lia). unfold jmap.
    assert (Hk' : (length (got ++ [(b mod 256)%N]) + j = N.to_nat k)%nat) by (rewrite app_length; cbn [length]; lia).
    specialize (IH Hk' H8 ltac:(lia)). destruct (get_bytes _ _ j) as [rest| | |]; cbn [jbind]; try exact IH.
    rewrite IH. rewrite <- !app_assoc. cbn [app]. rewrite (N.mod_small b 256) by now apply Hbyte. reflexivity.
Qed.

Lemma call_deserialize_varint d r off len bs o h : r <> O -> nth_error h r = Some (CellBuf bs) -> bytes_ok bs -> scratch h ->
  read_result pair_value h (ts_deserialize_varint (mkView bs off len) o) (run (S (S d)) [] fn_deserialize_varint [JvView r off len; JvNum o] h).
Proof.
  intros Hr0 Hb Hbs (s8 & Hs & Hs8). unfold ts_deserialize_varint. pose proof (get_u8_cases (mkView bs off len) o) as Hgot.
  unfold fn_deserialize_varint, dv, off_param, varint_case, first_byte_shr, rest_shl. tsc.
  jenter. js. rewrite (get8_eq _ _ _ _ _ bs) by exact Hb.
  destruct (get_u8 (mkView bs off len) o) as [b| | |] eqn:Eb; try contradiction; cbn [jbind].
  2:{ exists h. split; [exists s8; split; [exact Hs8|now rewrite put_same]|]. reflexivity. }
  assert (Hb256 : b < 256) by now apply get_u8_byte in Eb.
  jop. erewrite callee_fn; [|jlocal|jprelude]. rewrite call_first_byte by assumption. jnum.
  unfold ts_size_from_first_byte. pose proof (trailing_le 8 b) as Htz. set (k := ts_trailing_zeros 8 b) in *. clearbody k.
  replace (k + 1 <? 1) with false by (symmetry; apply N.ltb_ge; lia). replace (k + 1 - 1) with k by lia. jnum.
  cbn [call_jmethod in_order]. unfold view_set. replace (buffer 0 h) with (Some s8) by (symmetry; now apply buffer_cell).
  change (Z.to_N (Z.of_N 0 mod Z.of_N two64)) with 0. change (0 + lenN (le_bytes 8 0) <=? 8) with true. unfold put_bytes. rewrite option_length by exact Hs8. jnum.
  rewrite jx_for.
  match goal with |- context [run_while _ _ _ ((_, SVar (JvNum 0)) :: ?E) _] => 
    pose proof (copy_loop d r off len bs h (o + 1) E Hr0 Hb Hbs (nth_lt _ _ _ Hs) eq_refl eq_refl eq_refl (N.to_nat k) k eq_refl rounds [] ltac:(cbn [length]; lia) ltac:(lia) ltac:(lia)) as HL end.
  cbv zeta in HL. change (lenN []) with 0 in HL. rewrite N.add_0_r in HL. cbn [app length] in HL. change (8 - 0)%nat with 8%nat in HL.
  destruct (get_bytes _ (o + 1) (N.to_nat k)) as [rest| | |] eqn:Er; try contradiction; cbn [jbind].
  2:{ destruct HL as (E' & h' & Hh' & ->). exists h'. split; [exact Hh'|reflexivity]. }
  pose proof (get_bytes_length _ _ _ _ Er) as Hlen.
  assert (Hsc : forall out x, (exists n, x = JOk n /\ out = ExVal (pair_value n) (put 0 (CellBuf (rest ++ repeat 0 (8 - N.to_nat k))) h)) -> read_result pair_value h x out).
  { intros out x (n & -> & ->). eexists. split; [|reflexivity]. eexists. split; [|reflexivity]. rewrite app_length, repeat_length. lia. }
  apply Hsc. clear Hsc. rewrite HL. clear HL. jred. jop.
  rewrite (get64_eq _ _ _ _ _ (rest ++ repeat 0 (8 - N.to_nat k))) by (apply nth_put, (nth_lt _ _ _ Hs)).
  unfold get_u64, vget. cbn [vlen voff vbuf]. change (0 + 8 <=? 8) with true. cbn iota. unfold jmap. cbn [jbind].
  rewrite dropN_skipn. change (N.to_nat (0 + 0)) with O. cbn [skipn]. replace (takeN 8 (rest ++ repeat 0 (8 - N.to_nat k))) with (rest ++ repeat 0 (8 - N.to_nat k))
    by (rewrite takeN_firstn, firstn_all2; [reflexivity|]; rewrite app_length, repeat_length; lia).
  rewrite le_val_zeros. set (rem := le_val rest). jop.
  repeat (rewrite cases_cons; jop; match goal with |- context [k =? ?j] => destruct (k =? j) end;
    [rewrite body_plain by reflexivity; jnum; eexists; split; [reflexivity|]; jnum; reflexivity|]).
  rewrite cases_default, body_plain by reflexivity. jnum. eexists. split; [reflexivity|]. jnum. reflexivity.
Qed.
End Prelude.
