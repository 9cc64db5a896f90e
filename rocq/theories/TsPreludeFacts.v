(** The functions at the top of the generated TypeScript file do what those of TsPrim.v do. *)
From Verif Require Import TypesFacts IdentFacts BaseFacts.
From Verif Require Import TsPrimFacts.
From Verif Require Export TsEval.

(** ** Integers *)
Lemma zn_ltb a b : Z.ltb (Z.of_N a) (Z.of_N b) = (a <? b).
Proof. destruct (a <? b) eqn:E; [apply N.ltb_lt in E|apply N.ltb_ge in E]; [apply Z.ltb_lt|apply Z.ltb_ge]; lia. Qed.
Lemma zn_eqb a b : Z.eqb (Z.of_N a) (Z.of_N b) = (a =? b).
Proof. destruct (a =? b) eqn:E; [apply N.eqb_eq in E|apply N.eqb_neq in E]; [apply Z.eqb_eq|apply Z.eqb_neq]; lia. Qed.
Lemma zn_shiftl a k : Z.shiftl (Z.of_N a) (Z.of_N k) = Z.of_N (N.shiftl a k).
Proof. rewrite Z.shiftl_mul_pow2, N.shiftl_mul_pow2 by lia. rewrite N2Z.inj_mul, N2Z.inj_pow. reflexivity. Qed.
Lemma zn_shiftr a k : Z.shiftr (Z.of_N a) (Z.of_N k) = Z.of_N (N.shiftr a k).
Proof. rewrite Z.shiftr_div_pow2, N.shiftr_div_pow2 by lia. rewrite N2Z.inj_div, N2Z.inj_pow. reflexivity. Qed.
Lemma zn_lor a b : Z.lor (Z.of_N a) (Z.of_N b) = Z.of_N (N.lor a b). Proof. now destruct a, b. Qed.
Lemma zn_land a b : Z.land (Z.of_N a) (Z.of_N b) = Z.of_N (N.land a b). Proof. now destruct a, b. Qed.
Lemma zn_rem a b : Z.rem (Z.of_N a) (Z.of_N b) = Z.of_N (a mod b).
Proof.
  destruct b as [|b]; [now destruct a|]. rewrite N2Z.inj_mod, Z.rem_mod_nonneg; [reflexivity|lia|reflexivity].
Qed.
Lemma zn_neg a : Z.ltb (Z.of_N a) 0 = false. Proof. apply Z.ltb_ge. lia. Qed.
Lemma zn_sub a b : b <= a -> (Z.of_N a - Z.of_N b)%Z = Z.of_N (a - b). Proof. lia. Qed.
Lemma zn_add a b : (Z.of_N a + Z.of_N b)%Z = Z.of_N (a + b). Proof. lia. Qed.

Ltac tsu := unfold jx, num, prop_of, jconst, jlet, jdecl, jset, jadd, jcall, jplus, jif, jif_else, big, bits, to_number, to_bigint, jbin, par.
Ltac tsc :=
  tsu; cbv delta [offset_plus tag_of]; cbv beta;
  repeat match goal with |- context [if ?a =? ?b then _ else _] => let c := eval vm_compute in (a =? b) in change (a =? b) with c; cbn iota end; tsu.
Ltac jop := repeat first [progress js | progress jred | progress cbn [apply_op strict_eq negb andb value_or_stuck ebind as_bool sbind Bool.eqb]].
Lemma shl1 n : (n <? 128) = true -> N.shiftl n 1 < 2147483648.
Proof. intros H. apply N.ltb_lt in H. rewrite N.shiftl_mul_pow2. change (2 ^ 1) with 2. lia. Qed.
Ltac jguard :=
  match goal with |- context [?x <? ?k] => replace (x <? k) with true by (symmetry; apply N.ltb_lt; first [lia | apply shl1; assumption | eapply N.lt_trans; [apply N.mod_lt; discriminate|reflexivity]]) end.
Ltac jnum := repeat first [progress jop
  | rewrite zn_ltb | rewrite zn_neg | rewrite zn_shiftl | rewrite zn_shiftr | rewrite zn_rem | rewrite N2Z.id | rewrite zn_sub by lia | rewrite zn_add
  | rewrite zn_land | rewrite zn_lor
  | match goal with |- context [Z.eqb (Z.of_N ?k) 0] => change (Z.eqb (Z.of_N k) 0) with false; cbn iota end
  | rewrite callee_global; [|jlocal|jreach]; cbn [call_global]
  | jguard ].
Section Prelude.
Context (rounds : nat) (find : scope -> jcallee -> option (scope * jfn)) (reach : scope -> str -> bool) (Hg : good_scope find reach []).
Notation run := (run_jfn rounds find reach).

Lemma call_zigzag_encode d z h : run (S d) [] fn_zigzag_encode [JvBig z] h = ExVal (JvBig (ts_zigzag_encode z)) h.
Proof.
  unfold fn_zigzag_encode. tsu. jenter. js. cbn [apply_op]. change (Z.ltb (Z.of_N 1) 0) with false. cbn iota. jred. js. cbn [apply_op]. jred.
  unfold ts_zigzag_encode. change (Z.of_N 0) with 0%Z. change (Z.of_N 1) with 1%Z. destruct (Z.ltb z 0); js; cbn [apply_op]; jred; reflexivity.
Qed.
Lemma call_zigzag_decode d n h : run (S d) [] fn_zigzag_decode [JvBig (Z.of_N n)] h = ExVal (JvBig (ts_zigzag_decode (Z.of_N n))) h.
Proof.
  unfold fn_zigzag_decode. tsu. jenter. js. cbn [apply_op]. jred. js. cbn [apply_op]. change (Z.ltb (Z.of_N 1) 0) with false. cbn iota. jred. js. cbn [apply_op]. jred. js. cbn [apply_op strict_eq]. jred.
  unfold ts_zigzag_decode. change (Z.of_N 0) with 0%Z. change (Z.of_N 1) with 1%Z. destruct (Z.eqb (Z.land (Z.of_N n) 1) 0); js; reflexivity.
Qed.

Lemma call_varint_size d n h : run (S d) [] fn_varint_size [JvBig (Z.of_N n)] h = ExVal (JvNum (ts_varint_size n)) h.
Proof.
  unfold fn_varint_size, value_below. tsu. cbn [flat_map fst snd app]. jenter. unfold ts_varint_size.
  repeat (js; cbn [apply_op]; jred; rewrite zn_ltb; match goal with |- context [n <? ?k] => destruct (n <? k) end; [jblock; js; reflexivity|]).
  js. reflexivity.
Qed.
Lemma lt_le n m : n < m -> (n <? m) = true. Proof. apply N.ltb_lt. Qed.
Lemma call_first_byte d b h : b < 256 -> (9 <= rounds)%nat ->
  run (S d) [] fn_size_from_first_byte [JvNum b] h = ExVal (JvNum (ts_size_from_first_byte b)) h.
Proof.
  intros Hb Hr. unfold fn_size_from_first_byte. tsu. jenter. js.
  assert (Hloop : forall k n b, (k + N.to_nat n = 8)%nat -> b < 256 -> exists b', forall r, (k < r)%nat ->
    run_while (condition find reach (run d) [] (XBin None BBoth (XBin None BLt (XVar (txt "trailingZeros")) (XNum Plain 8))
                 (XBin None BNe (XParen false (XBin None BAnd (XVar (txt "firstByte")) (XNum Plain 1))) (XNum Plain 1))))
      (run_block (jexec rounds find reach (run d) []) [] [JOpAssign (txt "trailingZeros") BAdd (XNum Plain 1); JOpAssign (txt "firstByte") BShr (XNum Plain 1)]) r
      ((txt "firstByte", SVar (JvNum b)) :: (txt "trailingZeros", SVar (JvNum n)) :: top_constants) h =
    SoNext ((txt "firstByte", SVar (JvNum b')) :: (txt "trailingZeros", SVar (JvNum (n + ts_trailing_zeros k b))) :: top_constants) h).
  { intros k. induction k as [|k IH]; intros n c Hk Hc.
    - exists c. intros r Hr'. destruct r as [|r]; [lia|]. rewrite while_step. js. cbn [apply_op]. jred.
      replace (n <? 8) with false by (symmetry; apply N.ltb_ge; lia). jred. cbn [ts_trailing_zeros]. replace (n + 0) with n by lia. reflexivity.
    - assert (Hs : N.shiftr c 1 < 256) by (rewrite N.shiftr_div_pow2; change (2 ^ 1) with 2; apply N.div_lt_upper_bound; lia).
      destruct (IH (n + 1) (N.shiftr c 1) ltac:(lia) Hs) as [b' Hb']. cbn [ts_trailing_zeros]. destruct (N.land c 1 =? 1) eqn:E.
      + exists c. intros r Hr'. destruct r as [|r]; [lia|]. rewrite while_step. js. cbn [apply_op]. jred.
        replace (n <? 8) with true by (symmetry; apply N.ltb_lt; lia). jred. js. cbn [apply_op]. jred. js.
        replace (c <? 2147483648) with true by (symmetry; apply N.ltb_lt; lia). change (1 <? 2147483648) with true. jop. rewrite E. jop. replace (n + 0) with n by lia. reflexivity.
      + exists b'. intros r Hr'. destruct r as [|r]; [lia|]. rewrite while_step. js. cbn [apply_op]. jred.
        replace (n <? 8) with true by (symmetry; apply N.ltb_lt; lia). jred. js. cbn [apply_op]. jred. js.
        replace (c <? 2147483648) with true by (symmetry; apply N.ltb_lt; lia). change (1 <? 2147483648) with true. jop. rewrite E. jop. jblock. js. cbn [apply_op]. jred. js. cbn [apply_op].
        replace (c <? 2147483648) with true by (symmetry; apply N.ltb_lt; lia). change (1 <? 32) with true. cbn [andb]. jred. js.
        rewrite Hb' by lia. replace (n + (1 + ts_trailing_zeros k (N.shiftr c 1))) with (n + 1 + ts_trailing_zeros k (N.shiftr c 1)) by lia. reflexivity. }
  destruct (Hloop 8%nat 0 b ltac:(lia) Hb) as [b' Hw]. rewrite jx_while, Hw by lia. jred. js. cbn [apply_op]. jred. reflexivity.
Qed.
(** *** Writing through a view of a whole buffer *)
Lemma vset_length buf off data buf' : vset buf off data = JOk buf' -> lenN buf' = lenN buf.
Proof. unfold vset. destruct (_ <=? _) eqn:E; [|discriminate]. intros [= <-]. apply N.leb_le in E. now apply written_len. Qed.
Lemma view_set_ok t h buf off data buf' L : vset buf off data = JOk buf' -> lenN buf = L -> (t < length h)%nat ->
  view_set t 0 L (JvNum off) data (put t (CellBuf buf) h) = ExVal JvUndef (put t (CellBuf buf') h).
Proof.
  unfold vset, view_set. intros H <- Ht. replace (buffer t (put t (CellBuf buf) h)) with (Some buf) by (symmetry; apply buffer_cell, nth_put, Ht).
  destruct (off + lenN data <=? lenN buf); [|discriminate]. injection H as <-. rewrite put_put. reflexivity.
Qed.
Section Setters.
Context (t : nat) (h : heap) (Ht : (t < length h)%nat) (buf buf' : bytes) (off L : N) (HL : lenN buf = L).
Notation V := (JvView t 0 L).
Notation H0 := (put t (CellBuf buf) h).
Notation H1 := (put t (CellBuf buf') h).
Lemma set8_ok n : vset buf off (le_bytes 1 n) = JOk buf' -> call_jmethod MtSetUint8 V [JvNum off; JvNum n] H0 = ExVal JvUndef H1.
Proof. intros H. cbn [call_jmethod]. rewrite le_mod1. now apply view_set_ok. Qed.
Lemma set16_ok n : vset buf off (le_bytes 2 n) = JOk buf' -> call_jmethod MtSetUint16 V [JvNum off; JvNum n; JvBool true] H0 = ExVal JvUndef H1.
Proof. intros H. cbn [call_jmethod in_order]. rewrite le_mod2. now apply view_set_ok. Qed.
Lemma set32_ok n : vset buf off (le_bytes 4 n) = JOk buf' -> call_jmethod MtSetUint32 V [JvNum off; JvNum n; JvBool true] H0 = ExVal JvUndef H1.
Proof. intros H. cbn [call_jmethod in_order]. rewrite le_mod4. now apply view_set_ok. Qed.
Lemma set64_ok n : vset buf off (le_bytes 8 n) = JOk buf' -> call_jmethod MtSetBigUint64 V [JvNum off; JvBig (Z.of_N n); JvBool true] H0 = ExVal JvUndef H1.
Proof.
  intros H. cbn [call_jmethod in_order]. replace (Z.to_N (Z.of_N n mod Z.of_N two64)) with (n mod 2 ^ (8 * N.of_nat 8)).
  - rewrite le_bytes_mod. now apply view_set_ok.
  - rewrite <- N2Z.inj_mod, N2Z.id. reflexivity.
Qed.
End Setters.
Ltac jset_step H :=
  match type of H with jbind (vset ?b ?o ?d) _ = _ =>
    let E := fresh "E" in let b' := fresh "b" in destruct (vset b o d) as [b'| | |] eqn:E; cbn [jbind] in H; [|discriminate H|discriminate H|discriminate H];
    first [erewrite set8_ok | erewrite set16_ok | erewrite set32_ok | erewrite set64_ok]; cycle 1;
    [assumption | repeat match goal with V : vset _ _ _ = JOk _ |- _ => apply vset_length in V end; congruence | exact E | ];
    jnum
  end.
Lemma call_serialize_varint d t h buf off n buf' off' : (t < length h)%nat -> ts_serialize_varint buf off n = JOk (buf', off') ->
  run (S d) [] fn_serialize_varint [JvView t 0 (lenN buf); JvNum off; JvBig (Z.of_N n)] (put t (CellBuf buf) h) =
  ExVal (JvNum off') (put t (CellBuf buf') h).
Proof.
  intros Ht H. unfold fn_serialize_varint, dv, off_param, value_below, first_byte, less, ret_offset, set_u8, set_u16, set_u32, byte_of, value_shl, value_shr. tsu.
  cbv delta [offset_plus]. cbv beta. repeat match goal with |- context [if ?a =? ?b then _ else _] => let c := eval vm_compute in (a =? b) in change (a =? b) with c; cbn iota end. tsu.
  jenter. js. unfold ts_serialize_varint in H.
  repeat (jnum; match goal with |- context [n <? ?k] => let Hn := fresh "Hn" in destruct (n <? k) eqn:Hn; [|apply N.ltb_ge in Hn] end;
    [jblock; jnum; repeat jset_step H; injection H as <- <-; reflexivity|]).
  jnum. repeat jset_step H. injection H as <- <-. reflexivity.
Qed.
End Prelude.
