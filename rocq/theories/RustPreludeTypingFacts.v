(** The functions at the top follow the rules. *)
From Verif Require Import RustPreludeTyping.
From Coq Require Import Lia.
Local Open Scope string_scope.
Local Open Scope list_scope.
Local Open Scope N_scope.

Lemma largest_u64 : largest U64 = 18446744073709551615. Proof. reflexivity. Qed.
Lemma largest_usize : largest Usize = 18446744073709551615. Proof. reflexivity. Qed.
Lemma largest_u32 : largest U32 = 4294967295. Proof. reflexivity. Qed.

Ltac covers n :=
  lazymatch goal with
  | |- Exists _ (QVar _ :: _) => left; exact I
  | |- Exists _ (QWild :: _) => left; exact I
  | |- Exists _ (QDec ?m :: _) => destruct (N.eq_dec n m); [left; assumption|right; covers n]
  | |- Exists _ (QBits _ ?m :: _) => destruct (N.eq_dec n m); [left; assumption|right; covers n]
  | |- Exists _ (QRange _ ?hi _ :: _) => destruct (N.le_gt_cases n hi); [left; cbn [matches]; lia|right; covers n]
  | |- Exists _ [] => lia
  end.
Ltac exhausts := split; [reflexivity|let n := fresh "n" in intros n ?; rewrite ?largest_u64, ?largest_usize, ?largest_u32 in *; cbn [map arm_pat]; covers n].

Ltac num := lazymatch goal with
  | |- _ <= _ => vm_compute; discriminate
  | |- _ < _ => vm_compute; reflexivity
  end.
Ltac ty1 :=
  lazymatch goal with
  | |- variable _ _ _ _ => reflexivity
  | |- copy _ = true => reflexivity
  | |- _ <= _ => num
  | |- _ < _ => num
  | |- _ /\ _ => split
  | |- _ \/ _ => solve [left; reflexivity|right; reflexivity]
  | |- In _ [_; _; _; _] => cbn; tauto
  | |- In _ [U8; _; _] => cbn; tauto
  | |- In _ (fns _) => cbn; tauto
  | |- In _ _ => cbn; tauto
  | |- _ = _ => reflexivity
  | |- match _ with XDec _ _ => _ | _ => _ end => first [exact I|cbn; num]
  | |- pat_kind _ _ => cbn [pat_kind]; repeat split; first [exact I|reflexivity|num]
  | |- exhaustive _ _ => exhausts
  | |- True => exact I
  | |- Forall2 _ (f_params ?f) _ => let p := eval hnf in (f_params f) in change (f_params f) with p
  | |- Forall2 _ _ _ => repeat (constructor; [reflexivity|]); constructor
  | |- refers _ _ _ _ => econstructor
  | |- forgets _ _ => cbn; repeat constructor
  | |- std_fun _ _ _ => econstructor
  | |- value_method _ _ _ _ => econstructor
  | |- stream_method _ _ _ _ _ => econstructor
  | |- all_have _ _ _ _ _ => first [apply al_nil|eapply al_cons]
  | |- passes _ _ (XVar "writer" :: _) _ _ => eapply ps_stream
  | |- passes _ _ (XRefMut _ :: _) _ _ => eapply ps_stream
  | |- passes _ _ _ _ _ => first [apply ps_nil|eapply ps_cons]
  | |- arms_have _ _ _ _ _ _ => first [apply ar_nil|eapply ar_cons; cbn [pat_binds app]]
  | |- stmts_have _ _ [QLoop _] _ true => change true with (true || false)%bool; eapply ss_cons
  | |- stmts_have _ _ _ _ _ => first [apply ss_nil|eapply ss_cons]
  | |- stmt_has _ _ (QLet _ _ _) _ _ => eapply st_let
  | |- stmt_has _ _ (QSub _ _) _ _ => eapply st_sub
  | |- stmt_has _ _ (QSemi _) _ _ => eapply st_semi
  | |- stmt_has _ _ (QWhile _ _) _ _ => eapply st_while
  | |- stmt_has _ _ (QLoop _) _ _ => eapply st_loop
  | |- stmt_has _ _ (QIf _ _) _ _ => eapply st_if
  | |- stmt_has _ _ QBlank _ _ => apply st_blank
  | |- block_has _ _ (QBlk _ (Some _)) _ _ => eapply bl_value
  | |- block_has _ _ (QBlk _ None) KUnit _ => first [solve [eapply bl_unit; repeat ty1]|eapply bl_diverges]
  | |- block_has _ _ (QBlk _ None) _ _ => eapply bl_diverges
  | |- has _ _ ?e _ _ =>
      let e' := eval hnf in e in change e with e';
      lazymatch e' with
      | XVar _ => eapply h_var
      | XDec _ (Some _) => eapply h_dec
      | XDec _ None => eapply h_dec_any
      | XBits _ _ => eapply h_bits
      | XUnit => apply h_unit
      | XStr _ => apply h_str
      | XUnexpectedEof => apply h_eof
      | XOp PShl _ _ => eapply h_shift
      | XOp PShr _ _ => eapply h_shift
      | XOp PGt _ _ => eapply h_greater
      | XOp _ _ _ => eapply h_arith
      | XAddLine _ _ => eapply h_add_line
      | XNeg _ => eapply h_neg
      | XCast _ _ => eapply h_cast
      | XParen _ => eapply h_paren
      | XPair _ _ => eapply h_pair
      | XCall (XTransmute _ _) _ => eapply h_transmute
      | XCall (XOwn "serialize_varint") _ => eapply (h_own _ _ _ _ fn_serialize_varint)
      | XCall (XOwn "deserialize_varint") _ => eapply (h_own _ _ _ _ fn_deserialize_varint)
      | XCall (XOwn "varint_size_from_value") _ => eapply (h_own _ _ _ _ fn_varint_size_from_value)
      | XCall (XOwn "varint_size_from_first_byte") _ => eapply (h_own _ _ _ _ fn_varint_size_from_first_byte)
      | XCall _ _ => eapply h_std
      | XCallLines _ _ => eapply h_lines
      | XMethod _ ?m _ =>
          lazymatch m with
          | XWriteAll => eapply h_stream | XReadExact => eapply h_stream | XFillBuf => eapply h_stream | XConsume => eapply h_stream
          | _ => eapply h_method
          end
      | XRefMut (XAll _) => eapply h_whole
      | XRefMut (XFirst _ _) => eapply h_first
      | XBytes _ _ => eapply h_bytes
      | XZeros _ => apply h_zeros
      | XAt _ _ => first [eapply h_at_slice; reflexivity|eapply h_at_array; [reflexivity|num]]
      | XTry _ => eapply h_try
      | XReturn _ => eapply h_return
      | XUnsafe _ => eapply h_unsafe
      | XBlock _ => eapply h_block
      | XIf _ _ _ => eapply h_if
      | XMatch _ _ => eapply h_match
      end
  end.
Ltac start := eapply fn_ok; [exact I || (cbn; tauto)|repeat (constructor; [cbn; intuition discriminate|]); constructor|repeat (constructor; [reflexivity|]); constructor|reflexivity|
  match goal with |- block_has ?c ?G ?b ?r ?G' => let G1 := eval cbv in G in let b1 := eval cbv in b in change (block_has c G1 b1 r G') end].

Lemma zigzag_encode_ok : fn_has prelude_fns fn_zigzag_encode.
Proof. start. repeat ty1. all: repeat ty1. Qed.
Lemma zigzag_decode_ok : fn_has prelude_fns fn_zigzag_decode.
Proof. start. repeat ty1. all: repeat ty1. Qed.
Lemma varint_size_from_value_ok : fn_has prelude_fns fn_varint_size_from_value.
Proof. start. repeat ty1. all: repeat ty1. Qed.
Lemma varint_size_from_first_byte_ok : fn_has prelude_fns fn_varint_size_from_first_byte.
Proof. start. repeat ty1. all: repeat ty1. Qed.
Lemma serialize_varint_ok : fn_has prelude_fns fn_serialize_varint.
Proof. start. repeat ty1. all: repeat ty1. Qed.
Lemma deserialize_varint_ok : fn_has prelude_fns fn_deserialize_varint.
Proof. start. repeat ty1. all: repeat ty1. Qed.
Lemma field_header_size_ok : fn_has prelude_fns fn_field_header_size.
Proof. start. repeat ty1. all: repeat ty1. Qed.
Lemma serialize_field_header_ok : fn_has prelude_fns fn_serialize_field_header.
Proof. start. repeat ty1. all: repeat ty1. Qed.
Lemma deserialize_field_header_ok : fn_has prelude_fns fn_deserialize_field_header.
Proof. start. repeat ty1. all: repeat ty1. Unshelve. all: exact KUnit. Qed.
Lemma skip_ok : fn_has prelude_fns fn_skip.
Proof. start. repeat ty1. all: repeat ty1. Qed.
Lemma finish_ok : fn_has prelude_fns fn_finish.
Proof. start. repeat ty1. all: repeat ty1. Unshelve. all: first [exact KUnit|exact ([] : tenv)]. Qed.

Lemma prelude_typed : functions_typed prelude_fns.
Proof.
  split; [cbn; repeat (constructor; [cbn; intuition discriminate|]); constructor|].
  repeat apply Forall_cons; [exact zigzag_encode_ok|exact zigzag_decode_ok|exact varint_size_from_value_ok|exact varint_size_from_first_byte_ok|
    exact serialize_varint_ok|exact deserialize_varint_ok|exact field_header_size_ok|exact serialize_field_header_ok|
    exact deserialize_field_header_ok|exact skip_ok|exact finish_ok|constructor].
Qed.
