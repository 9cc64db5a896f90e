(** The rules of Properties23 reject wrong functions. *)
From Verif Require Import RustPreludeTyping.
From Coq Require Import Lia.
Local Open Scope string_scope.
Local Open Scope list_scope.
Local Open Scope N_scope.

(** [fn shift(value: u64) -> u64 { value << 64_u32 }] *)
Definition far_shift : pfn :=
  mkFn "shift" None false [mkParam false "value" (YInt U64)] (YInt U64) (QBlk [] (Some (XOp PShl (XVar "value") (u32s 64)))).
Example far_shift_rejected : ~ fn_has [far_shift] far_shift.
Proof.
  intros [ks r G' _ _ Hp Hr Hb]. cbn in Hp, Hr, Hb. injection Hr as <-. inversion Hp as [|? ? ? ? E H]; subst. inversion H; subst. injection E as <-. cbn in Hb.
  inversion Hb; subst. match goal with K : has _ _ (XOp _ _ _) _ _ |- _ => inversion K; subst end.
  - cbn in *. match goal with K : stmts_have _ _ [] _ _ |- _ => inversion K; subst end. match goal with K : _ < _ |- _ => revert K end. vm_compute. discriminate.
  - match goal with K : In PShl _ |- _ => cbn in K; intuition discriminate end.
Qed.
(** [fn first(value: u64) -> u64 { match value { 0_u64..=127_u64 => value } }] *)
Definition no_other_arm : pfn :=
  mkFn "first" None false [mkParam false "value" (YInt U64)] (YInt U64)
    (QBlk [] (Some (XMatch (XVar "value") [QArm (QRange 0 127 U64) (XVar "value")]))).
Example no_other_arm_rejected : ~ fn_has [no_other_arm] no_other_arm.
Proof.
  intros [ks r G' _ _ Hp Hr Hb]. cbn in Hp, Hr, Hb. inversion Hp as [|? ? ? ? E H]; subst. inversion H; subst. injection E as <-. cbn in Hb.
  inversion Hb; subst. match goal with K : stmts_have _ _ [] _ _ |- _ => inversion K; subst end.
  match goal with K : has _ _ (XMatch _ _) _ _ |- _ => inversion K; subst end.
  match goal with K : has _ _ (XVar _) (KInt ?t) _, X : exhaustive _ _ |- _ => inversion K; subst; rename X into He end.
  match goal with K : variable _ _ _ _ |- _ => unfold variable in K; vm_compute in K; injection K as <- <- end.
  destruct He as [_ He]. specialize (He 128). cbn in He. assert (128 <= largest U64) as L by (vm_compute; discriminate). specialize (He L).
  inversion He as [? ? M|? ? M]; subst; [cbn in M; lia|inversion M].
Qed.
(** [let buffer = reader.fill_buf()?; reader.consume(1_usize); Ok(buffer.len())] *)
Definition late_buffer : pfn :=
  mkFn "late" (Some "BufRead") false [mkParam false "reader" YGeneric] (YResult (YInt Usize))
    (QBlk [QLet false "buffer" (XTry (XMethod (XVar "reader") XFillBuf []));
           QSemi (XMethod (XVar "reader") XConsume [XDec 1 (Some Usize)])]
      (Some (XCall XOk [XMethod (XVar "buffer") XLen []]))).
Example late_buffer_rejected : ~ fn_has [late_buffer] late_buffer.
Proof.
  intros [ks r G' _ _ Hp Hr Hb]. cbn in Hp, Hr, Hb. injection Hr as <-. inversion Hp as [|? ? ? ? E H]; subst. inversion H; subst. injection E as <-. cbn in Hb.
  assert (forall c G a k G', has c G (XMethod a XFillBuf []) k G' -> a = XVar "reader" -> k = KResult (KSlice "reader") /\ G' = end_loans "reader" G) as Hf.
  { intros c G a k G1 K ->. inversion K; subst.
    - match goal with V : value_method _ _ _ _ |- _ => inversion V end.
    - match goal with V : stream_method _ _ _ _ _, R : refers _ _ _ _, A : all_have _ _ _ _ _ |- _ => inversion R; subst; inversion V; subst; inversion A; subst end. now split. }
  assert (forall c G k G', has c G (XMethod (XVar "reader") XConsume [XDec 1 (Some Usize)]) k G' -> G' = end_loans "reader" G) as Hc.
  { intros c G k G1 K. inversion K; subst.
    - match goal with V : value_method _ _ _ _ |- _ => inversion V end.
    - match goal with V : stream_method _ _ _ _ _, R : refers _ _ _ _, A : all_have _ _ _ _ _ |- _ => inversion R; subst; inversion V; subst; inversion A; subst end.
      match goal with A : all_have _ _ [] _ _, D : has _ _ (XDec _ _) _ _ |- _ => inversion A; subst; inversion D; subst end. reflexivity. }
  inversion Hb; subst.
  repeat match goal with K : stmts_have _ _ (_ :: _) _ _ |- _ => inversion K; subst; clear K | K : stmts_have _ _ [] _ _ |- _ => inversion K; subst; clear K end.
  match goal with K : stmt_has _ _ (QLet _ _ _) _ _ |- _ => inversion K; subst; clear K end.
  match goal with K : stmt_has _ _ (QSemi _) _ _ |- _ => inversion K; subst; clear K end.
  match goal with K : has _ _ (XTry _) _ _ |- _ => inversion K; subst; clear K end.
  match goal with K : has _ _ (XMethod _ XFillBuf _) _ _ |- _ => apply Hf in K as [K1 K2]; [|reflexivity]; injection K1 as ->; subst end.
  match goal with K : has _ _ (XMethod _ XConsume _) _ _ |- _ => apply Hc in K; subst end.
  match goal with K : has _ _ (XCall XOk _) _ _ |- _ => inversion K; subst; clear K end.
  match goal with K : all_have _ _ _ _ _ |- _ => inversion K; subst; clear K end.
  match goal with K : has _ _ (XMethod _ XLen _) _ _ |- _ => inversion K; subst; clear K end.
  - match goal with V : value_method _ _ _ _ |- _ => inversion V; subst end. match goal with K : has _ _ (XVar "buffer") _ _ |- _ => inversion K; subst end.
    match goal with K : variable _ _ _ _ |- _ => unfold variable in K; vm_compute in K; discriminate K end.
  - match goal with V : stream_method _ _ _ _ _ |- _ => inversion V end.
Qed.
