(** Property theorems about the functions at the top of the generated Rust file (C80). *)
From Verif Require Import RustPrimFacts RustPrimFacts2 BaseFacts ChunksFacts WriterFacts PrimExtra.
From Verif Require Export RustPreludeFacts2.
Local Open Scope string_scope.
Local Open Scope list_scope.
Local Open Scope N_scope.

(** C80: the text at the top of every generated Rust file consists of a few fixed lines and the text of the functions. *)
Theorem top_of_the_file_is_the_text_of_its_functions : forall version,
  prelude_text version =
    txt "// This file was automatically generated by Typical " ++ version ++ txt "." ++ nl ++
    concat (map (fun l => l ++ nl) prelude_head) ++ prelude_fns_text.
Proof.
  intros version. unfold prelude_text. do 3 apply f_equal. vm_compute. reflexivity.
Qed.
Print Assumptions top_of_the_file_is_the_text_of_its_functions.
(** Run with values of the machine types, with a reader of bytes, the functions do what the rest of the model takes them to
    do, whatever the writer does, whether or not overflows panic. In particular they do not overflow. *)
Theorem functions_at_the_top_run_as_modelled : forall (W : Type) (w : writer W) rounds wraps depth f args s,
  Forall machine args -> rbytes (st_reader s) -> call_top w rounds f args s <> FStuck ->
  run_top w rounds wraps (S (S depth)) f args s = call_top w rounds f args s.
Proof. intros W w rounds wraps. exact (top_functions w rounds wraps). Qed.
Print Assumptions functions_at_the_top_run_as_modelled.

Ltac args_ok := repeat (apply Forall_cons; [first [exact I | assumption]|]); apply Forall_nil.

(** The same in terms of the documented format. *)
Theorem interpreted_zigzag_is_documented : forall (W : Type) (w : writer W) rounds wraps depth z s, i64_ok z ->
  rbytes (st_reader s) ->
  run_top w rounds wraps (S (S depth)) FnZigzagEncode [RvI64 z] s = FVal (RvInt (spec_zigzag z)) s /\
  run_top w rounds wraps (S (S depth)) FnZigzagDecode [RvInt (spec_zigzag z)] s = FVal (RvI64 z) s.
Proof.
  intros W w rounds wraps depth z s Hz Hb. pose proof (zigzag_encode_lt z Hz) as Hl. rewrite <- (zigzag_encode_spec z Hz). split.
  - rewrite top_functions; [reflexivity|args_ok|exact Hb|discriminate].
  - rewrite top_functions; [cbn; now rewrite zigzag_dec_enc|args_ok|exact Hb|discriminate].
Qed.
Print Assumptions interpreted_zigzag_is_documented.
(** Writing an integer is the one call of [write_all] with its documented encoding, whose length is the computed size. *)
Theorem interpreted_varints_are_documented : forall (W : Type) (w : writer W) rounds wraps depth n s, n < two64 ->
  rbytes (st_reader s) ->
  run_top w rounds wraps (S (S depth)) FnSerializeVarint [RvInt n; RvWriter] s = write_calls w rounds [CWrite (spec_varint n)] s /\
  run_top w rounds wraps (S (S depth)) FnVarintSize [RvInt n] s = FVal (RvInt (lenN (spec_varint n))) s.
Proof.
  intros W w rounds wraps depth n s Hn Hb. rewrite <- (serialize_varint_spec n Hn). split.
  - rewrite top_functions; [reflexivity|args_ok|exact Hb|].
    cbn. unfold write_calls. destruct (run_calls w rounds _ _ _) as [[[| | |] ?] ?]; discriminate.
  - rewrite top_functions; [cbn; now rewrite serialize_varint_length|args_ok|exact Hb|discriminate].
Qed.
Print Assumptions interpreted_varints_are_documented.
Theorem interpreted_headers_are_documented : forall (W : Type) (w : writer W) rounds wraps depth i size b s,
  i <= max_index -> size < two64 -> rbytes (st_reader s) ->
  run_top w rounds wraps (S (S depth)) FnFieldHeaderSize [RvInt i; RvInt size; RvBool b] s =
    FVal (RvInt (lenN (spec_header i size b))) s /\
  exists cs, concat cs = spec_header i size b /\
    run_top w rounds wraps (S (S depth)) FnSerializeFieldHeader [RvWriter; RvInt i; RvInt size; RvBool b] s =
      write_calls w rounds (map CWrite cs) s.
Proof.
  intros W w rounds wraps depth i size b s Hi Hz Hb.
  assert (i < two64) as Hi'. { unfold max_index, two64 in *. lia. }
  rewrite <- (serialize_header_spec i size b Hi Hz). split.
  - rewrite top_functions; [cbn; now rewrite header_size_spec|args_ok|exact Hb|discriminate].
  - exists (if size =? 0 then [serialize_varint (N.lor (shl64 i 2) 0)] else if size =? 8 then [serialize_varint (N.lor (shl64 i 2) 1)]
      else if b then [serialize_varint (N.lor (shl64 i 2) 2)] else [serialize_varint (N.lor (shl64 i 2) 3); serialize_varint size]). split.
    + unfold serialize_field_header. destruct (size =? 0), (size =? 8), b; cbn; now rewrite ?app_nil_r.
    + rewrite top_functions; [|args_ok|exact Hb|].
      * cbn. unfold header_calls. destruct (size =? 0), (size =? 8), b; reflexivity.
      * cbn. unfold write_calls. destruct (run_calls w rounds _ _ _) as [[[| | |] ?] ?]; discriminate.
Qed.
Print Assumptions interpreted_headers_are_documented.

(** Reading, from a reader that delivers its bytes in any pieces. *)
Lemma chunks_rbytes chunks : Forall (fun c => c <> []) chunks /\ bytes_ok (concat chunks) -> rbytes (RBase chunks).
Proof.
  intros [_ H]. cbn. induction chunks as [|c cs IH]; constructor.
  - cbn in H. now apply bytes_ok_app in H.
  - apply IH. cbn in H. now apply bytes_ok_app in H.
Qed.
Theorem interpreted_varint_is_read_back : forall (W : Type) (w : writer W) rounds wraps depth n rest chunks x,
  n < two64 -> Forall (fun c => c <> []) chunks -> bytes_ok rest -> concat chunks = spec_varint n ++ rest ->
  (length (concat chunks) < rounds)%nat ->
  exists left, concat left = rest /\
    run_top w rounds wraps (S (S depth)) FnDeserializeVarint [RvReader 0] (mkSt (RBase chunks) x []) =
      FVal (RvOk (RvInt n)) (mkSt (RBase left) x []).
Proof.
  intros W w rounds wraps depth n rest chunks x Hn Hc Hr E Hf.
  assert (rok (RBase chunks)) as Hk.
  { split; [exact Hc|]. rewrite E. apply bytes_ok_app. split; [|exact Hr]. rewrite <- serialize_varint_spec by exact Hn. now apply serialize_varint_ok. }
  pose proof (cvarint_strong rounds (RBase chunks) Hk Hf) as Hs. cbn [flat] in Hs. rewrite E, <- serialize_varint_spec, varint_roundtrip in Hs by assumption.
  destruct (cdeserialize_varint rounds (RBase chunks)) as [m r|[] r| |] eqn:Ev; cbn in Hs; try contradiction.
  destruct Hs as (<- & [_ [k Ha]] & Hfl). destruct r as [left|]; [|contradiction]. exists left. split; [exact Hfl|].
  rewrite top_functions; [|args_ok|now apply chunks_rbytes|].
  - cbn. unfold read_with. cbn. now rewrite Ev.
  - cbn. unfold read_with. cbn. now rewrite Ev.
Qed.
Print Assumptions interpreted_varint_is_read_back.
(** Any reader at all: an integer, or the end of the input in the middle of it; not a panic. *)
Theorem interpreted_varint_reads_anything : forall (W : Type) (w : writer W) rounds wraps depth chunks x,
  Forall (fun c => c <> []) chunks -> bytes_ok (concat chunks) -> (length (concat chunks) < rounds)%nat ->
  (exists n left, n < two64 /\
     run_top w rounds wraps (S (S depth)) FnDeserializeVarint [RvReader 0] (mkSt (RBase chunks) x []) =
       FVal (RvOk (RvInt n)) (mkSt (RBase left) x []) /\
     (concat chunks = spec_varint n ++ concat left \/ concat chunks = varint_alias n ++ concat left)) \/
  (run_top w rounds wraps (S (S depth)) FnDeserializeVarint [RvReader 0] (mkSt (RBase chunks) x []) =
     FVal (RvErr (ReKind EOF)) (mkSt (RBase []) x []) /\
   match concat chunks with [] => True | b :: _ => lenN (concat chunks) < spec_varint_len b end).
Proof.
  intros W w rounds wraps depth chunks x Hc Hb Hf.
  assert (rok (RBase chunks)) as Hk by (split; assumption).
  pose proof (cvarint_strong rounds (RBase chunks) Hk Hf) as Hs. cbn [flat] in Hs.
  assert (call_top w rounds FnDeserializeVarint [RvReader 0] (mkSt (RBase chunks) x []) =
    io_value RvInt (mkSt (RBase chunks) x []) (cdeserialize_varint rounds (RBase chunks))) as Ec by reflexivity.
  destruct (varint_decode_total (concat chunks) Hb) as [(n & rest & E & Hn & Hd)|[E Hd]]; rewrite E in Hs.
  - left. destruct (cdeserialize_varint rounds (RBase chunks)) as [m r|[] r| |] eqn:Ev; cbn in Hs; try contradiction.
    destruct Hs as (<- & [_ [k Ha]] & Hfl). destruct r as [left|]; [|contradiction]. exists n, left. cbn in Hfl. rewrite Hfl. split; [exact Hn|]. split; [|tauto].
    rewrite top_functions; [|args_ok|now apply chunks_rbytes|]; rewrite Ec; [reflexivity|discriminate].
  - right. destruct (cdeserialize_varint rounds (RBase chunks)) as [m r|[] r| |] eqn:Ev; cbn in Hs; try contradiction.
    destruct Hs as ([Hko [k Ha]] & Hfl). destruct r as [left|]; [|contradiction]. cbn in Hfl, Hko.
    assert (left = []) as -> by (destruct left as [|c l]; [reflexivity|]; destruct Hko as [Hko _]; inversion_clear Hko; destruct c; [contradiction|discriminate]).
    split; [|exact Hd].
    rewrite top_functions; [|args_ok|now apply chunks_rbytes|]; rewrite Ec; [reflexivity|discriminate].
Qed.
Print Assumptions interpreted_varint_reads_anything.
Theorem interpreted_header_is_read_back : forall (W : Type) (w : writer W) rounds wraps depth i size b rest chunks x,
  i <= max_index -> size < two64 -> Forall (fun c => c <> []) chunks -> bytes_ok rest -> concat chunks = spec_header i size b ++ rest ->
  (b = true -> size <> 0 -> size <> 8 -> exists first more, rest = first :: more /\ spec_varint_len first = size) ->
  (length (concat chunks) < rounds)%nat ->
  exists left, concat left = rest /\
    run_top w rounds wraps (S (S depth)) FnDeserializeFieldHeader [RvReader 0] (mkSt (RBase chunks) x []) =
      FVal (RvOk (RvPair (RvInt i) (RvInt size))) (mkSt (RBase left) x []).
Proof.
  intros W w rounds wraps depth i size b rest chunks x Hi Hz Hc Hr E Hp Hf.
  assert (rok (RBase chunks)) as Hk.
  { split; [exact Hc|]. rewrite E. apply bytes_ok_app. split; [|exact Hr]. now apply spec_header_ok. }
  pose proof (cheader_strong rounds (RBase chunks) Hk Hf) as Hs. cbn [flat] in Hs. rewrite E, <- serialize_header_spec, header_roundtrip in Hs by assumption.
  destruct (cdeserialize_field_header rounds (RBase chunks)) as [m r|[] r| |] eqn:Ev; cbn in Hs; try contradiction.
  destruct Hs as (<- & [_ [k Ha]] & Hfl). destruct r as [left|]; [|contradiction]. exists left. split; [exact Hfl|].
  rewrite top_functions; [|args_ok|now apply chunks_rbytes|].
  - cbn. unfold read_with. cbn. now rewrite Ev.
  - cbn. unfold read_with. cbn. now rewrite Ev.
Qed.
Print Assumptions interpreted_header_is_read_back.
(** [skip] takes the given number of bytes, and does not return if there are fewer (see C21); [finish] takes all. *)
Theorem interpreted_skip_and_finish : forall (W : Type) (w : writer W) rounds wraps depth n chunks x,
  n < two64 -> Forall (fun c => c <> []) chunks -> bytes_ok (concat chunks) -> (length (concat chunks) < rounds)%nat ->
  (n <= lenN (concat chunks) -> exists left, concat left = dropN n (concat chunks) /\
     run_top w rounds wraps (S (S depth)) FnSkip [RvReader 0; RvInt n] (mkSt (RBase chunks) x []) = FVal (RvOk RvUnit) (mkSt (RBase left) x [])) /\
  (lenN (concat chunks) < n -> run_top w rounds wraps (S (S depth)) FnSkip [RvReader 0; RvInt n] (mkSt (RBase chunks) x []) = FFuel) /\
  run_top w rounds wraps (S (S depth)) FnFinish [RvReader 0] (mkSt (RBase chunks) x []) = FVal (RvOk RvUnit) (mkSt (RBase []) x []).
Proof.
  intros W w rounds wraps depth n chunks x Hn Hc Hb Hf.
  assert (rok (RBase chunks)) as Hk by (split; assumption).
  assert (call_top w rounds FnSkip [RvReader 0; RvInt n] (mkSt (RBase chunks) x []) =
    io_value (fun _ => RvUnit) (mkSt (RBase chunks) x []) (cskip rounds n (RBase chunks))) as E1 by reflexivity.
  assert (call_top w rounds FnFinish [RvReader 0] (mkSt (RBase chunks) x []) =
    io_value (fun _ => RvUnit) (mkSt (RBase chunks) x []) (cfinish rounds (RBase chunks))) as E2 by reflexivity.
  pose proof (cskip_strong rounds n (RBase chunks) Hk Hf) as Hs. pose proof (cfinish_strong rounds (RBase chunks) Hk Hf) as Hfin. cbn [flat] in *.
  unfold skip, finish in *. repeat split.
  - intros Hle. destruct (N.leb_spec n (lenN (concat chunks))); [|lia].
    destruct (cskip rounds n (RBase chunks)) as [[] r|[] r| |] eqn:Ev; cbn in Hs; try contradiction.
    destruct Hs as (_ & [_ [k Ha]] & Hfl). destruct r as [left|]; [|contradiction]. exists left. split; [exact Hfl|].
    rewrite top_functions; [|args_ok|now apply chunks_rbytes|]; rewrite E1; [reflexivity|discriminate].
  - intros Hlt. destruct (N.leb_spec n (lenN (concat chunks))); [lia|].
    destruct (cskip rounds n (RBase chunks)) as [[] r|[] r| |] eqn:Ev; cbn in Hs; try contradiction.
    rewrite top_functions; [|args_ok|now apply chunks_rbytes|]; rewrite E1; [reflexivity|discriminate].
  - destruct (cfinish rounds (RBase chunks)) as [[] r|[] r| |] eqn:Ev; cbn in Hfin; try contradiction.
    destruct Hfin as (_ & [Hko [k Ha]] & Hfl). destruct r as [left|]; [|contradiction]. cbn in Hfl, Hko.
    assert (left = []) as -> by (destruct left as [|c l]; [reflexivity|]; destruct Hko as [Hko _]; inversion_clear Hko; destruct c; [contradiction|discriminate]).
    rewrite top_functions; [|args_ok|now apply chunks_rbytes|]; rewrite E2; [reflexivity|discriminate].
Qed.
Print Assumptions interpreted_skip_and_finish.
