(** The functions of RustPrelude.v, interpreted, are the models of RustPrim.v, Chunks.v and Writer.v. *)
From Verif Require Import RustPreludeSem RustPrimFacts RustPrimFacts2 BaseFacts ChunksFacts RustSerFacts.
Local Open Scope string_scope.
Local Open Scope list_scope.
Local Open Scope N_scope.

#[local] Arguments N.ltb !x !y.
#[local] Arguments N.leb !x !y.
#[local] Arguments N.eqb !n !m.
#[local] Arguments Z.shiftr : simpl never.
#[local] Arguments Z.opp : simpl never.
Lemma two64_pow : 2 ^ 64 = two64. Proof. reflexivity. Qed.
Lemma two8_pow : 2 ^ 8 = 256. Proof. reflexivity. Qed.
Definition or_u64 (t : option ity) : Prop := t = None \/ t = Some U64.

Ltac in_range :=
  repeat match goal with
  | |- context [?a <? 2 ^ 64] => rewrite two64_pow
  | |- context [?a <? two64] => let H := fresh in destruct (N.ltb_spec a two64) as [H|H]; [clear H|exfalso; unfold two64 in *; lia]
  end.
Ltac arms :=
  repeat (match goal with
  | |- context [?a <=? ?b] => destruct (N.leb_spec a b); try (exfalso; unfold two64 in *; lia)
  | |- context [?a =? ?b] => destruct (N.eqb_spec a b); try (exfalso; unfold two64 in *; lia)
  end; cbn).

Lemma lor_byte a b : a < 256 -> b < 256 -> N.lor a b < 256.
Proof.
  intros Ha Hb. destruct (N.eq_dec (N.lor a b) 0) as [->|E]; [lia|].
  change 256 with (2 ^ 8). apply N.log2_lt_pow2; [lia|]. rewrite N.log2_lor.
  assert (forall x, x < 256 -> N.log2 x < 8) as L.
  { intros x Hx. destruct (N.eq_dec x 0) as [->|]; [reflexivity|]. apply N.log2_lt_pow2; [lia|exact Hx]. }
  apply N.max_lub_lt; auto.
Qed.
Lemma mod_byte a : a mod 2 ^ 8 < 256. Proof. apply N.mod_lt. discriminate. Qed.
Ltac is_byte := first [apply mod_byte | lia | apply lor_byte; is_byte].
Ltac fit_bytes :=
  repeat match goal with |- context [?a <? 2 ^ 8] =>
    let H := fresh in assert (a <? 2 ^ 8 = true) as H by (apply N.ltb_lt; change (2 ^ 8) with 256; is_byte); rewrite H; clear H; cbn end.
Section Facts.
Context {W : Type} (w : writer W) (rounds : nat) (wraps : bool).
Notation run := (run_pfn w rounds wraps).

Lemma run_size depth t n s : or_u64 t -> n < two64 -> run (S depth) "varint_size_from_value" [PvInt t n] s =
  PresVal (PvInt (Some Usize) (varint_size_from_value n)) s.
Proof.
  intros [-> | ->] Hn; cbn; in_range; cbn; unfold varint_size_from_value; arms; reflexivity.
Qed.
Lemma run_encode depth z s : i64_ok z -> run (S depth) "zigzag_encode" [PvI64 z] s = PresVal (PvInt (Some U64) (zigzag_encode z)) s.
Proof.
  intros Hz. pose proof (zigzag_encode_lt z Hz) as H. unfold zigzag_encode, shl1_i64, shl64 in *. cbn. in_range. reflexivity.
Qed.
Lemma run_decode depth n s : n < two64 -> run (S depth) "zigzag_decode" [PvInt None n] s = PresVal (PvI64 (zigzag_decode n)) s.
Proof.
  intros Hn. cbn. in_range. cbn.
  assert (N.land n 1 < 2) as Hl. { change 1 with (N.ones 1). rewrite N.land_ones. change (2 ^ 1) with 2. lia. }
  assert (i64_of_u64 (N.land n 1) = Z.of_N (N.land n 1)) as Hi.
  { unfold i64_of_u64. destruct (N.ltb_spec (N.land n 1) two63); [reflexivity|unfold two63 in *; lia]. }
  match goal with |- context [(?a =? ?b)%Z] => destruct (Z.eqb_spec a b) as [E|E] end; [rewrite Hi in E; lia|].
  cbn. f_equal. f_equal. unfold zigzag_decode, shr. f_equal. f_equal.
  apply u64_i64_u64. rewrite N.shiftr_div_pow2. change (2 ^ 1) with 2. unfold two64 in *. lia.
Qed.
Lemma run_first_byte depth b s : b < 256 -> run (S depth) "varint_size_from_first_byte" [PvInt (Some U8) b] s =
  PresVal (PvInt (Some U32) (varint_size_from_first_byte b)) s.
Proof.
  intros Hb. cbn. destruct (N.ltb_spec b (2 ^ 8)) as [_|H]; [|rewrite two8_pow in H; lia]. cbn.
  assert (trailing_zeros b <= 8) as Ht. { unfold trailing_zeros. repeat (destruct (N.testbit b _); [lia|]). lia. }
  unfold qadd. cbn. assert (2 ^ 32 = 4294967296) as -> by reflexivity.
  destruct (N.ltb_spec (trailing_zeros b + 1) 4294967296) as [_|]; [|lia]. cbn.
  assert (2 ^ 32 = 4294967296) as -> by reflexivity.
  destruct (N.ltb_spec (trailing_zeros b + 1) 4294967296) as [_|]; [|lia]. reflexivity.
Qed.
Definition wres (s : st W) (cs : list call) : pres W :=
  match run_calls w rounds (st_writer s) (st_written s) cs with
  | (WOk, x, o) => PresVal (PvOk PvUnit) (mkSt (st_reader s) x o)
  | (WFailed, x, o) => PresVal (PvErr ReWrite) (mkSt (st_reader s) x o)
  | (WPanicked, _, _) => PresPanic
  | (WRunning, _, _) => PresFuel
  end.
Lemma run_write depth t n s : or_u64 t -> n < two64 ->
  run (S depth) "serialize_varint" [PvInt t n; PvWriter] s = wres s (varint_calls n).
Proof.
  intros Ht Hn. unfold varint_calls.
  assert (run (S depth) "serialize_varint" [PvInt t n; PvWriter] s = run (S depth) "serialize_varint" [PvInt (Some U64) n; PvWriter] s) as ->.
  { destruct Ht as [-> | ->]; [|reflexivity]. cbn. reflexivity. }
  clear Ht. cbn. in_range. cbn. unfold serialize_varint.
  arms; try (unfold qsub; arms); fit_bytes; unfold wres; cbn;
    change 256 with (2 ^ 8) in *; unfold u8, shl64, shr; change 256 with (2 ^ 8); change two64 with (2 ^ 64);
    (match goal with |- context [write_all ?w ?f ?x ?o ?b] => destruct (write_all w f x o b) as [[[| | |] ?] ?] end; cbn; reflexivity).
Qed.

#[local] Arguments run_calls : simpl never.
#[local] Arguments varint_calls : simpl never.
Lemma tag_range i m : m < 4 -> N.lor (shl64 i 2) m < two64.
Proof.
  intros Hm. rewrite shl64_mul. rewrite (lor_add _ m 2).
  - change (2 ^ 2) with 4. unfold two64. lia.
  - change (2 ^ 2) with 4. unfold two64. lia.
  - exact Hm.
Qed.
Lemma size_range n : varint_size_from_value n < 10.
Proof. pose proof (varint_size_range n). lia. Qed.
Ltac call_rewrite L := match goal with |- context [run_pfn w rounds wraps (S ?d) ?f [PvInt ?t ?n] ?x] => rewrite (L d t n x) end.
#[local] Arguments run_pfn : simpl never.
Lemma run_unfold depth f args s : run (S depth) f args s =
  match find_pfn f prelude_fns with
  | Some d =>
      match pbind_params (f_params d) args with
      | Some E => returns (f_ret d) (pres_of (qblock w rounds wraps (run depth) (f_body d) E s))
      | None => PresStuck
      end
  | None => PresStuck
  end.
Proof. reflexivity. Qed.
Ltac tagged := rewrite ?two64_pow; repeat match goal with |- context [N.shiftl ?i 2 mod two64] => change (N.shiftl i 2 mod two64) with (shl64 i 2) end.
Lemma run_header_size depth i n b s : i < two64 -> n < two64 ->
  run (S (S depth)) "field_header_size" [PvInt None i; PvInt None n; PvBool b] s =
  PresVal (PvInt (Some Usize) (field_header_size i n b)) s.
Proof.
  intros Hi Hn. rewrite run_unfold. cbn. in_range. cbn. unfold field_header_size. arms; tagged.
  - rewrite run_size; [|now right|now apply tag_range]. cbn. tagged.
    pose proof (size_range (N.lor (shl64 i 2) 0)). in_range. reflexivity.
  - rewrite run_size; [|now right|now apply tag_range]. cbn. tagged.
    pose proof (size_range (N.lor (shl64 i 2) 1)). in_range. reflexivity.
  - destruct b; cbn.
    + tagged. rewrite run_size; [|now right|now apply tag_range]. cbn. tagged.
      pose proof (size_range (N.lor (shl64 i 2) 2)). in_range. reflexivity.
    + tagged. rewrite run_size; [|now right|now apply tag_range]. cbn. tagged. rewrite (N.mod_small n two64) by exact Hn.
      rewrite run_size; [|now right|exact Hn]. cbn. unfold qadd. cbn.
      pose proof (size_range (N.lor (shl64 i 2) 3)). pose proof (size_range n). in_range. cbn. in_range. reflexivity.
Qed.
Lemma run_header_write depth i n b s : i < two64 -> n < two64 ->
  run (S (S depth)) "serialize_field_header" [PvWriter; PvInt None i; PvInt None n; PvBool b] s = wres s (header_calls i n b).
Proof.
  assert (forall x cs, returns (YResult YUnit) (wres x cs) = wres x cs) as Hr.
  { intros x cs. unfold wres. destruct (run_calls w rounds (st_writer x) (st_written x) cs) as [[[| | |] ?] ?]; reflexivity. }
  assert (forall x cs E E', returns (YResult YUnit) (pres_of (qscoped E (qscoped E' (of_pres (wres x cs) E')))) = wres x cs) as Hr2.
  { intros x cs E E'. unfold wres. destruct (run_calls w rounds (st_writer x) (st_written x) cs) as [[[| | |] ?] ?]; reflexivity. }
  intros Hi Hn. rewrite run_unfold. cbn. in_range. cbn. unfold header_calls. arms; tagged.
  - rewrite run_write; [|now right|now apply tag_range]. apply Hr2.
  - rewrite run_write; [|now right|now apply tag_range]. apply Hr2.
  - destruct b; cbn.
    + tagged. rewrite run_write; [|now right|now apply tag_range]. unfold wres.
      destruct (run_calls w rounds (st_writer s) (st_written s) _) as [[[| | |] ?] ?]; reflexivity.
    + tagged. rewrite run_write; [|now right|now apply tag_range]. unfold wres.
      rewrite run_calls_app.
      destruct (run_calls w rounds (st_writer s) (st_written s) _) as [[[| | |] ?] ?]; cbn; try reflexivity.
      tagged. rewrite (N.mod_small n two64) by exact Hn. rewrite run_write; [|now right|exact Hn]. unfold wres. cbn [st_reader st_writer st_written].
      destruct (run_calls w rounds _ _ (varint_calls n)) as [[[| | |] ?] ?]; reflexivity.
Qed.

(** Readers. *)
Definition rres {A} (f : A -> pval) (s : st W) (x : cres A) : pres W :=
  match x with
  | COk a r => PresVal (PvOk (f a)) (set_reader s r)
  | CErr e r => PresVal (PvErr (ReKind e)) (set_reader s r)
  | CPanic => PresPanic
  | COutOfFuel => PresFuel
  end.
End Facts.

