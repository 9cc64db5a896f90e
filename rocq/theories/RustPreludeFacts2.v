(** The functions of RustPrelude.v that read. *)
From Verif Require Import RustPrimFacts RustPrimFacts2 BaseFacts.
From Verif Require Export RustPreludeSem RustPreludeFacts.
Local Open Scope string_scope.
Local Open Scope list_scope.
Local Open Scope N_scope.
#[local] Arguments N.ltb !x !y.
#[local] Arguments N.leb !x !y.
#[local] Arguments N.eqb !n !m.

(** A reader that delivers bytes. *)
Fixpoint rbytes (r : reader) : Prop := match r with RBase cs => Forall bytes_ok cs | RTake _ r' => rbytes r' end.
Lemma fill_bytes r : rbytes r -> bytes_ok (fill_buf r).
Proof.
  induction r as [[|c cs]|n r IH]; cbn; intros H; [constructor|now inversion H|].
  destruct (n =? 0); [constructor|apply bytes_ok_takeN; auto].
Qed.
Lemma consume_bytes : forall r n, rbytes r -> rbytes (consume n r) /\ chain_length (consume n r) = chain_length r.
Proof.
  induction r as [[|c cs]|l r IH]; cbn; intros n H; [auto| |].
  - inversion H; subst. destruct (lenN c <=? n); cbn; auto. split; [constructor; auto; now apply bytes_ok_dropN|reflexivity].
  - destruct (IH (N.min n l) H) as [H1 H2]. auto.
Qed.
Lemma read_bytes : forall r n b r', rbytes r -> read n r = (b, r') -> rbytes r' /\ chain_length r' = chain_length r /\ bytes_ok b /\ lenN b <= n.
Proof.
  induction r as [[|c cs]|l r IH]; cbn; intros n b r' H E.
  - injection E as <- <-. rewrite lenN_nil. repeat split; auto; [constructor|lia].
  - inversion H; subst. destruct (lenN c <=? n) eqn:L; injection E as <- <-; cbn.
    + repeat split; auto; lia.
    + repeat split; auto; [constructor; auto; now apply bytes_ok_dropN|now apply bytes_ok_takeN|rewrite lenN_takeN; lia].
  - destruct (l =? 0).
    + injection E as <- <-. rewrite lenN_nil. repeat split; auto; [constructor|lia].
    + destruct (read (N.min n l) r) as [b0 r0] eqn:R. injection E as <- <-.
      destruct (IH _ _ _ H R) as (H1 & H2 & H3 & H4). cbn. repeat split; auto; lia.
Qed.
Lemma exact_bytes : forall fuel n acc r, rbytes r -> bytes_ok acc ->
  match cread_exact fuel n acc r with
  | COk bs r' => rbytes r' /\ chain_length r' = chain_length r /\ bytes_ok bs /\ lenN bs = lenN acc + n
  | CErr _ r' => rbytes r' /\ chain_length r' = chain_length r
  | CPanic => False
  | COutOfFuel => True
  end.
Proof.
  induction fuel as [|fuel IH]; intros n acc r H Ha; cbn; [auto|].
  destruct (n =? 0) eqn:E0. { repeat split; auto; lia. }
  destruct (read n r) as [b r'] eqn:R. destruct (read_bytes _ _ _ _ H R) as (H1 & H2 & H3 & H4).
  destruct b as [|x b]; [auto|].
  specialize (IH (n - lenN (x :: b)) (acc ++ x :: b) r' H1 (proj2 (bytes_ok_app _ _) (conj Ha H3))).
  destruct (cread_exact fuel (n - lenN (x :: b)) (acc ++ x :: b) r') as [bs r2|e r2| |]; auto.
  - destruct IH as (I1 & I2 & I3 & I4). rewrite lenN_app in I4. repeat split; auto; try congruence; lia.
  - destruct IH as (I1 & I2). split; auto; congruence.
Qed.
Lemma le_val_zeros bs k : le_val (bs ++ repeat 0 k) = le_val bs.
Proof.
  induction bs as [|b bs IH]; cbn; [|now rewrite IH]. induction k as [|k IH]; cbn; [reflexivity|]. rewrite IH. reflexivity.
Qed.
Lemma drop_zeros k n : dropN n (repeat 0 k) = repeat 0 (k - N.to_nat n).
Proof.
  rewrite dropN_skipn. generalize (N.to_nat n) as m. induction k as [|k IH]; intros [|m]; cbn; auto.
Qed.
Lemma shl64_le x k : shl64 x k <= x * 2 ^ k.
Proof. rewrite shl64_mul. apply N.mod_le. discriminate. Qed.
Lemma shr_le x k : shr x k <= x.
Proof. rewrite shr_div. apply N.div_le_upper_bound; [apply N.pow_nonzero; discriminate|]. assert (2 ^ k <> 0) by (apply N.pow_nonzero; discriminate). nia. Qed.
Lemma trailing_le b : trailing_zeros b <= 8.
Proof. unfold trailing_zeros. repeat (destruct (N.testbit b _); [lia|]). lia. Qed.

Section Readers.
Context {W : Type} (w : writer W) (rounds : nat) (wraps : bool).
Notation run := (run_pfn w rounds wraps).
#[local] Arguments run_pfn : simpl never.
#[local] Arguments reader_at : simpl never.
#[local] Arguments cread_exact : simpl never.
#[local] Arguments repeat : simpl never.
#[local] Arguments lenN : simpl never.
#[local] Arguments dropN : simpl never.
#[local] Arguments trailing_zeros : simpl never.
Lemma at_here {X : Type} (s : st X) p : chain_length (st_reader s) = p -> reader_at p (st_reader s) = Some (st_reader s).
Proof. intros <-. unfold reader_at. rewrite Nat.leb_refl, Nat.sub_diag. reflexivity. Qed.

Lemma run_varint depth p s : chain_length (st_reader s) = p -> rbytes (st_reader s) ->
  run (S depth) "deserialize_varint" [PvReader p] s = rres (PvInt (Some U64)) s (cdeserialize_varint rounds (st_reader s)).
Proof.
  intros Hp Hb. rewrite run_unfold. cbn. rewrite (at_here s p Hp). cbn. unfold cdeserialize_varint.
  change (lenN (repeat 0 (N.to_nat 1))) with 1.
  pose proof (exact_bytes rounds 1 [] (st_reader s) Hb ltac:(constructor)) as X.
  destruct (cread_exact rounds 1 [] (st_reader s)) as [bs r1|e r1| |]; cbn; try reflexivity.
  destruct X as (X1 & X2 & X3 & X4). change (lenN [] + 1) with 1 in X4.
  destruct bs as [|b [|b' bs]]; rewrite ?lenN_cons, ?lenN_nil in X4; try lia. clear X4.
  assert (b < 256) as Hb8 by (inversion X3; assumption).
  change (dropN 1 (repeat 0 (N.to_nat 1))) with (@nil N). cbn.
  change (nth_error [b] (N.to_nat 0)) with (Some b). cbn.
  pose proof (trailing_le b) as Ht.
  assert (trailing_zeros b mod 2 ^ 64 = trailing_zeros b) as -> by (apply N.mod_small; rewrite two64_pow; unfold two64; lia).
  change (lenN (repeat 0 (N.to_nat 8))) with 8.
  destruct (N.leb_spec (trailing_zeros b) 8) as [_|]; [|lia]. cbn.
  pose proof (at_here (set_reader s r1) p) as Hat. cbn in Hat. rewrite Hat by congruence. clear Hat.
  pose proof (exact_bytes rounds (trailing_zeros b) [] r1 X1 ltac:(constructor)) as Y.
  destruct (cread_exact rounds (trailing_zeros b) [] r1) as [bs r2|e r2| |]; cbn; try reflexivity.
  destruct Y as (Y1 & Y2 & Y3 & Y4). rewrite lenN_nil, N.add_0_l in Y4.
  rewrite drop_zeros.
  assert (lenN (bs ++ repeat 0 (N.to_nat 8 - N.to_nat (trailing_zeros b))) = 8) as ->.
  { rewrite lenN_app, Y4. unfold lenN. rewrite repeat_length. lia. }
  cbn. rewrite le_val_zeros. unfold varint_of_parts.
  pose proof (le_val_bound bs Y3) as Hle. rewrite Y4 in Hle.
  pose proof (shr_le b) as Hs. pose proof (shl64_le (le_val bs)) as Hl.
  remember (trailing_zeros b) as k eqn:Ek. clear Ek.
  assert (k = 0 \/ k = 1 \/ k = 2 \/ k = 3 \/ k = 4 \/ k = 5 \/ k = 6 \/ k = 7 \/ k = 8) as Hk by lia.
  pose proof (Hs 1). pose proof (Hs 2). pose proof (Hs 3). pose proof (Hs 4). pose proof (Hs 5). pose proof (Hs 6). pose proof (Hs 7).
  pose proof (Hl 1) as L1. pose proof (Hl 2) as L2. pose proof (Hl 3) as L3. pose proof (Hl 4) as L4. pose proof (Hl 5) as L5. pose proof (Hl 6) as L6.
  change (2 ^ 1) with 2 in L1. change (2 ^ 2) with 4 in L2. change (2 ^ 3) with 8 in L3. change (2 ^ 4) with 16 in L4.
  change (2 ^ 5) with 32 in L5. change (2 ^ 6) with 64 in L6. clear Hs Hl.
  assert (forall r, set_reader (set_reader s r1) r = set_reader s r) as Hset by reflexivity.
  destruct Hk as [->|[->|[->|[->|[->|[->|[->|[->| ->]]]]]]]];
    match type of Hle with _ < ?x => let y := eval vm_compute in x in change x with y in Hle end;
    cbn -[N.shiftl N.shiftr two64];
    repeat (unfold qadd, checked_add64; cbn -[N.shiftl N.shiftr two64]; rewrite ?two64_pow;
      repeat match goal with
      | |- context [N.shiftl ?x ?j mod two64] => change (N.shiftl x j mod two64) with (shl64 x j)
      | |- context [N.shiftr ?x ?j] => change (N.shiftr x j) with (shr x j)
      end; progress in_range); try reflexivity.
Qed.

Lemma varint_post r : rbytes r ->
  match cdeserialize_varint rounds r with
  | COk n r' => n < two64 /\ rbytes r' /\ chain_length r' = chain_length r
  | _ => True
  end.
Proof.
  intros Hb. unfold cdeserialize_varint.
  pose proof (exact_bytes rounds 1 [] r Hb ltac:(constructor)) as X.
  destruct (cread_exact rounds 1 [] r) as [bs r1|e r1| |]; cbn; auto.
  destruct X as (X1 & X2 & X3 & X4). assert (nth 0 bs 0 < 256) as Hb8. { destruct X3; cbn; [lia|assumption]. }
  pose proof (exact_bytes rounds (trailing_zeros (nth 0 bs 0)) [] r1 X1 ltac:(constructor)) as Y.
  destruct (cread_exact rounds (trailing_zeros (nth 0 bs 0)) [] r1) as [bs' r2|e r2| |]; cbn; auto.
  destruct Y as (Y1 & Y2 & Y3 & Y4). pose proof (shr_le (nth 0 bs 0) 1) as Hs.
  unfold varint_of_parts, checked_add64, cret.
  repeat match goal with
  | |- context [?a =? ?c] => destruct (a =? c)
  | |- context [?a <? two64] => destruct (N.ltb_spec a two64)
  end; try exact I; (split; [|split; [exact Y1|congruence]]); try assumption.
  - unfold two64. lia.
  - apply N.mod_lt. discriminate.
Qed.

Lemma run_header depth p s : chain_length (st_reader s) = p -> rbytes (st_reader s) ->
  run (S (S depth)) "deserialize_field_header" [PvReader p] s =
  rres (fun h => PvPair (PvInt (Some U64) (fst h)) (PvInt (Some Usize) (snd h))) s (cdeserialize_field_header rounds (st_reader s)).
Proof.
  intros Hp Hb. rewrite run_unfold. cbn. rewrite run_varint by assumption. unfold cdeserialize_field_header.
  pose proof (varint_post (st_reader s) Hb) as X.
  destruct (cdeserialize_varint rounds (st_reader s)) as [tag r1|e r1| |]; cbn; try reflexivity.
  destruct X as (X1 & X2 & X3).
  assert (chain_length (st_reader (set_reader s r1)) = p) as Hp1 by (cbn; congruence).
  assert (rbytes (st_reader (set_reader s r1))) as Hb1 by exact X2.
  assert (N.shiftr tag 2 < two64) as Hi. { change (shr tag 2 < two64). pose proof (shr_le tag 2). lia. }
  change (N.shiftr tag 2) with (shr tag 2) in *.
  destruct (N.eqb_spec (N.land tag 3) 0) as [E0|E0]; cbn. { in_range. reflexivity. }
  destruct (N.eqb_spec (N.land tag 3) 1) as [E1|E1]; cbn. { in_range. reflexivity. }
  destruct (N.eqb_spec (N.land tag 3) 2) as [E2|E2]; cbn.
  - pose proof (at_here _ _ Hp1) as Ha. cbn in Ha. rewrite Ha. cbn. pose proof (fill_bytes r1 X2) as Hf.
    destruct (fill_buf r1) as [|b bs]; cbn; [reflexivity|]. assert (b < 256) as Hb8 by (inversion Hf; assumption).
    change (nth_error (b :: bs) (N.to_nat 0)) with (Some b). cbn. rewrite run_first_byte by exact Hb8. cbn.
    assert (varint_size_from_first_byte b <= 9) as H9. { unfold varint_size_from_first_byte. pose proof (trailing_le b). lia. }
    rewrite (N.mod_small (varint_size_from_first_byte b) (2 ^ 64)) by (rewrite two64_pow; unfold two64; lia).
    in_range. reflexivity.
  - rewrite run_varint by assumption. cbn [st_reader set_reader]. pose proof (varint_post r1 X2) as Y.
    destruct (cdeserialize_varint rounds r1) as [n r2|e r2| |]; cbn; try reflexivity.
    destruct Y as (Y1 & _). rewrite (N.mod_small n (2 ^ 64)) by (rewrite two64_pow; exact Y1). in_range. reflexivity.
Qed.

Lemma set_same (s : st W) : set_reader s (st_reader s) = s.
Proof. now destruct s. Qed.
Lemma run_skip depth p n s : chain_length (st_reader s) = p -> rbytes (st_reader s) -> n < two64 ->
  run (S depth) "skip" [PvReader p; PvInt None n] s = rres (fun _ => PvUnit) s (cskip rounds n (st_reader s)).
Proof.
  intros Hp Hb Hn. rewrite run_unfold. cbn -[two64 qwhile]. in_range. cbn -[qwhile].
  match goal with |- context [qwhile ?c ?b rounds _ s] =>
    assert (forall F n s, chain_length (st_reader s) = p -> rbytes (st_reader s) ->
      qwhile c b F [("reader", PvReader p); ("amount", PvInt (Some Usize) n)] s =
      match cskip F n (st_reader s) with
      | COk _ r => QVal tt [("reader", PvReader p); ("amount", PvInt (Some Usize) 0)] (set_reader s r)
      | CErr e r => QStuck | CPanic => QPanic | COutOfFuel => QFuel
      end) as HL
  end.
  { clear n s Hp Hb Hn. induction F as [|F IH]; intros n s Hp Hb; [reflexivity|]. cbn.
    destruct (N.eqb_spec n 0) as [->|E0]; cbn. { now rewrite set_same. }
    destruct (N.ltb_spec 0 n) as [_|]; [|lia]. cbn. rewrite (at_here s p Hp). cbn. rewrite set_same.
    rewrite (at_here s p Hp). cbn. unfold qsub.
    destruct (N.leb_spec (N.min (lenN (fill_buf (st_reader s))) n) n) as [_|]; [|lia]. cbn.
    destruct (consume_bytes (st_reader s) (N.min (lenN (fill_buf (st_reader s))) n) Hb) as [H1 H2].
    rewrite IH; [|cbn; congruence|exact H1]. cbn. destruct (cskip F _ _); reflexivity. }
  rewrite (HL rounds n s Hp Hb). clear HL.
  assert (forall F n r, match cskip F n r with CErr _ _ | CPanic => False | _ => True end) as HE.
  { clear. induction F as [|F IH]; intros n r; cbn; [exact I|]. destruct (n =? 0); [exact I|apply IH]. }
  specialize (HE rounds n (st_reader s)). destruct (cskip rounds n (st_reader s)) as [[] r|e r| |]; cbn; try reflexivity; contradiction.
Qed.

Lemma run_finish depth p s : chain_length (st_reader s) = p -> rbytes (st_reader s) ->
  run (S depth) "finish" [PvReader p] s = rres (fun _ => PvUnit) s (cfinish rounds (st_reader s)).
Proof.
  intros Hp Hb. rewrite run_unfold. cbn -[two64 qwhile].
  match goal with |- context [qwhile ?c ?b rounds _ s] =>
    assert (forall F s, chain_length (st_reader s) = p -> rbytes (st_reader s) ->
      qwhile c b F [("reader", PvReader p)] s =
      match cfinish F (st_reader s) with
      | COk _ r => QRet (PvOk PvUnit) (set_reader s r)
      | CErr e r => QStuck | CPanic => QPanic | COutOfFuel => QFuel
      end) as HL
  end.
  { clear s Hp Hb. induction F as [|F IH]; intros s Hp Hb; [reflexivity|]. cbn.
    rewrite (at_here s p Hp). cbn. rewrite set_same. destruct (fill_buf (st_reader s)) as [|x l] eqn:Ef; cbn. { now rewrite set_same. }
    rewrite (at_here s p Hp). cbn.
    destruct (consume_bytes (st_reader s) (lenN (x :: l)) Hb) as [H1 H2].
    rewrite IH; [|cbn; congruence|exact H1]. cbn. destruct (cfinish F _); reflexivity. }
  rewrite (HL rounds s Hp Hb). clear HL.
  assert (forall F r, match cfinish F r with CErr _ _ | CPanic => False | _ => True end) as HE.
  { clear. induction F as [|F IH]; intros r; cbn; [exact I|]. destruct (fill_buf r); [exact I|apply IH]. }
  specialize (HE rounds (st_reader s)). destruct (cfinish rounds (st_reader s)) as [[] r|e r| |]; cbn; try reflexivity; contradiction.
Qed.

(** ** All of them *)
Definition machine (v : rv) : Prop := match v with RvInt n => n < two64 | RvI64 z => i64_ok z | _ => True end.
Theorem top_functions depth f args s : Forall machine args -> rbytes (st_reader s) -> call_top w rounds f args s <> FStuck ->
  run_top w rounds wraps (S (S depth)) f args s = call_top w rounds f args s.
Proof.
  intros Ha Hb Hs. unfold run_top.
  assert (forall p r, reader_at p (st_reader s) = Some r -> chain_length r = p /\ rbytes r) as Hr.
  { intros p r. unfold reader_at. destruct (Nat.leb p (chain_length (st_reader s))) eqn:E; [|discriminate]. intros [= <-]. apply Nat.leb_le in E.
    assert (forall k r, rbytes r -> (k <= chain_length r)%nat -> chain_length (cut k r) = (chain_length r - k)%nat /\ rbytes (cut k r)) as Hc.
    { clear. induction k as [|k IH]; intros r Hr Hk; cbn [cut]; [split; [lia|exact Hr]|].
      destruct r as [c|l r]; cbn [untake chain_length] in *; [lia|]. destruct (IH r Hr ltac:(lia)) as [H1 H2]. split; [rewrite H1; lia|exact H2]. }
    destruct (Hc (chain_length (st_reader s) - p)%nat (st_reader s) Hb ltac:(lia)) as [H1 H2]. split; [rewrite H1; lia|exact H2]. }
  destruct f; cbn in Hs;
    repeat (match type of Hs with context [match args with _ => _ end] => destruct args as [|? args]; cbn in Hs; try contradiction end);
    repeat match type of Hs with context [match ?v with _ => _ end] => is_var v; destruct v; cbn in Hs; try contradiction end.
  all: repeat match goal with H : Forall machine (_ :: _) |- _ => inversion_clear H end; cbn [machine] in *;
    cbn [values_in value_in pass_readers fold_left top_fn_name call_top].
  - rewrite run_encode by assumption. reflexivity.
  - rewrite run_decode by assumption. reflexivity.
  - rewrite run_size; [reflexivity|now left|assumption].
  - rewrite run_write; [|now left|assumption]. unfold wres, write_calls.
    destruct (run_calls w rounds (st_writer s) (st_written s) _) as [[[| | |] ?] ?]; reflexivity.
  - unfold read_with in *. destruct (reader_at place (st_reader s)) as [r|] eqn:E; [|contradiction]. destruct (Hr _ _ E) as [Q1 Q2].
    rewrite run_varint by assumption. cbn [st_reader set_reader]. destruct (cdeserialize_varint rounds r); reflexivity.
  - rewrite run_header_size by assumption. reflexivity.
  - rewrite run_header_write by assumption. unfold wres, write_calls.
    destruct (run_calls w rounds (st_writer s) (st_written s) _) as [[[| | |] ?] ?]; reflexivity.
  - unfold read_with in *. destruct (reader_at place (st_reader s)) as [r|] eqn:E; [|contradiction]. destruct (Hr _ _ E) as [Q1 Q2].
    rewrite run_header by assumption. cbn [st_reader set_reader]. destruct (cdeserialize_field_header rounds r); reflexivity.
  - unfold read_with in *. destruct (reader_at place (st_reader s)) as [r|] eqn:E; [|contradiction]. destruct (Hr _ _ E) as [Q1 Q2].
    rewrite run_skip by assumption. cbn [st_reader set_reader]. destruct (cskip rounds n r); reflexivity.
  - unfold read_with in *. destruct (reader_at place (st_reader s)) as [r|] eqn:E; [|contradiction]. destruct (Hr _ _ E) as [Q1 Q2].
    rewrite run_finish by assumption. cbn [st_reader set_reader]. destruct (cfinish rounds r); reflexivity.
Qed.
End Readers.
