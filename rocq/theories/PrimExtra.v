(** Small consequences used by Properties1.v. *)
From Verif Require Export EvolutionFacts3.

Lemma zigzag_small z k : i64_ok z -> (k < two63) ->
  zigzag_encode z <= 2 * k <-> (- Z.of_N k <= z <= Z.of_N k)%Z.
Proof.
  intros Hz Hk. rewrite zigzag_encode_spec by exact Hz. unfold spec_zigzag.
  unfold i64_ok, two63 in *. destruct (0 <=? z)%Z eqn:E; lia.
Qed.

(** The first byte alone gives the length. *)
Lemma varint_first_byte n : n < two64 -> exists b tl, serialize_varint n = b :: tl /\
  varint_size_from_first_byte b = lenN (serialize_varint n).
Proof.
  intros Hn. rewrite serialize_varint_spec by exact Hn.
  destruct (varint_roundtrip_spec n [] Hn ltac:(constructor)) as [_ (b & tl & E & Hb)].
  exists b, tl. split; [exact E|].
  pose proof (spec_varint_ok n Hn) as Hok. rewrite E in Hok. inversion Hok; subst.
  rewrite size_from_first_byte_spec by assumption. rewrite Hb. symmetry.
  now apply spec_varint_length.
Qed.

(** Compactness claims of README 605, 620 and 640. *)
Lemma u64_field_len n : n < two64 -> lenN (spec_u64 true n) <= 8.
Proof.
  intros Hn. unfold spec_u64. destruct (n =? 0); [rewrite lenN_nil; lia|].
  destruct (n <? 567382630219904) eqn:E; [|rewrite lenN_le_bytes; lia].
  rewrite spec_varint_length by exact Hn. unfold varint_size_from_value.
  repeat match goal with |- context [if ?c then _ else _] => destruct c eqn:? end; lia.
Qed.

Lemma small_varint n : n < 128 -> lenN (spec_varint n) = 1.
Proof. intros H. unfold spec_varint. replace (n <? 128) with true by lia. reflexivity. Qed.

Lemma one_byte_header i v t : i < 32 -> wt DOut v t ->
  (t = TUnit \/ t = TF64 \/ t = TU64 \/ t = TS64 \/ t = TBool) ->
  lenN (spec_header i (lenN (spec_encode true v t)) (integer_encoded t)) = 1.
Proof.
  intros Hi Hw Ht. unfold spec_header.
  destruct (lenN (spec_encode true v t) =? 0) eqn:E0; [apply small_varint; lia|].
  destruct (lenN (spec_encode true v t) =? 8) eqn:E8; [apply small_varint; lia|].
  assert (integer_encoded t = true) as ->; [|apply small_varint; lia].
  destruct Ht as [->|[->|[->|[->| ->]]]]; try reflexivity; exfalso; destruct v; try contradiction.
  - cbn in E0. discriminate.
  - cbn [spec_encode andb] in E0, E8. destruct (bits =? 0); [discriminate E0|].
    rewrite lenN_le_bytes in E8. discriminate E8.
Qed.

Lemma enum_one_byte i fs f : ty_wf (TChoice fs) -> find_field i fs = Some f -> i < 32 ->
  f_type f = TUnit -> f_rule f = Required ->
  exists b, serialize (VChoice i VUnit None) (TChoice fs) = Some [b].
Proof.
  intros Hwf Hf Hi Ht Hr.
  assert (wt DOut (VChoice i VUnit None) (TChoice fs)) as Hw.
  { cbn [wt]. rewrite Hf, Ht, Hr. now split. }
  assert (f_index f = i) as Hfi by (now apply find_field_in in Hf).
  assert (lenN (spec_encode true (VChoice i VUnit None) (TChoice fs)) = 1) as Hl.
  { cbn [spec_encode]. rewrite Hf, Ht. cbn [spec_encode app]. rewrite ?app_nil_r.
    unfold spec_header. change (lenN [] =? 0) with true. cbv iota. apply small_varint. lia. }
  assert (exists b, spec_encode true (VChoice i VUnit None) (TChoice fs) = [b]) as [b Hb].
  { destruct (spec_encode true (VChoice i VUnit None) (TChoice fs)) as [|b [|]];
      unfold lenN in Hl; cbn in Hl; try lia. now exists b. }
  exists b. rewrite <- Hb. apply serialize_spec; auto.
  rewrite size_exact, Hl by assumption. reflexivity.
Qed.

Lemma u64_field_payload n : n < two64 -> forall pa, pa = calc_atlas true (VU64 n) TU64 ->
  atlas_lookup pa <= 8.
Proof.
  intros Hn pa ->. rewrite (size_spec (VU64 n) TU64 true) by (cbn; auto). now apply u64_field_len.
Qed.

(** The last link of an outgoing choice is a required case (README 617). *)
Fixpoint last_case (v : val) : N :=
  match v with
  | VChoice i _ None => i
  | VChoice i _ (Some v') => last_case v'
  | _ => 0
  end.
Lemma last_case_required fs : forall v, wt DOut v (TChoice fs) ->
  exists f, find_field (last_case v) fs = Some f /\ f_rule f = Required.
Proof.
  induction v as [|x|n|z|x|bs|s|n|vs IH|ovs IH|i p fb IHp IHfb] using val_ind';
    intros Hw; try contradiction. cbn [wt last_case] in *.
  destruct (find_field i fs) as [f|] eqn:E; [|contradiction].
  destruct Hw as [_ Hfb]. destruct fb as [v'|].
  - now apply IHfb.
  - exists f. split; [exact E|]. destruct (f_rule f); easy.
Qed.

(** [[Unit]] fields: what the README's size mode 2 would give and what the code writes. *)
Definition unit_array_field : ty := TStruct [mkF 0 Required (TArray TUnit)].
Definition unit_array_msg : val := VStruct [Some (VUnits 5)].
Lemma unit_array_header :
  serialize unit_array_msg unit_array_field = Some (spec_header 0 1 false ++ spec_varint 5) /\
  spec_header 0 1 false <> spec_header 0 1 true.
Proof. vm_compute. split; [reflexivity|discriminate]. Qed.

Lemma size_of_serialized v t bs : wt DOut v t -> ty_wf t -> size v t < two64 ->
  serialize v t = Some bs -> size v t = lenN bs.
Proof.
  intros Hw Ht Hl Hs. rewrite (serialize_spec v t Hw Ht Hl) in Hs. injection Hs as <-.
  now apply size_exact.
Qed.

Lemma int_field_len v t : t = TU64 \/ t = TS64 -> wt DOut v t -> lenN (spec_encode true v t) <= 8.
Proof.
  intros [-> | ->] Hw; destruct v; try contradiction; cbn [spec_encode wt] in *.
  - now apply u64_field_len.
  - rewrite <- zigzag_encode_spec by exact Hw. now apply u64_field_len, zigzag_encode_lt.
Qed.

(** Bounds for a 64-bit target. *)
Lemma b60 n : n < 2 ^ 60 -> n < two64 /\ 8 * n <= isize_max.
Proof. change (2 ^ 60) with 1152921504606846976. unfold two64, isize_max. lia. Qed.

Lemma roundtrip60 v t bs : wt DOut v t -> ty_wf t -> size v t < 2 ^ 60 ->
  serialize v t = Some bs -> deserialize isize_max t bs = Ok (to_in v t) [].
Proof. intros Hw Ht Hl Hs. apply b60 in Hl as [A B]. now apply roundtrip. Qed.

Lemma serialize_ok v t bs : wt DOut v t -> ty_wf t -> size v t < two64 ->
  serialize v t = Some bs -> bytes_ok bs.
Proof.
  intros Hw Ht Hl Hs. rewrite (serialize_spec v t Hw Ht Hl) in Hs. injection Hs as <-.
  apply spec_encode_ok; auto. now rewrite <- size_exact.
Qed.

Lemma evolution60 a b v bs : ty_wf a -> ty_wf b -> safe a b ->
  wt DOut v a -> size v a < 2 ^ 60 -> serialize v a = Some bs ->
  deserialize isize_max b bs = Ok (migrate v a b) [] /\ wt DIn (migrate v a b) b.
Proof.
  intros Ha Hb Hs Hw Hl Hser. apply b60 in Hl as [A B].
  assert (deserialize isize_max b bs = Ok (migrate v a b) []) as E.
  { apply evolution_reads; auto. now apply safe_compat. }
  split; [exact E|].
  pose proof (decode_post isize_max b Hb true (lenN bs) bs (serialize_ok v a bs Hw Ha A Hser)) as P.
  unfold deserialize in E. rewrite E in P. apply P.
Qed.
Lemma evolution60_back a b v bs : ty_wf a -> ty_wf b -> safe a b ->
  wt DOut v b -> size v b < 2 ^ 60 -> serialize v b = Some bs ->
  deserialize isize_max a bs = Ok (migrate v b a) [] /\ wt DIn (migrate v b a) a.
Proof. intros Ha Hb Hs. apply evolution60; auto. now apply safe_sym. Qed.

Lemma safe_not_trans : exists a b c, ty_wf a /\ ty_wf b /\ ty_wf c /\
  safe a b /\ safe b c /\ ~ safe a c.
Proof.
  exists (TStruct [mkF 0 Required TUnit]), (TStruct [mkF 0 Asymmetric TUnit]),
         (TStruct [mkF 0 Optional TUnit]).
  cbn. repeat split; auto; try (unfold max_index; lia); try (repeat constructor; now intros []).
  intros [[[H _] _] _]. discriminate.
Qed.

(** Decidability, to find the offending field. *)
Lemma not_safe_fields fs gs :
  (forall f g, In f fs -> In g gs -> f_index f = f_index g -> safe (f_type f) (f_type g)) ->
  ~ safe (TStruct fs) (TStruct gs) ->
  (exists f, In f fs /\ match find_field (f_index f) gs with
                        | Some g => rule_change_safe (f_rule f) (f_rule g) = false
                        | None => f_rule f = Required end) \/
  (exists g, In g gs /\ find_field (f_index g) fs = None /\ f_rule g = Required).
Proof.
  intros Hc Hn.
  pose (okf := fun f : field_of ty => match find_field (f_index f) gs with
                        | Some g => rule_change_safe (f_rule f) (f_rule g)
                        | None => negb (required (f_rule f)) end).
  pose (okg := fun g : field_of ty => match find_field (f_index g) fs with
                        | Some g => true
                        | None => negb (required (f_rule g)) end).
  destruct (forallb okf fs) eqn:E1; [destruct (forallb okg gs) eqn:E2|].
  - exfalso. apply Hn. cbn [safe]. rewrite !allP_Forall, !Forall_forall.
    rewrite forallb_forall in E1, E2. split.
    + intros f Hf. specialize (E1 f Hf). unfold okf in E1.
      destruct (find_field (f_index f) gs) as [g|] eqn:Eg.
      * split; [exact E1|]. apply find_field_in in Eg as [Hg Ei]. apply Hc; auto.
      * now destruct (f_rule f).
    + intros g Hg. specialize (E2 g Hg). unfold okg in E2.
      destruct (find_field (f_index g) fs); [exact I|]. now destruct (f_rule g).
  - right. apply not_true_iff_false in E2.
    assert (existsb (fun g => negb (okg g)) gs = true) as Hex.
    { destruct (existsb (fun g => negb (okg g)) gs) eqn:X; [reflexivity|]. exfalso. apply E2.
      apply forallb_forall. intros g Hg. destruct (okg g) eqn:Y; [reflexivity|].
      enough (existsb (fun g => negb (okg g)) gs = true) by congruence.
      apply existsb_exists. exists g. now rewrite Y. }
    apply existsb_exists in Hex as (g & Hg & H). exists g. split; [exact Hg|]. unfold okg in H.
    destruct (find_field (f_index g) fs); [discriminate|]. split; [reflexivity|].
    now destruct (f_rule g).
  - left. apply not_true_iff_false in E1.
    assert (existsb (fun g => negb (okf g)) fs = true) as Hex.
    { destruct (existsb (fun g => negb (okf g)) fs) eqn:X; [reflexivity|]. exfalso. apply E1.
      apply forallb_forall. intros g Hg. destruct (okf g) eqn:Y; [reflexivity|].
      enough (existsb (fun g => negb (okf g)) fs = true) by congruence.
      apply existsb_exists. exists g. now rewrite Y. }
    apply existsb_exists in Hex as (f & Hf & H). exists f. split; [exact Hf|]. unfold okf in H.
    destruct (find_field (f_index f) gs); [now destruct (rule_change_safe _ _)|].
    now destruct (f_rule f).
Qed.

Lemma rule_change_unsafe r s : rule_change_safe r s = false ->
  (r = Optional /\ s = Required) \/ (r = Required /\ s = Optional).
Proof. destruct r, s; try discriminate; auto. Qed.

Lemma common_compat_of fs gs : ty_wf (TStruct fs) -> ty_wf (TStruct gs) ->
  (forall f g, In f fs -> In g gs -> f_index f = f_index g -> safe (f_type f) (f_type g)) ->
  common_compat fs gs /\ common_compat gs fs.
Proof.
  intros [_ Ha] [_ Hb] H. rewrite allP_Forall, Forall_forall in *. split.
  - intros f g Hf Hg E. apply safe_compat; auto; [now apply Ha|now apply Hb].
  - intros g f Hg Hf E. apply safe_compat; [now apply Hb|now apply Ha|].
    apply safe_sym; auto; [now apply Ha|now apply Hb].
Qed.

Lemma struct_unsafe60 fs gs v1 v2 :
  ty_wf (TStruct fs) -> ty_wf (TStruct gs) ->
  (forall f g, In f fs -> In g gs -> f_index f = f_index g -> safe (f_type f) (f_type g)) ->
  ~ safe (TStruct fs) (TStruct gs) ->
  wt DOut v1 (TStruct fs) -> size v1 (TStruct fs) < 2 ^ 60 ->
  wt DOut v2 (TStruct gs) -> size v2 (TStruct gs) < 2 ^ 60 ->
  (exists v bs, wt DOut v (TStruct fs) /\ serialize v (TStruct fs) = Some bs /\
     deserialize isize_max (TStruct gs) bs = Err InvalidData) \/
  (exists v bs, wt DOut v (TStruct gs) /\ serialize v (TStruct gs) = Some bs /\
     deserialize isize_max (TStruct fs) bs = Err InvalidData).
Proof.
  intros Ha Hb Hs Hn W1 L1 W2 L2. apply b60 in L1 as [A1 B1], L2 as [A2 B2].
  destruct (common_compat_of fs gs Ha Hb Hs) as [C1 C2].
  assert (NoDup (indices fs)) as Nf by apply Ha. assert (NoDup (indices gs)) as Ng by apply Hb.
  destruct (not_safe_fields fs gs Hs Hn) as [(f & Hf & H)|(g & Hg & E & Hr)].
  - destruct (find_field (f_index f) gs) as [g|] eqn:Eg.
    + apply find_field_in in Eg as [Hg Ei]. apply rule_change_unsafe in H as [[R1 R2]|[R1 R2]].
      * left. apply (struct_unsafe isize_max fs gs g v1); auto.
        intros f' Hf' E. assert (f' = f) as -> by (apply (nodup_eq fs); auto; congruence). exact R1.
      * right. apply (struct_unsafe isize_max gs fs f v2); auto.
        intros g' Hg' E. assert (g' = g) as -> by (apply (nodup_eq gs); auto; congruence). exact R2.
    + right. apply (struct_unsafe isize_max gs fs f v2); auto.
      intros g Hg E. exfalso. apply find_field_none in Eg. apply Eg. rewrite <- E. now apply in_map.
  - left. apply (struct_unsafe isize_max fs gs g v1); auto.
    intros f Hf E'. exfalso. apply find_field_none in E. apply E. rewrite <- E'. now apply in_map.
Qed.

Lemma choice_msg_bound fs f p : ty_wf (TChoice fs) -> In f fs -> f_rule f = Required ->
  wt DOut p (f_type f) -> lenN (spec_encode true p (f_type f)) < 2 ^ 59 ->
  size (VChoice (f_index f) p None) (TChoice fs) < 2 ^ 60.
Proof.
  intros Ha Hf Hr Hp Hl.
  assert (find_field (f_index f) fs = Some f) as Ef by (apply find_field_nodup; [apply Ha|exact Hf]).
  rewrite size_exact; [|cbn [wt]; rewrite Ef, Hr; auto|exact Ha].
  cbn [spec_encode]. rewrite Ef, app_nil_r, lenN_app. unfold spec_header.
  pose proof varint_size_range as Hv.
  change (2 ^ 60) with 1152921504606846976. change (2 ^ 59) with 576460752303423488 in Hl.
  repeat match goal with |- context [if ?c then _ else _] => destruct c end;
    rewrite ?lenN_app, !spec_varint_length';
    repeat match goal with |- context [varint_size_from_value ?x] => 
      pose proof (Hv x); generalize dependent (varint_size_from_value x); intros end; lia.
Qed.

Lemma choice_unsafe60 fs gs :
  ty_wf (TChoice fs) -> ty_wf (TChoice gs) ->
  (forall f g, In f fs -> In g gs -> f_index f = f_index g -> safe (f_type f) (f_type g)) ->
  ~ safe (TChoice fs) (TChoice gs) ->
  (forall f, In f fs -> exists p, wt DOut p (f_type f) /\ lenN (spec_encode true p (f_type f)) < 2 ^ 59) ->
  (forall g, In g gs -> exists p, wt DOut p (f_type g) /\ lenN (spec_encode true p (f_type g)) < 2 ^ 59) ->
  (exists v bs, wt DOut v (TChoice fs) /\ serialize v (TChoice fs) = Some bs /\
     deserialize isize_max (TChoice gs) bs = Err EOF) \/
  (exists v bs, wt DOut v (TChoice gs) /\ serialize v (TChoice gs) = Some bs /\
     deserialize isize_max (TChoice fs) bs = Err EOF).
Proof.
  intros Ha Hb Hs Hn If Ig.
  destruct (common_compat_of fs gs Ha Hb Hs) as [C1 C2].
  assert (NoDup (indices fs)) as Nf by apply Ha. assert (NoDup (indices gs)) as Ng by apply Hb.
  assert (forall fs gs f, ty_wf (TChoice fs) -> ty_wf (TChoice gs) -> common_compat fs gs ->
    In f fs -> f_rule f = Required ->
    (forall g, In g gs -> f_index g = f_index f -> f_rule g = Optional) ->
    (exists p, wt DOut p (f_type f) /\ lenN (spec_encode true p (f_type f)) < 2 ^ 59) ->
    exists v bs, wt DOut v (TChoice fs) /\ serialize v (TChoice fs) = Some bs /\
     deserialize isize_max (TChoice gs) bs = Err EOF) as Key.
  { clear. intros fs gs f Ha Hb Hc Hf Hr Ho (p & Hp & Hl).
    exists (VChoice (f_index f) p None).
    pose proof (choice_msg_bound fs f p Ha Hf Hr Hp Hl) as Hsz. apply b60 in Hsz as [A B].
    now apply (choice_unsafe isize_max fs gs f p). }
  destruct (not_safe_fields fs gs Hs Hn) as [(f & Hf & H)|(g & Hg & E & Hr)].
  - destruct (find_field (f_index f) gs) as [g|] eqn:Eg.
    + apply find_field_in in Eg as [Hg Ei]. apply rule_change_unsafe in H as [[R1 R2]|[R1 R2]].
      * right. apply (Key gs fs g); auto.
        intros f' Hf' E. assert (f' = f) as -> by (apply (nodup_eq fs); auto; congruence). exact R1.
      * left. apply (Key fs gs f); auto.
        intros g' Hg' E. assert (g' = g) as -> by (apply (nodup_eq gs); auto; congruence). exact R2.
    + left. apply (Key fs gs f); auto.
      intros g Hg E. exfalso. apply find_field_none in Eg. apply Eg. rewrite <- E. now apply in_map.
  - right. apply (Key gs fs g); auto.
    intros f Hf E'. exfalso. apply find_field_none in E. apply E. rewrite <- E'. now apply in_map.
Qed.
