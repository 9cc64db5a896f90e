(** How long an encoded message is, compared with its weight. *)
From Verif Require Export FootprintFacts TsTop.
From Coq Require Import Lia.

Lemma embed_len k m : lenN (embed k m) = N.of_nat k.
Proof. apply lenN_le_bytes. Qed.
Lemma varint_len n : 1 <= lenN (spec_varint n) <= 9.
Proof.
  unfold spec_varint. repeat match goal with |- context [if ?c then _ else _] => destruct c end;
    rewrite ?lenN_cons, ?embed_len, ?lenN_le_bytes; lia.
Qed.
Lemma spec_header_len i sz ie : lenN (spec_header i sz ie) <= 18.
Proof.
  unfold spec_header. repeat match goal with |- context [if ?c then _ else _] => destruct c end;
    rewrite ?lenN_app; repeat match goal with |- context [spec_varint ?x] => pose proof (varint_len x); generalize dependent (spec_varint x); intros end; lia.
Qed.
Lemma spec_u64_len isf n : lenN (spec_u64 isf n) <= 9.
Proof.
  unfold spec_u64. pose proof (varint_len n). repeat match goal with |- context [if ?c then _ else _] => destruct c end;
    try lia; [apply N.le_0_l|rewrite lenN_le_bytes; lia].
Qed.

Lemma weight_pos u v : 1 <= weight u v.
Proof. destruct v; cbn [weight]; lia. Qed.

Lemma weight_0_le u v : weight 0 v <= weight u v.
Proof.
  induction v as [|x|n|z|x|bs|s|n|vs IH|ovs IH|i p fb IHp IHfb] using val_ind'; cbn [weight]; try lia.
  - apply N.add_le_mono_l. induction IH as [|v vs Hv _ IH]; cbn [map sumN]; lia.
  - apply N.add_le_mono_l. induction IH as [|[v|] vs Hv _ IH]; cbn [map sumN optP] in *; lia.
  - destruct fb; cbn [optP] in *; lia.
Qed.

Lemma encode_compact v : forall t isf, lenN (spec_encode isf v t) + 9 <= 18 * weight 0 v.
Proof.
  induction v as [|x|n|z|x|bs|s|n|vs IH|ovs IH|i p fb IHp IHfb] using val_ind'; intros t isf.
  all: destruct t; try (cbn [spec_encode]; change (lenN (@nil N)) with 0; match goal with |- 0 + 9 <= 18 * weight 0 ?v => pose proof (weight_pos 0 v); lia end).
  all: cbn [spec_encode weight]; rewrite ?N.mul_0_l.
  - destruct (isf && (x =? 0)); [change (lenN (@nil N)) with 0; lia|]. rewrite lenN_le_bytes. lia.
  - pose proof (spec_u64_len isf n). lia.
  - pose proof (spec_u64_len isf (spec_zigzag z)). lia.
  - pose proof (spec_u64_len isf (if x then 1 else 0)). lia.
  - lia.
  - lia.
  - destruct t; change (lenN (@nil N)) with 0; try lia. pose proof (spec_u64_len isf n). lia.
  - assert (forall ws, Forall (fun v => forall t isf, lenN (spec_encode isf v t) + 9 <= 18 * weight 0 v) ws ->
      lenN (flat_map (fun v => let b := spec_encode false v t in if sized_element t then spec_varint (lenN b) ++ b else b) ws)
      <= 18 * sumN (map (weight 0) ws)) as H.
    { intros ws H. induction H as [|v ws Hv _ IHw]; [apply N.le_0_l|]. cbn [flat_map map sumN]. cbv zeta in *. rewrite lenN_app.
      specialize (Hv t false). pose proof (varint_len (lenN (spec_encode false v t))). destruct (sized_element t); rewrite ?lenN_app; lia. }
    specialize (H vs IH). destruct t; (eapply N.le_trans; [apply N.add_le_mono_r; exact H|lia]).
  - assert (lenN (concat (map2 (fun ov f => match ov with
        | Some v => let b := spec_encode true v (f_type f) in spec_header (f_index f) (lenN b) (integer_encoded (f_type f)) ++ b
        | None => [] end) ovs fs))
      <= 18 * sumN (map (fun ov => 1 + match ov with Some v => weight 0 v | None => 0 end) ovs)) as H.
    { revert fs. induction IH as [|ov ovs Hv _ IHw]; intros fs; [apply N.le_0_l|].
      destruct fs as [|f fs]; [apply N.le_0_l|]. cbn [map2 concat map sumN]. specialize (IHw fs). rewrite lenN_app.
      cbv zeta in *. destruct ov as [v|]; cbn iota; [|change (lenN (@nil N)) with 0; lia]. cbv zeta in *. rewrite lenN_app. cbn [optP] in Hv. specialize (Hv (f_type f) true).
      pose proof (spec_header_len (f_index f) (lenN (spec_encode true v (f_type f))) (integer_encoded (f_type f))). lia. }
    (eapply N.le_trans; [apply N.add_le_mono_r; exact H|lia]).
  - destruct (find_field i fs) as [f|]; [|change (lenN (@nil N)) with 0; lia]. cbv zeta. rewrite !lenN_app.
    specialize (IHp (f_type f) true). pose proof (spec_header_len (f_index f) (lenN (spec_encode true p (f_type f))) (integer_encoded (f_type f))).
    destruct fb as [v'|]; cbn [optP] in IHfb; [specialize (IHfb (TChoice fs) true)|change (lenN (@nil N)) with 0]; lia.
Qed.
