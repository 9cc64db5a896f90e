(** Messages that were received and can be sent as they are. *)
From Verif Require Export CompactFacts TruncFacts2.
From Coq Require Import Lia.

(** No field is asymmetric: then the incoming and the outgoing types of a schema have the same messages. *)
Fixpoint symmetric (t : ty) : Prop :=
  match t with
  | TArray e => symmetric e
  | TStruct fs | TChoice fs => allP (fun f => f_rule f <> Asymmetric /\ symmetric (f_type f)) fs
  | _ => True
  end.

Lemma to_in_same v : forall t, wt DIn v t -> wt DOut v t -> to_in v t = v.
Proof.
  induction v as [|x|n|z|x|bs|s|n|vs IH|ovs IH|i p fb IHp IHfb] using val_ind'; intros t Hi Ho; try reflexivity.
  - destruct t; try contradiction. cbn [wt to_in] in *. destruct Hi as [_ Hi], Ho as [_ Ho]. f_equal.
    apply allP_Forall in Hi, Ho. induction IH as [|v vs Hv _ IHw]; [reflexivity|]. inversion Hi; inversion Ho; subst. cbn [map]. f_equal; auto.
  - destruct t as [| | | | | | | |fs|]; try contradiction. cbn [wt to_in] in *. f_equal.
    revert fs Hi Ho. induction IH as [|ov ovs Hv _ IHw]; intros [|f fs] Hi Ho; try contradiction; [reflexivity|].
    destruct Hi as [Hi1 Hi2], Ho as [Ho1 Ho2]. cbn [map2]. f_equal; [|now apply IHw].
    destruct ov as [v|]; [|reflexivity]. cbn [optP] in Hv. f_equal. now apply Hv.
  - destruct t as [| | | | | | | | |fs]; try contradiction. cbn [wt to_in] in *.
    destruct (find_field i fs) as [f|] eqn:Ef; [|contradiction]. destruct Hi as [Hi1 Hi2], Ho as [Ho1 Ho2].
    rewrite (IHp _ Hi1 Ho1). f_equal. destruct fb as [v'|].
    + destruct Hi2 as [Hr Hi2], Ho2 as [_ Ho2]. cbn [optP] in IHfb. destruct (f_rule f); try discriminate Hr. f_equal. now apply (IHfb (TChoice fs)).
    + destruct (f_rule f); reflexivity.
Qed.

Lemma symmetric_wt v : forall t, symmetric t -> wt DIn v t -> wt DOut v t.
Proof.
  induction v as [|x|n|z|x|bs|s|n|vs IH|ovs IH|i p fb IHp IHfb] using val_ind'; intros t Hs Hi; try (destruct t; exact Hi).
  - destruct t; try contradiction. cbn [wt symmetric] in *. destruct Hi as [Hu Hi]. split; [exact Hu|].
    apply allP_Forall in Hi. apply allP_Forall. induction IH as [|v vs Hv _ IHw]; [constructor|]. inversion Hi; subst. constructor; auto.
  - destruct t as [| | | | | | | |fs|]; try contradiction. cbn [wt symmetric] in *.
    revert fs Hs Hi. induction IH as [|ov ovs Hv _ IHw]; intros [|f fs] Hs Hi; try contradiction; [exact I|].
    destruct Hi as [Hi1 Hi2], Hs as [[Hr Hs1] Hs2]. split; [|now apply IHw].
    destruct ov as [v|]; [cbn [optP] in Hv; now apply Hv|]. destruct (f_rule f); [now contradiction Hr|reflexivity|discriminate Hi1].
  - destruct t as [| | | | | | | | |fs]; try contradiction. pose proof Hs as Hs0. cbn [wt symmetric] in *.
    destruct (find_field i fs) as [f|] eqn:Ef; [|contradiction]. destruct Hi as [Hi1 Hi2].
    apply find_field_in in Ef as [Hin _]. apply allP_Forall in Hs. rewrite Forall_forall in Hs. destruct (Hs f Hin) as [Hr Hs1].
    split; [now apply IHp|]. destruct fb as [v'|].
    + destruct Hi2 as [Hf Hi2]. split; [destruct (f_rule f); try discriminate Hf; reflexivity|]. cbn [optP] in IHfb. now apply (IHfb (TChoice fs)).
    + destruct (f_rule f); [now contradiction Hr|discriminate Hi2|reflexivity].
Qed.
