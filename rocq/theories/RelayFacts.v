(** Chains of relays in both languages. *)
From Verif Require Export ForwardFacts TsTop.
From Coq Require Import Lia.

(** A relay reads a message from the bytes it receives and writes it again, with the Rust code or with the TypeScript code
    generated for the type. [relay t bs v bs']: it received [bs], saw the message [v], and sent [bs']. *)
Inductive relay (t : ty) (bs : bytes) (v : val) (bs' : bytes) : Prop :=
| relay_rust rest : deserialize isize_max t bs = Ok v rest -> serialize v t = Some bs' -> relay t bs v bs'
| relay_ts : ts_deserialize t (whole bs) = TsMessage v -> ts_serialize v t = JOk bs' -> relay t bs v bs'.
(** Any number of relays in a row; the list has the message each of them saw. *)
Inductive relays (t : ty) : bytes -> list val -> bytes -> Prop :=
| relays_none bs : relays t bs [] bs
| relays_more bs v bs1 vs bs2 : relay t bs v bs1 -> relays t bs1 vs bs2 -> relays t bs (v :: vs) bs2.

(** The message [x] can be sent and read by both. *)
Record travels (t : ty) (x : val) : Prop := {
  tr_out : wt DOut x t; tr_in : wt DIn x t; tr_faithful : ts_faithful x; tr_size : size x t < 2 ^ 53
}.
Lemma travels_js t x : ty_wf t -> travels t x -> travels t (js_val x).
Proof.
  intros Ht [H1 H2 H3 H4]. pose proof (js_val_wt DOut x t H1) as H5. constructor.
  - exact H5.
  - now apply js_val_wt.
  - now apply js_faithful.
  - rewrite size_exact in * by assumption. now rewrite js_val_len.
Qed.
Lemma ts_small v t : size v t < 2 ^ 53 -> size v t < 2 ^ 60 /\ size v t < two64.
Proof. unfold two64. lia. Qed.
(** What both readers make of the bytes of [x]. *)
Lemma travels_bytes t x : ty_wf t -> travels t x -> exists bs, serialize x t = Some bs /\ bytes_ok bs /\
  deserialize isize_max t bs = Ok x [] /\ ts_deserialize t (whole bs) = TsMessage (js_val x).
Proof.
  intros Ht [H1 H2 H3 H4]. destruct (ts_small x t H4) as [H5 H6].
  pose proof (serialize_spec x t H1 Ht H6) as E. exists (spec_encode true x t). split; [exact E|].
  assert (bytes_ok (spec_encode true x t)) as Hb by (apply spec_encode_ok; auto; rewrite <- size_exact by assumption; exact H6).
  split; [exact Hb|]. split.
  - pose proof (roundtrip60 x t _ H1 Ht H5 E) as H. now rewrite (to_in_same x t H2 H1) in H.
  - pose proof (ts_reads_rust x t t [] (spec_encode true x t) [] H1 Ht Ht (safe_compat t t Ht Ht (safe_refl t Ht)) H3 H4 E ltac:(constructor) ltac:(constructor)) as H.
    rewrite app_nil_r in H. rewrite (migrate_self x t H1 Ht), (to_in_same x t H2 H1) in H. exact H.
Qed.
(** A relay that receives the bytes of [x]. *)
Lemma relay_step t x bs y bs' : ty_wf t -> travels t x -> serialize x t = Some bs -> relay t bs y bs' ->
  (y = x \/ y = js_val x) /\ serialize y t = Some bs'.
Proof.
  intros Ht Hx E R. destruct (travels_bytes t x Ht Hx) as (bs0 & E0 & _ & Er & Et). rewrite E in E0. injection E0 as <-.
  destruct R as [rest D S|D S].
  - rewrite Er in D. injection D as <- <-. auto.
  - rewrite Et in D. injection D as <-. split; [now right|].
    destruct (ts_fills_buffer (js_val x) t) as (b & _ & E2 & _ & _ & E3).
    + apply (travels_js t x Ht Hx).
    + exact Ht.
    + apply (travels_js t x Ht Hx).
    + rewrite S in E2. injection E2 as <-. now rewrite js_val_idem in E3.
Qed.
Lemma relays_steps t bs ys bs' : ty_wf t -> relays t bs ys bs' -> forall x, travels t x -> serialize x t = Some bs ->
  Forall (fun y => y = x \/ y = js_val x) ys /\ (serialize x t = Some bs' \/ serialize (js_val x) t = Some bs').
Proof.
  intros Ht R. induction R as [bs|bs v bs1 vs bs2 R1 R2 IH]; intros x Hx E; [split; auto|].
  destruct (relay_step t x bs v bs1 Ht Hx E R1) as [[->| ->] E1].
  - destruct (IH x Hx E1) as [H1 H2]. split; [|exact H2]. constructor; auto.
  - destruct (IH (js_val x) (travels_js t x Ht Hx) E1) as [H1 H2]. rewrite js_val_idem in *. split; [|right; tauto].
    constructor; [now right|]. eapply Forall_impl; [|exact H1]. cbn. tauto.
Qed.
(** What the first relay saw, whatever it received, and what it sent. *)
Lemma relay_first t bs v bs1 : ty_wf t -> bytes_ok bs -> relay t bs v bs1 -> wt DOut v t -> ts_faithful v -> size v t < 2 ^ 53 ->
  travels t v /\ (serialize v t = Some bs1 \/ serialize (js_val v) t = Some bs1).
Proof.
  intros Ht Hb R Hw Hf Hs. destruct R as [rest D S|D S].
  - split; [|now left]. constructor; auto. exact (deserialized_typed isize_max t bs v rest Ht Hb D).
  - split.
    + constructor; auto. apply (ts_deserialized_typed t (whole bs) v Ht); [|exact D]. split; [cbn; lia|exact Hb].
    + right. destruct (ts_fills_buffer v t Hw Ht Hs) as (b & _ & E2 & _ & _ & E3). rewrite S in E2. now injection E2 as <-.
Qed.
