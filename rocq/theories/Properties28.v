(** Property theorems: C89. See MANIFEST.json. *)
From Verif Require Import RelayFacts TsSpec Examples1.

(** C89: whatever the first relay of a chain received, once it has seen the message [v] and sent it on, every later relay and the
    reader at the end see [v], in whichever languages they are written, but that JavaScript may make NaNs canonical. *)
Theorem relayed_messages_are_unchanged : forall t bs v bs1 vs bs2, ty_wf t -> bytes_ok bs ->
  relay t bs v bs1 -> wt DOut v t -> ts_faithful v -> size v t < 2 ^ 53 -> relays t bs1 vs bs2 ->
  Forall (fun v' => v' = v \/ same_but_nans v v') vs /\
  (exists v', deserialize isize_max t bs2 = Ok v' [] /\ (v' = v \/ same_but_nans v v')) /\
  (exists v', ts_deserialize t (whole bs2) = TsMessage v' /\ same_but_nans v v').
Proof.
  intros t bs v bs1 vs bs2 Ht Hb R Hw Hf Hs Rs. destruct (relay_first t bs v bs1 Ht Hb R Hw Hf Hs) as [Hv E].
  pose proof (only_nans v) as Hn. pose proof (travels_js t v Ht Hv) as Hj.
  assert (Forall (fun y => y = v \/ y = js_val v) vs /\ (serialize v t = Some bs2 \/ serialize (js_val v) t = Some bs2)) as [H1 H2].
  { destruct E as [E|E]; [exact (relays_steps t bs1 vs bs2 Ht Rs v Hv E)|].
    destruct (relays_steps t bs1 vs bs2 Ht Rs (js_val v) Hj E) as [K1 K2]. rewrite js_val_idem in *. split; [|tauto].
    eapply Forall_impl; [|exact K1]. cbn. tauto. }
  split; [eapply Forall_impl; [|exact H1]; cbn; intros y [->| ->]; auto|].
  destruct H2 as [H2|H2].
  - destruct (travels_bytes t v Ht Hv) as (b & E2 & _ & Er & Et). rewrite H2 in E2. injection E2 as <-. split; eauto.
  - destruct (travels_bytes t (js_val v) Ht Hj) as (b & E2 & _ & Er & Et). rewrite H2 in E2. injection E2 as <-. rewrite js_val_idem in Et. split; eauto.
Qed.
Print Assumptions relayed_messages_are_unchanged.
(** Without NaNs other than the canonical one, it is the same message everywhere, and no relay changes a byte of what the first
    one sent. *)
Theorem relayed_bytes_are_unchanged : forall t bs v bs1 vs bs2, ty_wf t -> bytes_ok bs ->
  relay t bs v bs1 -> wt DOut v t -> ts_faithful v -> js_exact v -> size v t < 2 ^ 53 -> relays t bs1 vs bs2 ->
  Forall (fun v' => v' = v) vs /\ bs2 = bs1.
Proof.
  intros t bs v bs1 vs bs2 Ht Hb R Hw Hf He Hs Rs. destruct (relay_first t bs v bs1 Ht Hb R Hw Hf Hs) as [Hv E].
  pose proof (js_exact_same v He) as Hj. rewrite Hj in E. assert (serialize v t = Some bs1) as E1 by tauto.
  destruct (relays_steps t bs1 vs bs2 Ht Rs v Hv E1) as [K1 K2]. rewrite Hj in *. split.
  - eapply Forall_impl; [|exact K1]. cbn. tauto.
  - rewrite E1 in K2. destruct K2 as [K2|K2]; congruence.
Qed.
Print Assumptions relayed_bytes_are_unchanged.
(** No relay of the chain fails: whatever language the next one is written in, it can read what it gets and write it again. *)
Theorem relays_never_fail : forall t bs v bs1 vs bs2, ty_wf t -> bytes_ok bs ->
  relay t bs v bs1 -> wt DOut v t -> ts_faithful v -> size v t < 2 ^ 53 -> relays t bs1 vs bs2 ->
  (exists v' bs3, deserialize isize_max t bs2 = Ok v' [] /\ serialize v' t = Some bs3) /\
  (exists v' bs3, ts_deserialize t (whole bs2) = TsMessage v' /\ ts_serialize v' t = JOk bs3).
Proof.
  intros t bs v bs1 vs bs2 Ht Hb R Hw Hf Hs Rs. destruct (relay_first t bs v bs1 Ht Hb R Hw Hf Hs) as [Hv E].
  assert (exists x, travels t x /\ serialize x t = Some bs2) as (x & Hx & Ex).
  { destruct E as [E|E].
    - destruct (relays_steps t bs1 vs bs2 Ht Rs v Hv E) as [_ [K|K]]; eauto using travels_js.
    - pose proof (travels_js t v Ht Hv) as Hj. destruct (relays_steps t bs1 vs bs2 Ht Rs (js_val v) Hj E) as [_ [K|K]]; eauto using travels_js. }
  destruct (travels_bytes t x Ht Hx) as (b & E2 & _ & Er & Et). rewrite Ex in E2. injection E2 as <-. split; [eauto|].
  pose proof (travels_js t x Ht Hx) as Hj. destruct (ts_fills_buffer (js_val x) t (tr_out _ _ Hj) Ht (tr_size _ _ Hj)) as (b & _ & E3 & _). eauto.
Qed.
Print Assumptions relays_never_fail.
(** If no field of the type is asymmetric, whatever TypeScript has read it can also write. *)
Theorem ts_messages_can_be_forwarded : forall t w v, ty_wf t -> symmetric t -> view_ok w ->
  ts_deserialize t w = TsMessage v -> wt DOut v t /\ (size v t < 2 ^ 53 -> exists bs', ts_serialize v t = JOk bs').
Proof.
  intros t w v Ht Hsym Hw D. pose proof (symmetric_wt v t Hsym (ts_deserialized_typed t w v Ht Hw D)) as Ho. split; [exact Ho|].
  intros Hs. destruct (ts_fills_buffer v t Ho Ht Hs) as (b & _ & E & _). eauto.
Qed.
Print Assumptions ts_messages_can_be_forwarded.
(** The condition on strings is needed: of the U+FEFF a string starts with, each relay in TypeScript loses one. *)
Theorem relayed_strings_are_unchanged_refuted :
  ~ (forall t bs v bs1 vs bs2, ty_wf t -> bytes_ok bs -> relay t bs v bs1 -> wt DOut v t -> js_exact v -> size v t < 2 ^ 53 ->
       relays t bs1 vs bs2 -> bs2 = bs1).
Proof.
  intros H. set (t := TStruct [mkF 0 Required TString]).
  set (b3 := spec_encode true (VStruct [Some (VString [65279; 65279; 65])]) t).
  set (b1 := spec_encode true (VStruct [Some (VString [65279; 65])]) t).
  specialize (H t b3 (VStruct [Some (VString [65279; 65279; 65])]) b3 [VStruct [Some (VString [65279; 65])]] b1).
  assert (b1 = b3) as E.
  { apply H.
    - unfold t. wf.
    - vm_compute. repeat constructor.
    - apply relay_rust with (rest := []); vm_compute; reflexivity.
    - cbn. split; [|exact I]. constructor; [right; lia|constructor; [right; lia|constructor; [left; lia|constructor]]].
    - cbn. auto.
    - vm_compute. reflexivity.
    - apply relays_more with (bs1 := b1); [|constructor]. apply relay_ts; vm_compute; reflexivity. }
  vm_compute in E. discriminate E.
Qed.
Print Assumptions relayed_strings_are_unchanged_refuted.
