(** C89: a concrete chain of relays, Rust first, then TypeScript, then Rust. *)
From Verif Require Import RelayFacts Properties27 Properties28 Examples25 Examples1.

(** The bytes of [Examples25.v] (a header of another form, a field twice, an unknown field in between) reach a relay in Rust. *)
Definition relay_sent : bytes := match serialize relay_value2 relay_type with Some bs => bs | None => [] end.
Lemma relay_bytes2_ok : bytes_ok relay_bytes2.
Proof. unfold bytes_ok, byte_ok. cbn. repeat (apply Forall_cons; [lia|]). apply Forall_nil. Qed.
Example chain_starts : relay relay_type relay_bytes2 relay_value2 relay_sent /\ relay_sent <> relay_bytes2.
Proof. split; [apply relay_rust with (rest := []); vm_compute; reflexivity|vm_compute; discriminate]. Qed.
Example chain_hypotheses : wt DOut relay_value2 relay_type /\ ts_faithful relay_value2 /\ js_exact relay_value2 /\ size relay_value2 relay_type < 2 ^ 53.
Proof.
  split; [|split; [cbn; tauto|split; [cbn; tauto|vm_compute; reflexivity]]].

  destruct (symmetric_messages_can_be_forwarded isize_max relay_type relay_bytes2 relay_value2 [] (proj1 relay_wf) (proj2 relay_wf) relay_bytes2_ok
    ltac:(vm_compute; reflexivity) relay_reads) as [H _]. exact H.
Qed.
Example chain_goes_on : relays relay_type relay_sent [relay_value2; relay_value2] relay_sent.
Proof.
  apply relays_more with (bs1 := relay_sent); [apply relay_ts; vm_compute; reflexivity|].
  apply relays_more with (bs1 := relay_sent); [apply relay_rust with (rest := []); vm_compute; reflexivity|]. apply relays_none.
Qed.
Example chain_ends : (exists v', deserialize isize_max relay_type relay_sent = Ok v' [] /\ (v' = relay_value2 \/ same_but_nans relay_value2 v')) /\
  (exists v', ts_deserialize relay_type (whole relay_sent) = TsMessage v' /\ same_but_nans relay_value2 v').
Proof.
  destruct chain_hypotheses as (H1 & H2 & _ & H3). destruct chain_starts as [R _].
  exact (proj2 (relayed_messages_are_unchanged relay_type relay_bytes2 relay_value2 relay_sent _ _ (proj1 relay_wf) relay_bytes2_ok R H1 H2 H3 chain_goes_on)).
Qed.
(** TypeScript first: it sees the other occurrence of the repeated field, and what it saw is what everyone else sees. *)
Definition ts_first_type : ty := TStruct [mkF 0 Required TU64; mkF 1 Optional TF64].
Definition ts_first_bytes : bytes :=
  spec_header 0 1 true ++ spec_varint 1 ++ spec_header 0 1 true ++ spec_varint 2 ++ spec_header 1 8 true ++ le_bytes 8 9221120237041090561.
Definition ts_first_sent : bytes := match ts_deserialize ts_first_type (whole ts_first_bytes) with
  | TsMessage v => match ts_serialize v ts_first_type with JOk bs => bs | _ => [] end | _ => [] end.
Example ts_first : exists v, relay ts_first_type ts_first_bytes v ts_first_sent /\
  deserialize isize_max ts_first_type ts_first_sent = Ok (VStruct [Some (VU64 2); Some (VF64 canonical_nan)]) [] /\ wt DOut v ts_first_type /\ ts_faithful v.
Proof.
  destruct (ts_deserialize ts_first_type (whole ts_first_bytes)) as [v| |] eqn:E; [|vm_compute in E; discriminate E..].
  exists v. assert (E0 := E). vm_compute in E0. injection E0 as E0. split; [|split; [vm_compute; reflexivity|]].
  - apply relay_ts; [exact E|]. unfold ts_first_sent. rewrite E. rewrite <- E0. vm_compute. reflexivity.
  - rewrite <- E0. unfold ts_first_type. split; [|cbn; tauto]. wtt.
Qed.
