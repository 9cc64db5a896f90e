(** Property theorems C15-C24. Each is closed by an [exact]; see MANIFEST.json. *)
From Verif Require Import TruncFacts2 Examples1.

(** C15: [u] is any complete field (typed or raw) whose index the reader does not know; [its1] are
    complete fields before it; [rest] is anything at all. *)
Theorem unknown_fields_are_ignored : forall gs its1 u rest, ty_wf (TStruct gs) ->
  Forall (item_ok gs) its1 -> item_ok gs u -> find_field (item_index u) gs = None ->
  bytes_ok rest -> lenN (flat_map item_bytes its1 ++ item_bytes u) < 2 ^ 60 ->
  deserialize isize_max (TStruct gs) (flat_map item_bytes its1 ++ item_bytes u ++ rest)
    = deserialize isize_max (TStruct gs) (flat_map item_bytes its1 ++ rest).
Proof. exact unknown_ignored60. Qed.
Print Assumptions unknown_fields_are_ignored.

(** C16: a message made of complete fields is rejected exactly when a required field is missing;
    otherwise every field gets the value of its first occurrence, or nothing. *)
Theorem required_fields_enforced : forall gs its, ty_wf (TStruct gs) -> Forall (item_ok gs) its ->
  lenN (flat_map item_bytes its) < 2 ^ 60 ->
  ((exists g, In g gs /\ f_rule g = Required /\ forall it, In it its -> item_index it <> f_index g) /\
   deserialize isize_max (TStruct gs) (flat_map item_bytes its) = Err InvalidData) \/
  (~ (exists g, In g gs /\ f_rule g = Required /\ forall it, In it its -> item_index it <> f_index g) /\
   deserialize isize_max (TStruct gs) (flat_map item_bytes its)
     = Ok (VStruct (map (fun g => first_value gs its (f_index g)) gs)) []).
Proof. exact struct_items60. Qed.
Print Assumptions required_fields_enforced.

(** C17 *)
Theorem choice_uses_first_recognised_field : forall gs its f v g rest, ty_wf (TChoice gs) ->
  (forall it, In it its -> item_ok gs it /\ find_field (item_index it) gs = None) ->
  item_ok gs (IField f v) -> find_field (f_index f) gs = Some g -> bytes_ok rest ->
  lenN (flat_map item_bytes its ++ item_bytes (IField f v)) < 2 ^ 60 ->
  deserialize isize_max (TChoice gs) (flat_map item_bytes its ++ item_bytes (IField f v) ++ rest) =
    match f_rule g with
    | Optional => bindr (deserialize isize_max (TChoice gs) rest)
                    (fun fb rest2 => Ok (VChoice (f_index f) (migrate v (f_type f) (f_type g)) (Some fb)) rest2)
    | _ => Ok (VChoice (f_index f) (migrate v (f_type f) (f_type g)) None) []
    end.
Proof. exact choice_reads60. Qed.
Print Assumptions choice_uses_first_recognised_field.
Theorem choice_without_recognised_field_fails : forall gs its, ty_wf (TChoice gs) ->
  (forall it, In it its -> item_ok gs it /\ find_field (item_index it) gs = None) ->
  lenN (flat_map item_bytes its) < two64 ->
  deserialize isize_max (TChoice gs) (flat_map item_bytes its) = Err EOF.
Proof. exact choice_none60. Qed.
Print Assumptions choice_without_recognised_field_fails.
(** The fallback chain of any outgoing choice message ends in a required case (README 617). *)
Theorem fallback_chain_ends_in_required_case : forall fs v, wt DOut v (TChoice fs) ->
  exists f, find_field (last_case v) fs = Some f /\ f_rule f = Required.
Proof. exact last_case_required. Qed.
Print Assumptions fallback_chain_ends_in_required_case.

(** C18 *)
Theorem deserialized_messages_are_well_typed : forall lim t bs v rest, ty_wf t -> bytes_ok bs ->
  deserialize lim t bs = Ok v rest -> wt DIn v t.
Proof. exact deserialized_typed. Qed.
Print Assumptions deserialized_messages_are_well_typed.

(** C19: [sz] is the declared size; the source goes on after it ([RTake] is [Read::take]). At most [sz]
    bytes are consumed, and nothing after them influences the outcome. *)
Theorem decoding_stays_within_declared_size : forall lim t isf sz chunks fuel v r, ty_wf t ->
  chunks_ok chunks -> (length (concat chunks) < fuel)%nat ->
  cdecode fuel lim t isf sz (RTake sz (RBase chunks)) = COk v r ->
  exists k chunks', k <= sz /\ r = RTake (sz - k) (RBase chunks') /\
    concat chunks' = dropN k (concat chunks).
Proof. exact confined_position. Qed.
Print Assumptions decoding_stays_within_declared_size.
Theorem decoding_depends_only_on_declared_bytes : forall lim t isf sz c1 c2 fuel, ty_wf t ->
  chunks_ok c1 -> chunks_ok c2 -> takeN sz (concat c1) = takeN sz (concat c2) ->
  (length (concat c1) < fuel)%nat -> (length (concat c2) < fuel)%nat ->
  outcome_of (cdecode fuel lim t isf sz (RTake sz (RBase c1)))
  = outcome_of (cdecode fuel lim t isf sz (RTake sz (RBase c2))).
Proof. exact confined_value. Qed.
Print Assumptions decoding_depends_only_on_declared_bytes.
Theorem decoding_leaves_a_suffix : forall lim t isf psz bs v rest, ty_wf t -> bytes_ok bs ->
  decode lim t isf psz bs = Ok v rest -> exists used, bs = used ++ rest.
Proof. exact decoded_suffix. Qed.
Print Assumptions decoding_leaves_a_suffix.

(** C20 *)
Theorem panic_exactly_on_oversized_allocation : forall lim t bs, ty_wf t -> bytes_ok bs ->
  deserialize lim t bs = Panic <->
  exists t' isf' psz' bs', visits lim t true (lenN bs) bs t' isf' psz' bs' /\ oversized lim t' psz'.
Proof. exact panic_iff. Qed.
Print Assumptions panic_exactly_on_oversized_allocation.
Theorem panic_only_if_input_declares_huge_size : forall t bs, user_defined t -> ty_wf t ->
  bytes_ok bs -> lenN bs < 2 ^ 60 -> deserialize isize_max t bs = Panic ->
  exists pre n rest, bs = pre ++ spec_varint n ++ rest /\ 2 ^ 60 <= n.
Proof. exact panic_needs_huge_size. Qed.
Print Assumptions panic_only_if_input_declares_huge_size.
Theorem deserialize_never_panics_refuted : exists t bs, user_defined t /\ ty_wf t /\ bytes_ok bs /\
  lenN bs = 10 /\ deserialize isize_max t bs = Panic.
Proof.
  exists (TStruct [mkF 0 Required TBytes]), (spec_varint 3 ++ spec_varint 18446744073709551615).
  split; [exact I|]. split; [wf|]. split; [|split; vm_compute; reflexivity].
  vm_compute. repeat constructor.
Qed.
Print Assumptions deserialize_never_panics_refuted.

(** C21 *)
Theorem diverges_exactly_on_truncated_unknown_field : forall lim t bs, ty_wf t -> bytes_ok bs ->
  deserialize lim t bs = Diverge <->
  exists t' isf' psz' bs', visits lim t true (lenN bs) bs t' isf' psz' bs' /\ truncated_unknown t' bs'.
Proof. exact diverge_iff. Qed.
Print Assumptions diverges_exactly_on_truncated_unknown_field.
(** [Diverge] means that the loops of the code over a real reader never end. *)
Theorem diverges_means_no_fuel_suffices : forall lim t chunks, ty_wf t -> chunks_ok chunks ->
  deserialize lim t (concat chunks) = Diverge <->
  forall fuel, (length (concat chunks) < fuel)%nat -> cdeserialize fuel lim t chunks = COutOfFuel.
Proof. exact chunked_diverges. Qed.
Print Assumptions diverges_means_no_fuel_suffices.
Theorem deserialize_always_terminates_refuted : exists t bs, user_defined t /\ ty_wf t /\
  bytes_ok bs /\ lenN bs = 1 /\ deserialize isize_max t bs = Diverge.
Proof.
  exists (TStruct []), [3]. split; [exact I|]. split; [wf|]. split; [|split; vm_compute; reflexivity].
  repeat constructor.
Qed.
Print Assumptions deserialize_always_terminates_refuted.

(** C22: what cutting a message of complete fields does, by the place of the cut. *)
Theorem cut_in_header_drops_the_field : forall gs its i sz ie p, ty_wf (TStruct gs) ->
  Forall (item_ok gs) its -> i <= max_index -> sz < two64 -> cut_header i sz ie p ->
  lenN (flat_map item_bytes its) < 2 ^ 60 ->
  deserialize isize_max (TStruct gs) (flat_map item_bytes its ++ p)
    = deserialize isize_max (TStruct gs) (flat_map item_bytes its).
Proof. exact struct_cut_header60. Qed.
Print Assumptions cut_in_header_drops_the_field.
Theorem cut_in_number_is_rejected : forall gs its f v g p q, ty_wf (TStruct gs) ->
  Forall (item_ok gs) its -> item_ok gs (IField f v) -> find_field (f_index f) gs = Some g ->
  (f_type f = TF64 \/ f_type f = TU64 \/ f_type f = TS64 \/ f_type f = TBool) ->
  p <> [] -> q <> [] -> spec_encode true v (f_type f) = p ++ q ->
  lenN (flat_map item_bytes its ++ item_bytes (IField f v)) < 2 ^ 60 ->
  deserialize isize_max (TStruct gs) (flat_map item_bytes its ++
     spec_header (f_index f) (lenN (p ++ q)) (integer_encoded (f_type f)) ++ p) = Err EOF.
Proof. exact struct_cut_number60. Qed.
Print Assumptions cut_in_number_is_rejected.
Theorem cut_in_bytes_shortens_the_field : forall gs its f g p q, ty_wf (TStruct gs) ->
  Forall (item_ok gs) its -> item_ok gs (IField f (VBytes (p ++ q))) ->
  find_field (f_index f) gs = Some g -> f_type f = TBytes ->
  lenN (flat_map item_bytes its ++ item_bytes (IField f (VBytes (p ++ q)))) < 2 ^ 60 ->
  deserialize isize_max (TStruct gs)
    (flat_map item_bytes its ++ spec_header (f_index f) (lenN (p ++ q)) false ++ p)
  = deserialize isize_max (TStruct gs) (flat_map item_bytes its ++ item_bytes (IField f (VBytes p))).
Proof. exact struct_cut_bytes60. Qed.
Print Assumptions cut_in_bytes_shortens_the_field.
Theorem cut_in_unknown_field_diverges : forall gs its i ie p q, ty_wf (TStruct gs) ->
  Forall (item_ok gs) its -> item_ok gs (IRaw i ie (p ++ q)) -> q <> [] -> (ie = true -> p <> []) ->
  lenN (flat_map item_bytes its ++ item_bytes (IRaw i ie (p ++ q))) < 2 ^ 60 ->
  deserialize isize_max (TStruct gs)
    (flat_map item_bytes its ++ spec_header i (lenN (p ++ q)) ie ++ p) = Diverge.
Proof. exact struct_cut_unknown60. Qed.
Print Assumptions cut_in_unknown_field_diverges.
Theorem choice_cut_in_header_is_rejected : forall gs its i sz ie p, ty_wf (TChoice gs) ->
  (forall it, In it its -> item_ok gs it /\ find_field (item_index it) gs = None) ->
  i <= max_index -> sz < two64 -> cut_header i sz ie p -> lenN (flat_map item_bytes its) < two64 ->
  deserialize isize_max (TChoice gs) (flat_map item_bytes its ++ p) = Err EOF.
Proof. exact choice_cut_header60. Qed.
Print Assumptions choice_cut_in_header_is_rejected.
Theorem truncated_messages_rejected_refuted : exists t v bs p q v', ty_wf t /\ wt DOut v t /\
  serialize v t = Some bs /\ bs = p ++ q /\ q <> [] /\ deserialize isize_max t p = Ok v' [] /\
  v' <> to_in v t.
Proof.
  exists (TStruct [mkF 0 Required TBytes]), (VStruct [Some (VBytes [1; 2; 3])]), [7; 7; 1; 2; 3],
    [7; 7; 1; 2], [3], (VStruct [Some (VBytes [1; 2])]).
  split; [wf|]. split; [wtt|]. repeat split; try discriminate; vm_compute; reflexivity.
Qed.
Print Assumptions truncated_messages_rejected_refuted.

(** C23: the code with its buffered reader, on any division of the input into (non-empty) buffers,
    does what the byte-string model does. *)
Theorem chunked_reading_agrees : forall lim t chunks fuel, ty_wf t -> chunks_ok chunks ->
  (length (concat chunks) < fuel)%nat ->
  outcome_of (cdeserialize fuel lim t chunks) = outcome_of_res (deserialize lim t (concat chunks)).
Proof. exact chunked_outcome. Qed.
Print Assumptions chunked_reading_agrees.
Theorem chunking_does_not_matter : forall lim t c1 c2 fuel, ty_wf t -> chunks_ok c1 -> chunks_ok c2 ->
  concat c1 = concat c2 -> (length (concat c1) < fuel)%nat ->
  outcome_of (cdeserialize fuel lim t c1) = outcome_of (cdeserialize fuel lim t c2).
Proof. exact chunking_irrelevant. Qed.
Print Assumptions chunking_does_not_matter.

(** C24: for every writer (any state, any sequence of short writes, interruptions and failures) the
    bytes accepted are a prefix of the encoding, and [serialize] succeeds exactly when they are all of
    it. *)
Theorem failing_writer_leaves_a_prefix : forall (W : Type) (w : writer W) v t bs fuel st,
  serialize v t = Some bs ->
  let '(s, _, out) := serialize_to w fuel st v t in
  s <> WPanicked /\ (exists missing, bs = out ++ missing) /\ (s = WOk <-> out = bs).
Proof. exact (fun W w v t bs fuel st => serialize_to_spec w v t bs fuel st). Qed.
Print Assumptions failing_writer_leaves_a_prefix.
Theorem serialize_returns_unless_interrupted_forever : forall (W : Type) (w : writer W) v t bs fuel st,
  never_interrupts w -> serialize v t = Some bs -> (length bs <= fuel)%nat ->
  fst (fst (serialize_to w fuel st v t)) <> WRunning.
Proof. exact (fun W w v t bs fuel st => serialize_to_ends w v t bs fuel st). Qed.
Print Assumptions serialize_returns_unless_interrupted_forever.
Theorem writer_with_capacity : forall v t bs fuel k, serialize v t = Some bs ->
  (length bs <= fuel)%nat ->
  exists k', serialize_to capacity_writer fuel k v t =
    (if lenN bs <=? k then WOk else WFailed, k', takeN k bs).
Proof. exact capacity_serialize. Qed.
Print Assumptions writer_with_capacity.
