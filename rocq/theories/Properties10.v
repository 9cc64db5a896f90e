(** Property theorems about generated Rust programs: C60 to C65. See MANIFEST.json. [u] stands for Rust's Unicode tables,
    [w] for how the writer behaves, [rounds] and [depth] for how often loops are run and how deep calls are nested before
    the interpreter gives up, [lim] for the largest allocation, [wraps] for whether overflows wrap around. *)
From Verif Require Import Spec PrimExtra IdentFacts BaseFacts TruncFacts2 EvolutionFacts3 TreeFacts RustDeserFacts RustTypesFacts RustTop Properties1 Properties2 Properties7.

Lemma module_at_depth u path : forall m ind ns children items, find_module path (gen_module u ind ns m) = Some (RMod children items) ->
  exists ns' s', items = flat_map (gen_decl u ns' s' (ind + length path)) (ss_decls s').
Proof.
  induction path as [|x path IH]; intros [cs s] ind ns children items H; cbn [gen_module find_module length] in H.
  - injection H as _ <-. exists ns, s. now rewrite Nat.add_0_r.
  - destruct (lookup x _) as [m'|] eqn:L; [|discriminate].
    assert (exists c, m' = gen_module u (S ind) (ns ++ [fst c]) (snd c)) as (c & ->).
    { clear H. induction cs as [|c cs IHc]; cbn [map lookup] in L; [discriminate|]. destruct (str_eqb x _); [|auto]. injection L as <-. eauto. }
    apply IH in H. destruct H as (ns' & s' & ->). exists ns', s'. cbn [length]. now replace (ind + S (length path))%nat with (S ind + length path)%nat by lia.
Qed.
Lemma supers_resolve prog item : forall here, resolve prog here (repeat (txt "super") (length here) ++ [item]) = Some ([], item).
Proof.
  intros here. induction here as [|x here IH] using rev_ind; [reflexivity|]. rewrite app_length, Nat.add_comm. cbn [length Nat.add repeat app].
  destruct (repeat _ _ ++ [item]) as [|y r] eqn:R; [destruct here; discriminate|]. cbn [resolve]. rewrite str_eqb_refl, removelast_last.
  destruct (here ++ [x]) eqn:Q; [destruct here; discriminate|]. exact IH.
Qed.
(** C57: the traits that are implemented are those at the top of the file. *)
Theorem rust_trait_paths_resolve : forall u schemas here children items p type fns,
  let prog := rust_program u schemas in
  find_module here prog = Some (RMod children items) -> In (IImpl (Some (TyPath p)) type fns) items ->
  exists trait, In trait [txt "Serialize"; txt "Deserialize"] /\ resolve prog here p = Some ([], trait).
Proof.
  intros u schemas here children items p type fns prog H Hin. apply module_at_depth in H as (ns & s & ->). cbn [Nat.add] in Hin.
  apply in_flat_map in Hin as (d & _ & Hin).
  assert (p = repeat (txt "super") (length here) ++ [txt "Serialize"] \/ p = repeat (txt "super") (length here) ++ [txt "Deserialize"]) as [-> | ->].
  { unfold gen_decl in Hin. cbn [In] in Hin. decompose [or] Hin; clear Hin; try contradiction; try discriminate;
      try (match goal with H : _ = IImpl _ _ _ |- _ => injection H as <- _ _; auto end);
      unfold gen_struct, gen_choice in *; destruct (sd_kind d); discriminate. }
  - exists (txt "Serialize"). split; [now left|]. apply supers_resolve.
  - exists (txt "Deserialize"). split; [now right; left|]. apply supers_resolve.
Qed.
Print Assumptions rust_trait_paths_resolve.

(** C60: every accepted schema becomes a program, ... *)
Theorem generation_never_panics : forall u schemas version, loaded schemas -> validate schemas = VOk ->
  Forall (fun e => text_namespace (fst e)) schemas -> exists code, rust_code u version schemas = Some code.
Proof. intros u schemas version Hl Hv. apply text_generates; [exact Hl|]. exact (proj1 (validation_is_sound _ Hl Hv)). Qed.
Print Assumptions generation_never_panics.
(** ... each declaration stands for one tree of names, and without names that is the type it denotes; ... *)
Theorem each_declaration_has_one_tree : forall u schemas ns s d, accepted u schemas -> declared schemas ns s d ->
  exists nt, decl_named schemas ns s d nt /\ decl_denotes schemas ns s d (erase nt) /\
    forall nt', decl_named schemas ns s d nt' -> nt' = nt.
Proof.
  intros u schemas ns s d [Hu Hl Hv Hn] Hd. pose proof (proj1 (validation_is_sound _ Hl Hv)) as HV.
  destruct (validated_types_are_finite_trees schemas ns s d Hl Hv Hd) as (T & HT & _). destruct (decl_denotes_named schemas _ _ _ _ HT) as (nt & H & <-).
  exists nt. split; [exact H|]. split; [exact HT|]. intros nt'. now apply decl_named_unique.
Qed.
Print Assumptions each_declaration_has_one_tree.
(** ... and [size] returns the length of the documented encoding. *)
Theorem generated_size : forall (W : Type) (w : writer W) rounds lim wraps u schemas ns s d nt v depth st,
  accepted u schemas -> declared schemas ns s d -> decl_named schemas ns s d nt ->
  wt DOut v (erase nt) -> lenN (spec_encode true v (erase nt)) < two64 -> (vdepth v < depth)%nat ->
  call_size w rounds lim wraps u (rust_program u schemas) depth ns d (embed u DOut v nt) st =
    FVal (RvInt (lenN (spec_encode true v (erase nt)))) st.
Proof.
  intros W w rounds lim wraps u schemas ns s d nt v depth st [Hu Hl Hv Hn] Hd Hnt Hw Hs Hdep. pose proof (proj1 (validation_is_sound _ Hl Hv)) as HV.
  assert (ty_wf (erase nt)) as Hwf by (apply (decl_denotes_wf schemas HV ns s d); [exact Hd|now apply decl_named_denotes]).
  rewrite <- size_is_documented_length in * by assumption. now apply (top_size u Hu schemas Hl HV Hn w rounds lim wraps ns s d nt).
Qed.
Print Assumptions generated_size.

(** C61: [serialize] makes the calls of the writer that the model of C24 makes; ... *)
Theorem generated_serialize : forall (W : Type) (w : writer W) rounds lim wraps u schemas ns s d nt v depth r x,
  accepted u schemas -> declared schemas ns s d -> decl_named schemas ns s d nt ->
  wt DOut v (erase nt) -> lenN (spec_encode true v (erase nt)) < two64 -> (vdepth v < depth)%nat ->
  call_serialize w rounds lim wraps u (rust_program u schemas) depth ns d (embed u DOut v nt) (mkSt r x []) =
    serialize_outcome r (serialize_to w rounds x v (erase nt)).
Proof.
  intros W w rounds lim wraps u schemas ns s d nt v depth r x [Hu Hl Hv Hn] Hd Hnt Hw Hs Hdep. pose proof (proj1 (validation_is_sound _ Hl Hv)) as HV.
  assert (ty_wf (erase nt)) as Hwf by (apply (decl_denotes_wf schemas HV ns s d); [exact Hd|now apply decl_named_denotes]).
  rewrite <- size_is_documented_length in * by assumption. now apply (top_serialize u Hu schemas Hl HV Hn w rounds lim wraps ns s d nt).
Qed.
Print Assumptions generated_serialize.
(** ... so what is written is a prefix of the documented encoding, all of it exactly if the call succeeds, ... *)
Theorem generated_serialize_writes_documented_format : forall (W : Type) (w : writer W) rounds lim wraps u schemas ns s d nt v depth r x,
  accepted u schemas -> declared schemas ns s d -> decl_named schemas ns s d nt ->
  wt DOut v (erase nt) -> lenN (spec_encode true v (erase nt)) < two64 -> (vdepth v < depth)%nat ->
  match call_serialize w rounds lim wraps u (rust_program u schemas) depth ns d (embed u DOut v nt) (mkSt r x []) with
  | FVal y s' => (y = RvOk RvUnit /\ st_written s' = spec_encode true v (erase nt)) \/
      (y = RvErr ReWrite /\ exists missing, missing <> [] /\ spec_encode true v (erase nt) = st_written s' ++ missing)
  | FFuel => True
  | FPanic | FStuck => False
  end.
Proof.
  intros W w rounds lim wraps u schemas ns s d nt v depth r x Ha Hd Hnt Hw Hs Hdep.
  rewrite (generated_serialize W w rounds lim wraps u schemas ns s d nt v depth r x Ha Hd Hnt Hw Hs Hdep). destruct Ha as [Hu Hl Hv Hn]. pose proof (proj1 (validation_is_sound _ Hl Hv)) as HV.
  assert (ty_wf (erase nt)) as Hwf by (apply (decl_denotes_wf schemas HV ns s d); [exact Hd|now apply decl_named_denotes]).
  rewrite <- size_is_documented_length in Hs by assumption. pose proof (serialize_writes_documented_format v (erase nt) Hw Hwf Hs) as E.
  pose proof (failing_writer_leaves_a_prefix W w v (erase nt) _ rounds x E) as H. destruct (serialize_to w rounds x v (erase nt)) as [[[] y] out]; destruct H as (H1 & (missing & H2) & H3); cbn [serialize_outcome st_written].
  - left. split; [reflexivity|]. now apply H3.
  - right. split; [reflexivity|]. exists missing. split; [|exact H2]. intros ->. rewrite app_nil_r in H2. symmetry in H2. apply H3 in H2. discriminate H2.
  - now destruct H1.
  - exact I.
Qed.
Print Assumptions generated_serialize_writes_documented_format.
(** ... and it succeeds if there is room. *)
Theorem generated_serialize_succeeds : forall rounds lim wraps u schemas ns s d nt v depth r room,
  accepted u schemas -> declared schemas ns s d -> decl_named schemas ns s d nt ->
  wt DOut v (erase nt) -> lenN (spec_encode true v (erase nt)) < two64 -> (vdepth v < depth)%nat ->
  (length (spec_encode true v (erase nt)) <= rounds)%nat -> lenN (spec_encode true v (erase nt)) <= room ->
  exists room', call_serialize capacity_writer rounds lim wraps u (rust_program u schemas) depth ns d (embed u DOut v nt) (mkSt r room []) =
    FVal (RvOk RvUnit) (mkSt r room' (spec_encode true v (erase nt))).
Proof.
  intros rounds lim wraps u schemas ns s d nt v depth r room Ha Hd Hnt Hw Hs Hdep Hr Hroom.
  rewrite (generated_serialize N capacity_writer rounds lim wraps u schemas ns s d nt v depth r room Ha Hd Hnt Hw Hs Hdep). destruct Ha as [Hu Hl Hv Hn]. pose proof (proj1 (validation_is_sound _ Hl Hv)) as HV.
  assert (ty_wf (erase nt)) as Hwf by (apply (decl_denotes_wf schemas HV ns s d); [exact Hd|now apply decl_named_denotes]).
  rewrite <- size_is_documented_length in Hs by assumption. pose proof (serialize_writes_documented_format v (erase nt) Hw Hwf Hs) as E.
  destruct (writer_with_capacity v (erase nt) _ rounds room E Hr) as (k' & ->). exists k'. apply N.leb_le in Hroom as Hr'. rewrite Hr'. cbn [serialize_outcome].
  f_equal. f_equal. rewrite takeN_firstn. apply firstn_all2. unfold lenN in Hroom. lia.
Qed.
Print Assumptions generated_serialize_succeeds.

(** C62: [deserialize] does what the decoder of the model does, panics and endless loops included, however the reader
    cuts the input into chunks. *)
Theorem generated_deserialize : forall (W : Type) (w : writer W) rounds lim wraps u schemas ns s d nt,
  accepted u schemas -> declared schemas ns s d -> decl_named schemas ns s d nt ->
  exists enough, forall depth chunks x, (enough <= depth)%nat -> chunks_ok chunks -> (length (concat chunks) < rounds)%nat ->
    deserialize_outcome (fun v => embed u DIn v nt) (deserialize lim (erase nt) (concat chunks))
      (call_deserialize w rounds lim wraps u (rust_program u schemas) depth ns d chunks x).
Proof.
  intros W w rounds lim wraps u schemas ns s d nt [Hu Hl Hv Hn] Hd Hnt. pose proof (proj1 (validation_is_sound _ Hl Hv)) as HV.
  exists (S (dd rounds nt)). intros depth chunks x Hdep Hc Hr. apply (top_deserialize u Hu schemas Hl HV Hn w rounds lim wraps ns s d nt); auto.
Qed.
Print Assumptions generated_deserialize.

(** C63 *)
Theorem generated_from : forall (W : Type) (w : writer W) rounds lim wraps u schemas ns s d nt v depth st,
  accepted u schemas -> declared schemas ns s d -> decl_named schemas ns s d nt ->
  wt DOut v (erase nt) -> (vdepth v <= depth)%nat ->
  call_from w rounds lim wraps u (rust_program u schemas) depth ns d (embed u DOut v nt) st =
    FVal (embed u DIn (to_in v (erase nt)) nt) st.
Proof.
  intros W w rounds lim wraps u schemas ns s d nt v depth st [Hu Hl Hv Hn] Hd Hnt. pose proof (proj1 (validation_is_sound _ Hl Hv)) as HV.
  now apply (top_from u Hu schemas Hl HV Hn w rounds lim wraps ns s d nt).
Qed.
Print Assumptions generated_from.

(** C64: what a generated program has written, it reads back as what [from] makes of the message; ... *)
Theorem generated_round_trip : forall (W : Type) (w : writer W) rounds wraps u schemas ns s d nt v depth r x s',
  accepted u schemas -> declared schemas ns s d -> decl_named schemas ns s d nt ->
  wt DOut v (erase nt) -> lenN (spec_encode true v (erase nt)) < 2 ^ 60 -> (vdepth v < depth)%nat ->
  call_serialize w rounds isize_max wraps u (rust_program u schemas) depth ns d (embed u DOut v nt) (mkSt r x []) = FVal (RvOk RvUnit) s' ->
  forall rounds2, exists enough, forall depth2 chunks x2 st, (enough <= depth2)%nat -> chunks_ok chunks -> concat chunks = st_written s' ->
    (length (concat chunks) < rounds2)%nat ->
    exists message s2 s3,
      call_deserialize w rounds2 isize_max wraps u (rust_program u schemas) depth2 ns d chunks x2 = FVal (RvOk message) s2 /\
      call_from w rounds isize_max wraps u (rust_program u schemas) depth ns d (embed u DOut v nt) st = FVal message s3.
Proof.
  intros W w rounds wraps u schemas ns s d nt v depth r x s' Ha Hd Hnt Hw Hs Hdep Hser rounds2.
  destruct (generated_deserialize W w rounds2 isize_max wraps u schemas ns s d nt Ha Hd Hnt) as (enough & K). exists enough. intros depth2 chunks x2 st Hd2 Hc Hcc Hr2.
  specialize (K depth2 chunks x2 Hd2 Hc Hr2).
  assert (lenN (spec_encode true v (erase nt)) < two64) as Hs64 by (unfold two64; lia).
  pose proof (generated_serialize_writes_documented_format W w rounds isize_max wraps u schemas ns s d nt v depth r x Ha Hd Hnt Hw Hs64 Hdep) as F.
  rewrite Hser in F. destruct F as [[_ F]|[F _]]; [|discriminate F].
  pose proof (generated_from W w rounds isize_max wraps u schemas ns s d nt v depth st Ha Hd Hnt Hw ltac:(lia)) as Hf. rewrite Hf.
  destruct Ha as [Hu Hl Hv Hn]. pose proof (proj1 (validation_is_sound _ Hl Hv)) as HV.
  assert (ty_wf (erase nt)) as Hwf by (apply (decl_denotes_wf schemas HV ns s d); [exact Hd|now apply decl_named_denotes]).
  rewrite <- size_is_documented_length in Hs, Hs64 by assumption. pose proof (serialize_writes_documented_format v (erase nt) Hw Hwf Hs64) as E.
  rewrite Hcc, F in K. rewrite (rust_round_trip v (erase nt) _ Hw Hwf Hs E) in K. cbn [deserialize_outcome] in K. destruct K as (s2 & K).
  eexists. exists s2, st. split; [exact K|reflexivity].
Qed.
Print Assumptions generated_round_trip.
(** ... and a program generated from another version of the schemas reads it as the migrated message, if the versions
    differ by safe changes (C12). *)
Theorem generated_programs_evolve : forall (W : Type) (w : writer W) rounds wraps u schemas ns s d nt schemas' ns' s0 d' nt' v depth r x s',
  accepted u schemas -> declared schemas ns s d -> decl_named schemas ns s d nt ->
  accepted u schemas' -> declared schemas' ns' s0 d' -> decl_named schemas' ns' s0 d' nt' ->
  safe (erase nt) (erase nt') \/ safe (erase nt') (erase nt) ->
  wt DOut v (erase nt) -> lenN (spec_encode true v (erase nt)) < 2 ^ 60 -> (vdepth v < depth)%nat ->
  call_serialize w rounds isize_max wraps u (rust_program u schemas) depth ns d (embed u DOut v nt) (mkSt r x []) = FVal (RvOk RvUnit) s' ->
  forall rounds2, exists enough, forall depth2 chunks x2, (enough <= depth2)%nat -> chunks_ok chunks -> concat chunks = st_written s' ->
    (length (concat chunks) < rounds2)%nat ->
    wt DIn (migrate v (erase nt) (erase nt')) (erase nt') /\ exists s2,
      call_deserialize w rounds2 isize_max wraps u (rust_program u schemas') depth2 ns' d' chunks x2 =
        FVal (RvOk (embed u DIn (migrate v (erase nt) (erase nt')) nt')) s2.
Proof.
  intros W w rounds wraps u schemas ns s d nt schemas' ns' s0 d' nt' v depth r x s' Ha Hd Hnt Ha' Hd' Hnt' Hsafe Hw Hs Hdep Hser rounds2.
  destruct (generated_deserialize W w rounds2 isize_max wraps u schemas' ns' s0 d' nt' Ha' Hd' Hnt') as (enough & K). exists enough. intros depth2 chunks x2 Hd2 Hc Hcc Hr2.
  specialize (K depth2 chunks x2 Hd2 Hc Hr2).
  assert (lenN (spec_encode true v (erase nt)) < two64) as Hs64 by (unfold two64; lia).
  pose proof (generated_serialize_writes_documented_format W w rounds isize_max wraps u schemas ns s d nt v depth r x Ha Hd Hnt Hw Hs64 Hdep) as F.
  rewrite Hser in F. destruct F as [[_ F]|[F _]]; [|discriminate F].
  destruct Ha as [Hu Hl Hv Hn]. pose proof (proj1 (validation_is_sound _ Hl Hv)) as HV.
  destruct Ha' as [_ Hl' Hv' Hn']. pose proof (proj1 (validation_is_sound _ Hl' Hv')) as HV'.
  assert (ty_wf (erase nt)) as Hwf by (apply (decl_denotes_wf schemas HV ns s d); [exact Hd|now apply decl_named_denotes]).
  assert (ty_wf (erase nt')) as Hwf' by (apply (decl_denotes_wf schemas' HV' ns' s0 d'); [exact Hd'|now apply decl_named_denotes]).
  rewrite <- size_is_documented_length in Hs, Hs64 by assumption. pose proof (serialize_writes_documented_format v (erase nt) Hw Hwf Hs64) as E.
  rewrite Hcc, F in K.
  assert (deserialize isize_max (erase nt') (spec_encode true v (erase nt)) = Ok (migrate v (erase nt) (erase nt')) [] /\ wt DIn (migrate v (erase nt) (erase nt')) (erase nt')) as [D M].
  { destruct Hsafe as [Hsafe|Hsafe]; [exact (safe_changes_are_compatible _ _ v _ Hwf Hwf' Hsafe Hw Hs E)|exact (safe_changes_are_compatible_back _ _ v _ Hwf' Hwf Hsafe Hw Hs E)]. }
  rewrite D in K. split; [exact M|exact K].
Qed.
Print Assumptions generated_programs_evolve.

(** C65: the values that the generated types [FooOut] and [FooIn] have are the messages, ... *)
Theorem generated_types_have_the_messages : forall u schemas ns s d nt dr m,
  accepted u schemas -> declared schemas ns s d -> decl_named schemas ns s d nt ->
  (has_type (rust_program u schemas) (mods u ns) (TyPath [type_name u (sd_name d) (direction dr)]) m <->
   exists v, wt dr v (erase nt) /\ m = embed u dr v nt).
Proof.
  intros u schemas ns s d nt dr m [Hu Hl Hv Hn] Hd Hnt. pose proof (proj1 (validation_is_sound _ Hl Hv)) as HV.
  assert (refers_to (rust_program u schemas) (mods u ns) (TyPath [type_name u (sd_name d) (direction dr)]) (mods u ns, type_name u (sd_name d) (direction dr))) as Hr.
  { eexists. split; [left; reflexivity|reflexivity]. }
  split.
  - intros Ht. exact (proj1 (proj2 (typed_messages u Hu schemas Hl HV Hn dr m)) ns s d nt _ _ Hd Hnt Hr Ht).
  - intros (v & Hw & ->). exact (proj2 (messages_typed u Hu schemas Hl HV Hn dr v) ns s d nt _ _ Hd Hnt Hw Hr).
Qed.
Print Assumptions generated_types_have_the_messages.
(** ... each of them once. *)
Theorem generated_values_are_told_apart : forall u schemas ns s d nt dr v v',
  accepted u schemas -> declared schemas ns s d -> decl_named schemas ns s d nt ->
  wt dr v (erase nt) -> wt dr v' (erase nt) -> embed u dr v nt = embed u dr v' nt -> v = v'.
Proof.
  intros u schemas ns s d nt dr v v' [Hu Hl Hv Hn] Hd (fts & Hf & ->) Hw Hw' E. pose proof (proj1 (validation_is_sound _ Hl Hv)) as HV.
  destruct (decl_linked u Hu schemas Hl HV Hn ns s d fts Hd Hf) as [Hi Hk]. cbn [erase] in Hw, Hw'. exact (proj2 (message_inj u schemas dr v) v' ns s _ _ fts Hi Hk Hw Hw' E).
Qed.
Print Assumptions generated_values_are_told_apart.
(** So no value of [FooOut] makes the interpreter of generated programs get stuck or panic. *)
Theorem generated_serialize_accepts_every_value : forall (W : Type) (w : writer W) rounds lim wraps u schemas ns s d m r x,
  accepted u schemas -> declared schemas ns s d ->
  has_type (rust_program u schemas) (mods u ns) (TyPath [type_name u (sd_name d) SOut]) m ->
  exists v nt, m = embed u DOut v nt /\ decl_named schemas ns s d nt /\ (lenN (spec_encode true v (erase nt)) < two64 ->
    exists enough, forall depth, (enough <= depth)%nat ->
      match call_serialize w rounds lim wraps u (rust_program u schemas) depth ns d m (mkSt r x []) with
      | FVal y _ => y = RvOk RvUnit \/ y = RvErr ReWrite
      | FFuel => True
      | FPanic | FStuck => False
      end).
Proof.
  intros W w rounds lim wraps u schemas ns s d m r x Ha Hd Ht. destruct (each_declaration_has_one_tree u schemas ns s d Ha Hd) as (nt & Hnt & _).
  destruct (proj1 (generated_types_have_the_messages u schemas ns s d nt DOut m Ha Hd Hnt) Ht) as (v & Hw & ->). exists v, nt. split; [reflexivity|]. split; [exact Hnt|]. intros Hs.
  exists (S (vdepth v)). intros depth Hdep. pose proof (generated_serialize_writes_documented_format W w rounds lim wraps u schemas ns s d nt v depth r x Ha Hd Hnt Hw Hs ltac:(lia)) as H.
  destruct (call_serialize _ _ _ _ _ _ _ _ _ _ _); auto. destruct H as [[H _]|[H _]]; auto.
Qed.
Print Assumptions generated_serialize_accepts_every_value.
