(** Property theorems about generated TypeScript programs: C67 to C71. See MANIFEST.json. [u] stands for Rust's Unicode
    tables, [rounds] and [depth] for how often loops are run and how deep calls are nested before the interpreter gives up,
    [h] for the arrays and buffers there are. *)
From Verif Require Import Spec PrimExtra BaseFacts TruncFacts2 LoadFacts CycleFacts CommandFacts PlainFacts TreeFacts RustDeserFacts RustTypesFacts RustTop.
From Verif Require Import Properties1 Properties2 Properties7 Properties8 Properties9 Properties10 Properties11.
From Verif Require TsTop TsDecFacts2 Properties3.
From Verif Require Import TsSpec TsPrimFacts TsProgram.

(** C67: every accepted schema becomes a TypeScript module; ... *)
Theorem ts_generation_never_panics : forall u schemas version, loaded schemas -> validate schemas = VOk ->
  Forall (fun e => text_namespace (fst e)) schemas -> exists code, ts_code u version schemas = Some code.
Proof.
  intros u schemas version Hl Hv Ht. unfold ts_code. rewrite (text_no_panic schemas Hl (proj1 (validation_is_sound _ Hl Hv)) Ht). cbv zeta.
  destruct (module_children (module_tree schemas)), (ss_decls (module_schema (module_tree schemas))); eexists; reflexivity.
Qed.
Print Assumptions ts_generation_never_panics.
(** ... whatever is generated, typical crashes only if the parser does (C34). *)
Theorem generating_code_crashes_only_in_the_parser : forall works u stem version fs listing rust ts,
  ascii_agrees u -> files_ok u fs ->
  snd (generate_code works u stem (rust_code u version) (ts_code u version) fs listing rust ts) = Crashed -> load_schemas u stem fs = LoadPanic.
Proof.
  intros works u stem version fs listing rust ts Hu Hfs. unfold generate_code.
  destruct (load_schemas u stem fs) as [l|es| |] eqn:E; [|discriminate|reflexivity|now destruct (load_terminates u stem fs Hu Hfs)].
  pose proof (loaded_loaded u stem fs Hu Hfs l E) as HL. pose proof (validate_spec _ HL) as V.
  destruct (validate (schemas_of l)) eqn:EV; try contradiction; [|discriminate].
  destruct (generation_never_panics u _ version HL EV (loaded_text u stem fs Hu Hfs l E)) as (code & ->).
  destruct (ts_generation_never_panics u _ version HL EV (loaded_text u stem fs Hu Hfs l E)) as (tcode & ->). intros H. exfalso. revert H.
  unfold emit, try. destruct rust as [[file [dir|]]|], ts as [[tfile [tdir|]]|]; cbn [t_file t_parent];
    repeat match goal with |- context [if works ?x ?y then _ else _] => destruct (works x y) end; cbn [snd]; discriminate.
Qed.
Print Assumptions generating_code_crashes_only_in_the_parser.

Section Facts.
Context (u : unicode) (schemas : list (namespace * sschema)) (ns : namespace) (s : sschema) (d : sdecl) (nt : nty).
Context (Ha : accepted u schemas) (Hd : declared schemas ns s d) (Hn : decl_named schemas ns s d nt).
Lemma tree_wf : ty_wf (erase nt).
Proof. destruct Ha as [Hu Hl Hv Hg]. pose proof (proj1 (validation_is_sound _ Hl Hv)) as HV. apply (decl_denotes_wf schemas HV ns s d); [exact Hd|now apply decl_named_denotes]. Qed.
Lemma kept_of h h' : grows h h' -> ts_kept h h'.
Proof. intros G r c Hr Hc. now apply (grows_cell h). Qed.
Lemma loaded_of h h' : grows h h' -> ts_loaded h -> ts_loaded h'.
Proof. intros G H. apply G. exact H. Qed.
Lemma serialized v : wt DOut v (erase nt) -> lenN (spec_encode true v (erase nt)) < 2 ^ 53 ->
  ts_serialize v (erase nt) = JOk (spec_encode true (js_val v) (erase nt)) /\ ts_size v (erase nt) = lenN (spec_encode true v (erase nt)) /\
  serialize (js_val v) (erase nt) = Some (spec_encode true (js_val v) (erase nt)).
Proof.
  intros Hw Hs. pose proof tree_wf as Hwf. rewrite <- size_is_documented_length in Hs by assumption.
  destruct (TsTop.ts_fills_buffer v (erase nt) Hw Hwf Hs) as (bs & _ & H1 & H2 & H3 & H4).
  pose proof (TsSerFacts.js_val_wt DOut v (erase nt) Hw) as Hw'.
  assert (size (js_val v) (erase nt) < two64) as Hs'.
  { rewrite size_is_documented_length, TsSerFacts.js_val_len, <- size_is_documented_length by assumption. unfold two64. lia. }
  pose proof (serialize_writes_documented_format (js_val v) (erase nt) Hw' Hwf Hs') as E. rewrite H4 in E. injection E as ->.
  rewrite H1, H3. rewrite <- size_is_documented_length by assumption. auto.
Qed.
End Facts.

(** C68: [size] returns the length of the documented encoding; ... *)
Theorem generated_ts_size : forall u schemas ns s d nt v,
  accepted u schemas -> ts_clear_names u schemas -> declared schemas ns s d -> decl_named schemas ns s d nt ->
  wt DOut v (erase nt) -> lenN (spec_encode true v (erase nt)) < 2 ^ 53 ->
  exists enough, forall rounds depth m h, (enough <= rounds)%nat -> (enough <= depth)%nat ->
    ts_loaded h -> js_value u DOut h 1 v nt m ->
    exists h', ts_call_size rounds u (ts_program u schemas) depth ns d m h = ExVal (JvNum (lenN (spec_encode true v (erase nt)))) h' /\
      ts_kept h h' /\ ts_loaded h'.
Proof.
  intros u schemas ns s d nt v Ha Hcn Hd Hn Hw Hs. exists (S (vdepth v + vwidth v + 3)). intros rounds depth m h Hr Hdep Hl Hm.
  destruct (serialized u schemas ns s d nt Ha Hd Hn v Hw Hs) as (_ & <- & _).
  destruct Ha as [Hu Hload Hv Hg]. pose proof (proj1 (validation_is_sound _ Hload Hv)) as HV.
  pose proof (scratch_pos _ Hl) as Hpos.
  unfold ts_call_size. pose proof (call_public u Hu schemas Hload HV Hg ns s d Hd rounds depth (txt "size", tgen_size u (sd_name d) (sd_fields d)) [m] h) as E.
  cbn [fst snd] in E. rewrite E by (unfold public_fns; apply in_or_app; left; now left).
  destruct (run_size u Hu schemas Hload HV Hg Hcn ns s d nt Hd Hn rounds v depth h m Hw Hm Hpos ltac:(lia) ltac:(lia)) as (h' & R & G).
  exists h'. split; [exact R|]. split; [now apply kept_of|now apply (loaded_of h)].
Qed.
Print Assumptions generated_ts_size.
(** ... [serialize] returns a new buffer that holds this encoding (of the message with its NaNs made canonical), and changes
    nothing that was there. *)
Theorem generated_ts_serialize : forall u schemas ns s d nt v,
  accepted u schemas -> ts_clear_names u schemas -> declared schemas ns s d -> decl_named schemas ns s d nt ->
  wt DOut v (erase nt) -> lenN (spec_encode true v (erase nt)) < 2 ^ 53 ->
  exists enough, forall rounds depth m h, (enough <= rounds)%nat -> (enough <= depth)%nat ->
    ts_loaded h -> js_value u DOut h 1 v nt m ->
    exists r h', ts_call_serialize rounds u (ts_program u schemas) depth ns d m h = ExVal (JvBuf r) h' /\
      nth_error h r = None /\ nth_error h' r = Some (CellBuf (spec_encode true (js_val v) (erase nt))) /\ ts_kept h h' /\ ts_loaded h'.
Proof.
  intros u schemas ns s d nt v Ha Hcn Hd Hn Hw Hs. exists (S (vdepth v + vwidth v + 3)). intros rounds depth m h Hr Hdep Hl Hm.
  destruct (serialized u schemas ns s d nt Ha Hd Hn v Hw Hs) as (Hser & _ & _).
  destruct Ha as [Hu Hload Hv Hg]. pose proof (proj1 (validation_is_sound _ Hload Hv)) as HV.
  pose proof (scratch_pos _ Hl) as Hpos.
  unfold ts_call_serialize. pose proof (call_public u Hu schemas Hload HV Hg ns s d Hd rounds depth (txt "serialize", tgen_serialize u d) [m] h) as E.
  cbn [fst snd] in E. rewrite E by (unfold public_fns; apply in_or_app; left; right; now left).
  destruct (run_serialize u Hu schemas Hload HV Hg Hcn ns s d nt Hd Hn rounds v depth h m _ Hw Hm Hpos ltac:(lia) ltac:(lia) Hser) as (r & h' & R & G & Hnew & Hcell).
  exists r, h'. split; [exact R|]. split; [now apply nth_error_None|]. split; [exact Hcell|]. split; [now apply kept_of|now apply (loaded_of h)].
Qed.
Print Assumptions generated_ts_serialize.

(** C69: [deserialize] returns what the decoder of the model (C26 to C28, C53, C54) returns, ... *)
Theorem generated_ts_deserialize : forall u schemas ns s d nt,
  accepted u schemas -> ts_clear_names u schemas -> declared schemas ns s d -> decl_named schemas ns s d nt ->
  forall w, bytes_ok (vbuf w) -> exists enough, forall rounds depth b h, (enough <= rounds)%nat -> (enough <= depth)%nat ->
    ts_loaded h -> ts_source h b w ->
    exists m h', ts_call_deserialize rounds u (ts_program u schemas) depth ns d b h = ExVal m h' /\ ts_kept h h' /\ ts_loaded h' /\
      match ts_deserialize (erase nt) w with
      | TsMessage v => js_value u DIn h' (length h) v nt m
      | TsError => exists k, m = JvError k
      | TsStuck => False
      end.
Proof.
  intros u schemas ns s d nt Ha Hcn Hd Hn w Hb. exists (jdd (S (length (vbuf w))) nt + length (vbuf w) + 10)%nat. intros rounds depth b h Hr Hdep Hl Hsrc.
  assert (view_ok w) as Hvw. { split; [|exact Hb]. inversion Hsrc; subst; cbn [whole voff vlen vbuf]; lia. }
  destruct Ha as [Hu Hload Hv Hg]. pose proof (proj1 (validation_is_sound _ Hload Hv)) as HV.
  unfold ts_call_deserialize. pose proof (call_public u Hu schemas Hload HV Hg ns s d Hd rounds depth (txt "deserialize", tgen_deserialize u (sd_name d)) [b] h) as E.
  cbn [fst snd] in E. rewrite E by (unfold public_fns; apply in_or_app; left; right; right; now left).
  pose proof (run_deserialize u Hu schemas Hload HV Hg Hcn ns s d nt Hd Hn rounds depth h b w ltac:(lia) Hl Hsrc Hb ltac:(lia) ltac:(lia)) as K.
  destruct (Properties3.ts_deserialize_returns (erase nt) w Hvw) as [(v & Ev)|Ev]; rewrite Ev in *.
  - destruct K as (m & h' & R & G & Sc & V). exists m, h'. split; [exact R|]. split; [now apply kept_of|]. split; [exact Sc|exact V].
  - destruct K as (k & h' & R & G & Sc). exists (JvError k), h'. split; [exact R|]. split; [now apply kept_of|]. split; [exact Sc|eauto].
Qed.
Print Assumptions generated_ts_deserialize.
(** ... so it always returns, a message of its type or an [Error], in arrays and buffers of its own. *)
Theorem generated_ts_deserialize_returns : forall u schemas ns s d nt,
  accepted u schemas -> ts_clear_names u schemas -> declared schemas ns s d -> decl_named schemas ns s d nt ->
  forall w, bytes_ok (vbuf w) -> exists enough, forall rounds depth b h, (enough <= rounds)%nat -> (enough <= depth)%nat ->
    ts_loaded h -> ts_source h b w ->
    exists m h', ts_call_deserialize rounds u (ts_program u schemas) depth ns d b h = ExVal m h' /\ ts_kept h h' /\ ts_loaded h' /\
      ((exists v, wt DIn v (erase nt) /\ js_value u DIn h' (length h) v nt m) \/ exists k, m = JvError k).
Proof.
  intros u schemas ns s d nt Ha Hcn Hd Hn w Hb. destruct (generated_ts_deserialize u schemas ns s d nt Ha Hcn Hd Hn w Hb) as (enough & K). exists enough.
  intros rounds depth b h Hr Hdep Hl Hsrc. destruct (K rounds depth b h Hr Hdep Hl Hsrc) as (m & h' & R & Hk & Hl' & V). exists m, h'. split; [exact R|]. split; [exact Hk|]. split; [exact Hl'|].
  assert (view_ok w) as Hvw. { split; [|exact Hb]. inversion Hsrc; subst; cbn [whole voff vlen vbuf]; lia. }
  destruct (ts_deserialize (erase nt) w) as [v| |] eqn:Ev; [left|now right|contradiction].
  exists v. split; [|exact V]. exact (Properties3.ts_messages_are_well_typed (erase nt) w v (tree_wf u schemas ns s d nt Ha Hd Hn) Hvw Ev).
Qed.
Print Assumptions generated_ts_deserialize_returns.

(** C70: what a generated TypeScript program has written, in a buffer or in a part of one, a program generated from the same
    or another version of the schemas reads as the migrated message, if the versions differ by safe changes (C12). *)
Lemma encoded_bytes u schemas ns s d nt v : accepted u schemas -> declared schemas ns s d -> decl_named schemas ns s d nt ->
  wt DOut v (erase nt) -> lenN (spec_encode true v (erase nt)) < two64 -> bytes_ok (spec_encode true v (erase nt)).
Proof.
  intros Ha Hd Hn Hw Hs. pose proof (tree_wf u schemas ns s d nt Ha Hd Hn) as Hwf. rewrite <- size_is_documented_length in Hs by assumption.
  exact (serialize_ok v (erase nt) _ Hw Hwf Hs (serialize_writes_documented_format v (erase nt) Hw Hwf Hs)).
Qed.
Theorem generated_ts_reads_messages : forall u schemas ns s d nt schemas' ns' s' d' nt' v w,
  accepted u schemas -> declared schemas ns s d -> decl_named schemas ns s d nt ->
  accepted u schemas' -> ts_clear_names u schemas' -> declared schemas' ns' s' d' -> decl_named schemas' ns' s' d' nt' ->
  safe (erase nt) (erase nt') \/ safe (erase nt') (erase nt) ->
  wt DOut v (erase nt) -> ts_faithful v -> lenN (spec_encode true v (erase nt)) < 2 ^ 53 -> ts_view_of (spec_encode true v (erase nt)) w ->
  wt DIn (migrate v (erase nt) (erase nt')) (erase nt') /\
  exists enough, forall rounds depth b h, (enough <= rounds)%nat -> (enough <= depth)%nat -> ts_loaded h -> ts_source h b w ->
    exists m h', ts_call_deserialize rounds u (ts_program u schemas') depth ns' d' b h = ExVal m h' /\ ts_kept h h' /\ ts_loaded h' /\
      js_value u DIn h' (length h) (js_val (migrate v (erase nt) (erase nt'))) nt' m.
Proof.
  intros u schemas ns s d nt schemas' ns' s' d' nt' v w Ha Hd Hn Ha' Hcn' Hd' Hn' Hsafe Hw Hf Hs (pre & post & Hpre & Hpost & ->).
  pose proof (tree_wf u schemas ns s d nt Ha Hd Hn) as Hwf. pose proof (tree_wf u schemas' ns' s' d' nt' Ha' Hd' Hn') as Hwf'.
  assert (lenN (spec_encode true v (erase nt)) < two64) as Hs64 by (unfold two64; lia).
  pose proof (encoded_bytes u schemas ns s d nt v Ha Hd Hn Hw Hs64) as Hbs.
  rewrite <- size_is_documented_length in Hs, Hs64 by assumption. pose proof (serialize_writes_documented_format v (erase nt) Hw Hwf Hs64) as E.
  assert (size v (erase nt) < 2 ^ 60) as Hs60 by lia.
  assert (compat (erase nt) (erase nt')) as Hc by (destruct Hsafe as [Hsafe|Hsafe]; [exact (proj1 (Properties3.safe_schemas_are_compatible _ _ Hwf Hwf' Hsafe))|exact (proj2 (Properties3.safe_schemas_are_compatible _ _ Hwf' Hwf Hsafe))]).
  split. { destruct Hsafe as [Hsafe|Hsafe]; [exact (proj2 (safe_changes_are_compatible _ _ v _ Hwf Hwf' Hsafe Hw Hs60 E))|exact (proj2 (safe_changes_are_compatible_back _ _ v _ Hwf' Hwf Hsafe Hw Hs60 E))]. }
  destruct (generated_ts_deserialize u schemas' ns' s' d' nt' Ha' Hcn' Hd' Hn' (mkView (pre ++ spec_encode true v (erase nt) ++ post) (lenN pre) (lenN (spec_encode true v (erase nt))))) as (enough & K).
  { cbn [vbuf]. apply Forall_app. split; [exact Hpre|]. apply Forall_app. now split. }
  rewrite (Properties3.ts_reads_rust_messages v (erase nt) (erase nt') pre _ post Hw Hwf Hwf' Hc Hf Hs E Hpre Hpost) in K. exists enough. exact K.
Qed.
Print Assumptions generated_ts_reads_messages.
Theorem generated_ts_programs_evolve : forall u schemas ns s d nt schemas' ns' s' d' nt' v,
  accepted u schemas -> ts_clear_names u schemas -> declared schemas ns s d -> decl_named schemas ns s d nt ->
  accepted u schemas' -> ts_clear_names u schemas' -> declared schemas' ns' s' d' -> decl_named schemas' ns' s' d' nt' ->
  safe (erase nt) (erase nt') \/ safe (erase nt') (erase nt) ->
  wt DOut v (erase nt) -> ts_faithful v -> lenN (spec_encode true v (erase nt)) < 2 ^ 53 ->
  exists enough, forall rounds depth m h, (enough <= rounds)%nat -> (enough <= depth)%nat -> ts_loaded h -> js_value u DOut h 1 v nt m ->
    exists r h1 bs, ts_call_serialize rounds u (ts_program u schemas) depth ns d m h = ExVal (JvBuf r) h1 /\ nth_error h1 r = Some (CellBuf bs) /\
      forall w, ts_view_of bs w -> exists enough2, forall rounds2 depth2 b h2, (enough2 <= rounds2)%nat -> (enough2 <= depth2)%nat -> ts_loaded h2 -> ts_source h2 b w ->
        exists m' h3, ts_call_deserialize rounds2 u (ts_program u schemas') depth2 ns' d' b h2 = ExVal m' h3 /\
          js_value u DIn h3 (length h2) (js_val (migrate v (erase nt) (erase nt'))) nt' m'.
Proof.
  intros u schemas ns s d nt schemas' ns' s' d' nt' v Ha Hcn Hd Hn Ha' Hcn' Hd' Hn' Hsafe Hw Hf Hs.
  destruct (generated_ts_serialize u schemas ns s d nt v Ha Hcn Hd Hn Hw Hs) as (enough & K). exists enough. intros rounds depth m h Hr Hdep Hl Hm.
  destruct (K rounds depth m h Hr Hdep Hl Hm) as (r & h1 & R & _ & Hc & _). exists r, h1, (spec_encode true (js_val v) (erase nt)). split; [exact R|]. split; [exact Hc|].
  intros w Hvw. pose proof (TsSerFacts.js_val_wt DOut v (erase nt) Hw) as Hw'. rewrite <- (TsSerFacts.js_val_len v (erase nt) true) in Hs.
  destruct (generated_ts_reads_messages u schemas ns s d nt schemas' ns' s' d' nt' (js_val v) w Ha Hd Hn Ha' Hcn' Hd' Hn' Hsafe Hw' (TsDecFacts2.js_faithful v Hf) Hs Hvw) as (_ & enough2 & K2).
  exists enough2. intros rounds2 depth2 b h2 H1 H2 H3 H4. destruct (K2 rounds2 depth2 b h2 H1 H2 H3 H4) as (m' & h3 & Q & _ & _ & V). exists m', h3. split; [exact Q|].
  now rewrite TsDecFacts2.migrate_js, TsSerFacts.js_val_idem in V.
Qed.
Print Assumptions generated_ts_programs_evolve.

(** The same schemas and the returned buffer, some time later: the message comes back. *)
Theorem generated_ts_round_trip : forall u schemas ns s d nt v,
  accepted u schemas -> ts_clear_names u schemas -> declared schemas ns s d -> decl_named schemas ns s d nt ->
  wt DOut v (erase nt) -> ts_faithful v -> lenN (spec_encode true v (erase nt)) < 2 ^ 53 ->
  exists enough, forall rounds depth m h, (enough <= rounds)%nat -> (enough <= depth)%nat -> ts_loaded h -> js_value u DOut h 1 v nt m ->
    exists r h1, ts_call_serialize rounds u (ts_program u schemas) depth ns d m h = ExVal (JvBuf r) h1 /\ ts_kept h h1 /\ ts_loaded h1 /\
      forall h2, ts_kept h1 h2 -> ts_loaded h2 ->
        exists m' h3, ts_call_deserialize rounds u (ts_program u schemas) depth ns d (JvBuf r) h2 = ExVal m' h3 /\ ts_kept h2 h3 /\
          js_value u DIn h3 (length h2) (js_val (to_in v (erase nt))) nt m'.
Proof.
  intros u schemas ns s d nt v Ha Hcn Hd Hn Hw Hf Hs.
  destruct (generated_ts_serialize u schemas ns s d nt v Ha Hcn Hd Hn Hw Hs) as (enough & K).
  pose proof (tree_wf u schemas ns s d nt Ha Hd Hn) as Hwf.
  pose proof (TsSerFacts.js_val_wt DOut v (erase nt) Hw) as Hw'. pose proof Hs as Hs'. rewrite <- (TsSerFacts.js_val_len v (erase nt) true) in Hs'.
  assert (lenN (spec_encode true (js_val v) (erase nt)) < two64) as Hs64 by (unfold two64; lia).
  pose proof (encoded_bytes u schemas ns s d nt (js_val v) Ha Hd Hn Hw' Hs64) as Hbs.
  destruct (generated_ts_deserialize u schemas ns s d nt Ha Hcn Hd Hn (whole (spec_encode true (js_val v) (erase nt))) Hbs) as (enough2 & K2).
  exists (enough + enough2)%nat. intros rounds depth m h Hr Hdep Hl Hm.
  destruct (K rounds depth m h ltac:(lia) ltac:(lia) Hl Hm) as (r & h1 & R & Hnew & Hc & Hk1 & Hl1). exists r, h1. split; [exact R|]. split; [exact Hk1|]. split; [exact Hl1|].
  intros h2 Hk2 Hl2. assert (r <> O) as Hr0 by (intros ->; destruct Hl as (s8 & E & _); rewrite E in Hnew; discriminate Hnew).
  destruct (K2 rounds depth (JvBuf r) h2 ltac:(lia) ltac:(lia) Hl2 ltac:(constructor; [exact Hr0|now apply Hk2])) as (m' & h3 & R2 & Hk3 & _ & V).
  exists m', h3. split; [exact R2|]. split; [exact Hk3|].
  destruct (serialized u schemas ns s d nt Ha Hd Hn v Hw Hs) as (Hser & _ & _). rewrite <- size_is_documented_length in Hs by assumption.
  pose proof (Properties3.ts_round_trips v (erase nt) [] _ [] Hw Hwf Hf Hs Hser ltac:(constructor) ltac:(constructor)) as E. rewrite app_nil_r in E.
  cbn [app] in E. change (lenN (@nil N)) with 0 in E. unfold whole in V. now rewrite E in V.
Qed.
Print Assumptions generated_ts_round_trip.

(** The generated Rust program reads what the generated TypeScript program has written, ... *)
Theorem generated_rust_reads_ts : forall (W : Type) (w : writer W) wraps u schemas ns s d nt schemas' ns' s' d' nt' v,
  accepted u schemas -> ts_clear_names u schemas -> declared schemas ns s d -> decl_named schemas ns s d nt ->
  accepted u schemas' -> declared schemas' ns' s' d' -> decl_named schemas' ns' s' d' nt' ->
  safe (erase nt) (erase nt') \/ safe (erase nt') (erase nt) ->
  wt DOut v (erase nt) -> lenN (spec_encode true v (erase nt)) < 2 ^ 53 ->
  exists enough, forall rounds depth m h, (enough <= rounds)%nat -> (enough <= depth)%nat -> ts_loaded h -> js_value u DOut h 1 v nt m ->
    exists r h1 bs, ts_call_serialize rounds u (ts_program u schemas) depth ns d m h = ExVal (JvBuf r) h1 /\ nth_error h1 r = Some (CellBuf bs) /\
      forall rounds2, exists enough2, forall depth2 chunks x2, (enough2 <= depth2)%nat -> chunks_ok chunks -> concat chunks = bs -> (length bs < rounds2)%nat ->
        exists s2, call_deserialize w rounds2 isize_max wraps u (rust_program u schemas') depth2 ns' d' chunks x2 =
          FVal (RvOk (embed u DIn (js_val (migrate v (erase nt) (erase nt'))) nt')) s2.
Proof.
  intros W w wraps u schemas ns s d nt schemas' ns' s' d' nt' v Ha Hcn Hd Hn Ha' Hd' Hn' Hsafe Hw Hs.
  destruct (generated_ts_serialize u schemas ns s d nt v Ha Hcn Hd Hn Hw Hs) as (enough & K). exists enough. intros rounds depth m h Hr Hdep Hl Hm.
  destruct (K rounds depth m h Hr Hdep Hl Hm) as (r & h1 & R & _ & Hc & _). exists r, h1, (spec_encode true (js_val v) (erase nt)). split; [exact R|]. split; [exact Hc|].
  intros rounds2. destruct (generated_deserialize W w rounds2 isize_max wraps u schemas' ns' s' d' nt' Ha' Hd' Hn') as (enough2 & K2). exists enough2.
  intros depth2 chunks x2 Hdep2 Hch Hcc Hr2. rewrite <- Hcc in Hr2. specialize (K2 depth2 chunks x2 Hdep2 Hch Hr2). rewrite Hcc in K2.
  pose proof (tree_wf u schemas ns s d nt Ha Hd Hn) as Hwf. pose proof (tree_wf u schemas' ns' s' d' nt' Ha' Hd' Hn') as Hwf'.
  destruct (serialized u schemas ns s d nt Ha Hd Hn v Hw Hs) as (Hser & _ & _). rewrite <- size_is_documented_length in Hs by assumption.
  assert (compat (erase nt) (erase nt')) as Hco by (destruct Hsafe as [Hsafe|Hsafe]; [exact (proj1 (Properties3.safe_schemas_are_compatible _ _ Hwf Hwf' Hsafe))|exact (proj2 (Properties3.safe_schemas_are_compatible _ _ Hwf' Hwf Hsafe))]).
  rewrite (Properties3.rust_reads_ts_messages v (erase nt) (erase nt') _ Hw Hwf Hwf' Hco Hs Hser) in K2. exact K2.
Qed.
Print Assumptions generated_rust_reads_ts.
(** ... and the other way round. *)
Theorem generated_ts_reads_rust : forall (W : Type) (wr : writer W) rounds wraps u schemas ns s d nt schemas' ns' s0 d' nt' v depth r x s',
  accepted u schemas -> declared schemas ns s d -> decl_named schemas ns s d nt ->
  accepted u schemas' -> ts_clear_names u schemas' -> declared schemas' ns' s0 d' -> decl_named schemas' ns' s0 d' nt' ->
  safe (erase nt) (erase nt') \/ safe (erase nt') (erase nt) ->
  wt DOut v (erase nt) -> ts_faithful v -> lenN (spec_encode true v (erase nt)) < 2 ^ 53 -> (vdepth v < depth)%nat ->
  call_serialize wr rounds isize_max wraps u (rust_program u schemas) depth ns d (embed u DOut v nt) (mkSt r x []) = FVal (RvOk RvUnit) s' ->
  forall w, ts_view_of (st_written s') w -> exists enough, forall rounds2 depth2 b h, (enough <= rounds2)%nat -> (enough <= depth2)%nat -> ts_loaded h -> ts_source h b w ->
    exists m h', ts_call_deserialize rounds2 u (ts_program u schemas') depth2 ns' d' b h = ExVal m h' /\
      js_value u DIn h' (length h) (js_val (migrate v (erase nt) (erase nt'))) nt' m.
Proof.
  intros W wr rounds wraps u schemas ns s d nt schemas' ns' s0 d' nt' v depth r x s' Ha Hd Hn Ha' Hcn' Hd' Hn' Hsafe Hw Hf Hs Hdep Hser w Hvw.
  assert (lenN (spec_encode true v (erase nt)) < two64) as Hs64 by (unfold two64; lia).
  pose proof (generated_serialize_writes_documented_format W wr rounds isize_max wraps u schemas ns s d nt v depth r x Ha Hd Hn Hw Hs64 Hdep) as F.
  rewrite Hser in F. destruct F as [[_ F]|[F _]]; [|discriminate F]. rewrite F in Hvw.
  destruct (generated_ts_reads_messages u schemas ns s d nt schemas' ns' s0 d' nt' v w Ha Hd Hn Ha' Hcn' Hd' Hn' Hsafe Hw Hf Hs Hvw) as (_ & enough & K).
  exists enough. intros rounds2 depth2 b h H1 H2 H3 H4. destruct (K rounds2 depth2 b h H1 H2 H3 H4) as (m & h' & R & _ & _ & V). exists m, h'. auto.
Qed.
Print Assumptions generated_ts_reads_rust.
