(** Property theorems about the types of generated TypeScript programs: C72 and C73. See MANIFEST.json. *)
From Verif Require Import Spec PrimExtra BaseFacts TypesFacts RustTypesFacts RustTop.
From Verif Require Import Properties1 Properties2 Properties7 Properties12.
From Verif Require Import TsSpec TsApi TsProgram TsTypes TsTypesFacts TsOutFacts.

(** The generated type of a declaration, by its full path. *)
Definition ts_type (u : unicode) (ns : namespace) (d : sdecl) (x : suffix) : ttype :=
  TtPath (map (fun c => ts_name u c Pascal None) ns ++ [ts_name u (sd_name d) Pascal (Some x)]).

(** C72: what [deserialize] returns has the type the generated code says: it is an [Error], or a value of the type [FooIn], with
    no other properties than that type has. *)
Theorem generated_ts_deserialize_is_typed : forall u schemas ns s d nt,
  accepted u schemas -> ts_clear_names u schemas -> declared schemas ns s d -> decl_named schemas ns s d nt ->
  forall w, bytes_ok (vbuf w) -> exists enough, forall rounds depth b h, (enough <= rounds)%nat -> (enough <= depth)%nat ->
    ts_loaded h -> ts_source h b w ->
    exists m h', ts_call_deserialize rounds u (ts_program u schemas) depth ns d b h = ExVal m h' /\
      ts_has (ts_program u schemas) true h' [] (TtUnion (ts_type u ns d SIn) (tt "Error")) m.
Proof.
  intros u schemas ns s d nt Ha Hcn Hd Hn w Hb. destruct (generated_ts_deserialize_returns u schemas ns s d nt Ha Hcn Hd Hn w Hb) as (enough & K). exists enough.
  intros rounds depth b h Hr Hdep Hl Hsrc. destruct (K rounds depth b h Hr Hdep Hl Hsrc) as (m & h' & R & _ & _ & V). exists m, h'. split; [exact R|].
  destruct Ha as [Hu Hload Hv Hg]. pose proof (proj1 (validation_is_sound _ Hload Hv)) as HV. destruct V as [(v & W & V)|(k & ->)].
  - apply th_left. destruct Hn as (fs & Hfs & ->). destruct (decl_tylinked u Hu schemas Hload HV Hg Hcn ns s d fs Hd Hfs) as (E & Hi & Hf).
    apply (proj2 (values_typed u _ h' v) _ _ _ _ _ _ _ Hi Hf W V). rewrite E. now apply top_type.
  - apply th_right, th_error. apply top_global; auto. cbn. tauto.
Qed.
Print Assumptions generated_ts_deserialize_is_typed.

(** ... as it is written there, in the namespace of the declaration, if no types are declared in a file whose namespace that
    is. *)
Definition jfn_ret (f : jfn) : ttype := match f with JFn _ _ _ _ ret _ => ret end.
Definition jfn_params (f : jfn) : list (str * ttype) := match f with JFn _ _ _ params _ _ => params end.
Theorem generated_ts_annotations_resolve : forall u schemas ns s d x,
  accepted u schemas -> ts_clear_names u schemas -> declared schemas ns s d ->
  (forall ns' s' d', declared schemas ns' s' d' -> ~ same_ns ns' (ns ++ [sd_name d])) ->
  let path := map (fun c => ts_name u c Pascal None) ns in let name := ts_name u (sd_name d) Pascal (Some x) in
  exists t, find_type (ts_program u schemas) (path ++ [ts_name u (sd_name d) Pascal None]) [name] = Some (path, t) /\
    find_type (ts_program u schemas) [] (path ++ [name]) = Some (path, t).
Proof.
  intros u schemas ns s d x [Hu Hload Hv Hg] Hcn Hd Hno path name. pose proof (proj1 (validation_is_sound _ Hload Hv)) as HV.
  eexists. split; [apply (inner_type u Hu schemas Hload HV Hg ns s d x Hd Hno)|exact (top_type u Hu schemas Hload HV Hg Hcn ns s d x Hd)].
Qed.
Print Assumptions generated_ts_annotations_resolve.
Theorem generated_ts_functions_are_typed : forall u schemas ns s d nt,
  accepted u schemas -> ts_clear_names u schemas -> declared schemas ns s d -> decl_named schemas ns s d nt ->
  (forall ns' s' d', declared schemas ns' s' d' -> ~ same_ns ns' (ns ++ [sd_name d])) ->
  forall w, bytes_ok (vbuf w) -> exists enough, forall rounds depth b h, (enough <= rounds)%nat -> (enough <= depth)%nat ->
    ts_loaded h -> ts_source h b w ->
    exists sc fn m h', find_callee prelude_fns (ts_program u schemas) [] (CPath (map (fun c => ts_name u c Pascal None) ns ++ [ts_name u (sd_name d) Pascal None]) (txt "deserialize")) = Some (sc, fn) /\
    run_ts rounds prelude_fns (ts_program u schemas) depth sc fn [b] h = ExVal m h' /\
    ts_has (ts_program u schemas) true h' sc (jfn_ret fn) m.
Proof.
  intros u schemas ns s d nt Ha Hcn Hd Hn Hno w Hb. destruct (generated_ts_deserialize_returns u schemas ns s d nt Ha Hcn Hd Hn w Hb) as (enough & K). exists enough.
  intros rounds depth b h Hr Hdep Hl Hsrc. destruct (K rounds depth b h Hr Hdep Hl Hsrc) as (m & h' & R & _ & _ & V).
  destruct Ha as [Hu Hload Hv Hg]. pose proof (proj1 (validation_is_sound _ Hload Hv)) as HV.
  pose proof (public_found u Hu schemas Hload HV Hg ns s d Hd (txt "deserialize", tgen_deserialize u (sd_name d))) as E. cbn [fst snd] in E.
  specialize (E ltac:(unfold public_fns; apply in_or_app; left; right; right; now left)).
  eexists _, _, m, h'. split; [exact E|]. unfold ts_call_deserialize, ts_call in R. rewrite E in R. split; [exact R|]. cbn [jfn_ret tgen_deserialize].
  destruct V as [(v & W & V)|(k & ->)].
  - apply th_left. destruct Hn as (fs & Hfs & ->). destruct (decl_tylinked u Hu schemas Hload HV Hg Hcn ns s d fs Hd Hfs) as (E1 & Hi & Hf).
    apply (proj2 (values_typed u _ h' v) _ _ _ _ _ _ _ Hi Hf W V). rewrite E1. now apply inner_type.
  - apply th_right, th_error. apply (inner_global u Hu schemas Hload HV Hg ns s d); auto. cbn. tauto.
Qed.
Print Assumptions generated_ts_functions_are_typed.

(** C73: a value of the type [FooOut], with no other properties than that type has, is a message, if the bigints in it are in
    range, and so on ([ts_ranged]); ... *)
Theorem typed_ts_values_are_messages : forall u schemas ns s d nt h m,
  accepted u schemas -> ts_clear_names u schemas -> declared schemas ns s d -> decl_named schemas ns s d nt ->
  ts_has (ts_program u schemas) true h [] (ts_type u ns d SOut) m -> ts_ranged u h nt m ->
  exists v, wt DOut v (erase nt) /\ js_value u DOut h 1 v nt m.
Proof.
  intros u schemas ns s d nt h m Ha Hcn Hd Hn Hm Hr. pose proof (tree_wf u schemas ns s d nt Ha Hd Hn) as Hwf.
  destruct Ha as [Hu Hload Hv Hg]. pose proof (proj1 (validation_is_sound _ Hload Hv)) as HV. destruct Hn as (fs & Hfs & ->).
  destruct (decl_tylinked u Hu schemas Hload HV Hg Hcn ns s d fs Hd Hfs) as (E & Hi & Hf).
  destruct (typed_values u (ts_program u schemas) h _ m Hr Hwf) as [_ K].
  apply (K ns s _ _ _ eq_refl Hi Hf [] (map (fun c => ts_name u c Pascal None) ns ++ [ts_name u (sd_name d) Pascal (Some SOut)])); [|rewrite E; now apply top_type|exact Hm].
  intros g Hin. now apply top_global.
Qed.
Print Assumptions typed_ts_values_are_messages.
(** ... so [serialize] returns the encoding of that message, in a new buffer. *)
Theorem typed_ts_values_serialize : forall u schemas ns s d nt h m,
  accepted u schemas -> ts_clear_names u schemas -> declared schemas ns s d -> decl_named schemas ns s d nt ->
  ts_has (ts_program u schemas) true h [] (ts_type u ns d SOut) m -> ts_ranged u h nt m -> ts_loaded h ->
  exists v, wt DOut v (erase nt) /\ js_value u DOut h 1 v nt m /\
    (lenN (spec_encode true v (erase nt)) < 2 ^ 53 -> exists enough, forall rounds depth, (enough <= rounds)%nat -> (enough <= depth)%nat ->
      exists r h', ts_call_serialize rounds u (ts_program u schemas) depth ns d m h = ExVal (JvBuf r) h' /\
        nth_error h r = None /\ nth_error h' r = Some (CellBuf (spec_encode true (js_val v) (erase nt))) /\ ts_kept h h').
Proof.
  intros u schemas ns s d nt h m Ha Hcn Hd Hn Hm Hr Hl. destruct (typed_ts_values_are_messages u schemas ns s d nt h m Ha Hcn Hd Hn Hm Hr) as (v & W & V).
  exists v. split; [exact W|]. split; [exact V|]. intros Hs. destruct (generated_ts_serialize u schemas ns s d nt v Ha Hcn Hd Hn W Hs) as (enough & K).
  exists enough. intros rounds depth H1 H2. destruct (K rounds depth m h H1 H2 Hl V) as (r & h' & A & B & C & D & _). eauto 10.
Qed.
Print Assumptions typed_ts_values_serialize.
