(** Property theorems about whole runs of typical: C66. See MANIFEST.json. [fs] stands for the file system, [works] for which
    operations on it succeed, [u] for Rust's Unicode tables, [stem] for the file name of a path without its extension. *)
From Verif Require Import Spec PrimExtra BaseFacts TruncFacts2 LoadFacts CycleFacts CommandFacts RustTypesFacts PlainFacts TreeFacts Properties1 Properties2 Properties7 Properties8 Properties9 Properties10.

(** C66: generating Rust code crashes only if the parser does (C34). *)
Theorem generating_rust_crashes_only_in_the_parser : forall works u stem version ts_code fs listing rust,
  ascii_agrees u -> files_ok u fs ->
  snd (generate_code works u stem (rust_code u version) ts_code fs listing rust None) = Crashed -> load_schemas u stem fs = LoadPanic.
Proof.
  intros works u stem version tc fs listing rust Hu Hfs. unfold generate_code.
  destruct (load_schemas u stem fs) as [l|es| |] eqn:E; [|discriminate|reflexivity|now destruct (load_terminates u stem fs Hu Hfs)].
  pose proof (loaded_loaded u stem fs Hu Hfs l E) as HL. pose proof (validate_spec _ HL) as V.
  destruct (validate (schemas_of l)) eqn:EV; try contradiction; [|discriminate].
  destruct (generation_never_panics u _ version HL EV (loaded_text u stem fs Hu Hfs l E)) as (code & ->). intros H. exfalso. revert H.
  unfold emit, try. destruct rust as [[file [dir|]]|]; cbn [t_file t_parent]; repeat (destruct (works _ _)); cbn [snd]; discriminate.
Qed.
Print Assumptions generating_rust_crashes_only_in_the_parser.

(** After a successful run, the output file holds the text of the program generated from accepted schemas, in which every
    declaration of every file that is reached has its types; what C60 to C65 say then holds of it, ... *)
Theorem generated_file_holds_the_program : forall works u stem version ts_code fs listing out ts es,
  ascii_agrees u -> files_ok u fs -> no_conflicts u stem fs -> (forall p, reachable u stem fs p -> plain_file u fs p) ->
  generate_code works u stem (rust_code u version) ts_code fs listing (Some out) ts = (es, Succeeded) ->
  exists schemas code, accepted u schemas /\ rust_code u version schemas = Some code /\ In (Write (ToFile (t_file out)) code) es /\
    forall p contents s d, reachable u stem fs p -> reads u stem fs p contents s -> In d (ss_decls s) ->
      code = prelude_text version ++ nl ++ mod_str 0 (rust_program u schemas) /\
      exists s' nt, filled u fs p s s' /\ declared schemas (namespace_of u p) s' d /\ decl_named schemas (namespace_of u p) s' d nt.
Proof.
  intros works u stem version tc fs listing out ts es Hu Hfs Hc Hp G.
  assert (exists l, load_schemas u stem fs = LoadOk l /\ validate (schemas_of l) = VOk) as (l & E & V).
  { unfold generate_code in G. destruct (load_schemas u stem fs) as [l| | |]; try discriminate G. exists l. split; [reflexivity|].
    destruct (validate (schemas_of l)); try discriminate G. reflexivity. }
  pose proof (loaded_loaded u stem fs Hu Hfs l E) as HL.
  destruct (generation_never_panics u _ version HL V (loaded_text u stem fs Hu Hfs l E)) as (code & Hcode).
  pose proof (loaded_accepted u stem fs Hu Hfs l E V Hp) as Ha.
  exists (schemas_of l), code. split; [exact Ha|]. split; [exact Hcode|]. split.
  - unfold generate_code in G. rewrite E, V, Hcode in G.
    assert (forall b t c, exists more o, emit works t c b (fun b => (b, Succeeded)) = (b ++ more, o)) as K.
    { intros b t c. unfold emit, try. destruct t as [[file parent]|]; cbn [t_parent t_file].
      - destruct parent as [dir|]; [destruct (works b (MakeDir dir))|]; destruct c as [c|]; rewrite <- ?app_assoc;
          try (match goal with |- context [if works ?x ?y then _ else _] => destruct (works x y) end); rewrite <- ?app_assoc; try (eexists; eexists; reflexivity).
        all: exists [], Crashed; now rewrite app_nil_r.
      - exists [], Succeeded. now rewrite app_nil_r. }
    revert G. destruct out as [file parent]. unfold emit at 1, try. cbn [t_parent t_file]. set (b0 := if listing then _ else _).
    assert (forall b, (if works b (Write (ToFile file) code)
              then emit works ts (tc (schemas_of l)) (b ++ [Write (ToFile file) code]) (fun before => (before, Succeeded))
              else (b ++ [Write (ToFile file) code], Failed)) = (es, Succeeded) -> In (Write (ToFile file) code) es) as K2.
    { intros b. destruct (works b (Write (ToFile file) code)); [|discriminate]. destruct (K (b ++ [Write (ToFile file) code]) ts (tc (schemas_of l))) as (more & o & ->).
      intros [= <- _]. apply in_app_iff. left. apply in_app_iff. right. now left. }
    destruct parent as [dir|]; [|apply K2]. destruct (works b0 (MakeDir dir)); [apply K2|discriminate].
  - intros p c s d R Hr Hd. destruct (loaded_all u stem fs Hu Hfs l p E Hc R) as (f & Hin & Ep).
    destruct (loaded_in u stem fs Hu Hfs l _ f E Hin) as (_ & _ & s0 & Hr0 & _ & Hf). rewrite Ep in Hr0, Hf. destruct (reads_unique _ _ _ _ _ _ _ _ Hr Hr0) as [_ <-].
    assert (declared (schemas_of l) (namespace_of u p) (lf_schema f) d) as HD.
    { split; [apply in_map_iff; exists (namespace_of u p, f); auto|]. destruct Hf as (_ & -> & _). exact Hd. }
    destruct (each_declaration_has_one_tree u _ _ _ _ Ha HD) as (nt & Hnt & _). split; [|now exists (lf_schema f), nt].
    unfold rust_code in Hcode. destruct (module_panics _ _); [discriminate|]. cbv zeta in Hcode.
    destruct (module_tree_contains_schemas (schemas_of l) (namespace_of u p) (lf_schema f) (proj1 HL) (loaded_text u stem fs Hu Hfs l E) (proj1 HD)) as (here & _ & Hh & _).
    destruct (module_tree (schemas_of l)) as [ch s1]. cbn [module_children module_schema] in Hcode.
    inversion Hh; subst; [|destruct ch; [contradiction|now injection Hcode as <-]].
    destruct HD as [_ HD]. destruct ch; [|now injection Hcode as <-]. destruct (ss_decls _); [destruct HD|now injection Hcode as <-].
Qed.
Print Assumptions generated_file_holds_the_program.
(** ... for example: what it writes for a message of one of these types, it reads back. *)
Theorem generated_file_round_trips : forall works u stem version ts_code fs listing out ts es,
  ascii_agrees u -> files_ok u fs -> no_conflicts u stem fs -> (forall p, reachable u stem fs p -> plain_file u fs p) ->
  generate_code works u stem (rust_code u version) ts_code fs listing (Some out) ts = (es, Succeeded) ->
  exists prog, forall p contents s d, reachable u stem fs p -> reads u stem fs p contents s -> In d (ss_decls s) ->
    In (Write (ToFile (t_file out)) (prelude_text version ++ nl ++ mod_str 0 prog)) es /\
    forall m, has_type prog (mods u (namespace_of u p)) (TyPath [type_name u (sd_name d) SOut]) m ->
    exists v T, m = embed u DOut v T /\ (lenN (spec_encode true v (erase T)) < 2 ^ 60 ->
    forall (W : Type) (w : writer W) rounds wraps depth r x s', (vdepth v < depth)%nat ->
      call_serialize w rounds isize_max wraps u prog depth (namespace_of u p) d m (mkSt r x []) = FVal (RvOk RvUnit) s' ->
      st_written s' = spec_encode true v (erase T) /\
      forall rounds2, exists enough, forall depth2 chunks x2 st, (enough <= depth2)%nat -> chunks_ok chunks -> concat chunks = st_written s' ->
        (length (concat chunks) < rounds2)%nat ->
        exists m' s2 s3,
          call_deserialize w rounds2 isize_max wraps u prog depth2 (namespace_of u p) d chunks x2 = FVal (RvOk m') s2 /\
          call_from w rounds isize_max wraps u prog depth (namespace_of u p) d m st = FVal m' s3 /\
          has_type prog (mods u (namespace_of u p)) (TyPath [type_name u (sd_name d) SIn]) m').
Proof.
  intros works u stem version tc fs listing out ts es Hu Hfs Hc Hp G.
  destruct (generated_file_holds_the_program _ _ _ _ _ _ _ _ _ _ Hu Hfs Hc Hp G) as (schemas & code & Ha & _ & Hw & K).
  exists (rust_program u schemas). intros p c s d R Hr Hd. destruct (K p c s d R Hr Hd) as (-> & s' & nt & _ & HD & Hnt). split; [exact Hw|].
  intros m Hm. destruct (proj1 (generated_types_have_the_messages u schemas _ s' d nt DOut m Ha HD Hnt) Hm) as (v & Hv & ->).
  exists v, nt. split; [reflexivity|]. intros Hlen W w rounds wraps depth r x s1 Hdep Hs. split.
  - assert (lenN (spec_encode true v (erase nt)) < two64) as H64 by (unfold two64; lia).
    pose proof (generated_serialize_writes_documented_format W w rounds isize_max wraps u schemas _ s' d nt v depth r x Ha HD Hnt Hv H64 Hdep) as F.
    rewrite Hs in F. destruct F as [[_ F]|[F _]]; [exact F|discriminate F].
  - intros rounds2. destruct (generated_round_trip W w rounds wraps u schemas _ s' d nt v depth r x s1 Ha HD Hnt Hv Hlen Hdep Hs rounds2) as (enough & Q).
    exists enough. intros depth2 chunks x2 st H1 H2 H3 H4. destruct (Q depth2 chunks x2 st H1 H2 H3 H4) as (m' & s2 & s3 & Q1 & Q2).
    exists m', s2, s3. split; [exact Q1|]. split; [exact Q2|].
    pose proof (generated_from W w rounds isize_max wraps u schemas _ s' d nt v depth st Ha HD Hnt Hv ltac:(lia)) as Q3. rewrite Q2 in Q3. injection Q3 as -> _.
    apply (proj2 (generated_types_have_the_messages u schemas _ s' d nt DIn _ Ha HD Hnt)). exists (to_in v (erase nt)). split; [|reflexivity].
    destruct Ha as [_ Hl Hva _]. pose proof (proj1 (validation_is_sound _ Hl Hva)) as HV.
    assert (ty_wf (erase nt)) as Hwf by (apply (decl_denotes_wf schemas HV (namespace_of u p) s' d); [exact HD|now apply decl_named_denotes]).
    assert (size v (erase nt) < 2 ^ 60) as Hs60 by now rewrite size_is_documented_length.
    assert (size v (erase nt) < two64) as Hs64 by (unfold two64; lia).
    pose proof (serialize_writes_documented_format v (erase nt) Hv Hwf Hs64) as E.
    exact (deserialized_messages_are_well_typed isize_max (erase nt) _ _ _ Hwf (serialize_ok v (erase nt) _ Hv Hwf Hs64 E) (rust_round_trip v (erase nt) _ Hv Hwf Hs60 E)).
Qed.
Print Assumptions generated_file_round_trips.
