(** Property theorems about whole runs of typical that write TypeScript: C71. See MANIFEST.json, and Properties11.v for Rust. *)
From Verif Require Import Spec PrimExtra BaseFacts TruncFacts2 LoadFacts CycleFacts CommandFacts PlainFacts TreeFacts RustTypesFacts.
From Verif Require Import Properties1 Properties2 Properties7 Properties8 Properties9 Properties10 Properties11.
From Verif Require Import TsSpec TsApi TsClear Properties12.

(** C71: the simple condition on names suffices for what C68 to C70 depend on; ... *)
Theorem distinct_names_are_clear : forall u schemas, accepted u schemas -> ts_distinct_names u schemas -> ts_clear_names u schemas.
Proof. intros u schemas [Hu Hl Hv Hg] Hd. apply distinct_clear; auto. exact (proj1 (validation_is_sound _ Hl Hv)). Qed.
Print Assumptions distinct_names_are_clear.
(** ... after a successful run, the output file holds the text of the program generated from accepted schemas, in which every
    declaration of every file that is reached has its functions, and what C68 to C70 say holds of it, ... *)
Lemma namespace_nonempty u p : p <> [] -> namespace_of u p <> [].
Proof. destruct p as [|x [|y p]]; [easy| |]; discriminate. Qed.
Theorem generated_ts_file_holds_the_program : forall works u stem version rust_code fs listing rust out es,
  ascii_agrees u -> files_ok u fs -> no_conflicts u stem fs -> (forall p, reachable u stem fs p -> plain_file u fs p) -> ts_distinct_files u stem fs ->
  generate_code works u stem rust_code (ts_code u version) fs listing rust (Some out) = (es, Succeeded) ->
  exists schemas code, accepted u schemas /\ ts_clear_names u schemas /\ ts_code u version schemas = Some code /\ In (Write (ToFile (t_file out)) code) es /\
    forall p contents s d, reachable u stem fs p -> reads u stem fs p contents s -> In d (ss_decls s) ->
      code = ts_prelude_text version ++ nl ++ tmod_str 0 (ts_program u schemas) /\
      exists s' nt, filled u fs p s s' /\ declared schemas (namespace_of u p) s' d /\ decl_named schemas (namespace_of u p) s' d nt.
Proof.
  intros works u stem version rc fs listing rust out es Hu Hfs Hc Hp Hdf G.
  assert (exists l, load_schemas u stem fs = LoadOk l /\ validate (schemas_of l) = VOk) as (l & E & V).
  { unfold generate_code in G. destruct (load_schemas u stem fs) as [l| | |]; try discriminate G. exists l. split; [reflexivity|].
    destruct (validate (schemas_of l)); try discriminate G. reflexivity. }
  pose proof (loaded_loaded u stem fs Hu Hfs l E) as HL.
  destruct (ts_generation_never_panics u _ version HL V (loaded_text u stem fs Hu Hfs l E)) as (code & Hcode).
  pose proof (loaded_accepted u stem fs Hu Hfs l E V Hp) as Ha.
  exists (schemas_of l), code. split; [exact Ha|]. split; [|split; [exact Hcode|split]].
  - apply distinct_names_are_clear; [exact Ha|].
    assert (forall ns s, In (ns, s) (schemas_of l) -> exists p c s0, ns = namespace_of u p /\ reachable u stem fs p /\ reads u stem fs p c s0 /\ ss_decls s = ss_decls s0) as K.
    { intros ns s Hin. apply in_map_iff in Hin as ([ns' f] & [= <- <-] & Hin). destruct (loaded_in u stem fs Hu Hfs l ns' f E Hin) as (-> & R & s0 & Hr & _ & (_ & Ed & _)).
      exists (lf_path f), (lf_contents f), s0. auto. }
    constructor.
    + intros ns s Hin. destruct (K ns s Hin) as (p & c & s0 & -> & _ & (Hr & _) & _). apply namespace_nonempty. intros ->. rewrite (fo_base u fs Hfs) in Hr. discriminate Hr.
    + intros ns s i Hin Hi. destruct (K ns s Hin) as (p & c & s0 & -> & R & Hr & Ed). rewrite Ed in Hi. exact (df_globals u stem fs Hdf p c s0 i R Hr Hi).
    + intros ns s i ns' s' j Hin Hi Hin' Hj. destruct (K ns s Hin) as (p & c & s0 & -> & R & Hr & Ed). destruct (K ns' s' Hin') as (p' & c' & s0' & -> & R' & Hr' & Ed').
      rewrite Ed' in Hj. exact (df_types u stem fs Hdf p p' c' s0' i j R R' Hr' Hi Hj).
  - unfold generate_code in G. rewrite E, V, Hcode in G.
    assert (forall b, emit works (Some out) (Some code) b (fun before => (before, Succeeded)) = (es, Succeeded) -> In (Write (ToFile (t_file out)) code) es) as K.
    { intros b. unfold emit, try. destruct out as [file [dir|]]; cbn [t_parent t_file].
      - destruct (works b (MakeDir dir)); [|discriminate]. match goal with |- context [if works ?x ?y then _ else _] => destruct (works x y) end; [|discriminate].
        intros [= <-]. apply in_app_iff. right. now left.
      - destruct (works b _); [|discriminate]. intros [= <-]. apply in_app_iff. right. now left. }
    revert G. set (b0 := if listing then _ else _). unfold emit at 1. unfold try. destruct rust as [[file [dir|]]|]; cbn [t_parent t_file]; [| |apply K].
    + destruct (works b0 (MakeDir dir)); [|discriminate]. destruct (rc (schemas_of l)); [|discriminate].
      match goal with |- (if works ?x ?y then _ else _) = _ -> _ => destruct (works x y) end; [apply K|discriminate].
    + destruct (rc (schemas_of l)); [|discriminate]. match goal with |- (if works ?x ?y then _ else _) = _ -> _ => destruct (works x y) end; [apply K|discriminate].
  - intros p c s d R Hr Hd. destruct (loaded_all u stem fs Hu Hfs l p E Hc R) as (f & Hin & Ep).
    destruct (loaded_in u stem fs Hu Hfs l _ f E Hin) as (_ & _ & s0 & Hr0 & _ & Hf). rewrite Ep in Hr0, Hf. destruct (reads_unique _ _ _ _ _ _ _ _ Hr Hr0) as [_ <-].
    assert (declared (schemas_of l) (namespace_of u p) (lf_schema f) d) as HD.
    { split; [apply in_map_iff; exists (namespace_of u p, f); auto|]. destruct Hf as (_ & -> & _). exact Hd. }
    destruct (each_declaration_has_one_tree u _ _ _ _ Ha HD) as (nt & Hnt & _). split; [|now exists (lf_schema f), nt].
    assert (forall a b : str, Some a = Some b -> b = a) as SI by (intros a b [= ->]; reflexivity).
    unfold ts_code in Hcode. destruct (module_panics _ _); [discriminate|]. cbv zeta in Hcode.
    destruct (module_tree_contains_schemas (schemas_of l) (namespace_of u p) (lf_schema f) (proj1 HL) (loaded_text u stem fs Hu Hfs l E) (proj1 HD)) as (here & _ & Hh & _).
    destruct (module_tree (schemas_of l)) as [ch s1]. cbn [module_children module_schema] in Hcode.
    inversion Hh; subst; [|destruct ch; [contradiction|exact (SI _ _ Hcode)]].
    destruct HD as [_ HD]. destruct ch; [|exact (SI _ _ Hcode)]. destruct (ss_decls _); [destruct HD|exact (SI _ _ Hcode)].
Qed.
Print Assumptions generated_ts_file_holds_the_program.
(** ... for example: what it writes for a message of one of these types, it reads back. *)
Theorem generated_ts_file_round_trips : forall works u stem version rust_code fs listing rust out es,
  ascii_agrees u -> files_ok u fs -> no_conflicts u stem fs -> (forall p, reachable u stem fs p -> plain_file u fs p) -> ts_distinct_files u stem fs ->
  generate_code works u stem rust_code (ts_code u version) fs listing rust (Some out) = (es, Succeeded) ->
  exists schemas, let prog := ts_program u schemas in
  forall p contents s d, reachable u stem fs p -> reads u stem fs p contents s -> In d (ss_decls s) ->
    In (Write (ToFile (t_file out)) (ts_prelude_text version ++ nl ++ tmod_str 0 prog)) es /\
    exists s' nt, filled u fs p s s' /\ declared schemas (namespace_of u p) s' d /\ decl_named schemas (namespace_of u p) s' d nt /\ forall v, wt DOut v (erase nt) -> ts_faithful v -> lenN (spec_encode true v (erase nt)) < 2 ^ 53 ->
      exists enough, forall rounds depth m h, (enough <= rounds)%nat -> (enough <= depth)%nat -> ts_loaded h -> js_value u DOut h 1 v nt m ->
        exists r h1, ts_call_serialize rounds u prog depth (namespace_of u p) d m h = ExVal (JvBuf r) h1 /\
          nth_error h1 r = Some (CellBuf (spec_encode true (js_val v) (erase nt))) /\ ts_kept h h1 /\
          forall h2, ts_kept h1 h2 -> ts_loaded h2 ->
            exists m' h3, ts_call_deserialize rounds u prog depth (namespace_of u p) d (JvBuf r) h2 = ExVal m' h3 /\ ts_kept h2 h3 /\
              js_value u DIn h3 (length h2) (js_val (to_in v (erase nt))) nt m'.
Proof.
  intros works u stem version rc fs listing rust out es Hu Hfs Hc Hp Hdf G.
  destruct (generated_ts_file_holds_the_program _ _ _ _ _ _ _ _ _ _ Hu Hfs Hc Hp Hdf G) as (schemas & code & Ha & Hcn & _ & Hw & K).
  exists schemas. intros prog p c s d R Hr Hd. destruct (K p c s d R Hr Hd) as (-> & s' & nt & Hfill & HD & Hnt). split; [exact Hw|].
  exists s', nt. split; [exact Hfill|]. split; [exact HD|]. split; [exact Hnt|]. intros v Hv Hf Hs. destruct (generated_ts_round_trip u schemas _ s' d nt v Ha Hcn HD Hnt Hv Hf Hs) as (enough & Q).
  destruct (generated_ts_serialize u schemas _ s' d nt v Ha Hcn HD Hnt Hv Hs) as (enough2 & Q2).
  exists (enough + enough2)%nat. intros rounds depth m h H1 H2 H3 H4. destruct (Q rounds depth m h ltac:(lia) ltac:(lia) H3 H4) as (r & h1 & A & A2 & _ & B).
  destruct (Q2 rounds depth m h ltac:(lia) ltac:(lia) H3 H4) as (r' & h1' & A' & _ & C & _). rewrite A in A'. injection A' as <- <-.
  exists r, h1. auto.
Qed.
Print Assumptions generated_ts_file_round_trips.
