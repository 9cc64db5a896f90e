(** Loading with messages agrees with loading without: every range that is listed can be. *)
From Verif Require Import IdentFacts TokenFacts TokenFacts2 ReportFacts LexErrFacts LocatedFacts LocatedFacts2 LocatedFacts3 LocatedFacts4.
From Verif Require Export ReportingFacts LoadFacts.

Section Sane.
Context (u : unicode) (pal : palette) (Hu : ascii_agrees u) (Hw : white_not_alphabetic u).
Context (stem : str -> option str).

(** ** The parts of a schema can be listed *)
Section Parts.
Context (f : xfile) (ts : list token) (Hlex : lexed u 0 (xl_contents f) ts).
Definition part (b : list token) : Prop := exists a c, ts = a ++ b ++ c.
Lemma part_app x y z : part (x ++ y ++ z) -> part y.
Proof. intros (a & c & E). exists (a ++ x), (z ++ c). rewrite E. now rewrite <- !app_assoc. Qed.
Lemma part_listable b r : part b -> covers r b -> listable u pal f r.
Proof.
  intros (a & c & E) H. unfold listable. apply listing_total; [apply (newline_white u Hu)|]. now apply (covers_good u Hu Hw _ ts a b c).
Qed.
Lemma type_at_listable t b : type_at t b -> part b -> type_listable u pal f t.
Proof.
  induction 1 as [r t a b c Ha Ht IH Hb Hc|r t b Hn Ht Hc]; intros Hp; cbn [type_listable].
  - apply IH. now apply (part_app [a] b [c]).
  - destruct t as [t| | |i n| | | | |]; auto; [now apply (Hn t)|]. now apply (part_listable b).
Qed.
Lemma field_at_listable d b : field_at d b -> part b -> field_listable u pal f d.
Proof.
  intros [r c k n t i cs ks name tys is _ _ _ Ht _ Hc] Hp. split; cbn [xf_range xf_type]; [now apply (part_listable _ _ Hp)|].
  destruct Ht as [r'|t a tb Ha Ht]; [exact I|]. apply (type_at_listable t tb Ht).
  apply (part_app (cs ++ ks ++ [name] ++ [a]) tb is). now rewrite <- !app_assoc.
Qed.
Lemma many_listable {A} (P : A -> list token -> Prop) (Q : A -> Prop) (K : forall x b, P x b -> part b -> Q x) l b :
  many_at P l b -> part b -> Forall Q l.
Proof.
  induction 1 as [|x l b1 b2 H1 H2 IH]; intros Hp; [constructor|]. constructor.
  - apply (K x b1 H1). now apply (part_app [] b1 b2).
  - apply IH. apply (part_app b1 b2 []). now rewrite app_nil_r.
Qed.
Lemma decl_at_listable d b : decl_at d b -> part b -> decl_listable u pal f d.
Proof.
  intros [r c k n fs' dl cs hs fts dls close _ _ Hf _ _ Hc] Hp. split; cbn [xd_range xd_fields]; [now apply (part_listable _ _ Hp)|].
  apply (many_listable field_at _ field_at_listable fs' fts Hf). apply (part_app (cs ++ hs) fts (dls ++ [close])). now rewrite <- !app_assoc.
Qed.
Lemma schema_at_listable s l : schema_at u stem s l -> l = ts -> Forall (decl_listable u pal f) (xs_decls s) /\
  Forall (fun e => listable u pal f (xi_range (snd e))) (xs_imports s).
Proof.
  intros [c listed stored ds ct it dt _ Hi Hp _ Hd] El. cbn [xs_decls xs_imports]. split.
  - apply (many_listable decl_at _ decl_at_listable ds dt Hd). exists (ct ++ it), []. rewrite <- El, app_nil_r. now rewrite <- app_assoc.
  - apply (Permutation_Forall Hp). apply (many_listable (import_at u stem) (fun e => listable u pal f (xi_range (snd e)))) with it; [|exact Hi|exists ct, dt; now rewrite <- El].
    intros x b [n i b' _ Hc] Hb. cbn [snd]. now apply (part_listable b').
Qed.
End Parts.
Lemma parsed_listable p contents ts s s' : tokenize u contents = LexOk ts -> parse_loc u stem pal ts = XParseOk s -> xs_decls s' = xs_decls s ->
  file_listable u pal (mkXFile s' p contents) /\ Forall (fun e => exists text, listing u pal contents (xi_range (snd e)) = Some text) (xs_imports s).
Proof.
  intros Ht Hp Hd. apply tokenize_iff in Ht; auto. apply parse_is_at in Hp. unfold file_listable. cbn [xl_schema]. rewrite Hd.
  now apply (schema_at_listable (mkXFile s' p contents) ts Ht s ts Hp).
Qed.
Lemma all_listed_some p contents es : Forall (fun e => good_range u contents (fst e)) es ->
  exists errors, all_listed u pal p contents es = Some errors /\ Forall2 (fun e err => at_range u pal p contents (fst e) (snd e) = Some err) es errors.
Proof.
  induction 1 as [|[r m] es Hr _ (errors & E & H)]; [exists []; split; [reflexivity|constructor]|]. cbn [all_listed fst snd] in *. unfold at_range at 1.
  destruct (listing_total u pal contents r (newline_white u Hu) Hr) as (text & El). rewrite El, E. eexists. split; [reflexivity|].
  constructor; [|exact H]. cbn [fst snd]. unfold at_range. now rewrite El.
Qed.

(** ** Forgetting the messages *)
Context (grapheme : str -> N -> str) (fs : files) (x : texts).
Notation xload_imports := (xload_imports u pal fs x).
Notation xload_file := (xload_file u pal grapheme stem fs x).
Notation xload_loop := (xload_loop u pal grapheme stem fs x).
Notation xload_schemas := (xload_schemas u pal grapheme stem fs x).
Definition bare_state (st : xlstate) : lstate :=
  mkLState (map fst (y_stack st)) (y_visited st) (bare_files (y_schemas st)) (map fst (y_errors st)).
Definition forget_step (r : xlstep) : lstep := match r with XsNext st => LsNext (bare_state st) | XsPanic => LsPanic | XsLoop => LsLoop end.
Definition forget_load (r : xlres) : lres :=
  match r with XLoadOk l => LoadOk (bare_files l) | XLoadErr es => LoadErr (map fst es) | XLoadPanic => LoadPanic | XLoadLoop => LoadLoop end.
Lemma bare_fail e es st : bare_state (xfail e es st) = fail e (bare_state st).
Proof. unfold bare_state, xfail, fail. cbn. now rewrite map_app. Qed.
Lemma imports_forget p dir contents ims : Forall (fun e => exists text, listing u pal contents (xi_range (snd e)) = Some text) ims -> forall st,
  exists ims' st', xload_imports p dir contents ims st = Some (ims', st') /\
    load_imports u fs p dir (map bare_named ims) (bare_state st) = (map bare_named ims', bare_state st').
Proof.
  induction 1 as [|[k im] ims [text Hl] _ IH]; intros st; [now exists [], st|].
  cbn [Reporting.xload_imports map load_imports bare_named fst snd bare_import si_path] in *. rewrite Hl.
  destruct (fs_locate fs dir (xi_path im)) as [| |q].
  - match goal with |- context [match xload_imports _ _ _ _ ?s with _ => _ end] => destruct (IH s) as (ims' & st' & -> & E') end.
    do 2 eexists. split; [reflexivity|]. rewrite bare_fail in E'. now rewrite E'.
  - match goal with |- context [match xload_imports _ _ _ _ ?s with _ => _ end] => destruct (IH s) as (ims' & st' & -> & E') end.
    do 2 eexists. split; [reflexivity|]. rewrite bare_fail in E'. now rewrite E'.
  - match goal with |- context [match xload_imports _ _ _ _ ?s with _ => _ end] => destruct (IH s) as (ims' & st' & -> & E') end.
    do 2 eexists. split; [reflexivity|].
    match goal with |- context [load_imports _ _ _ _ _ ?s] => replace s with (bare_state (if contains ns_eqb (path_to_namespace u q) (y_visited st)
      then st else mkXLState ((path_to_namespace u q, q, Some (p, text)) :: y_stack st) (path_to_namespace u q :: y_visited st) (y_schemas st) (y_errors st))) by
      (cbn [bare_state l_visited]; destruct (contains ns_eqb (path_to_namespace u q) (y_visited st)); reflexivity) end.
    rewrite E'. reflexivity.
Qed.
Lemma bare_insert ns f m m' old : ns_insert ns f m = (m', old) ->
  ns_insert ns (bare_file f) (bare_files m) = (bare_files m', option_map bare_file old).
Proof.
  revert m' old. induction m as [|[k v] m IH]; intros m' old E; cbn [ns_insert bare_files map fst snd] in *.
  - injection E as <- <-. reflexivity.
  - destruct (ns_cmp ns k); [injection E as <- <-; reflexivity|injection E as <- <-; reflexivity|].
    destruct (ns_insert ns f m) as [m'' old']. injection E as <- <-. unfold bare_files in IH. now rewrite (IH m'' old' eq_refl).
Qed.
Lemma file_forget ns p origin st : forget_step (xload_file ns p origin st) = load_file u stem fs ns p (bare_state st).
Proof.
  unfold Reporting.xload_file, load_file. destruct (fs_read fs p) as [contents|]; [|cbn [forget_step]; now rewrite bare_fail].
  pose proof (tokenize_forget u pal (grapheme contents) contents) as Et. rewrite Et.
  destruct (tokenize_loc u pal (grapheme contents) contents) as [ts|es|] eqn:El; cbn [forget_lex] in *; [| |reflexivity].
  - pose proof (parse_forget u stem pal ts) as Ep. rewrite Ep. destruct (parse_loc u stem pal ts) as [s|es| |] eqn:Eq'; cbn [forget_parse] in *; [| |reflexivity|reflexivity].
    + destruct p as [|p1 p]; [reflexivity|]. set (q := p1 :: p).
      destruct (parsed_listable q contents ts s s Et Eq' eq_refl) as [_ Hl].
      destruct (imports_forget q (removelast q) contents (xs_imports s) Hl st) as (ims' & st' & E1 & E2). rewrite E1. cbn [bare_schema ss_imports ss_comment ss_decls].
      rewrite E2. destruct (ns_insert ns (mkXFile (mkXSchema (xs_comment s) ims' (xs_decls s)) q contents) (y_schemas st')) as [m old] eqn:En.
      apply bare_insert in En. unfold bare_file at 1, bare_schema in En. cbn [xl_schema xl_path xl_contents xs_comment xs_imports xs_decls] in En. cbn [bare_state l_schemas l_stack l_visited l_errors].
      rewrite En. cbn [forget_step]. destruct old as [other|]; cbn [option_map]; [|reflexivity]. now rewrite bare_fail.
    + destruct (all_listed_some p contents (map (fun e => (xp_range e, xp_message e)) es)) as (errors & -> & _); [|cbn [forget_step]; now rewrite bare_fail].
      apply Forall_forall. intros e Hin. apply in_map_iff in Hin as (y & <- & Hy). cbn [fst]. apply parse_complaints in Eq' as [Hc _]. rewrite Forall_forall in Hc.
      apply tokenize_iff in Et; auto. now apply (complaint_good u Hu Hw stem pal contents ts), Hc.
  - destruct (all_listed_some p contents (map (fun e => (xl_range e, xl_message e)) es)) as (errors & -> & _); [|cbn [forget_step]; now rewrite bare_fail].
    apply Forall_forall. intros e Hin. apply in_map_iff in Hin as (y & <- & Hy). cbn [fst]. apply tokenize_faults in El as [El _]; auto.
    pose proof (faults_good u Hu pal (grapheme contents) 0 contents es El [] eq_refl) as Hf. rewrite Forall_forall in Hf. now apply Hf.
Qed.
Lemma loop_forget fuel : forall st, forget_load (xload_loop fuel st) = load_loop u stem fs fuel (bare_state st).
Proof.
  induction fuel as [|fuel IH]; intros [stack visited schemas errors]; destruct stack as [|[[ns p] origin] stack];
    cbn [Reporting.xload_loop load_loop bare_state y_stack y_visited y_schemas y_errors l_stack l_visited l_schemas l_errors map fst];
    try (destruct errors; reflexivity).
  pose proof (file_forget ns p origin (mkXLState stack visited schemas errors)) as E. unfold bare_state at 1 in E; cbn [y_stack y_visited y_schemas y_errors] in E. rewrite <- E.
  destruct (xload_file ns p origin (mkXLState stack visited schemas errors)) as [st'| |]; cbn [forget_step forget_load]; [apply IH|reflexivity|reflexivity].
Qed.
Theorem xload_forget : forget_load xload_schemas = load_schemas u stem fs.
Proof. unfold Reporting.xload_schemas, load_schemas. destruct (fs_main fs) as [name|]; [apply (loop_forget _ (mkXLState [(path_to_namespace u [name], [name], None)] [path_to_namespace u [name]] [] []))|reflexivity]. Qed.
End Sane.
