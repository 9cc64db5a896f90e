(** What is said if loading fails. *)
From Verif Require Import IdentFacts TokenFacts TokenFacts2 ReportFacts LexErrFacts LocatedFacts LocatedFacts2 LocatedFacts3 LocatedFacts4.
From Verif Require Export ReportingFacts2.

Lemma insert_in {V} k (v : V) m y : In y (fst (ns_insert k v m)) -> snd y = v \/ In y m.
Proof.
  induction m as [|[k' v'] m IH]; cbn [ns_insert]; [intros [<-|[]]; now left|].
  destruct (ns_cmp k k'); cbn [fst].
  - intros [<-|H]; [now left|right; now right].
  - intros [<-|H]; [now left|now right].
  - destruct (ns_insert k v m) as [m' old]. cbn [fst] in *. intros [<-|H]; [right; now left|]. destruct (IH H); [now left|right; now right].
Qed.
Lemma pushed_app {K} (a b : list (K * list error)) : pushed_errors (a ++ b) = pushed_errors a ++ pushed_errors b.
Proof. apply flat_map_app. Qed.
Lemma Forall2_in_r {A B} (R : A -> B -> Prop) l l' y : Forall2 R l l' -> In y l' -> exists x, In x l /\ R x y.
Proof. induction 1 as [|a b l l' H _ IH]; [intros []|]. intros [<-|Hy]; [exists a; split; [now left|exact H]|]. destruct (IH Hy) as (z & H1 & H2). exists z. split; [now right|exact H2]. Qed.
Lemma Forall2_in_l {A B} (R : A -> B -> Prop) l l' x : Forall2 R l l' -> In x l -> exists y, In y l' /\ R x y.
Proof. induction 1 as [|a b l l' H _ IH]; [intros []|]. intros [<-|Hy]; [exists b; split; [now left|exact H]|]. destruct (IH Hy) as (z & H1 & H2). exists z. split; [now right|exact H2]. Qed.

Section Sane.
Context (u : unicode) (pal : palette) (Hu : ascii_agrees u) (Hw : white_not_alphabetic u).
Context (grapheme : str -> N -> str) (stem : str -> option str) (fs : files) (x : texts) (Hfs : files_ok u fs).
Notation code := (code_str pal).
Notation xload_imports := (xload_imports u pal fs x).
Notation xload_file := (xload_file u pal grapheme stem fs x).
Notation xload_loop := (xload_loop u pal grapheme stem fs x).
Notation xload_schemas := (xload_schemas u pal grapheme stem fs x).
Notation load_fault := (load_fault u pal grapheme stem fs x).
Notation has_import := (has_import u pal stem fs).
Notation grammatical := (grammatical u stem fs).
Notation reachable := (reachable u stem fs).
Notation inv := (inv u stem fs).

Lemma at_range_at p contents r m e : at_range u pal p contents r m = Some e <-> reported_at u pal p contents r m e.
Proof.
  unfold at_range, reported_at. destruct (listing u pal contents r) as [text|]; split.
  - intros [= <-]. eauto.
  - intros (? & [= <-] & ->). reflexivity.
  - discriminate.
  - intros (? & [=] & _).
Qed.

(** ** Where the paths on the stack come from *)
Definition origin_ok (p : path) (o : option (path * str)) : Prop :=
  match o with
  | None => exists name, fs_main fs = Some name /\ p = [name]
  | Some (q, text) => reachable q /\ exists im, has_import q im text /\ fs_locate fs (removelast q) (xi_path im) = At p
  end.
Definition stack_ok (st : xlstate) : Prop := Forall (fun e => origin_ok (snd (fst e)) (snd e)) (y_stack st).
Definition import_said (p : path) (contents : str) (im : ximport) (e : error) : Prop :=
  exists text, listing u pal contents (xi_range im) = Some text /\
  ((fs_locate fs (removelast p) (xi_path im) = Missing /\
    e = throw pal (txt "Unable to load " ++ code (x_joined x (removelast p) (xi_path im)) ++ txt ".") (Some (show_path p)) (Some text)
      (Some (x_missing x (removelast p) (xi_path im)))) \/
   (fs_locate fs (removelast p) (xi_path im) = Outside /\
    e = throw pal (code (x_canonical x (removelast p) (xi_path im)) ++ txt " is not a descendant of " ++ code (x_base x) ++
      txt ", which is the base directory for this run.") (Some (show_path p)) (Some text) None)).
Lemma imports_said p contents ims : forall st ims' st', xload_imports p (removelast p) contents ims st = Some (ims', st') ->
  y_schemas st' = y_schemas st /\
  (exists new, y_errors st' = y_errors st ++ new /\ forall e, In e (pushed_errors new) <-> exists k im, In (k, im) ims /\ import_said p contents im e) /\
  (exists new, y_stack st' = new ++ y_stack st /\ Forall (fun e => exists k im text, In (k, im) ims /\ listing u pal contents (xi_range im) = Some text /\
    fs_locate fs (removelast p) (xi_path im) = At (snd (fst e)) /\ snd e = Some (p, text)) new).
Proof.
  induction ims as [|[k im] ims IH]; intros st ims' st' E; cbn [Reporting.xload_imports] in E.
  - injection E as <- <-. split; [reflexivity|]. split; exists [].
    + rewrite app_nil_r. split; [reflexivity|]. intros e. split; [intros []|]. intros (? & ? & [] & _).
    + split; [reflexivity|constructor].
  - destruct (listing u pal contents (xi_range im)) as [text|] eqn:El; [|discriminate].
    assert (forall e, import_said p contents im e <->
      match fs_locate fs (removelast p) (xi_path im) with
      | Missing => e = throw pal (txt "Unable to load " ++ code (x_joined x (removelast p) (xi_path im)) ++ txt ".") (Some (show_path p)) (Some text)
          (Some (x_missing x (removelast p) (xi_path im)))
      | Outside => e = throw pal (code (x_canonical x (removelast p) (xi_path im)) ++ txt " is not a descendant of " ++ code (x_base x) ++
          txt ", which is the base directory for this run.") (Some (show_path p)) (Some text) None
      | At _ => False
      end) as Hs.
    { intros e. unfold import_said. destruct (fs_locate fs (removelast p) (xi_path im)) as [| |q]; split.
      - intros (t & Et & [[_ ->]|[[=] _]]). congruence.
      - intros ->. exists text. auto.
      - intros (t & Et & [[[=] _]|[_ ->]]). congruence.
      - intros ->. exists text. auto.
      - intros (t & Et & [[[=] _]|[[=] _]]).
      - intros []. }
    assert (forall st1 ims1 st2, xload_imports p (removelast p) contents ims st1 = Some (ims1, st2) -> y_schemas st1 = y_schemas st ->
      (exists add, y_errors st1 = y_errors st ++ add /\ forall e, In e (pushed_errors add) <-> import_said p contents im e) ->
      (exists add, y_stack st1 = add ++ y_stack st /\ Forall (fun e => exists k0 im0 text, In (k0, im0) ((k, im) :: ims) /\ listing u pal contents (xi_range im0) = Some text /\
        fs_locate fs (removelast p) (xi_path im0) = At (snd (fst e)) /\ snd e = Some (p, text)) add) ->
      y_schemas st2 = y_schemas st /\
      (exists new, y_errors st2 = y_errors st ++ new /\ forall e, In e (pushed_errors new) <-> exists k0 im0, In (k0, im0) ((k, im) :: ims) /\ import_said p contents im0 e) /\
      (exists new, y_stack st2 = new ++ y_stack st /\ Forall (fun e => exists k0 im0 text, In (k0, im0) ((k, im) :: ims) /\ listing u pal contents (xi_range im0) = Some text /\
        fs_locate fs (removelast p) (xi_path im0) = At (snd (fst e)) /\ snd e = Some (p, text)) new)) as K.
    { intros st1 ims1 st2 E1 E2 (add1 & A1 & A2) (add2 & B1 & B2). destruct (IH _ _ _ E1) as (I1 & (new1 & N1 & N2) & (new2 & M1 & M2)). split; [congruence|]. split.
      - exists (add1 ++ new1). split; [rewrite N1, A1; now rewrite <- app_assoc|]. intros e. rewrite pushed_app, in_app_iff, A2, N2. split.
        + intros [H|(k0 & im0 & H1 & H2)]; [exists k, im; split; [now left|exact H]|exists k0, im0; split; [now right|exact H2]].
        + intros (k0 & im0 & [[= <- <-]|H1] & H2); [now left|right; now exists k0, im0].
      - exists (new2 ++ add2). split; [rewrite M1, B1; now rewrite <- app_assoc|]. apply Forall_app. split; [|].
        + eapply Forall_impl; [|exact M2]. intros e (k0 & im0 & t & H1 & H2). exists k0, im0, t. split; [now right|exact H2].
        + eapply Forall_impl; [|exact B2]. intros e (k0 & im0 & t & [[= <- <-]|H1] & H2); [exists k, im, t; split; [now left|exact H2]|exists k0, im0, t; split; [now right|exact H2]]. }
    destruct (fs_locate fs (removelast p) (xi_path im)) as [| |q] eqn:Eq'.
    + destruct (xload_imports p (removelast p) contents ims _) as [[ims1 st2]|] eqn:E1 in E; [|discriminate]. injection E as <- <-.
      apply (K _ _ _ E1); [reflexivity| |exists []; split; [reflexivity|constructor]]. eexists. split; [reflexivity|]. intros e. rewrite Hs. cbn. split; [intros [<-|[]]; reflexivity|intros ->; now left].
    + destruct (xload_imports p (removelast p) contents ims _) as [[ims1 st2]|] eqn:E1 in E; [|discriminate]. injection E as <- <-.
      apply (K _ _ _ E1); [reflexivity| |exists []; split; [reflexivity|constructor]]. eexists. split; [reflexivity|]. intros e. rewrite Hs. cbn. split; [intros [<-|[]]; reflexivity|intros ->; now left].
    + destruct (xload_imports p (removelast p) contents ims _) as [[ims1 st2]|] eqn:E1 in E; [|discriminate]. injection E as <- <-.
      apply (K _ _ _ E1); destruct (contains ns_eqb (path_to_namespace u q) (y_visited st)); cbn [y_schemas y_errors y_stack]; try reflexivity.
      * exists []. rewrite app_nil_r. split; [reflexivity|]. intros e. now rewrite Hs.
      * exists []. rewrite app_nil_r. split; [reflexivity|]. intros e. now rewrite Hs.
      * exists []. split; [reflexivity|constructor].
      * exists [(path_to_namespace u q, q, Some (p, text))]. split; [reflexivity|]. constructor; [|constructor]. exists k, im, text. cbn [fst snd]. repeat split; auto. now left.
Qed.

(** ** One file *)
Definition xloaded (f : xfile) : Prop :=
  exists ts s, fs_read fs (xl_path f) = Some (xl_contents f) /\ tokenize u (xl_contents f) = LexOk ts /\ parse_loc u stem pal ts = XParseOk s /\
    xs_decls (xl_schema f) = xs_decls s.
(** The errors [new] are those of the file [p]. *)
Definition said (p : path) (new : list error) : Prop :=
  (forall e, In e new -> load_fault p e) /\ (grammatical p -> forall e, load_fault p e -> In e new) /\
  (forall e, load_fault p e -> exists e', In e' new).
Lemma said_unreadable p o : fs_read fs p = None -> origin_ok p o ->
  said p [match o with
          | Some (q, text) => throw pal (txt "Unable to load " ++ code (show_path p) ++ txt ".") (Some (show_path q)) (Some text) (Some (x_unreadable x p))
          | None => throw pal (txt "Unable to load " ++ code (show_path p) ++ txt ".") None None (Some (x_unreadable x p))
          end].
Proof.
  intros Hr Ho. repeat split.
  - intros e [<-|[]]. destruct o as [[q text]|].
    + destruct Ho as (R & im & H1 & H2). now apply (fault_file u pal grapheme stem fs x p q im text).
    + destruct Ho as (name & H1 & H2). now apply (fault_main u pal grapheme stem fs x p name).
  - intros [H _]. congruence.
  - intros e _. eexists. now left.
Qed.
Lemma said_lexical p contents es errors : fs_read fs p = Some contents -> tokenize_loc u pal (grapheme contents) contents = XLexErr es ->
  all_listed u pal p contents (map (fun e => (xl_range e, xl_message e)) es) = Some errors -> said p errors.
Proof.
  intros Hr Ht Hl. pose proof (tokenize_forget u pal (grapheme contents) contents) as Et. rewrite Ht in Et. cbn [forget_lex] in Et.
  destruct (all_listed_some u pal Hu p contents (map (fun e => (xl_range e, xl_message e)) es)) as (errors' & E & H).
  { apply Forall_forall. intros e Hin. apply in_map_iff in Hin as (y & <- & Hy). cbn [fst]. apply tokenize_faults in Ht as [El _]; auto.
    pose proof (faults_good u Hu pal (grapheme contents) 0 contents es El [] eq_refl) as Hf. rewrite Forall_forall in Hf. now apply Hf. }
  rewrite Hl in E. injection E as <-. pose proof (proj1 (tokenize_faults u Hu Hw pal (grapheme contents) contents es) Ht) as [Hfa Hne].
  assert (forall e, load_fault p e -> In e errors) as K.
  { intros e He. destruct He as [name H1 H2 H3|q im text H0 H1 H2 H3|c es' le e H1 H2 H3 H4|c ts es' pe e H1 H2 H3 H4 H5|im text (c & ts & s & k & H1 & H2 & _) _|im text (c & ts & s & k & H1 & H2 & _) _]; try congruence.
    assert (c = contents) as -> by congruence. assert (es' = es) as ->.
    { assert (es' <> []) as Hne' by (intros ->; destruct H3). pose proof (proj2 (tokenize_faults u Hu Hw pal (grapheme contents) contents es') (conj H2 Hne')). congruence. }
    destruct (Forall2_in_l _ _ _ (xl_range le, xl_message le) H) as (e' & H5 & H6); [apply in_map_iff; now exists le|]. cbn [fst snd] in H6.
    apply at_range_at in H4. congruence. }
  repeat split; auto.
  - intros e Hin. destruct (Forall2_in_r _ _ _ e H Hin) as ([r m] & H1 & H2). cbn [fst snd] in H2. apply in_map_iff in H1 as (le & [= <- <-] & Hle).
    apply at_range_at in H2. now apply (fault_lexical u pal grapheme stem fs x p contents es le).
  - intros e He. exists e. now apply K.
Qed.
Lemma said_syntax p contents ts es errors : fs_read fs p = Some contents -> tokenize u contents = LexOk ts -> parse_loc u stem pal ts = XParseErr es ->
  all_listed u pal p contents (map (fun e => (xp_range e, xp_message e)) es) = Some errors -> said p errors.
Proof.
  intros Hr Ht Hp Hl. pose proof (parse_forget u stem pal ts) as Ep. rewrite Hp in Ep. cbn [forget_parse] in Ep.
  destruct (parse_complaints _ _ _ _ _ Hp) as [Hc Hne].
  destruct (all_listed_some u pal Hu p contents (map (fun e => (xp_range e, xp_message e)) es)) as (errors' & E & H).
  { apply Forall_forall. intros e Hin. apply in_map_iff in Hin as (y & <- & Hy). cbn [fst]. rewrite Forall_forall in Hc.
    apply tokenize_iff in Ht; auto. now apply (complaint_good u Hu Hw stem pal contents ts), Hc. }
  rewrite Hl in E. injection E as <-. repeat split.
  - intros e Hin. destruct (Forall2_in_r _ _ _ e H Hin) as ([r m] & H1 & H2). cbn [fst snd] in H2. apply in_map_iff in H1 as (pe & [= <- <-] & Hpe).
    apply at_range_at in H2. rewrite Forall_forall in Hc. now apply (fault_syntax u pal grapheme stem fs x p contents ts (map xp_kind es) pe); auto.
  - intros [_ Hg]. now apply Hg with (ts := ts) (es := map xp_kind es) in Hr.
  - intros _ _. destruct es as [|e es]; [congruence|]. inversion H; subst. eexists. now left.
Qed.
Lemma said_imports p contents ts s new : fs_read fs p = Some contents -> tokenize u contents = LexOk ts -> parse_loc u stem pal ts = XParseOk s ->
  (forall e, In e new <-> exists k im, In (k, im) (xs_imports s) /\ import_said p contents im e) -> said p new.
Proof.
  intros Hr Ht Hp H. pose proof (parse_forget u stem pal ts) as Ep. rewrite Hp in Ep. cbn [forget_parse] in Ep.
  assert (forall e, load_fault p e -> In e new) as K.
  { intros e He. rewrite H. destruct He as [name H1 H2 H3|q im text H0 H1 H2 H3|c es' le e H1 H2 H3 H4|c ts' es' pe e H1 H2 H3 H4 H5|im text (c & ts' & s' & k & H1 & H2 & H3 & H4 & H5) H6|im text (c & ts' & s' & k & H1 & H2 & H3 & H4 & H5) H6]; try congruence.
    - assert (c = contents) as -> by congruence. assert (es' <> []) as Hne' by (intros ->; destruct H3).
      pose proof (proj2 (tokenize_faults u Hu Hw pal (grapheme contents) contents es') (conj H2 Hne')) as E.
      pose proof (tokenize_forget u pal (grapheme contents) contents) as Et. rewrite E in Et. cbn [forget_lex] in Et. congruence.
    - assert (c = contents) as -> by congruence. assert (ts' = ts) as -> by congruence. assert (s' = s) as -> by congruence.
      exists k, im. split; [exact H4|]. exists text. auto.
    - assert (c = contents) as -> by congruence. assert (ts' = ts) as -> by congruence. assert (s' = s) as -> by congruence.
      exists k, im. split; [exact H4|]. exists text. auto. }
  repeat split; auto.
  - intros e Hin. apply H in Hin as (k & im & Hin & text & El & [[H1 ->]|[H1 ->]]).
    + apply (fault_missing u pal grapheme stem fs x p im text); [|exact H1]. now exists contents, ts, s, k.
    + apply (fault_outside u pal grapheme stem fs x p im text); [|exact H1]. now exists contents, ts, s, k.
  - intros e He. exists e. now apply K.
Qed.

Record xinv (popped : list (namespace * path)) (st : xlstate) : Prop := mkXInv {
  xv_stack : stack_ok st;
  xv_sound : forall e, In e (pushed_errors (y_errors st)) -> exists ns p, In (ns, p) popped /\ load_fault p e;
  xv_all : forall ns p e, In (ns, p) popped -> grammatical p -> load_fault p e -> In e (pushed_errors (y_errors st));
  xv_some : forall ns p e, In (ns, p) popped -> load_fault p e -> exists e', In e' (pushed_errors (y_errors st)) /\ load_fault p e';
  xv_loaded : Forall (fun e => xloaded (snd e)) (y_schemas st) }.
Lemma xinv_step popped st ns p o stack st' new : xinv popped st -> y_stack st = (ns, p, o) :: stack ->
  stack_ok st' -> pushed_errors (y_errors st') = pushed_errors (y_errors st) ++ new -> said p new -> Forall (fun e => xloaded (snd e)) (y_schemas st') ->
  xinv ((ns, p) :: popped) st'.
Proof.
  intros [I1 I2 I3 I4 I5] Es Hs He (S1 & S2 & S3) Hl. constructor; rewrite ?He; auto.
  - intros e Hin. apply in_app_iff in Hin as [Hin|Hin].
    + destruct (I2 e Hin) as (ns' & p' & H1 & H2). exists ns', p'. split; [now right|exact H2].
    + exists ns, p. split; [now left|]. now apply S1.
  - intros ns' p' e [[= <- <-]|Hin] Hg Hf; apply in_app_iff; [right; now apply S2|left; now apply (I3 ns' p' e)].
  - intros ns' p' e [[= <- <-]|Hin] Hf.
    + destruct (S3 e Hf) as (e' & H). exists e'. split; [apply in_app_iff; now right|now apply S1].
    + destruct (I4 ns' p' e Hin Hf) as (e' & H1 & H2). exists e'. split; [apply in_app_iff; now left|exact H2].
Qed.
Lemma xfile_spec popped st ns p o stack st' : inv popped (bare_state st) -> xinv popped st -> y_stack st = (ns, p, o) :: stack ->
  xload_file ns p o (mkXLState stack (y_visited st) (y_schemas st) (y_errors st)) = XsNext st' ->
  inv ((ns, p) :: popped) (bare_state st') /\ xinv ((ns, p) :: popped) st'.
Proof.
  intros I X Es E. set (st0 := mkXLState stack (y_visited st) (y_schemas st) (y_errors st)) in *.
  assert (inv ((ns, p) :: popped) (bare_state st')) as I'.
  { pose proof (file_forget u pal Hu Hw stem grapheme fs x ns p o st0) as Ef. rewrite E in Ef. cbn [forget_step] in Ef.
    pose proof (load_file_spec u stem fs Hu Hfs popped (bare_state st) ns p (map fst stack) I) as K. cbn [bare_state l_stack] in K. rewrite Es in K. specialize (K eq_refl).
    change (load_file u stem fs ns p (bare_state st0)) with (load_file u stem fs ns p (mkLState (map fst stack) (l_visited (bare_state st)) (l_schemas (bare_state st)) (l_errors (bare_state st)))) in Ef.
    cbn [bare_state l_visited l_schemas l_errors] in K, Ef. now rewrite <- Ef in K. }
  split; [exact I'|]. assert (stack_ok st0) as Hs0. { pose proof (xv_stack _ _ X) as H. unfold stack_ok in *. rewrite Es in H. now inversion H. }
  assert (origin_ok p o) as Ho. { pose proof (xv_stack _ _ X) as H. unfold stack_ok in H. rewrite Es in H. now inversion H. }
  assert (reachable p) as R. { pose proof (iv_reach _ _ _ _ _ I) as H. cbn [bare_state l_stack] in H. rewrite Es in H. cbn [map app fst] in H. inversion H as [|? ? [_ H1] _]; subst. exact H1. }
  assert (forall k errs, st' = xfail k errs st0 -> said p errs -> xinv ((ns, p) :: popped) st') as Hfail.
  { intros k errs -> Hsaid. apply (xinv_step popped st ns p o stack (xfail k errs st0) errs X Es Hs0); [|exact Hsaid|exact (xv_loaded _ _ X)].
    cbn [xfail y_errors st0]. rewrite pushed_app. cbn. now rewrite app_nil_r. }
  unfold Reporting.xload_file in E. destruct (fs_read fs p) as [contents|] eqn:Er.
  2: { injection E as E. symmetry in E. apply Hfail in E; [exact E|]. now apply said_unreadable. }
  pose proof (tokenize_forget u pal (grapheme contents) contents) as Et.
  destruct (tokenize_loc u pal (grapheme contents) contents) as [ts|es|] eqn:El; cbn [forget_lex] in *; [| |discriminate].
  2: { destruct (all_listed u pal p contents (map (fun e => (xl_range e, xl_message e)) es)) as [errors|] eqn:Ea; [|discriminate]. injection E as E. symmetry in E.
    apply Hfail in E; [exact E|]. now apply (said_lexical p contents es). }
  destruct (parse_loc u stem pal ts) as [s|es| |] eqn:Ep; [| |discriminate|discriminate].
  2: { destruct (all_listed u pal p contents (map (fun e => (xp_range e, xp_message e)) es)) as [errors|] eqn:Ea; [|discriminate]. injection E as E. symmetry in E.
    apply Hfail in E; [exact E|]. now apply (said_syntax p contents ts es). }
  destruct p as [|p1 p']; [discriminate|]. set (q := p1 :: p') in *.
  destruct (xload_imports q (removelast q) contents (xs_imports s) st0) as [[ims st1]|] eqn:Ei; [|discriminate].
  destruct (imports_said q contents (xs_imports s) st0 ims st1 Ei) as (H1 & (new & H2 & H3) & (new2 & H4 & H5)).
  destruct (ns_insert ns (mkXFile (mkXSchema (xs_comment s) ims (xs_decls s)) q contents) (y_schemas st1)) as [m old] eqn:En.
  assert (old = None) as ->.
  { destruct old as [other|]; [|reflexivity]. exfalso. injection E as E. subst st'. pose proof (proj1 (iv_errors _ _ _ _ _ I' (LConflict ns))) as K.
    cbn [bare_state l_errors xfail y_errors] in K. rewrite map_app in K. destruct K as (ns' & p0 & _ & D); [apply in_app_iff; right; now left|]. inversion D. }
  injection E as <-. apply (xinv_step popped st ns q o stack _ (pushed_errors new) X Es).
  - unfold stack_ok. cbn [y_stack]. rewrite H4. apply Forall_app. split; [|exact Hs0]. eapply Forall_impl; [|exact H5]. intros [[ns' p0] o'] (k & im & text & A & B & C & D).
    cbn [fst snd] in *. subst o'. split; [exact R|]. exists im. split; [|exact C]. now exists contents, ts, s, k.
  - cbn [y_errors]. rewrite H2. now rewrite pushed_app.
  - now apply (said_imports q contents ts s).
  - cbn [y_schemas]. apply Forall_forall. intros y Hy. pose proof (insert_in ns (mkXFile (mkXSchema (xs_comment s) ims (xs_decls s)) q contents) (y_schemas st1) y) as K.
    rewrite En in K. destruct (K Hy) as [->|Hin].
    + exists ts, s. cbn [xl_path xl_contents xl_schema xs_decls]. auto.
    + rewrite H1 in Hin. pose proof (xv_loaded _ _ X) as Hl. rewrite Forall_forall in Hl. now apply Hl.
Qed.
Lemma xloop_spec fuel : forall popped st, inv popped (bare_state st) -> xinv popped st ->
  match xload_loop fuel st with
  | XLoadOk l => exists popped st', inv popped (bare_state st') /\ xinv popped st' /\ y_stack st' = [] /\ y_errors st' = [] /\ y_schemas st' = l
  | XLoadErr es => exists popped st', inv popped (bare_state st') /\ xinv popped st' /\ y_stack st' = [] /\ y_errors st' = es
  | _ => True
  end.
Proof.
  induction fuel as [|fuel IH]; intros popped st I X; cbn [Reporting.xload_loop].
  - destruct (y_stack st) as [|[[ns p] o] stack] eqn:Es; [|exact Logic.I]. destruct (y_errors st) as [|e es] eqn:Ee; exists popped, st; auto.
  - destruct (y_stack st) as [|[[ns p] o] stack] eqn:Es; [destruct (y_errors st) as [|e es] eqn:Ee; exists popped, st; auto|].
    destruct (xload_file ns p o (mkXLState stack (y_visited st) (y_schemas st) (y_errors st))) as [st'| |] eqn:Ef; [|exact Logic.I|exact Logic.I].
    destruct (xfile_spec popped st ns p o stack st' I X Es Ef) as [I' X']. exact (IH _ _ I' X').
Qed.
Lemma main_inv name : fs_main fs = Some name -> let ns := path_to_namespace u [name] in
  inv [] (bare_state (mkXLState [(ns, [name], None)] [ns] [] [])) /\ xinv [] (mkXLState [(ns, [name], None)] [ns] [] []).
Proof.
  intros Em ns. split.
  - constructor; cbn [bare_state y_stack y_visited y_schemas y_errors l_stack l_visited l_schemas l_errors app map fst bare_files].
    + intros n En. left. now replace n with name by congruence.
    + constructor; constructor.
    + reflexivity.
    + constructor; [|constructor]. split; [reflexivity|now apply reach_main].
    + constructor.
    + intros ns' f. split; [intros []|]. intros (s & [] & _).
    + intros ns' p q [].
    + intros e. split; [intros []|]. intros (ns' & p & [] & _).
    + intros ns' p [].
  - constructor; cbn [y_stack y_visited y_schemas y_errors].
    + constructor; [|constructor]. exists name. auto.
    + intros e [].
    + intros ns' p e [].
    + intros ns' p e [].
    + constructor.
Qed.
Theorem load_errors_said es : xload_schemas = XLoadErr es -> fs_main fs <> None ->
  (forall e, In e (pushed_errors es) -> exists p, reachable p /\ load_fault p e) /\
  (no_conflicts u stem fs -> forall p e, reachable p -> load_fault p e ->
    (grammatical p -> In e (pushed_errors es)) /\ exists e', In e' (pushed_errors es) /\ load_fault p e').
Proof.
  intros E Hm. unfold Reporting.xload_schemas in E. destruct (fs_main fs) as [name|] eqn:Em; [|congruence]. destruct (main_inv name Em) as [I X].
  pose proof (xloop_spec (S (length (fs_entries fs))) [] _ I X) as K. rewrite E in K. destruct K as (popped & [stack visited schemas errors] & I' & X' & Es & Ee). cbn [y_stack y_errors] in *. subst stack errors. split.
  - intros e He. destruct (xv_sound _ _ X' e He) as (ns & p & H1 & H2). exists p. split; [|exact H2].
    unfold bare_state in I'. cbn [y_stack y_visited y_schemas y_errors map] in I'. now apply (popped_reach u stem fs _ _ _ _ _ _ I') in H1.
  - intros Hc p e R Hf. unfold bare_state in I'. cbn [y_stack y_visited y_schemas y_errors map] in I'. pose proof (all_visited u stem fs _ _ _ _ I' Hc p R) as Hp.
    split; [intros Hg; eapply (xv_all _ _ X'); eassumption|]. eapply (xv_some _ _ X'); eassumption.
Qed.
Theorem loaded_said l : xload_schemas = XLoadOk l -> Forall (fun e => xloaded (snd e)) l.
Proof.
  intros E. unfold Reporting.xload_schemas in E. destruct (fs_main fs) as [name|] eqn:Em; [|discriminate]. destruct (main_inv name Em) as [I X].
  pose proof (xloop_spec (S (length (fs_entries fs))) [] _ I X) as K. rewrite E in K. destruct K as (popped & st' & I' & X' & _ & _ & <-). exact (xv_loaded _ _ X').
Qed.
Lemma loaded_listable l : xload_schemas = XLoadOk l -> Forall (fun e => file_listable u pal (snd e)) l.
Proof.
  intros E. eapply Forall_impl; [|now apply loaded_said]. intros [ns f] (ts & s & H1 & H2 & H3 & H4). cbn [snd] in *.
  destruct f as [s' p c]. cbn [xl_path xl_contents xl_schema] in *. now apply (parsed_listable u pal Hu Hw stem p c ts s s').
Qed.
End Sane.
