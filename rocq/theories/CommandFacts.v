(** Lemmas about the commands. *)
From Coq Require Import Permutation.
From Verif Require Import IdentFacts ParserFacts2 PrinterFacts PrinterFacts2.
From Verif Require Export CommandSpec LoadFacts.

Section Facts.
Context (works : list effect -> effect -> bool) (u : unicode) (stem : str -> option str) (wrap : N -> str -> list str).
Lemma formatted_iff f : str_eqb (lf_contents f) (print_schema u stem wrap (lf_schema f)) = true <-> formatted u stem wrap f.
Proof. apply str_eqb_eq. Qed.
(** Checking. *)
Lemma check_loop l : forall any before, format_loop works u stem wrap true l any before =
  (before, if any || negb (forallb (fun e => str_eqb (lf_contents (snd e)) (print_schema u stem wrap (lf_schema (snd e)))) l) then Failed else Succeeded).
Proof.
  induction l as [|[ns f] l IH]; intros any before; cbn [format_loop forallb snd].
  - now rewrite orb_false_r.
  - cbv zeta. rewrite andb_false_r, IH. f_equal. destruct any; [reflexivity|]. cbn [orb]. now destruct (str_eqb _ _).
Qed.
(** Formatting. *)
Lemma format_loop_spec l : exists es, to_format u stem wrap l es /\ forall any before, exists tried ok,
  performs works before es tried ok /\ format_loop works u stem wrap false l any before = (tried, if ok then Succeeded else Failed).
Proof.
  induction l as [|[ns f] l (es & Hes & IH)].
  - exists []. split; [constructor|]. intros any before. exists before, true. split; [constructor|]. reflexivity.
  - destruct (str_eqb (lf_contents f) (print_schema u stem wrap (lf_schema f))) eqn:E.
    + exists es. split; [apply tf_skip; [now apply formatted_iff|exact Hes]|]. intros any before. cbn [format_loop]. rewrite E. cbn [negb andb].
      apply IH.
    + eexists. split; [apply tf_write; [intros H; apply formatted_iff in H; congruence|exact Hes]|]. intros any before. cbn [format_loop].
      rewrite E. cbn [negb andb]. unfold try. destruct (works before _) eqn:Ew.
      * destruct (IH (any || true) (before ++ [Write (ToSchema (lf_path f)) (print_schema u stem wrap (lf_schema f))])) as (tried & ok & H1 & H2).
        exists tried, ok. split; [now apply performs_works|exact H2].
      * exists (before ++ [Write (ToSchema (lf_path f)) (print_schema u stem wrap (lf_schema f))]), false. split; [now apply performs_fails|reflexivity].
Qed.
Lemma to_format_unique l : forall es es', to_format u stem wrap l es -> to_format u stem wrap l es' -> es = es'.
Proof.
  induction l as [|[ns f] l IH]; intros es es' H H'; inversion H; subst; inversion H'; subst; try contradiction; auto. f_equal. now apply IH.
Qed.
(** Generating. *)
Lemma emit_spec t code before (k : list effect -> list effect * outcome) todo :
  (forall before, exists tried ok, performs works before todo tried ok /\ k before = (tried, if ok then Succeeded else Failed)) ->
  exists tried ok, performs works before (output_effects t code ++ todo) tried ok /\ emit works t (Some code) before k = (tried, if ok then Succeeded else Failed).
Proof.
  intros Hk. destruct t as [[file parent]|]; cbn [output_effects emit t_file t_parent app]; [|apply Hk].
  assert (forall before, exists tried ok, performs works before (Write (ToFile file) code :: todo) tried ok /\
            try works (Write (ToFile file) code) before k = (tried, if ok then Succeeded else Failed)) as Hw.
  { intros b. unfold try. destruct (works b _) eqn:Ew.
    - destruct (Hk (b ++ [Write (ToFile file) code])) as (tried & ok & H1 & H2). exists tried, ok. split; [now apply performs_works|exact H2].
    - exists (b ++ [Write (ToFile file) code]), false. split; [now apply performs_fails|reflexivity]. }
  destruct parent as [dir|]; cbn [app]; [|apply Hw]. unfold try at 1. destruct (works before (MakeDir dir)) eqn:Ew.
  - destruct (Hw (before ++ [MakeDir dir])) as (tried & ok & H1 & H2). exists tried, ok. split; [now apply performs_works|exact H2].
  - exists (before ++ [MakeDir dir]), false. split; [now apply performs_fails|reflexivity].
Qed.
Lemma performs_trace before todo tried ok : performs works before todo tried ok ->
  exists don rest, todo = don ++ rest /\ tried = before ++ don /\ (ok = true -> rest = []) /\
    (ok = false -> exists pre e, don = pre ++ [e] /\ works (before ++ pre) e = false) /\
    forall pre e post, don = pre ++ e :: post -> post <> [] -> works (before ++ pre) e = true.
Proof.
  intros H. induction H as [before|before e todo tried ok Hw H IH|before e todo Hw].
  - exists [], []. split; [reflexivity|]. split; [symmetry; apply app_nil_r|]. split; [reflexivity|]. split; [discriminate|].
    intros [|? ?] ? ? E; discriminate E.
  - destruct IH as (don & rest & -> & -> & H1 & H2 & H3). exists (e :: don), rest. split; [reflexivity|]. split; [now rewrite <- app_assoc|].
    split; [exact H1|]. split.
    + intros Hok. destruct (H2 Hok) as (pre & e' & -> & Hf). exists (e :: pre), e'. split; [reflexivity|]. now rewrite <- app_assoc in Hf.
    + intros pre e' post E Hp. destruct pre as [|e0 pre]; cbn [app] in E; injection E as <- E; [now rewrite app_nil_r|].
      specialize (H3 pre e' post E Hp). now rewrite <- app_assoc in H3.
  - exists [e], todo. split; [reflexivity|]. split; [reflexivity|]. split; [discriminate|]. split.
    + intros _. exists [], e. split; [reflexivity|]. now rewrite app_nil_r.
    + intros [|? pre] e' post E Hp; cbn [app] in E; injection E as E1 E2; [congruence|]. destruct pre; discriminate E2.
Qed.
Lemma performs_all before todo tried : performs works before todo tried true -> tried = before ++ todo.
Proof. intros H. apply performs_trace in H as (don & rest & -> & -> & H & _). rewrite (H eq_refl), app_nil_r. reflexivity. Qed.
End Facts.

(** ** Formatting, then checking *)
Lemma path_eqb_eq a : forall b, path_eqb a b = true <-> a = b.
Proof.
  induction a as [|x a IH]; intros [|y b]; cbn [path_eqb]; split; intros H; try discriminate H; auto.
  - apply andb_true_iff in H as [H1 H2]. apply str_eqb_eq in H1. apply IH in H2. congruence.
  - injection H as -> ->. apply andb_true_iff. split; [apply str_eqb_refl|now apply IH].
Qed.
Section Twice.
Context (works : list effect -> effect -> bool) (u : unicode) (stem : str -> option str) (wrap : N -> str -> list str) (fs : files).

Lemma print_fill p s : print_schema u stem wrap (fill_schema u fs p s) = print_schema u stem wrap s.
Proof.
  unfold print_schema, fill_schema. cbn [ss_comment ss_imports ss_decls].
  assert (flat_map (print_import u stem) (map (fill u fs (removelast p)) (ss_imports s)) = flat_map (print_import u stem) (ss_imports s)) as ->.
  { induction (ss_imports s) as [|[k im] l IH]; [reflexivity|]. cbn [map flat_map]. rewrite IH. f_equal. unfold fill. cbn [fst snd].
    now destruct (fs_locate fs (removelast p) (si_path im)). }
  assert (is_nonempty (map (fill u fs (removelast p)) (ss_imports s)) = is_nonempty (ss_imports s)) as -> by now destruct (ss_imports s).
  reflexivity.
Qed.
Lemma after_same es : fs_main (after fs es) = fs_main fs /\ fs_locate (after fs es) = fs_locate fs /\ fs_entries (after fs es) = fs_entries fs.
Proof.
  unfold after. revert fs. clear. induction es as [|e es IH]; intros fs; [auto|]. cbn [fold_left]. destruct (IH (after_effect fs e)) as (A & B & C).
  rewrite A, B, C. destruct e as [| |[p|f] c]; auto.
Qed.
Lemma after_read l es : to_format u stem wrap l es -> NoDup (map (fun e => lf_path (snd e)) l) ->
  (forall q, ~ In q (map (fun e => lf_path (snd e)) l) -> fs_read (after fs es) q = fs_read fs q) /\
  (forall ns f, In (ns, f) l -> fs_read fs (lf_path f) = Some (lf_contents f) ->
     fs_read (after fs es) (lf_path f) = Some (print_schema u stem wrap (lf_schema f))).
Proof.
  unfold after. intros H. revert fs. induction H as [|ns f l es Hf H IH|ns f l es Hf H IH]; intros fs Hn; cbn [fold_left map snd] in *.
  - split; [reflexivity|]. intros ? ? [].
  - inversion Hn as [|? ? N1 N2]; subst. destruct (IH fs N2) as [A B]. split.
    + intros q Hq. apply A. intros K. apply Hq. now right.
    + intros ns' f' [[= <- <-]|Hin] Hr; [|now apply (B ns')]. rewrite A by exact N1. rewrite Hr. f_equal. exact Hf.
  - inversion Hn as [|? ? N1 N2]; subst. destruct (IH (after_effect fs (Write (ToSchema (lf_path f)) (print_schema u stem wrap (lf_schema f)))) N2) as [A B]. split.
    + intros q Hq. rewrite A by (intros K; apply Hq; now right). cbn [after_effect fs_read]. destruct (path_eqb q (lf_path f)) eqn:E; [|reflexivity].
      apply path_eqb_eq in E. subst q. exfalso. apply Hq. now left.
    + intros ns' f' [[= <- <-]|Hin] Hr.
      * rewrite A by exact N1. cbn [after_effect fs_read]. now replace (path_eqb (lf_path f) (lf_path f)) with true by (symmetry; now apply path_eqb_eq).
      * apply (B ns'); [exact Hin|]. cbn [after_effect fs_read]. destruct (path_eqb (lf_path f') (lf_path f)) eqn:E; [|exact Hr].
        apply path_eqb_eq in E. exfalso. apply N1. rewrite <- E. apply in_map_iff. now exists (ns', f').
Qed.
Context (Hu : ascii_agrees u) (Hw : white_not_alphabetic u) (Hl : makes_lines wrap) (Hfs : files_ok u fs) (Hc : no_conflicts u stem fs).
Lemma loaded_paths l : load_schemas u stem fs = LoadOk l -> NoDup (map (fun e => lf_path (snd e)) l).
Proof.
  intros E. pose proof (load_sorted u stem fs Hu Hfs l E) as Hs.
  assert (forall ns f, In (ns, f) l -> ns = namespace_of u (lf_path f)) as Hns.
  { intros ns f Hin. now destruct (loaded_in u stem fs Hu Hfs l ns f E Hin) as (-> & _). }
  clear E. induction Hs as [|[ns f] l Hs IH Hlt]; [constructor|]. cbn [map snd]. constructor.
  - intros Hin. apply in_map_iff in Hin as ([ns' f'] & Ep & Hin). cbn [snd] in Ep. rewrite Forall_forall in Hlt. specialize (Hlt _ Hin).
    unfold ns_lt in Hlt. cbn [fst] in Hlt. rewrite (Hns ns f), (Hns ns' f'), Ep in Hlt; [|now right|now left].
    rewrite (ns_cmp_same _ _ (same_ns_refl _)) in Hlt. discriminate Hlt.
  - apply IH. intros ns' f' Hin. apply Hns. now right.
Qed.
Context (l : list (namespace * lfile)) (es : list effect) (Hload : load_schemas u stem fs = LoadOk l) (Hes : to_format u stem wrap l es).
Context (Hprint : forall ns f, In (ns, f) l -> printable_schema u stem (lf_schema f) /\ comments_wrap_cleanly u wrap (lf_schema f)).
Notation fs' := (after fs es).
Lemma printable_unfill p s : printable_schema u stem (fill_schema u fs p s) -> printable_schema u stem s.
Proof.
  intros [Hi Hd]. split; [|exact Hd]. cbn [fill_schema ss_imports] in Hi. rewrite Forall_map in Hi. eapply Forall_impl; [|exact Hi].
  intros [k im] H. unfold fill in H. cbn [fst snd] in H. now destruct (fs_locate fs (removelast p) (si_path im)).
Qed.
Lemma twice_reads p : reachable u stem fs p -> exists c s, reads u stem fs p c s /\ printable_schema u stem s /\ comments_wrap_cleanly u wrap s /\
  reads u stem fs' p (print_schema u stem wrap s) (schema_again u stem wrap s).
Proof.
  intros R. destruct (loaded_all u stem fs Hu Hfs l p Hload Hc R) as (f & Hin & <-).
  destruct (loaded_in u stem fs Hu Hfs l _ f Hload Hin) as (_ & _ & s & Hr & Hs & _).
  destruct (Hprint _ _ Hin) as [P1 P2]. rewrite Hs in P1, P2. apply printable_unfill in P1. exists (lf_contents f), s.
  split; [exact Hr|]. split; [exact P1|]. split; [exact P2|]. destruct Hr as (Hrd & ts & Ht & Hp).
  destruct (format_parses u stem wrap _ ts s Hu Hw Hl Ht Hp P1) as (ts' & H1 & H2). split; [|now exists ts'].
  rewrite <- (print_fill (lf_path f) s), <- Hs. apply (proj2 (after_read l es Hes (loaded_paths l Hload)) _ f Hin Hrd).
Qed.
Lemma twice_imports p q : reachable u stem fs p -> imports_file u stem fs p q <-> imports_file u stem fs' p q.
Proof.
  intros R. destruct (twice_reads p R) as (c & s & H1 & _ & _ & H2). destruct (after_same es) as (_ & Eq & _). split.
  - intros (c' & s' & k & im & Hr & Hin & Hq). destruct (reads_unique _ _ _ _ _ _ _ _ H1 Hr) as [<- <-].
    exists (print_schema u stem wrap s), (schema_again u stem wrap s), (fst (import_again u stem (k, im))), (snd (import_again u stem (k, im))).
    split; [exact H2|]. split; [rewrite <- surjective_pairing; cbn [schema_again ss_imports]; now apply in_map|]. rewrite Eq. exact Hq.
  - intros (c' & s' & k & im & Hr & Hin & Hq). destruct (reads_unique _ _ _ _ _ _ _ _ H2 Hr) as [<- <-].
    cbn [schema_again ss_imports] in Hin. apply in_map_iff in Hin as ([k0 im0] & E & Hin). exists c, s, k0, im0. split; [exact H1|]. split; [exact Hin|].
    rewrite Eq in Hq. replace (si_path im0) with (si_path im); [exact Hq|]. unfold import_again in E. injection E as _ E. now rewrite <- E.
Qed.
Lemma twice_reachable p : reachable u stem fs p <-> reachable u stem fs' p.
Proof.
  destruct (after_same es) as (Em & _ & _). split; intros R.
  - induction R as [name Hn|p q R IH Hi]; [constructor; congruence|]. apply (reach_import u stem fs' p); [exact IH|]. now apply twice_imports.
  - induction R as [name Hn|p q R IH Hi]; [constructor; congruence|]. apply (reach_import u stem fs p); [exact IH|]. now apply twice_imports.
Qed.
Lemma twice_files : files_ok u fs'.
Proof.
  destruct (after_same es) as (Em & El & Ee). destruct Hfs as [A B C D]. constructor; rewrite ?El, ?Em, ?Ee; auto.
  rewrite <- A. apply (proj1 (after_read l es Hes (loaded_paths l Hload))). intros Hin. apply in_map_iff in Hin as ([ns f] & E & Hin). cbn [snd] in E.
  destruct (loaded_in u stem fs Hu Hfs l ns f Hload Hin) as (_ & _ & s & (Hr & _) & _). rewrite E, A in Hr. discriminate Hr.
Qed.
Lemma twice_fine p : reachable u stem fs p -> ~ panics u stem fs' p /\ forall e, ~ file_defect u stem fs' p e.
Proof.
  intros R. destruct (twice_reads p R) as (c & s & H1 & _ & _ & H2). pose proof H2 as (Hrd & ts & Ht & Hp). split.
  - intros (c' & ts' & A & B & D). congruence.
  - assert (forall e, ~ file_defect u stem fs p e) as Hd.
    { intros e He. destruct (load_ok_spec u stem fs Hu Hfs l Hload) as (popped & visited & I).
      now apply (popped_fine u stem fs _ _ _ _ _ I (all_visited u stem fs _ _ _ _ I Hc p R) e). }
    destruct (after_same es) as (_ & Eq & _). intros e He. destruct He as [A|c' es' A B|c' ts' es' A B D|c' s' k im A B D|c' s' k im A B D]; try congruence.
    + destruct (reads_unique _ _ _ _ _ _ _ _ H2 A) as [<- <-]. cbn [schema_again ss_imports] in B. apply in_map_iff in B as ([k0 im0] & E & Hin).
      apply (Hd (LNoFile p (si_path im0))). apply (fd_missing u stem fs p c s k0 im0); [exact H1|exact Hin|].
      rewrite Eq in D. replace (si_path im0) with (si_path im); [exact D|]. unfold import_again in E. injection E as _ E. now rewrite <- E.
    + destruct (reads_unique _ _ _ _ _ _ _ _ H2 A) as [<- <-]. cbn [schema_again ss_imports] in B. apply in_map_iff in B as ([k0 im0] & E & Hin).
      apply (Hd (LOutside p (si_path im0))). apply (fd_outside u stem fs p c s k0 im0); [exact H1|exact Hin|].
      rewrite Eq in D. replace (si_path im0) with (si_path im); [exact D|]. unfold import_again in E. injection E as _ E. now rewrite <- E.
Qed.
Lemma format_then_check : format_schema works u stem wrap fs' true = ([], Succeeded).
Proof.
  destruct (load_succeeds u stem fs' Hu twice_files) as [l' El'].
  - destruct (after_same es) as (-> & _). intros E. unfold load_schemas in Hload. rewrite E in Hload. discriminate Hload.
  - intros p R. apply twice_fine. now apply twice_reachable.
  - unfold format_schema. rewrite El', check_loop. cbn [orb]. replace (forallb _ l') with true; [reflexivity|]. symmetry. apply forallb_forall.
    intros [ns f] Hin. cbn [snd]. apply str_eqb_eq. destruct (loaded_in u stem fs' Hu twice_files l' ns f El' Hin) as (_ & R & s' & Hr & Hs & _).
    apply twice_reachable in R. destruct (twice_reads _ R) as (c & s & H1 & P1 & P2 & H2). destruct (reads_unique _ _ _ _ _ _ _ _ H2 Hr) as [<- <-].
    rewrite Hs. transitivity (print_schema u stem wrap (schema_again u stem wrap s)).
    + symmetry. apply schema_twice; [exact Hu|exact P1|]. now apply clean_kept.
    + symmetry. unfold print_schema, fill_schema. cbn [ss_comment ss_imports ss_decls].
      assert (forall ims, flat_map (print_import u stem) (map (fill u fs' (removelast (lf_path f))) ims) = flat_map (print_import u stem) ims) as ->.
      { intros ims. induction ims as [|[k im] ims IH]; [reflexivity|]. cbn [map flat_map]. rewrite IH. f_equal. unfold fill. cbn [fst snd].
        now destruct (fs_locate fs' (removelast (lf_path f)) (si_path im)). }
      assert (forall ims, is_nonempty (map (fill u fs' (removelast (lf_path f))) ims) = is_nonempty ims) as -> by now intros [|? ?].
      reflexivity.
Qed.
End Twice.
