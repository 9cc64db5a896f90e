(** Lemmas about loading. *)
From Coq Require Import Permutation.
From Verif Require Import IdentFacts TokenFacts TokenFacts2 ParserFacts ParserFacts2.
From Verif Require Export LoadSpec ModuleFacts.

(** ** Maps with namespaces for keys *)
Definition ns_lt {V} (a b : namespace * V) : Prop := ns_cmp (fst a) (fst b) = Lt.
Lemma ns_cmp_same a : forall b, same_ns a b -> ns_cmp a b = Eq.
Proof. intros b H. induction H as [|x y a b H1 H2 IH]; [reflexivity|]. cbn [ns_cmp]. now rewrite (same_cmp x y). Qed.
Lemma ns_cmp_eq a : forall b, text_namespace a -> text_namespace b -> ns_cmp a b = Eq -> same_ns a b.
Proof.
  induction a as [|x a IH]; intros [|y b] Ha Hb H; try discriminate H; [constructor|]. inversion Ha; subst. inversion Hb; subst.
  cbn [ns_cmp] in H. destruct (ident_cmp x y) eqn:E; try discriminate H. constructor; [now apply text_cmp|now apply IH].
Qed.
Lemma ns_cmp_sym a : forall b, ns_cmp b a = CompOpp (ns_cmp a b).
Proof.
  induction a as [|x a IH]; intros [|y b]; try reflexivity. cbn [ns_cmp]. rewrite (cmp_sym x y).
  destruct (ident_cmp x y); cbn [CompOpp]; auto.
Qed.
Lemma ns_cmp_trans a : forall b c, ns_cmp a b = Lt -> ns_cmp b c = Lt -> ns_cmp a c = Lt.
Proof.
  induction a as [|x a IH]; intros [|y b] [|z c] H1 H2; try discriminate; try reflexivity. cbn [ns_cmp] in *.
  destruct (ident_cmp x y) eqn:E1; try discriminate H1.
  - rewrite (cmp_eq_l x y z E1). destruct (ident_cmp y z); try discriminate H2; [|reflexivity]. now apply (IH b).
  - destruct (ident_cmp y z) eqn:E2; try discriminate H2.
    + assert (ident_cmp x z = Lt) as -> by (rewrite cmp_sym in E1; rewrite cmp_sym;
        assert (ident_cmp z x = ident_cmp y x) as -> by (symmetry; now apply cmp_eq_l); now destruct (ident_cmp y x)). reflexivity.
    + now rewrite (cmp_trans x y z).
Qed.
Lemma ns_insert_spec {V} (m : list (namespace * V)) k v : StronglySorted ns_lt m ->
  Forall (fun e => ns_cmp k (fst e) <> Eq) m ->
  exists m', ns_insert k v m = (m', None) /\ Permutation ((k, v) :: m) m' /\ StronglySorted ns_lt m'.
Proof.
  induction m as [|[k' v'] m IH]; intros Hs Hk; cbn [ns_insert].
  - eexists. repeat split; [reflexivity|]. repeat constructor.
  - inversion Hs as [|? ? S1 S2]; subst. inversion Hk as [|? ? K1 K2]; subst. cbn [fst] in K1.
    destruct (ns_cmp k k') eqn:E; [congruence| |].
    + eexists. split; [reflexivity|]. split; [reflexivity|]. constructor; [exact Hs|]. constructor; [exact E|].
      eapply Forall_impl; [|exact S2]. intros e He. unfold ns_lt in *. cbn [fst] in *. now apply (ns_cmp_trans k k').
    + destruct (IH S1 K2) as (m' & Em & P & S). rewrite Em. eexists. split; [reflexivity|]. split.
      * rewrite perm_swap. now constructor.
      * constructor; [exact S|]. apply (Permutation_Forall P). constructor; [|exact S2].
        unfold ns_lt. cbn [fst]. now rewrite ns_cmp_sym, E.
Qed.
Lemma contains_ns x l : contains ns_eqb x l = true <-> exists y, In y l /\ same_ns x y.
Proof.
  unfold contains. rewrite existsb_exists. split; intros (y & H1 & H2); exists y; (split; [exact H1|]); now apply ns_eqb_iff.
Qed.

Lemma ForallOrdPairs_perm {A} (R : A -> A -> Prop) (Hsym : forall a b, R a b -> R b a) l l' :
  Permutation l l' -> ForallOrdPairs R l -> ForallOrdPairs R l'.
Proof.
  intros P. induction P as [|x l l' P IH|x y l|l l' l'' P1 IH1 P2 IH2]; intros H; auto.
  - inversion H as [|? ? H1 H2]; subst. constructor; [|now apply IH]. now apply (Permutation_Forall P).
  - inversion H as [|? ? H1 H2]; subst. inversion H2 as [|? ? H3 H4]; subst. inversion H1; subst.
    constructor; [constructor; auto|]. now constructor.
Qed.

Section Load.
Context (u : unicode) (stem : str -> option str) (fs : files).
Notation nsof := (namespace_of u).
(** ** One file *)
Definition fill (dir : path) (e : ident * simport) : ident * simport :=
  match fs_locate fs dir (si_path (snd e)) with
  | At q => (fst e, mkSImport (si_path (snd e)) (Some (nsof q)))
  | _ => e
  end.
Definition import_errors (p dir : path) (e : ident * simport) : list lerr :=
  match fs_locate fs dir (si_path (snd e)) with
  | Missing => [LNoFile p (si_path (snd e))]
  | Outside => [LOutside p (si_path (snd e))]
  | At _ => []
  end.
Definition distinct (l : list namespace) : Prop := ForallOrdPairs (fun a b => ~ same_ns a b) l.
Lemma load_imports_spec p dir ims : forall st ims' st', load_imports u fs p dir ims st = (ims', st') ->
  ims' = map (fill dir) ims /\ l_schemas st' = l_schemas st /\ l_errors st' = l_errors st ++ flat_map (import_errors p dir) ims /\
  (distinct (l_visited st) -> distinct (l_visited st')) /\
  exists new, l_stack st' = new ++ l_stack st /\ l_visited st' = map fst new ++ l_visited st /\
    Forall (fun e => fst e = nsof (snd e) /\ exists k im, In (k, im) ims /\ fs_locate fs dir (si_path im) = At (snd e)) new /\
    forall k im q, In (k, im) ims -> fs_locate fs dir (si_path im) = At q -> exists ns, In ns (l_visited st') /\ same_ns (nsof q) ns.
Proof.
  induction ims as [|[k im] rest IH]; intros st ims' st' E; cbn [load_imports] in E.
  - injection E as <- <-. split; [reflexivity|]. split; [reflexivity|]. split; [cbn; now rewrite app_nil_r|]. split; [auto|].
    exists []. repeat split; [constructor|]. intros ? ? ? [].
  - cbn [map flat_map]. unfold fill at 1, import_errors at 1. cbn [fst snd]. destruct (fs_locate fs dir (si_path im)) as [| |q] eqn:El.
    + destruct (load_imports u fs p dir rest _) as [rest' st1] eqn:Er in E. injection E as <- <-.
      apply IH in Er as (-> & H2 & H3 & H4 & new & H5 & H6 & H7 & H8). cbn [fail l_stack l_visited l_schemas l_errors] in *.
      split; [reflexivity|]. split; [exact H2|]. split; [now rewrite H3, <- app_assoc|]. split; [exact H4|]. exists new.
      split; [exact H5|]. split; [exact H6|]. split.
      * eapply Forall_impl; [|exact H7]. intros e (A & k' & im' & B & C). split; [exact A|]. exists k', im'. split; [now right|exact C].
      * intros k' im' q' [[= <- <-]|Hin] Hq; [congruence|]. now apply (H8 k' im').
    + destruct (load_imports u fs p dir rest _) as [rest' st1] eqn:Er in E. injection E as <- <-.
      apply IH in Er as (-> & H2 & H3 & H4 & new & H5 & H6 & H7 & H8). cbn [fail l_stack l_visited l_schemas l_errors] in *.
      split; [reflexivity|]. split; [exact H2|]. split; [now rewrite H3, <- app_assoc|]. split; [exact H4|]. exists new.
      split; [exact H5|]. split; [exact H6|]. split.
      * eapply Forall_impl; [|exact H7]. intros e (A & k' & im' & B & C). split; [exact A|]. exists k', im'. split; [now right|exact C].
      * intros k' im' q' [[= <- <-]|Hin] Hq; [congruence|]. now apply (H8 k' im').
    + cbv zeta in E. destruct (contains ns_eqb (path_to_namespace u q) (l_visited st)) eqn:Ec.
      * destruct (load_imports u fs p dir rest st) as [rest' st1] eqn:Er in E. injection E as <- <-.
        apply IH in Er as (-> & H2 & H3 & H4 & new & H5 & H6 & H7 & H8).
        split; [reflexivity|]. split; [exact H2|]. split; [exact H3|]. split; [exact H4|]. exists new.
        split; [exact H5|]. split; [exact H6|]. split.
        -- eapply Forall_impl; [|exact H7]. intros e (A & k' & im' & B & C). split; [exact A|]. exists k', im'. split; [now right|exact C].
        -- intros k' im' q' [[= <- <-]|Hin] Hq; [|now apply (H8 k' im')]. rewrite El in Hq. injection Hq as <-.
           apply contains_ns in Ec as (ns & Hin & Hs). exists ns. split; [rewrite H6; apply in_app_iff; now right|exact Hs].
      * destruct (load_imports u fs p dir rest _) as [rest' st1] eqn:Er in E. injection E as <- <-.
        apply IH in Er as (-> & H2 & H3 & H4 & new & H5 & H6 & H7 & H8). cbn [l_stack l_visited l_schemas l_errors] in *.
        split; [reflexivity|]. split; [exact H2|]. split; [exact H3|]. split.
        { intros Hd. apply H4. constructor; [|exact Hd]. apply Forall_forall. intros ns Hin Hs.
          assert (contains ns_eqb (path_to_namespace u q) (l_visited st) = true) as K by (apply contains_ns; now exists ns). congruence. }
        exists (new ++ [(nsof q, q)]). split; [rewrite H5, <- app_assoc; reflexivity|]. split; [rewrite H6, map_app, <- app_assoc; reflexivity|]. split.
        -- apply Forall_app. split.
           ++ eapply Forall_impl; [|exact H7]. intros e (A & k' & im' & B & C). split; [exact A|]. exists k', im'. split; [now right|exact C].
           ++ constructor; [|constructor]. split; [reflexivity|]. exists k, im. split; [now left|exact El].
        -- intros k' im' q' [[= <- <-]|Hin] Hq; [|now apply (H8 k' im')]. rewrite El in Hq. injection Hq as <-.
           exists (nsof q). split; [rewrite H6; apply in_app_iff; right; now left|apply same_ns_refl].
Qed.

(** ** The loop *)
Context (Hu : ascii_agrees u) (Hw : white_not_alphabetic u) (Hfs : files_ok u fs).
Notation reads := (reads u stem fs).
Notation reachable := (reachable u stem fs).
Notation imports_file := (imports_file u stem fs).
Notation file_defect := (file_defect u stem fs).
Notation panics := (panics u stem fs).
Definition fill_schema (p : path) (s : sschema) : sschema :=
  mkSSchema (ss_comment s) (map (fill (removelast p)) (ss_imports s)) (ss_decls s).
Lemma reads_unique p c1 s1 c2 s2 : reads p c1 s1 -> reads p c2 s2 -> c1 = c2 /\ s1 = s2.
Proof. intros (E1 & t1 & F1 & G1) (E2 & t2 & F2 & G2). split; congruence. Qed.
Lemma reachable_text p : reachable p -> text_namespace (nsof p).
Proof.
  intros H. destruct H as [name H|p q _ (c & s & k & im & _ & _ & H)]; [now apply (fo_main u fs Hfs)|].
  apply (fo_text u fs Hfs). now apply (fo_exist u fs Hfs) in H.
Qed.
Record inv (popped : list (namespace * path)) (st : lstate) : Prop := mkInv {
  iv_main : forall name, fs_main fs = Some name -> In (nsof [name], [name]) (l_stack st ++ popped);
  iv_distinct : distinct (l_visited st);
  iv_visited : Permutation (l_visited st) (map fst (l_stack st ++ popped));
  iv_reach : Forall (fun e => fst e = nsof (snd e) /\ reachable (snd e)) (l_stack st ++ popped);
  iv_sorted : StronglySorted ns_lt (l_schemas st);
  iv_schemas : forall ns f, In (ns, f) (l_schemas st) <->
    exists s, In (ns, lf_path f) popped /\ reads (lf_path f) (lf_contents f) s /\ lf_schema f = fill_schema (lf_path f) s;
  iv_imports : forall ns p q, In (ns, p) popped -> imports_file p q -> exists ns', In ns' (l_visited st) /\ same_ns (nsof q) ns';
  iv_errors : forall e, In e (l_errors st) <-> exists ns p, In (ns, p) popped /\ file_defect p e;
  iv_panics : forall ns p, In (ns, p) popped -> ~ panics p }.

(** Defects of a file, by cases. *)
Lemma file_defect_reads p c s e : reads p c s -> file_defect p e <-> In e (flat_map (import_errors p (removelast p)) (ss_imports s)).
Proof.
  intros R. rewrite in_flat_map. split.
  - intros D. pose proof R as (R1 & ts & R2 & R3). destruct D as [D|c' es D1 D2|c' ts' es D1 D2 D3|c' s' k im D1 D2 D3|c' s' k im D1 D2 D3]; try congruence.
    + destruct (reads_unique p _ _ _ _ R D1) as [<- <-]. exists (k, im). split; [exact D2|]. unfold import_errors. cbn [snd]. rewrite D3. now left.
    + destruct (reads_unique p _ _ _ _ R D1) as [<- <-]. exists (k, im). split; [exact D2|]. unfold import_errors. cbn [snd]. rewrite D3. now left.
  - intros ([k im] & H1 & H2). unfold import_errors in H2. cbn [snd] in H2. destruct (fs_locate fs (removelast p) (si_path im)) eqn:E; [| |destruct H2].
    + destruct H2 as [<-|[]]. now apply (fd_missing u stem fs p c s k im).
    + destruct H2 as [<-|[]]. now apply (fd_outside u stem fs p c s k im).
Qed.
(** A round in which the file has no schema. *)
Lemma step_fails popped st ns p stack e : inv popped st -> l_stack st = (ns, p) :: stack ->
  (forall c s, ~ reads p c s) -> (forall e', file_defect p e' <-> e' = e) -> ~ panics p ->
  inv ((ns, p) :: popped) (fail e (mkLState stack (l_visited st) (l_schemas st) (l_errors st))).
Proof.
  intros [I0 I1 I2 I3 I4 I5 I6 I7 I8] Es Hr Hd Hp. rewrite Es in *. constructor; cbn [fail l_stack l_visited l_schemas l_errors].
  - intros name Hn. apply (Permutation_in _ (Permutation_middle _ _ _)). now apply I0.
  - exact I1.
  - rewrite I2. apply Permutation_map. cbn [app]. apply Permutation_middle.
  - cbn [app] in I3. eapply Permutation_Forall; [|exact I3]. apply Permutation_middle.
  - exact I4.
  - intros ns' f. rewrite I5. split; intros (s & A & B & C).
    + exists s. split; [now right|auto].
    + destruct A as [[= <- E]|A]; [|exists s; auto]. rewrite E in *. now apply Hr in B.
  - intros ns' p' q [[= <- <-]|Hin] Hi; [|now apply (I6 ns' p' q)]. destruct Hi as (c & s & k & im & R & _). now apply Hr in R.
  - intros e'. rewrite in_app_iff, I7. split.
    + intros [(ns' & p' & A & B)|[<-|[]]]; [exists ns', p'; split; [now right|exact B]|]. exists ns, p. split; [now left|now apply Hd].
    + intros (ns' & p' & [[= <- <-]|A] & B); [right; left; symmetry; now apply Hd|]. left. now exists ns', p'.
  - intros ns' p' [[= <- <-]|A]; [exact Hp|now apply (I8 ns')].
Qed.
Lemma load_file_spec popped st ns p stack : inv popped st -> l_stack st = (ns, p) :: stack ->
  match load_file u stem fs ns p (mkLState stack (l_visited st) (l_schemas st) (l_errors st)) with
  | LsNext st' => inv ((ns, p) :: popped) st'
  | LsPanic => panics p
  | LsLoop => False
  end.
Proof.
  intros I Es. unfold load_file. destruct (fs_read fs p) as [contents|] eqn:Er.
  2: { apply (step_fails popped st ns p stack); auto.
       - intros c s (R & _). congruence.
       - intros e'. split; [|intros ->; now constructor]. intros D. destruct D as [| | |? ? ? ? D|? ? ? ? D]; try congruence; destruct D as (D & _); congruence.
       - intros (c & ts & H & _). congruence. }
  destruct (tokenize u contents) as [ts|es|] eqn:Et; [| |now apply (tokenize_total u Hu) in Et].
  2: { apply (step_fails popped st ns p stack); auto.
       - intros c s (R & ts & R2 & _). congruence.
       - intros e'. split; [|intros ->; now apply (fd_lex u stem fs p contents)]. intros D.
         destruct D as [| | |? ? ? ? D|? ? ? ? D]; try congruence; destruct D as (D & ts & D2 & _); congruence.
       - intros (c & ts & H1 & H2 & _). congruence. }
  destruct (parse u stem ts) as [s|es| |] eqn:Ep.
  2: { apply (step_fails popped st ns p stack); auto.
       - intros c s (R & ts' & R2 & R3). congruence.
       - intros e'. split; [|intros ->; now apply (fd_parse u stem fs p contents ts)]. intros D.
         destruct D as [| | |? ? ? ? D|? ? ? ? D]; try congruence; destruct D as (D & ts' & D2 & D3); congruence.
       - intros (c & ts' & H1 & H2 & H3). congruence. }
  2: { now exists contents, ts. }
  2: { now apply parse_never_loops in Ep. }
  assert (reads p contents s) as R by (split; [exact Er|now exists ts]).
  assert (~ panics p) as Hp by (intros (c & ts' & H1 & H2 & H3); congruence).
  destruct p as [|c0 p0]; [pose proof (fo_base u fs Hfs); congruence|]. set (p := c0 :: p0) in *.
  destruct (load_imports u fs p (removelast p) (ss_imports s) _) as [ims st1] eqn:El.
  apply load_imports_spec in El as (-> & L2 & L3 & L4 & new & L5 & L6 & L7 & L8). cbn [l_stack l_visited l_schemas l_errors] in *.
  destruct I as [I0 I1 I2 I3 I4 I5 I6 I7 I8]. rewrite Es in *.
  assert (fst (ns, p) = nsof p /\ reachable p) as [En Hrp].
  { cbn [app] in I3. inversion I3 as [|? ? I31 I32]; subst. exact I31. }
  cbn [fst] in En.
  assert (forall ns' p', In (ns', p') popped -> ns' = nsof p' /\ reachable p') as Hpop.
  { intros ns' p' Hin. rewrite Forall_forall in I3. apply (I3 (ns', p')). apply in_app_iff. now right. }
  assert (forall ns' p', In (ns', p') popped -> ~ same_ns ns ns') as Hfresh.
  { intros ns' p' Hin. pose proof I1 as I1'. assert (ForallOrdPairs (fun a b => ~ same_ns a b) (map fst (((ns, p) :: stack) ++ popped))) as K.
    { revert I1'. apply ForallOrdPairs_perm; [|exact I2]. intros a b H1 H2. now apply H1, same_ns_sym. }
    cbn [app map fst] in K. inversion K as [|? ? K1 K2]; subst. rewrite Forall_forall in K1. apply K1. rewrite map_app. apply in_app_iff. right.
    apply in_map_iff. now exists (ns', p'). }
  destruct (ns_insert_spec (l_schemas st1) ns (mkLFile (mkSSchema (ss_comment s) (map (fill (removelast p)) (ss_imports s)) (ss_decls s)) p contents)) as (m' & Em & Pm & Sm).
  { now rewrite L2. }
  { rewrite L2. apply Forall_forall. intros [ns' f] Hin E. apply I5 in Hin as (s' & Hin & _). pose proof Hin as Hin'. apply Hpop in Hin as [E' Hr'].
    cbn [fst] in E. apply (Hfresh ns' (lf_path f) Hin'). subst ns ns'. apply ns_cmp_eq; auto using reachable_text. }
  rewrite Em. constructor; cbn [l_stack l_visited l_schemas l_errors].
  - intros name Hn. rewrite L5, <- app_assoc. apply in_app_iff. right. apply (Permutation_in _ (Permutation_middle _ _ _)). now apply I0.
  - now apply L4.
  - rewrite L5, L6. rewrite I2. cbn [app map fst]. rewrite !map_app. cbn [map fst]. rewrite <- app_assoc. apply Permutation_app_head.
    change (ns :: map fst popped) with ([ns] ++ map fst popped). apply Permutation_middle.
  - rewrite L5. cbn [app] in I3. inversion I3 as [|? ? I31 I32]; subst. rewrite <- app_assoc. apply Forall_app. split.
    + eapply Forall_impl; [|exact L7]. intros e (A & k & im & B & C). split; [exact A|]. apply (reach_import u stem fs p); [exact Hrp|].
      exists contents, s, k, im. auto.
    + eapply Permutation_Forall; [apply Permutation_middle|]. constructor; auto.
  - exact Sm.
  - intros ns' f. split.
    + intros Hin. apply (Permutation_in _ (Permutation_sym Pm)) in Hin as [[= <- <-]|Hin].
      * cbn [lf_path lf_contents lf_schema]. exists s. split; [now left|]. split; [exact R|reflexivity].
      * rewrite L2 in Hin. apply I5 in Hin as (s' & A & B). exists s'. split; [now right|exact B].
    + intros (s' & [[= <- E]|A] & B & C).
      * apply (Permutation_in _ Pm). left. destruct f as [fs' fp fc]. cbn [lf_path lf_contents lf_schema] in *. subst fp.
        destruct (reads_unique p _ _ _ _ R B) as [<- <-]. now rewrite C.
      * apply (Permutation_in _ Pm). right. rewrite L2. apply I5. now exists s'.
  - intros ns' p' q [[= <- <-]|Hin] Hi.
    + destruct Hi as (c & s' & k & im & R' & H1 & H2). destruct (reads_unique p _ _ _ _ R R') as [<- <-]. now apply (L8 k im).
    + destruct (I6 ns' p' q Hin Hi) as (ns2 & H1 & H2). exists ns2. split; [rewrite L6; apply in_app_iff; now right|exact H2].
  - intros e'. rewrite L3, in_app_iff, I7. split.
    + intros [(ns' & p' & A & B)|A]; [exists ns', p'; split; [now right|exact B]|]. exists ns, p. split; [now left|].
      now apply (file_defect_reads p contents s).
    + intros (ns' & p' & [[= <- <-]|A] & B); [right; now apply (file_defect_reads p contents s)|]. left. now exists ns', p'.
  - intros ns' p' [[= <- <-]|A]; [exact Hp|now apply (I8 ns')].
Qed.

Lemma inv_bound popped st : inv popped st -> (length (l_stack st ++ popped) <= S (length (fs_entries fs)))%nat.
Proof.
  intros I. assert (NoDup (map snd (l_stack st ++ popped))) as Hn.
  { pose proof (ForallOrdPairs_perm (fun a b => ~ same_ns a b) ltac:(intros a b H1 H2; now apply H1, same_ns_sym) _ _ (iv_visited _ _ I) (iv_distinct _ _ I)) as K.
    pose proof (iv_reach _ _ I) as Hr. induction (l_stack st ++ popped) as [|[ns p] l IH]; [constructor|]. cbn [map fst snd] in *.
    inversion K as [|? ? K1 K2]; subst. inversion Hr as [|? ? [R1 R2] R3]; subst. constructor; [|now apply IH]. intros Hin.
    apply in_map_iff in Hin as ([ns' p'] & E & Hin). cbn [fst snd] in *. subst p'. rewrite Forall_forall in K1, R3.
    apply (K1 ns'); [apply in_map_iff; now exists (ns', p)|]. destruct (R3 _ Hin) as [E' _]. cbn [fst snd] in E'. subst. apply same_ns_refl. }
  destruct (fs_main fs) as [name|] eqn:Em.
  - assert (incl (map snd (l_stack st ++ popped)) ([name] :: fs_entries fs)) as Hi.
    { intros p Hp. apply in_map_iff in Hp as ([ns p'] & <- & Hin). pose proof (iv_reach _ _ I) as Hr. rewrite Forall_forall in Hr.
      destruct (Hr _ Hin) as [_ R]. cbn [snd] in *. destruct R as [n R|p q _ (c & s & k & im & _ & _ & R)]; [left; congruence|]. right.
      now apply (fo_exist u fs Hfs) in R. }
    apply (NoDup_incl_length Hn) in Hi. rewrite map_length in Hi. exact Hi.
  - assert (forall p, ~ reachable p) as K.
    { intros p R. induction R as [n R|]; [congruence|assumption]. }
    pose proof (iv_reach _ _ I) as Hr. destruct (l_stack st ++ popped) as [|e l]; [cbn; lia|]. inversion Hr as [|? ? [_ R] _]; subst. now apply K in R.
Qed.
Definition load_outcome (r : lres) : Prop :=
  match r with
  | LoadOk l => exists popped visited, inv popped (mkLState [] visited l [])
  | LoadErr es => es <> [] /\ exists popped visited l, inv popped (mkLState [] visited l es)
  | LoadPanic => exists p, reachable p /\ panics p
  | LoadLoop => False
  end.
Lemma load_loop_spec fuel : forall popped st, inv popped st -> (S (length (fs_entries fs)) <= fuel + length popped)%nat ->
  load_outcome (load_loop u stem fs fuel st).
Proof.
  assert (forall popped st, inv popped st -> l_stack st = [] ->
    load_outcome (match l_errors st with [] => LoadOk (l_schemas st) | es => LoadErr es end)) as Hend.
  { intros popped [stack visited schemas errors] I E. cbn [l_stack l_errors l_schemas] in *. subst stack.
    destruct errors as [|e es]; [now exists popped, visited|]. split; [discriminate|]. now exists popped, visited, schemas. }
  induction fuel as [|fuel IH]; intros popped st I Hf; cbn [load_loop].
  - destruct (l_stack st) as [|[ns p] stack] eqn:Es; [now apply (Hend popped)|]. exfalso. apply inv_bound in I. rewrite Es, app_length in I. cbn [length] in I. lia.
  - destruct (l_stack st) as [|[ns p] stack] eqn:Es; [now apply (Hend popped)|].
    pose proof (load_file_spec popped st ns p stack I Es) as H. destruct (load_file _ _ _ _ _ _) as [st'| |]; [|exists p; split; [|exact H]|destruct H].
    + apply (IH ((ns, p) :: popped)); [exact H|]. cbn [length]. lia.
    + pose proof (iv_reach _ _ I) as Hr. rewrite Es in Hr. inversion Hr as [|? ? [_ R] _]; subst. exact R.
Qed.
Lemma load_schemas_outcome : (fs_main fs = None /\ load_schemas u stem fs = LoadErr [LNotFile]) \/
  (fs_main fs <> None /\ load_outcome (load_schemas u stem fs)).
Proof.
  unfold load_schemas. destruct (fs_main fs) as [name|] eqn:Em; [right|now left]. split; [discriminate|].
  apply (load_loop_spec _ []); [|cbn; lia]. constructor; cbn [l_stack l_visited l_schemas l_errors app].
  - intros n En. left. now replace n with name by congruence.
  - constructor; constructor.
  - reflexivity.
  - constructor; [|constructor]. split; [reflexivity|]. now constructor.
  - constructor.
  - intros ns f. split; [intros []|intros (s & [] & _)].
  - intros ns p q [].
  - intros e. split; [intros []|intros (ns & p & [] & _)].
  - intros ns p [].
Qed.

(** ** What follows *)
Lemma all_visited popped visited l es : inv popped (mkLState [] visited l es) -> no_conflicts u stem fs ->
  forall p, reachable p -> In (nsof p, p) popped.
Proof.
  intros I Hc p R. assert (forall p, reachable p -> forall ns, In ns visited -> same_ns (nsof p) ns -> In (nsof p, p) popped) as K.
  { intros q Rq ns Hin Hs. pose proof (iv_visited _ _ I) as P. cbn [l_visited l_stack app] in P. apply (Permutation_in _ P) in Hin.
    apply in_map_iff in Hin as ([ns' p'] & <- & Hin). cbn [fst] in Hs. pose proof (iv_reach _ _ I) as Hr. cbn [l_stack app] in Hr. rewrite Forall_forall in Hr.
    destruct (Hr _ Hin) as [E R']. cbn [fst snd] in *. subst ns'. rewrite (Hc q p' Rq R' Hs). exact Hin. }
  induction R as [name Hn|p q R IH Hi].
  - exact (iv_main _ _ I name Hn).
  - destruct (iv_imports _ _ I _ _ _ IH Hi) as (ns & H1 & H2). apply (K q) with ns; auto. now apply (reach_import u stem fs p).
Qed.
Lemma popped_reach popped visited l es ns p : inv popped (mkLState [] visited l es) -> In (ns, p) popped -> ns = nsof p /\ reachable p.
Proof. intros I Hin. pose proof (iv_reach _ _ I) as Hr. cbn [l_stack app] in Hr. rewrite Forall_forall in Hr. exact (Hr _ Hin). Qed.
Lemma fill_filled p c s : reads p c s -> (forall e, ~ file_defect p e) -> filled u fs p s (fill_schema p s).
Proof.
  intros R Hd. split; [reflexivity|]. split; [reflexivity|]. cbn [fill_schema ss_imports].
  assert (forall k im, In (k, im) (ss_imports s) -> exists q, fs_locate fs (removelast p) (si_path im) = At q) as K.
  { intros k im Hin. destruct (fs_locate fs (removelast p) (si_path im)) as [| |q] eqn:E; [| |now exists q].
    - exfalso. apply (Hd (LNoFile p (si_path im))). now apply (fd_missing u stem fs p c s k im).
    - exfalso. apply (Hd (LOutside p (si_path im))). now apply (fd_outside u stem fs p c s k im). }
  induction (ss_imports s) as [|[k im] l IH]; [constructor|]. constructor.
  - destruct (K k im ltac:(now left)) as [q Eq]. unfold fill, import_filled. cbn [fst snd]. rewrite Eq. cbn [fst snd si_path si_namespace].
    split; [reflexivity|]. split; [reflexivity|]. now exists q.
  - apply IH. intros k' im' Hin. apply (K k'). now right.
Qed.
Lemma parse_facts ts s : parse u stem ts = ParseOk s ->
  StronglySorted klt (ss_imports s) /\ (forall d, In d (ss_decls s) -> NoDup (sd_deleted d)).
Proof.
  intros H. apply parse_iff in H. inversion H as [c listed stored ds ct it dt Hc Hm [_ [_ Hs]] Hd]; subst. cbn [ss_imports ss_decls].
  split; [exact Hs|]. intros d Hin. clear - Hd Hin. remember (vars dt) as vs eqn:E. clear E. induction Hd as [|x xs t ts Hx Hxs IH]; [destruct Hin|].
  destruct Hin as [<-|Hin]; [|now apply IH]. inversion Hx as [c k n fs' d' cs fts ds H1 H2 H3]; subst. cbn [sd_deleted].
  inversion H3 as [|? ns H4 H5 H6]; subst; [constructor|]. now apply (Permutation_NoDup H5).
Qed.
(** ** Results *)
Lemma load_terminates : load_schemas u stem fs <> LoadLoop.
Proof. destruct load_schemas_outcome as [[_ ->]|[_ H]]; [discriminate|]. intros E. now rewrite E in H. Qed.
Lemma load_ok_spec l : load_schemas u stem fs = LoadOk l -> exists popped visited, inv popped (mkLState [] visited l []).
Proof. intros E. destruct load_schemas_outcome as [[_ K]|[_ H]]; [congruence|]. now rewrite E in H. Qed.
Lemma popped_fine popped visited l ns p : inv popped (mkLState [] visited l []) -> In (ns, p) popped -> forall e, ~ file_defect p e.
Proof. intros I Hin e He. apply (proj2 (iv_errors _ _ I e)). now exists ns, p. Qed.
(** A file that is popped without an error has been loaded. *)
Lemma fine_reads p : ~ panics p -> (forall e, ~ file_defect p e) -> exists c s, reads p c s.
Proof.
  intros Hp Hd. destruct (fs_read fs p) as [c|] eqn:Er; [|exfalso; apply (Hd (LUnreadable p)); now constructor].
  destruct (tokenize u c) as [ts|es|] eqn:Et.
  - destruct (parse u stem ts) as [s|es| |] eqn:Ep.
    + exists c, s. split; [exact Er|]. now exists ts.
    + exfalso. apply (Hd (LParse p es)). now apply (fd_parse u stem fs p c ts).
    + exfalso. apply Hp. now exists c, ts.
    + exfalso. now apply parse_never_loops in Ep.
  - exfalso. apply (Hd (LLex p es)). now apply (fd_lex u stem fs p c).
  - exfalso. now apply (tokenize_total u Hu) in Et.
Qed.
Lemma loaded_in l ns f : load_schemas u stem fs = LoadOk l -> In (ns, f) l ->
  ns = nsof (lf_path f) /\ reachable (lf_path f) /\
  exists s, reads (lf_path f) (lf_contents f) s /\ lf_schema f = fill_schema (lf_path f) s /\ filled u fs (lf_path f) s (lf_schema f).
Proof.
  intros E Hin. apply load_ok_spec in E as (popped & visited & I). apply (iv_schemas _ _ I) in Hin as (s & Hp & Hr & Hs).
  destruct (popped_reach _ _ _ _ _ _ I Hp) as [-> R]. split; [reflexivity|]. split; [exact R|]. exists s. split; [exact Hr|]. split; [exact Hs|].
  rewrite Hs. apply (fill_filled _ (lf_contents f)); [exact Hr|]. exact (popped_fine _ _ _ _ _ I Hp).
Qed.
Lemma loaded_all l p : load_schemas u stem fs = LoadOk l -> no_conflicts u stem fs -> reachable p ->
  exists f, In (nsof p, f) l /\ lf_path f = p.
Proof.
  intros E Hc R. apply load_ok_spec in E as (popped & visited & I). pose proof (all_visited _ _ _ _ I Hc p R) as Hp.
  destruct (fine_reads p) as (c & s & Hr); [exact (iv_panics _ _ I _ _ Hp)|exact (popped_fine _ _ _ _ _ I Hp)|].
  exists (mkLFile (fill_schema p s) p c). split; [|reflexivity]. apply (iv_schemas _ _ I). now exists s.
Qed.
Lemma load_succeeds : fs_main fs <> None -> (forall p, reachable p -> ~ panics p /\ forall e, ~ file_defect p e) ->
  exists l, load_schemas u stem fs = LoadOk l.
Proof.
  intros Hm H. destruct load_schemas_outcome as [[K _]|[_ O]]; [contradiction|]. destruct (load_schemas u stem fs) as [l|es| |]; cbn in O.
  - now exists l.
  - destruct O as (Hne & popped & visited & l & I). destruct es as [|e es]; [contradiction|].
    destruct (proj1 (iv_errors _ _ I e)) as (ns & p & Hp & Hd); [now left|]. destruct (popped_reach _ _ _ _ _ _ I Hp) as [_ R].
    exfalso. now apply (proj2 (H p R) e).
  - destruct O as (p & R & P). exfalso. now apply (H p R).
  - destruct O.
Qed.
Lemma load_errors es : load_schemas u stem fs = LoadErr es -> fs_main fs <> None ->
  es <> [] /\ (forall e, In e es -> exists p, reachable p /\ file_defect p e) /\
  (no_conflicts u stem fs -> forall p e, reachable p -> file_defect p e -> In e es).
Proof.
  intros E Hm. destruct load_schemas_outcome as [[K _]|[_ O]]; [contradiction|]. rewrite E in O. destruct O as (Hne & popped & visited & l & I).
  split; [exact Hne|]. split.
  - intros e He. destruct (proj1 (iv_errors _ _ I e) He) as (ns & p & Hp & Hd). destruct (popped_reach _ _ _ _ _ _ I Hp) as [_ R]. now exists p.
  - intros Hc p e R Hd. apply (iv_errors _ _ I e). exists (nsof p), p. split; [|exact Hd]. now apply (all_visited _ _ _ _ I Hc).
Qed.
Lemma load_panic_iff : no_conflicts u stem fs -> load_schemas u stem fs = LoadPanic <-> exists p, reachable p /\ panics p.
Proof.
  intros Hc. destruct load_schemas_outcome as [[K E]|[_ O]].
  - split; [congruence|]. intros (p & R & _). exfalso. induction R as [n R|]; [congruence|assumption].
  - destruct (load_schemas u stem fs) as [l|es| |]; cbn in O.
    + split; [discriminate|]. intros (p & R & P). destruct O as (popped & visited & I). now destruct (iv_panics _ _ I _ _ (all_visited _ _ _ _ I Hc p R)).
    + split; [discriminate|]. intros (p & R & P). destruct O as (_ & popped & visited & l & I). now destruct (iv_panics _ _ I _ _ (all_visited _ _ _ _ I Hc p R)).
    + split; auto.
    + destruct O.
Qed.
Lemma load_sorted l : load_schemas u stem fs = LoadOk l -> StronglySorted ns_lt l.
Proof. intros E. apply load_ok_spec in E as (popped & visited & I). exact (iv_sorted _ _ I). Qed.
Lemma loaded_import_resolves l ns f k im : load_schemas u stem fs = LoadOk l -> In (ns, f) l -> In (k, im) (ss_imports (lf_schema f)) ->
  exists ns', si_namespace im = Some ns' /\ exists ns2 f2, In (ns2, f2) l /\ same_ns ns' ns2.
Proof.
  intros E Hin Hi. destruct (loaded_in l ns f E Hin) as (-> & R & s & Hr & Hs & (_ & _ & Hf)).
  assert (exists k0 im0, In (k0, im0) (ss_imports s) /\ import_filled u fs (lf_path f) (k0, im0) (k, im)) as (k0 & im0 & Hin0 & _ & _ & q & Hq & Hn).
  { clear -Hf Hi. induction Hf as [|a b la lb H1 H2 IH]; [destruct Hi|]. destruct Hi as [->|Hi].
    - destruct a as [k0 im0]. exists k0, im0. split; [now left|exact H1].
    - destruct (IH Hi) as (k0 & im0 & A & B). exists k0, im0. split; [now right|exact B]. }
  cbn [snd] in *. exists (nsof q). split; [exact Hn|]. apply load_ok_spec in E as (popped & visited & I).
  destruct (proj1 (iv_schemas _ _ I _ _) Hin) as (s' & Hp & Hr' & _). assert (imports_file (lf_path f) q) as Hif by now exists (lf_contents f), s, k0, im0.
  destruct (iv_imports _ _ I _ _ _ Hp Hif) as (ns' & Hv & Hsame). pose proof (iv_visited _ _ I) as P. cbn [l_visited l_stack app] in P.
  apply (Permutation_in _ P) in Hv. apply in_map_iff in Hv as ([ns2 p2] & E2 & Hp2). cbn [fst] in E2. subst ns2.
  destruct (fine_reads p2) as (c2 & s2 & Hr2); [exact (iv_panics _ _ I _ _ Hp2)|exact (popped_fine _ _ _ _ _ I Hp2)|].
  exists ns', (mkLFile (fill_schema p2 s2) p2 c2). split; [|exact Hsame]. apply (iv_schemas _ _ I). now exists s2.
Qed.
Lemma filled_keys p s s' : filled u fs p s s' -> StronglySorted klt (ss_imports s) -> StronglySorted klt (ss_imports s').
Proof.
  intros (_ & _ & H). generalize dependent (ss_imports s'). induction (ss_imports s) as [|a la IH]; intros lb H Hs; inversion H as [|x b ? lb' H1 H2]; subst; [constructor|].
  inversion Hs as [|? ? S1 S2]; subst. constructor; [now apply IH|]. rewrite Forall_forall in S2. apply Forall_forall. intros b' Hin.
  assert (exists a', In a' la /\ fst b' = fst a') as (a' & Ha & E).
  { clear -H2 Hin. induction H2 as [|x y la lb H _ IH]; [destruct Hin|]. destruct Hin as [->|Hin]; [exists x; split; [now left|apply H]|].
    destruct (IH Hin) as (a' & A & B). exists a'. split; [now right|exact B]. }
  specialize (S2 a' Ha). unfold klt in *. destruct H1 as [-> _]. now rewrite E.
Qed.
Lemma ns_lt_differ V (m : list (namespace * V)) : StronglySorted ns_lt m -> ForallOrdPairs (fun a b => ~ same_ns (fst a) (fst b)) m.
Proof.
  intros H. induction H as [|a m H IH Hlt]; [constructor|]. constructor; [|exact IH]. eapply Forall_impl; [|exact Hlt].
  intros b Hb Hs. unfold ns_lt in Hb. rewrite (ns_cmp_same _ _ Hs) in Hb. discriminate Hb.
Qed.
Lemma loaded_loaded l : load_schemas u stem fs = LoadOk l -> loaded (schemas_of l).
Proof.
  intros E. assert (forall ns s, In (ns, s) (schemas_of l) -> exists p c s0, reads p c s0 /\ filled u fs p s0 s) as K.
  { intros ns s Hin. apply in_map_iff in Hin as ([ns' f] & [= <- <-] & Hin). cbn [snd].
    destruct (loaded_in l _ f E Hin) as (_ & _ & s0 & A & _ & B). now exists (lf_path f), (lf_contents f), s0. }
  split; [|split].
  - apply load_sorted, ns_lt_differ in E. clear -E. unfold schemas_of. induction E as [|a m H1 H2 IH]; cbn [map]; constructor; auto.
    rewrite Forall_map. exact H1.
  - intros ns s Hin. destruct (K ns s Hin) as (p & c & s0 & (_ & ts & _ & Hp) & Hf). apply parse_facts in Hp as [P1 _]. split.
    + exact (filled_keys p s0 s Hf P1).
    + destruct Hf as (_ & _ & Hf). clear -Hf. induction Hf as [|a b la lb H _ IH]; constructor; auto. destruct H as (_ & _ & q & _ & ->). discriminate.
  - intros ns s d [Hin Hd]. destruct (K ns s Hin) as (p & c & s0 & (_ & ts & _ & Hp) & Hf). apply parse_facts in Hp as [_ P2].
    destruct Hf as (_ & Ed & _). rewrite Ed in Hd. now apply P2.
Qed.
End Load.
