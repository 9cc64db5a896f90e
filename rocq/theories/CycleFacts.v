(** Lemmas about the validator: the search for cycles. *)
From Coq Require Import Relations.Operators_Properties.
From Verif Require Import IdentFacts.
From Verif Require Export ValidatorFacts.

Lemma ordpairs_unique {A} (R : A -> A -> Prop) l : ForallOrdPairs (fun a b => ~ R a b) l -> (forall a b, R a b -> R b a) ->
  forall x y, In x l -> In y l -> R x y -> x = y.
Proof.
  intros H Hsym x y Hx Hy Hr. destruct (ForallOrdPairs_In H x y Hx Hy) as [E|[K|K]]; [exact E|contradiction|].
  now apply Hsym in Hr.
Qed.
Lemma ordpairs_map {A B} (f : A -> B) (R : B -> B -> Prop) l :
  ForallOrdPairs R (map f l) -> ForallOrdPairs (fun a b => R (f a) (f b)) l.
Proof.
  induction l as [|x l IH]; intros H; [constructor|]. inversion H as [|? ? H1 H2]; subst. constructor; [|now apply IH].
  apply Forall_forall. intros y Hy. rewrite Forall_forall in H1. apply H1. now apply in_map.
Qed.

Section Cycles.
Context (schemas : list (namespace * sschema)) (HL : loaded schemas) (HV : valid schemas).
Notation declared := (declared schemas).
Notation refers := (refers schemas).
Notation types := (all_types schemas).

(** ** References *)
Lemma declared_unique ns s d ns2 s2 d2 : declared ns s d -> declared ns2 s2 d2 -> same_q (ns, sd_name d) (ns2, sd_name d2) ->
  ns = ns2 /\ s = s2 /\ d = d2.
Proof.
  intros [H1 H2] [H3 H4] [E1 E2]. cbn [fst snd] in *. destruct HL as (L1 & _).
  assert ((ns, s) = (ns2, s2)) as E.
  { apply (ordpairs_unique (fun a b => same_ns (fst a) (fst b)) schemas L1); auto. intros a b. apply same_ns_sym. }
  injection E as <- <-. split; [reflexivity|]. split; [reflexivity|]. destruct HV as [V1 _].
  specialize (V1 ns s H1). apply ordpairs_map in V1.
  apply (ordpairs_unique (fun a b => same_ident (sd_name a) (sd_name b)) _ V1); auto. intros a b. apply same_ident_sym.
Qed.
Lemma refers_same q q' r r' : refers q q' -> same_q q r -> same_q q' r' -> refers r r'.
Proof.
  intros (ns & s & d & H1 & H2 & f & i & n & ns' & H3 & H4 & H5 & H6) E1 E2. exists ns, s, d. split; [exact H1|].
  split; [now apply (same_q_trans _ q)|]. exists f, i, n, ns'. repeat split; auto; now apply (same_q_trans _ q').
Qed.
Definition exists_type (q : qname) : Prop := exists ns s d, declared ns s d /\ same_q (ns, sd_name d) q.
Lemma exists_type_same q r : exists_type q -> same_q q r -> exists_type r.
Proof. intros (ns & s & d & H1 & H2) E. exists ns, s, d. split; [exact H1|now apply (same_q_trans _ q)]. Qed.

(** ** The fields of a declaration as a list of calls *)
Fixpoint run (rec : qname -> cstate -> cres) (qs : list qname) (st : cstate) : cres :=
  match qs with
  | [] => CDone st
  | q :: qs' => match rec q st with CDone st' => run rec qs' st' | r => r end
  end.
Lemma check_all_run qs st : check_all types qs st = run (check_decl types (S (length types))) qs st.
Proof. revert st. induction qs as [|q qs IH]; intros st; [reflexivity|]. cbn [check_all run]. destruct (check_decl _ _ _ _); auto. Qed.
Lemma run_app rec a b st : run rec (a ++ b) st = match run rec a st with CDone st' => run rec b st' | r => r end.
Proof. revert st. induction a as [|q a IH]; intros st; [reflexivity|]. cbn [app run]. destruct (rec q st); auto. Qed.
Lemma check_type_run ns s t : imports_ok s -> type_resolves schemas ns s t -> exists qs,
  (forall q, In q qs <-> exists i n ns', mentions t i n /\ leads_to ns s i ns' /\ q = (ns', n)) /\
  forall rec st, check_type rec ns s t st = run rec qs st.
Proof.
  intros Hs. induction t as [t IH| | |i n| | | | |]; intros Hr.
  1: { destruct IH as (qs & H1 & H2); [intros i n Hm; apply Hr; now constructor|].
       exists qs. split; [|exact H2]. intros q. rewrite H1. split; intros (i & n & ns' & A & B & D); exists i, n, ns'.
       - split; [now constructor|auto].
       - inversion A; subst. auto. }
  3: { destruct (Hr i n (mentions_custom i n)) as (ns' & _ & _ & _ & Hl & _).
       apply (type_namespace_iff ns s i ns' Hs) in Hl as E. exists [(ns', n)]. split.
       - intros q. split.
         + intros [<-|[]]. exists i, n, ns'. split; [constructor|auto].
         + intros (i2 & n2 & ns2 & A & B & ->). inversion A; subst. apply (type_namespace_iff ns s i2 ns2 Hs) in B.
           left. congruence.
       - intros rec st. cbn [check_type run]. rewrite E. now destruct (rec (ns', n) st). }
  all: exists []; split; [|reflexivity]; intros q; split; [intros []|]; intros (i & n & ns' & A & _); inversion A.
Qed.
Definition fields_refer (ns : namespace) (s : sschema) (fs : list sfield) (q : qname) : Prop :=
  exists f i n ns', In f fs /\ mentions (sf_type f) i n /\ leads_to ns s i ns' /\ same_q (ns', n) q.
Lemma check_fields_run ns s fs : imports_ok s -> (forall f, In f fs -> type_resolves schemas ns s (sf_type f)) -> exists qs,
  (forall q, (exists x, In x qs /\ same_q x q) <-> fields_refer ns s fs q) /\
  forall rec st, check_fields rec ns s fs st = run rec qs st.
Proof.
  intros Hs. induction fs as [|f fs IH]; intros Hr.
  - exists []. split; [|reflexivity]. intros q. split; [intros (x & [] & _)|]. intros (f & i & n & ns' & [] & _).
  - destruct IH as (qs & H1 & H2); [intros g Hg; apply Hr; now right|].
    destruct (check_type_run ns s (sf_type f) Hs) as (qf & F1 & F2); [apply Hr; now left|].
    exists (qf ++ qs). split.
    + intros q. split.
      * intros (x & Hx & E). apply in_app_iff in Hx as [Hx|Hx].
        -- apply F1 in Hx as (i & n & ns' & A & B & ->). exists f, i, n, ns'. split; [now left|auto].
        -- destruct (proj1 (H1 q)) as (g & i & n & ns' & A & B); [eauto|]. exists g, i, n, ns'. split; [now right|exact B].
      * intros (g & i & n & ns' & [<-|A] & B & D & E).
        -- exists (ns', n). split; [|exact E]. apply in_app_iff. left. apply F1. eauto 6.
        -- destruct (proj2 (H1 q)) as (x & Hx & E2); [exists g, i, n, ns'; auto|]. exists x. split; [apply in_app_iff; now right|exact E2].
    + intros rec st. cbn [check_fields]. rewrite run_app, F2. destruct (run rec qf st); auto.
Qed.
(** The references of a type in the table. *)
Lemma leads_same ns ns2 s i ns' : same_ns ns ns2 -> leads_to ns s i ns' -> exists ns2', leads_to ns2 s i ns2' /\ same_ns ns' ns2'.
Proof.
  intros E H. destruct H as [|i k im ns' H1 H2 H3]; [exists ns2; split; [constructor|exact E]|].
  exists ns'. split; [now apply (leads_import ns2 s i k im)|apply same_ns_refl].
Qed.
Lemma types_get_run q s d : types_get q types = Some (s, d) -> exists qs,
  (forall q', (exists x, In x qs /\ same_q x q') <-> refers q q') /\ Forall exists_type qs /\
  forall rec st, check_fields rec (fst q) s (sd_fields d) st = run rec qs st.
Proof.
  intros E. apply types_get_some in E as (ns & Hd & Hq). destruct HL as (_ & L2 & _). destruct HV as [_ V2].
  pose proof (L2 ns s (proj1 Hd)) as Hs. pose proof (V2 ns s d Hd) as Hvd. destruct Hq as [Hq1 Hq2]. cbn [fst snd] in *.
  assert (forall f, In f (sd_fields d) -> type_resolves schemas (fst q) s (sf_type f)) as Hr.
  { intros f Hf i n Hm. destruct (vd_resolves _ _ _ _ Hvd f i n Hf Hm) as (ns' & ns2 & s2 & d2 & A & B & D).
    destruct (leads_same ns (fst q) s i ns' Hq1 A) as (ns2' & A' & E'). exists ns2', ns2, s2, d2. split; [exact A'|]. split; [exact B|].
    destruct D as [D1 D2]. split; [|exact D2]. cbn [fst] in *. now apply (same_ns_trans _ ns'). }
  destruct (check_fields_run (fst q) s (sd_fields d) Hs Hr) as (qs & H1 & H2). exists qs.
  assert (forall q', (exists x, In x qs /\ same_q x q') <-> refers q q') as Hiff.
  { intros q'. rewrite H1. split.
    - intros (f & i & n & ns' & A & B & D & F). exists ns, s, d. split; [exact Hd|]. split; [now split|].
      destruct (leads_same (fst q) ns s i ns' (same_ns_sym _ _ Hq1) D) as (ns2' & D' & E'). exists f, i, n, ns2'.
      repeat split; auto; [|apply F]. destruct F as [F1 F2]. cbn [fst] in *. apply (same_ns_trans _ ns'); [now apply same_ns_sym|exact F1].
    - intros (ns2 & s2 & d2 & A & B & f & i & n & ns' & F1 & F2 & F3 & F4).
      destruct (declared_unique ns s d ns2 s2 d2 Hd A) as (<- & <- & <-).
      { apply (same_q_trans _ q); [now split|now apply same_q_sym]. }
      destruct (leads_same ns (fst q) s i ns' Hq1 F3) as (ns2' & D' & E'). exists f, i, n, ns2'. repeat split; auto; [|apply F4].
      destruct F4 as [F4 _]. cbn [fst] in *. apply (same_ns_trans _ ns'); [now apply same_ns_sym|exact F4]. }
  split; [exact Hiff|]. split; [|exact H2].
  apply Forall_forall. intros x Hx. destruct (proj1 (H1 x)) as (f & i & n & ns' & A & B & D & F); [exists x; split; [exact Hx|apply same_q_refl]|].
  destruct (Hr f A i n B) as (ns2' & ns2 & s2 & d2 & G1 & G2 & G3). exists ns2, s2, d2. split; [exact G2|].
  apply (type_namespace_iff (fst q) s i ns' Hs) in D. apply (type_namespace_iff (fst q) s i ns2' Hs) in G1.
  assert (ns2' = ns') as -> by congruence. now apply (same_q_trans _ (ns', n)).
Qed.

(** ** Acyclic types *)
Definition back (a b : qname) : Prop := refers b a.
Lemma acc_same q r : Acc back q -> same_q q r -> Acc back r.
Proof.
  intros [H] E. constructor. intros x Hx. apply H. apply (refers_same r x q x Hx); [now apply same_q_sym|apply same_q_refl].
Qed.
Lemma acc_not_cyclic q : Acc back q -> ~ cyclic schemas q.
Proof.
  intros H. induction H as [q _ IH]. intros Hc. unfold cyclic in Hc. pose proof Hc as Hc2. apply clos_trans_t1n_iff in Hc2.
  inversion Hc2 as [x Hr|y x Hr Ht]; subst.
  - exact (IH q Hr Hc).
  - apply (IH y Hr). apply clos_trans_t1n_iff in Ht. apply (t_trans _ _ _ q); [exact Ht|now apply t_step].
Qed.
Lemma chain_path p : chain schemas p -> forall pre q mid q', p = pre ++ q :: mid ++ [q'] -> clos_trans qname refers q q'.
Proof.
  induction 1 as [q0|p q0 q' H IH Hr]; intros pre q mid q2 E.
  - exfalso. apply (f_equal (@length qname)) in E. rewrite app_length in E. cbn in E. rewrite app_length in E. cbn in E. lia.
  - rewrite app_comm_cons, app_assoc in E. apply app_inj_tail in E as [E <-].
    destruct mid as [|m mid] using rev_ind.
    + apply app_inj_tail in E as [_ <-]. now apply t_step.
    + clear IHmid. apply (t_trans _ _ _ q0); [|now apply t_step]. rewrite app_comm_cons, app_assoc in E.
      apply app_inj_tail in E as [E <-]. subst p. apply (IH pre q mid q0). now rewrite <- app_assoc.
Qed.
Lemma trans_same_end q q' r : clos_trans qname refers q q' -> same_q q' r -> clos_trans qname refers q r.
Proof.
  intros H E. apply clos_trans_tn1_iff in H. apply clos_trans_tn1_iff. destruct H as [q' Hr|y q' Hr H].
  - apply tn1_step. apply (refers_same q q'); [exact Hr|apply same_q_refl|exact E].
  - apply (tn1_trans _ _ _ y); [|exact H]. apply (refers_same y q'); [exact Hr|apply same_q_refl|exact E].
Qed.
Lemma shown_cycle p : shows_cycle schemas p -> exists q, In q p /\ cyclic schemas q.
Proof.
  intros (pre & q & mid & q' & -> & H & E). exists q. split; [apply in_app_iff; right; now left|].
  apply (trans_same_end q q'); [now apply (chain_path _ H pre q mid q')|now apply same_q_sym].
Qed.

(** ** The search *)
Definition distinct_path (p : list qname) : Prop := ForallOrdPairs (fun a b => ~ same_q a b) p.
Definition good_error (e : verr) : Prop := match e with VCycle p => shows_cycle schemas p | _ => False end.
Record inv (st : cstate) : Prop := mkInv {
  inv_visited : c_visited st = rev (c_path st);
  inv_distinct : distinct_path (c_path st);
  inv_exists : Forall exists_type (c_path st);
  inv_chain : c_path st = [] \/ chain schemas (c_path st);
  inv_checked : c_errors st = [] -> forall q, contains q_eqb q (c_checked st) = true -> Acc back q;
  inv_errors : Forall good_error (c_errors st) }.
Definition entry_ok (q : qname) (st : cstate) : Prop :=
  exists_type q /\ forall p x, c_path st = p ++ [x] -> refers x q.
Record step (st st' : cstate) : Prop := mkStep {
  step_path : c_path st' = c_path st;
  step_checked : forall q, contains q_eqb q (c_checked st) = true -> contains q_eqb q (c_checked st') = true;
  step_errors : exists es, c_errors st' = c_errors st ++ es }.
Lemma step_refl st : step st st.
Proof. constructor; auto. exists []. now rewrite app_nil_r. Qed.
Lemma step_trans a b c : step a b -> step b c -> step a c.
Proof.
  intros [A1 A2 (e1 & A3)] [B1 B2 (e2 & B3)]. constructor; [congruence|auto|]. exists (e1 ++ e2). now rewrite B3, A3, app_assoc.
Qed.
(** The path is not longer than the table. *)
Lemma path_bound p : distinct_path p -> Forall exists_type p -> (length p <= length types)%nat.
Proof.
  intros Hd He. rewrite <- (map_length fst types).
  assert (exists ks, length ks = length p /\ Forall2 same_q ks p /\ incl ks (map fst types)) as (ks & H1 & H2 & H3).
  { clear Hd. induction He as [|q p (ns & s & d & Hdecl & Hq) Hp (ks & H1 & H2 & H3)].
    - exists []. repeat split; [constructor|intros x []].
    - exists ((ns, sd_name d) :: ks). split; [cbn; lia|]. split; [now constructor|]. intros x [<-|Hx]; [|now apply H3].
      change (ns, sd_name d) with (fst ((ns, sd_name d), (s, d))). apply in_map, in_all_types. eauto. }
  rewrite <- H1. apply NoDup_incl_length; [|exact H3]. clear H1 H3 He. revert p Hd H2.
  induction ks as [|k ks IH]; intros p Hd H2; [constructor|]. inversion H2 as [|? q ? p' Hk Hks]; subst. inversion Hd as [|? ? D1 D2]; subst.
  constructor; [|now apply (IH p')]. intros Hin.
  assert (exists q2, In q2 p' /\ same_q k q2) as (q2 & Hq2 & E).
  { clear - Hin Hks. induction Hks as [|x y ks p' H1 H2 IH]; [destruct Hin|]. destruct Hin as [->|Hin].
    - exists y. split; [now left|exact H1].
    - destruct (IH Hin) as (q2 & A & B). exists q2. split; [now right|exact B]. }
  rewrite Forall_forall in D1. apply (D1 q2 Hq2). apply (same_q_trans _ k); [now apply same_q_sym|exact E].
Qed.
Lemma not_visited q st : inv st -> contains q_eqb q (c_visited st) = false -> distinct_path (c_path st ++ [q]).
Proof.
  intros I H. rewrite (inv_visited st I) in H. apply (contains_false _ _ _ _ (contains_q q _)) in H.
  pose proof (inv_distinct st I) as Hd. induction (c_path st) as [|x p IH]; [repeat constructor|].
  inversion Hd as [|? ? D1 D2]; subst. cbn [app]. constructor.
  - apply Forall_app. split; [exact D1|]. constructor; [|constructor]. intros E. apply H. exists x. split; [|now apply same_q_sym].
    cbn [rev]. apply in_app_iff. right. now left.
  - apply IH; [|exact D2]. intros (y & Hy & E). apply H. exists y. split; [|exact E]. cbn [rev]. apply in_app_iff. now left.
Qed.
Lemma chain_extend p q : (p = [] \/ chain schemas p) -> (forall p' x, p = p' ++ [x] -> refers x q) -> chain schemas (p ++ [q]).
Proof.
  intros Hc Hr. destruct p as [|x p] using rev_ind; [constructor|]. clear IHp. constructor.
  - destruct Hc as [E|Hc]; [now apply app_eq_nil in E as [_ E]|exact Hc].
  - now apply (Hr p x).
Qed.
Lemma remove_fresh q l : contains q_eqb q l = false -> remove_from q_eqb q l = l.
Proof.
  unfold contains, remove_from. induction l as [|x l IH]; [reflexivity|]. cbn. intros H. apply orb_false_iff in H as [H1 H2].
  rewrite H1. cbn. now rewrite IH.
Qed.
Lemma contains_cons q x l : contains q_eqb q (x :: l) = true <-> same_q q x \/ contains q_eqb q l = true.
Proof. unfold contains. cbn. rewrite orb_true_iff, q_eqb_iff. reflexivity. Qed.

Definition does_job (rec : qname -> cstate -> cres) (path : list qname) : Prop :=
  forall q st, c_path st = path -> inv st -> entry_ok q st ->
    exists st', rec q st = CDone st' /\ inv st' /\ step st st' /\ contains q_eqb q (c_checked st') = true.
Lemma run_job rec path qs : does_job rec path -> forall st, c_path st = path -> inv st -> (forall q, In q qs -> entry_ok q st) ->
  exists st', run rec qs st = CDone st' /\ inv st' /\ step st st' /\
    (forall q, In q qs -> contains q_eqb q (c_checked st') = true).
Proof.
  intros Hj. induction qs as [|q qs IH]; intros st Hp Hi He.
  - exists st. split; [reflexivity|]. split; [exact Hi|]. split; [apply step_refl|]. intros q [].
  - cbn [run]. destruct (Hj q st Hp Hi (He q (or_introl eq_refl))) as (st1 & E1 & I1 & S1 & C1). rewrite E1.
    destruct (IH st1) as (st2 & E2 & I2 & S2 & C2).
    + rewrite (step_path _ _ S1). exact Hp.
    + exact I1.
    + intros q' Hq'. destruct (He q' (or_intror Hq')) as [A B]. split; [exact A|]. intros p x Ep. apply (B p x).
      now rewrite <- (step_path _ _ S1).
    + exists st2. split; [exact E2|]. split; [exact I2|]. split; [now apply (step_trans _ st1)|].
      intros q' [<-|Hq']; [|now apply C2]. now apply (step_checked _ _ S2).
Qed.
Lemma check_decl_job fuel : forall path, (length types < fuel + length path)%nat -> does_job (check_decl types fuel) path.
Proof.
  induction fuel as [|fuel IH]; intros path Hf q st Hp Hi [He Hr].
  - exfalso. pose proof (path_bound (c_path st) (inv_distinct st Hi) (inv_exists st Hi)). rewrite Hp in *. lia.
  - cbn [check_decl]. destruct (contains q_eqb q (c_checked st)) eqn:Ec.
    { exists st. split; [reflexivity|]. split; [exact Hi|]. split; [apply step_refl|exact Ec]. }
    cbv zeta. pose proof (chain_extend (c_path st) q (inv_chain st Hi) Hr) as Hchain.
    destruct (contains q_eqb q (c_visited st)) eqn:Ev.
    + eexists. split; [reflexivity|].
      assert (shows_cycle schemas (c_path st ++ [q])) as Hshow.
      { rewrite (inv_visited st Hi) in Ev. apply contains_q in Ev as (y & Hy & E). apply in_rev in Hy.
        apply in_split in Hy as (l1 & l2 & El). exists l1, y, l2, q. split; [rewrite El, <- app_assoc; reflexivity|].
        split; [exact Hchain|now apply same_q_sym]. }
      split; [|split].
      * destruct Hi as [J1 J2 J3 J4 J5 J6]. constructor; cbn [c_visited c_path c_errors c_checked]; auto.
        -- intros Ee. apply app_eq_nil in Ee as [_ Ee]. discriminate.
        -- apply Forall_app. split; [exact J6|]. constructor; [exact Hshow|constructor].
      * constructor; cbn [c_path c_checked c_errors]; [reflexivity| |eauto]. intros q' Hq'. apply contains_cons. now right.
      * cbn [c_checked]. apply contains_cons. left. apply same_q_refl.
    + destruct He as (ns & s0 & d0 & Hdecl & Hq). destruct (types_get_declared schemas q ns s0 d0 Hdecl Hq) as (s & d & Eg).
      rewrite Eg. destruct (types_get_run q s d Eg) as (qs & R1 & R2 & R3). rewrite R3.
      set (st0 := mkC (c_checked st) (q :: c_visited st) (c_path st ++ [q]) (c_errors st)).
      assert (exists_type q) as He by (exists ns, s0, d0; auto).
      assert (inv st0) as Hi0.
      { pose proof (not_visited q st Hi Ev) as Hnv. destruct Hi as [J1 J2 J3 J4 J5 J6]. unfold st0.
        constructor; cbn [c_visited c_path c_errors c_checked]; auto.
        - now rewrite rev_app_distr, J1.
        - apply Forall_app. split; [exact J3|]. constructor; [exact He|constructor]. }
      destruct (run_job (check_decl types fuel) (c_path st ++ [q]) qs) with (st := st0) as (st1 & E1 & I1 & S1 & C1).
      * apply IH. rewrite app_length, Hp. cbn. lia.
      * reflexivity.
      * exact Hi0.
      * intros q' Hq'. split; [rewrite Forall_forall in R2; now apply R2|]. intros p x Ep. unfold st0 in Ep. cbn [c_path] in Ep.
        apply app_inj_tail in Ep as [_ <-]. apply R1. exists q'. split; [exact Hq'|apply same_q_refl].
      * rewrite E1. eexists. split; [reflexivity|].
        pose proof (step_path _ _ S1) as Sp. unfold st0 in Sp. cbn [c_path] in Sp.
        assert (removelast (c_path st1) = c_path st) as Erl by (rewrite Sp; apply removelast_last).
        assert (remove_from q_eqb q (c_visited st1) = rev (c_path st)) as Erm.
        { rewrite (inv_visited st1 I1), Sp, rev_app_distr. cbn [rev app]. unfold remove_from. cbn [filter].
          rewrite (proj2 (q_eqb_iff q q)) by apply same_q_refl. cbn [negb]. apply remove_fresh. now rewrite <- (inv_visited st Hi). }
        split; [|split].
        -- constructor; cbn [c_visited c_path c_errors c_checked]; rewrite ?Erl.
           ++ exact Erm.
           ++ apply Hi.
           ++ apply Hi.
           ++ apply Hi.
           ++ intros Ee q' Hq'. apply contains_cons in Hq' as [Hq'|Hq']; [|now apply (inv_checked st1 I1 Ee)].
              apply (acc_same q); [|now apply same_q_sym]. constructor. intros y Hy. apply R1 in Hy as (x & Hx & E).
              apply (acc_same x); [|exact E]. apply (inv_checked st1 I1 Ee). now apply C1.
           ++ apply I1.
        -- destruct S1 as [_ S2 S3]. constructor; cbn [c_path c_checked c_errors].
           ++ exact Erl.
           ++ intros q' Hq'. apply contains_cons. right. now apply S2.
           ++ exact S3.
        -- cbn [c_checked]. apply contains_cons. left. apply same_q_refl.
Qed.
Lemma check_all_spec : exists st, check_all types (type_names schemas) (mkC [] [] [] []) = CDone st /\
  Forall good_error (c_errors st) /\
  (c_errors st = [] -> forall ns s d, declared ns s d -> Acc back (ns, sd_name d)).
Proof.
  rewrite check_all_run.
  destruct (run_job (check_decl types (S (length types))) [] (type_names schemas)) with (st := mkC [] [] [] []) as (st & E & I & S & C).
  - apply check_decl_job. cbn. lia.
  - reflexivity.
  - constructor; cbn; auto; try constructor. discriminate.
  - intros q Hq. unfold type_names in Hq. apply in_flat_map in Hq as ([ns s] & H1 & H2). apply in_map_iff in H2 as (d & <- & Hd).
    split; [exists ns, s, d; split; [now split|apply same_q_refl]|]. intros p x Ep. cbn [c_path] in Ep. symmetry in Ep. now apply app_eq_nil in Ep as [_ Ep].
  - exists st. split; [exact E|]. split; [apply I|]. intros Ee ns s d [H1 H2]. apply (inv_checked st I Ee). apply C.
    unfold type_names. apply in_flat_map. exists (ns, s). split; [exact H1|]. cbn [fst snd]. apply in_map_iff. eauto.
Qed.
Lemma refers_exists q q' : refers q q' -> exists_type q.
Proof. intros (ns & s & d & H1 & H2 & _). exists ns, s, d. auto. Qed.
Lemma cyclic_exists q : cyclic schemas q -> exists_type q.
Proof.
  intros H. unfold cyclic in H. apply clos_trans_t1n_iff in H. inversion H as [q2 H1|y q2 H1 _]; subst; eapply refers_exists; exact H1.
Qed.
End Cycles.

Lemma validate_spec schemas : loaded schemas ->
  match validate schemas with
  | VOk => valid schemas /\ forall q, Acc (fun a b => refers schemas b a) q
  | VErr es => (~ valid schemas /\ validate_files (all_types schemas) schemas = Some es) \/
               (valid schemas /\ es <> [] /\ Forall (good_error schemas) es)
  | VPanic | VLoop => False
  end.
Proof.
  intros HL. unfold validate. cbv zeta. destruct (validate_files_iff schemas HL) as (es & E & Hv). rewrite E.
  destruct es as [|e es].
  - assert (valid schemas) as HV by now apply Hv. destruct (check_all_spec schemas HL HV) as (st & -> & H1 & H2).
    destruct (c_errors st) as [|e es] eqn:Ee.
    + split; [exact HV|]. intros q. constructor. intros y Hy. destruct (refers_exists schemas q y Hy) as (ns & s & d & A & B).
      specialize (H2 eq_refl ns s d A). apply (acc_same schemas _ q) in H2; [|exact B]. now destruct H2 as [H2]; apply H2.
    + right. split; [exact HV|]. split; [discriminate|exact H1].
  - left. split; [|reflexivity]. intros HV. apply Hv in HV. discriminate.
Qed.
