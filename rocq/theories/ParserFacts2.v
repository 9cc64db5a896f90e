From Verif Require Export ParserFacts.

(** ** What remains is a rest_of *)
Definition rest_of (r l : list token) : Prop := exists pre, l = pre ++ r.
Lemma suffix_refl l : rest_of l l.
Proof. now exists []. Qed.
Lemma suffix_trans a b c : rest_of a b -> rest_of b c -> rest_of a c.
Proof. intros [p ->] [q ->]. exists (q ++ p). now rewrite app_assoc. Qed.
Lemma suffix_cons x a b : rest_of a b -> rest_of a (x :: b).
Proof. intros [p ->]. now exists (x :: p). Qed.
Lemma suffix_tl l : rest_of (tl l) l.
Proof. destruct l; [apply suffix_refl|apply suffix_cons, suffix_refl]. Qed.
#[local] Hint Resolve suffix_refl suffix_cons suffix_tl : core.
Lemma padd_inv A es (r : pres A) a es' rest : padd es r = PRet a es' rest -> exists es0, r = PRet a es0 rest.
Proof. destruct r; cbn; try discriminate. intros [= <- _ <-]. eauto. Qed.
Lemma consume0_suffix A v err l (k : list token -> pres A) a es r :
  (forall l' a es r, k l' = PRet a es r -> rest_of r l') -> consume0 v err l k = PRet a es r -> rest_of r l.
Proof.
  intros Hk. unfold consume0. destruct (vis v l); [|intros [= _ _ <-]; auto].
  intros H. apply Hk in H. now apply (suffix_trans _ (tl l)).
Qed.
Lemma consume_ident_suffix A err l (k : ident -> list token -> pres A) a es r :
  (forall i l' a es r, k i l' = PRet a es r -> rest_of r l') -> consume_ident err l k = PRet a es r -> rest_of r l.
Proof.
  intros Hk. unfold consume_ident. destruct l as [|t l]; [intros [= _ _ <-]; auto|].
  destruct (tvar t); try (intros [= _ _ <-]; auto). intros H. apply Hk in H. auto.
Qed.
Lemma consume_integer_suffix A err l (k : N -> list token -> pres A) a es r :
  (forall i l' a es r, k i l' = PRet a es r -> rest_of r l') -> consume_integer err l k = PRet a es r -> rest_of r l.
Proof.
  intros Hk. unfold consume_integer. destruct l as [|t l]; [intros [= _ _ <-]; auto|].
  destruct (tvar t); try (intros [= _ _ <-]; auto). intros H. apply Hk in H. auto.
Qed.
Lemma consume_path_suffix A err l (k : str -> list token -> pres A) a es r :
  (forall i l' a es r, k i l' = PRet a es r -> rest_of r l') -> consume_path err l k = PRet a es r -> rest_of r l.
Proof.
  intros Hk. unfold consume_path. destruct l as [|t l]; [intros [= _ _ <-]; auto|].
  destruct (tvar t); try (intros [= _ _ <-]; auto). intros H. apply Hk in H. auto.
Qed.
Lemma ret_suffix A (a a' : A) es es' l r : PRet a es l = PRet a' es' r -> rest_of r l.
Proof. intros [= _ _ <-]. auto. Qed.
Lemma parse_type_suffix total l : forall t es r, parse_type total l = PRet t es r -> rest_of r l.
Proof.
  induction l as [|x l IH]; intros t es r; cbn [parse_type]; [now intros [= _ _ <-]|].
  assert ((if total <? 2 then PPanic
           else if (total - lenN (x :: l) <? total - 2) && vis TkDot l then
            consume_ident None (x :: l) (fun import r =>
              consume_ident None (tl r) (fun name r' => PRet (Some (SyCustom (Some import) name)) [] r'))
          else consume_ident None (x :: l) (fun name r => PRet (Some (SyCustom None name)) [] r)) = PRet t es r ->
          rest_of r (x :: l)) as Hc.
  { destruct (total <? 2); [discriminate|]. destruct ((total - lenN (x :: l) <? total - 2) && vis TkDot l);
      apply consume_ident_suffix; intros i l' a es0 r0; [|apply ret_suffix].
    intros H. apply consume_ident_suffix in H; [|intros *; apply ret_suffix]. now apply (suffix_trans _ (tl l')). }
  destruct (tvar x); try exact Hc; try (intros [= _ _ <-]; auto).
  destruct (parse_type total l) as [[inner|] es' r'| |] eqn:Ep; cbn [pbind]; try discriminate.
  - intros H. apply padd_inv in H as [es0 H]. apply consume0_suffix in H; [|intros *; apply ret_suffix].
    apply suffix_cons. apply (suffix_trans _ r'); auto. now apply (IH (Some inner) es').
  - intros [= _ _ <-]. apply suffix_cons. now apply (IH None es').
Qed.
Lemma parse_comment_suffix l c r : parse_comment l = (c, r) -> rest_of r l.
Proof. intros H. apply parse_comment_sound in H as (p & -> & _). now exists p. Qed.
Lemma parse_rule_suffix l c r : parse_rule l = (c, r) -> rest_of r l.
Proof. intros H. apply parse_rule_sound in H as (p & -> & _). now exists p. Qed.
Lemma parse_field_suffix total l f es r : parse_field total l = PRet f es r -> rest_of r l.
Proof.
  unfold parse_field. destruct (parse_comment l) as [c l1] eqn:Ec. apply parse_comment_suffix in Ec.
  destruct (parse_rule l1) as [rr l2] eqn:Er. apply parse_rule_suffix in Er.
  intros H. apply (suffix_trans _ l1); [|exact Ec]. apply (suffix_trans _ l2); [|exact Er]. revert H.
  apply consume_ident_suffix. intros n l3 a es0 r0. cbv zeta.
  assert (forall ty l4 a es0 r0, consume0 TkEquals None l4 (fun l5 =>
    consume_integer None l5 (fun index l6 => PRet (Some (mkSField c rr n ty index)) [] l6)) = PRet a es0 r0 -> rest_of r0 l4) as Hfin.
  { intros ty l4 a0 es1 r1. apply consume0_suffix. intros *. apply consume_integer_suffix. intros *. apply ret_suffix. }
  destruct (vis TkColon l3); [|apply Hfin]. pose proof (suffix_tl l3) as Ht. destruct (tl l3) as [|z l4]; [now intros [= _ _ <-]|].
  destruct (parse_type total (z :: l4)) as [[ty|] es' l5| |] eqn:Ep; cbn [pbind]; try discriminate; apply parse_type_suffix in Ep.
  - intros H. apply padd_inv in H as [es1 H]. apply Hfin in H. eapply suffix_trans; [|exact Ht]. now apply (suffix_trans _ l5).
  - intros [= _ _ <-]. now apply (suffix_trans _ (z :: l4)).
Qed.
Lemma skip_to_curly_suffix l : rest_of (skip_to_curly l) l.
Proof. induction l as [|y m IH]; [auto|]. cbn [skip_to_curly]. destruct (tvar y); auto. Qed.
Lemma parse_fields_suffix total : forall fuel l fs es r, parse_fields total fuel l = PRet fs es r -> rest_of r l.
Proof.
  induction fuel as [|fuel IH]; intros l fs es r; destruct l as [|x l]; cbn [parse_fields]; try (now intros [= _ _ <-]);
    destruct (vis TkDeleted (x :: l) || vis TkRightCurly (x :: l)); try (now intros [= _ _ <-]).
  destruct (parse_field total (x :: l)) as [[f|] es' r0| |] eqn:Ef; cbn [pbind]; try discriminate; apply parse_field_suffix in Ef.
  - intros H. apply padd_inv in H as [es0 H]. destruct (parse_fields total fuel r0) as [fs' es1 r1| |] eqn:E; cbn [pbind] in H; try discriminate.
    injection H as _ _ <-. apply IH in E. now apply (suffix_trans _ r0).
  - intros [= _ _ <-]. apply (suffix_trans _ r0); [apply skip_to_curly_suffix|exact Ef].
Qed.
Lemma parse_deleted_suffix l : forall acc s es r, parse_deleted acc l = (s, es, r) -> rest_of r l.
Proof.
  induction l as [|x l IH]; intros acc s es r; cbn [parse_deleted]; [now intros [= _ _ <-]|].
  destruct (tvar x); try (now intros [= _ _ <-]).
  destruct (set_insert n acc) as [acc' dup]. destruct (parse_deleted acc' l) as [[s' es'] r'] eqn:Ep.
  intros [= _ _ <-]. apply IH in Ep. auto.
Qed.
Lemma parse_decl_suffix total l d es r : parse_decl total l = PRet d es r -> rest_of r l.
Proof.
  unfold parse_decl. destruct (parse_comment l) as [c l1] eqn:Ec. apply parse_comment_suffix in Ec.
  destruct l1 as [|t l2]; [discriminate|]. intros H. apply (suffix_trans _ (t :: l2)); [|exact Ec]. clear Ec.
  assert (forall kind, 
      consume_ident None l2 (fun name l3 =>
          consume0 TkLeftCurly None l3 (fun l4 =>
            pbind (parse_fields total (length l4) l4) (fun fields es l5 =>
              let '(deleted, es', l6) :=
                if vis TkDeleted l5 then parse_deleted [] (tl l5) else ([], [], l5) in
              padd (es ++ es') (consume0 TkRightCurly None l6 (fun l7 =>
                PRet (Some (mkSDecl c kind name fields deleted)) [] l7))))) = PRet d es r -> rest_of r (t :: l2)) as Hgo.
  { intros kind H'. apply suffix_cons. revert H'. apply consume_ident_suffix. intros n l3 a es0 r0. apply consume0_suffix. clear.
    intros l4 a es r. destruct (parse_fields total (length l4) l4) as [fs es0 l5| |] eqn:Ef; cbn [pbind]; try discriminate.
    apply parse_fields_suffix in Ef.
    destruct (if vis TkDeleted l5 then parse_deleted [] (tl l5) else ([], [], l5)) as [[del es'] l6] eqn:Ed.
    intros H. apply padd_inv in H as [es1 H]. apply consume0_suffix in H; [|intros *; apply ret_suffix].
    apply (suffix_trans _ l6); [exact H|]. apply (suffix_trans _ l5); [|exact Ef].
    destruct (vis TkDeleted l5); [|injection Ed as _ _ <-; auto]. apply parse_deleted_suffix in Ed. now apply (suffix_trans _ (tl l5)). }
  destruct (tvar t); try (injection H as _ _ <-; auto; fail); now apply Hgo in H.
Qed.

(** ** Sequences of fields *)
Lemma padd_pbind_nil A B es (r : pres A) (k : A -> list perr -> list token -> pres B) b rest :
  padd es (pbind r k) = PRet b [] rest -> es = [] /\ pbind r k = PRet b [] rest.
Proof. apply padd_nil. Qed.
Lemma parse_fields_sound total : 2 <= total -> forall fuel l fs r, parse_fields total fuel l = PRet fs [] r ->
  exists pre, l = pre ++ r /\ many field_tokens fs (vars pre).
Proof.
  intros Ht. induction fuel as [|fuel IH]; intros l fs r; destruct l as [|x l];
    try (cbn [parse_fields]; intros [= <- <-]; exists []; split; [reflexivity|constructor]);
    cbn [parse_fields]; destruct (vis TkDeleted (x :: l) || vis TkRightCurly (x :: l));
    try (intros [= <- <-]; exists []; split; [reflexivity|constructor]); try discriminate.
  pose proof (parse_field_quiet total (x :: l) Ht) as (Hq & _).
  destruct (parse_field total (x :: l)) as [[f|] es r0| |] eqn:Ef; cbn [pbind]; try discriminate.
  - intros H. apply padd_nil in H as [-> H]. destruct (parse_fields total fuel r0) as [fs' es' r'| |] eqn:Er; cbn [pbind] in H; try discriminate.
    injection H as <- -> ->. apply parse_field_sound in Ef as (p1 & H1 & Hf). apply IH in Er as (p2 & -> & Hfs).
    exists (p1 ++ p2). split; [rewrite <- app_assoc; exact H1|]. rewrite vars_app. now constructor.
  - intros [= <- -> <-]. exfalso. now apply (Hq r0).
Qed.
Lemma field_tokens_first f ts : field_tokens f ts -> exists v ts', ts = v :: ts' /\
  v <> TkDeleted /\ v <> TkRightCurly.
Proof.
  destruct 1 as [c r n t i cs rs ts Hc Hr Ht]. destruct Hc; cbn [app].
  - destruct Hr; cbn [app]; eexists; eexists; repeat split; discriminate.
  - eexists; eexists; repeat split; discriminate.
Qed.
Lemma vis_false v l x : tvar x <> v -> vis v (x :: l) = false.
Proof.
  intros H. destruct (vis v (x :: l)) eqn:E; [|reflexivity]. apply vis_true in E as (t & l' & [= <- <-] & Ht & _). congruence.
Qed.
Lemma parse_fields_complete total fs ts : many field_tokens fs ts -> forall fuel l rest, vars l = ts -> 2 <= total ->
  lenN (l ++ rest) <= total -> (length (l ++ rest) <= fuel)%nat ->
  vis TkDeleted rest || vis TkRightCurly rest = true ->
  parse_fields total fuel (l ++ rest) = PRet fs [] rest.
Proof.
  induction 1 as [|f fs t ts Hf Hfs IH]; intros fuel l rest Hl Htot Hlen Hfuel Hrest.
  - apply vars_nil_inv in Hl. subst l. cbn [app]. destruct rest as [|x rest]; [discriminate Hrest|].
    destruct fuel; cbn [parse_fields]; rewrite Hrest; reflexivity.
  - apply vars_app_inv in Hl as (l1 & l2 & -> & H1 & H2). rewrite <- app_assoc in *.
    destruct (field_tokens_first _ _ Hf) as (v & ts' & Ev & Hv1 & Hv2).
    rewrite Ev in H1. pose proof H1 as H1'. apply vars_cons_inv in H1 as (x & l1' & -> & Hx & _).
    destruct fuel as [|fuel]; [cbn in Hfuel; lia|]. cbn [parse_fields app].
    change (x :: l1' ++ l2 ++ rest) with ((x :: l1') ++ l2 ++ rest).
    replace (vis TkDeleted ((x :: l1') ++ l2 ++ rest)) with false by (symmetry; apply vis_false; congruence).
    replace (vis TkRightCurly ((x :: l1') ++ l2 ++ rest)) with false by (symmetry; apply vis_false; congruence).
    cbn [orb]. rewrite (parse_field_complete total f t Hf); auto; [|congruence]. cbn [pbind padd].
    unfold lenN in *. rewrite !app_length in Hlen, Hfuel. cbn [length] in Hlen, Hfuel.
    rewrite IH; auto; rewrite ?app_length; lia.
Qed.
Lemma parse_fields_total total : 2 <= total -> forall fuel l, (length l <= fuel)%nat ->
  exists fs es r, parse_fields total fuel l = PRet fs es r /\ (length r <= length l)%nat.
Proof.
  intros Ht. induction fuel as [|fuel IH]; intros l Hl; destruct l as [|x l]; try (cbn in Hl; lia).
  1-2: exists [], [], []; now split.
  cbn [parse_fields]. destruct (vis TkDeleted (x :: l) || vis TkRightCurly (x :: l)); [exists [], [], (x :: l); now split|].
  pose proof (parse_field_quiet total (x :: l) Ht) as (_ & Hq1 & Hq2).
  destruct (parse_field total (x :: l)) as [[f|] es r0| |] eqn:Ef; cbn [pbind]; try congruence.
  - apply parse_field_shorter in Ef as [Hs1 Hs2]. specialize (Hs2 ltac:(discriminate)).
    destruct (IH r0) as (fs & es' & r & -> & Hr); [lia|]. cbn [pbind padd]. do 3 eexists. split; [reflexivity|]. lia.
  - apply parse_field_shorter in Ef as [Hs1 _]. do 3 eexists. split; [reflexivity|].
    assert (forall m, (length (skip_to_curly m) <= length m)%nat) as Hk.
    { induction m as [|y m IHm]; [cbn; lia|]. cbn [skip_to_curly]. destruct (tvar y); cbn [length]; lia. }
    specialize (Hk r0). lia.
Qed.

(** ** Deleted fields *)
Lemma parse_deleted_sound l : forall acc s r, StronglySorted N.lt acc -> parse_deleted acc l = (s, [], r) ->
  exists pre ns, l = pre ++ r /\ vars pre = map TkInteger ns /\ NoDup ns /\ (forall n, In n ns -> ~ In n acc) /\
    Permutation (ns ++ acc) s /\ StronglySorted N.lt s.
Proof.
  assert (forall acc r, StronglySorted N.lt acc -> exists pre ns, r = pre ++ r /\ vars pre = map TkInteger ns /\ NoDup ns /\
    (forall n, In n ns -> ~ In n acc) /\ Permutation (ns ++ acc) acc /\ StronglySorted N.lt acc) as H0.
  { intros acc r Hs. exists [], []. repeat split; auto. constructor. }
  induction l as [|x l IH]; intros acc s r Hs; cbn [parse_deleted]; [intros [= <- <-]; auto|].
  destruct (tvar x) eqn:Ex; try (intros [= <- <-]; auto).
  destruct (set_insert n acc) as [acc' dup] eqn:Ei. destruct (parse_deleted acc' l) as [[s' es] r'] eqn:Ep.
  destruct dup; [discriminate|]. cbn [app]. intros [= -> -> ->].
  destruct (set_insert_spec _ _ _ Hs Ei) as (H1 & H2 & H3).
  destruct (IH acc' s r H2 Ep) as (pre & ns & -> & Hv & Hn & Hd & Hp & Hss).
  exists (x :: pre), (n :: ns). repeat split; auto.
  - rewrite vars_cons, Ex, Hv. reflexivity.
  - constructor; [|exact Hn]. intros Hin. apply (Hd n Hin). apply (Permutation_in n H1). now left.
  - intros m [<-|Hm]; [exact H3|]. intros Ha. apply (Hd m Hm). apply (Permutation_in m H1). now right.
  - cbn [app]. rewrite Permutation_middle. now rewrite H1.
Qed.
Lemma parse_deleted_complete ns : forall acc l rest, StronglySorted N.lt acc -> vars l = map TkInteger ns -> NoDup ns ->
  (forall n, In n ns -> ~ In n acc) -> match rest with [] => True | t :: _ => forall n, tvar t <> TkInteger n end ->
  exists s, parse_deleted acc (l ++ rest) = (s, [], rest) /\ Permutation (ns ++ acc) s /\ StronglySorted N.lt s.
Proof.
  induction ns as [|n ns IH]; intros acc l rest Hs Hl Hn Hd Hr.
  - apply vars_nil_inv in Hl. subst l. exists acc. cbn [app]. split; [|auto]. destruct rest as [|t rest]; [reflexivity|].
    cbn [parse_deleted]. destruct (tvar t) as [| | | | | |ps| | | | |i| |m| | | |p| | | | | | |] eqn:E; try reflexivity. now apply Hr in E || congruence.
  - apply vars_cons_inv in Hl as (x & l' & -> & Hx & Hl). cbn [app parse_deleted]. rewrite Hx. inversion Hn as [|? ? Hn1 Hn2]; subst.
    pose proof (set_insert_fresh acc n (Hd n (or_introl eq_refl))) as Hf. destruct (set_insert n acc) as [acc' dup] eqn:Ei.
    cbn [snd] in Hf. subst dup. destruct (set_insert_spec _ _ _ Hs Ei) as (H1 & H2 & H3).
    destruct (IH acc' l' rest) as (s & Ep & Hp & Hss); auto.
    { intros m Hm Ha. apply (Permutation_in m (Permutation_sym H1)) in Ha as [->|Ha]; [contradiction|].
      exact (Hd m (or_intror Hm) Ha). }
    rewrite Ep. exists s. repeat split; auto. cbn [app]. rewrite Permutation_middle. now rewrite H1.
Qed.
Lemma parse_deleted_shorter l : forall acc s es r, parse_deleted acc l = (s, es, r) -> (length r <= length l)%nat.
Proof.
  induction l as [|x l IH]; intros acc s es r; cbn [parse_deleted]; [now intros [= _ _ <-]|].
  destruct (tvar x); try (intros [= _ _ <-]; cbn; lia).
  destruct (set_insert n acc) as [acc' dup]. destruct (parse_deleted acc' l) as [[s' es'] r'] eqn:Ep.
  intros [= _ _ <-]. apply IH in Ep. cbn. lia.
Qed.

(** ** Declarations *)
Definition only_comment (l : list token) : Prop := exists t ps, l = [t] /\ tvar t = TkComment ps.
Lemma parse_decl_sound total l d r : lenN l <= total -> parse_decl total l = PRet (Some d) [] r ->
  exists pre, l = pre ++ r /\ decl_tokens d (vars pre).
Proof.
  intros Hlen. unfold parse_decl. destruct (parse_comment l) as [c l1] eqn:Ec.
  apply parse_comment_sound in Ec as (p1 & -> & Hc & _). destruct l1 as [|t l2]; [discriminate|].
  assert (forall kind, tvar t = kind_token kind ->
    consume_ident None l2 (fun name l3 =>
          consume0 TkLeftCurly None l3 (fun l4 =>
            pbind (parse_fields total (length l4) l4) (fun fields es l5 =>
              let '(deleted, es', l6) :=
                if vis TkDeleted l5 then parse_deleted [] (tl l5) else ([], [], l5) in
              padd (es ++ es') (consume0 TkRightCurly None l6 (fun l7 =>
                PRet (Some (mkSDecl c kind name fields deleted)) [] l7))))) = PRet (Some d) [] r ->
    exists pre, p1 ++ t :: l2 = pre ++ r /\ decl_tokens d (vars pre)) as Hgo.
  { intros kind Hk. unfold consume_ident. destruct l2 as [|x l3]; [discriminate|]. destruct (tvar x) eqn:Ex; try discriminate.
    unfold consume0 at 1. destruct (vis TkLeftCurly l3) eqn:Ev; [|discriminate].
    apply vis_true in Ev as (y & l4 & -> & Hy & _). cbn [tl].
    assert (2 <= total) as Ht2 by (unfold lenN in Hlen; rewrite app_length in Hlen; cbn [length] in Hlen; lia).
    destruct (parse_fields total (length l4) l4) as [fs es l5| |] eqn:Ef; cbn [pbind]; try discriminate.
    destruct (if vis TkDeleted l5 then parse_deleted [] (tl l5) else ([], [], l5)) as [[del es'] l6] eqn:Ed.
    intros H. apply padd_nil in H as [He H]. apply app_eq_nil in He as [-> ->].
    apply parse_fields_sound in Ef as (p2 & -> & Hfs); [|exact Ht2].
    assert (exists p3, l5 = p3 ++ l6 /\ deleted_tokens del (vars p3)) as (p3 & -> & Hdel).
    { destruct (vis TkDeleted l5) eqn:Ev.
      - apply vis_true in Ev as (z & l5' & -> & Hz & _). cbn [tl] in Ed.
        apply parse_deleted_sound in Ed as (pre & ns & -> & Hv & Hn & _ & Hp & Hs); [|constructor].
        exists (z :: pre). split; [reflexivity|]. rewrite vars_cons, Hz, Hv. constructor; auto. now rewrite app_nil_r in Hp.
      - injection Ed as <- <-. exists []. split; [reflexivity|constructor]. }
    unfold consume0 in H. destruct (vis TkRightCurly l6) eqn:Ev; [|discriminate].
    apply vis_true in Ev as (z & l7 & -> & Hz & _). cbn [tl] in H. injection H as <- <-.
    exists (p1 ++ [t; x; y] ++ p2 ++ p3 ++ [z]). split; [rewrite <- !app_assoc; reflexivity|].
    rewrite !vars_app. cbn [vars map]. rewrite Hk, Ex, Hy, Hz. now constructor. }
  destruct (tvar t) eqn:Et; try discriminate; apply Hgo; reflexivity.
Qed.
Lemma parse_decl_complete total d ts : decl_tokens d ts -> forall l rest, vars l = ts -> lenN (l ++ rest) <= total ->
  parse_decl total (l ++ rest) = PRet (Some d) [] rest.
Proof.
  destruct 1 as [c k n fs del cs fts ds Hc Hf Hd]. intros l rest Hl Hlen.
  apply vars_app_inv in Hl as (l1 & l' & -> & H1 & Hl). cbn [app] in Hl.
  apply vars_cons_inv in Hl as (t & l2 & -> & Ht & Hl). apply vars_cons_inv in Hl as (x & l3 & -> & Hx & Hl).
  apply vars_cons_inv in Hl as (y & l4 & -> & Hy & Hl). apply vars_app_inv in Hl as (l5 & l6 & -> & H5 & Hl).
  apply vars_app_inv in Hl as (l7 & l8 & -> & H7 & H8). apply vars_one in H8 as (z & -> & Hz).
  unfold parse_decl. rewrite <- !app_assoc. cbn [app]. rewrite <- !app_assoc. cbn [app].
  unfold lenN in Hlen. rewrite app_length in Hlen. rewrite !app_length in Hlen. cbn [length] in Hlen. rewrite !app_length in Hlen. cbn [length] in Hlen.
  rewrite (parse_comment_complete c cs l1); auto; [|cbn; rewrite Ht; now destruct k]. rewrite Ht.
  assert (consume_ident None (x :: y :: l5 ++ l7 ++ z :: rest) (fun name l3 =>
          consume0 TkLeftCurly None l3 (fun l4 =>
            pbind (parse_fields total (length l4) l4) (fun fields es l5 =>
              let '(deleted, es', l6) :=
                if vis TkDeleted l5 then parse_deleted [] (tl l5) else ([], [], l5) in
              padd (es ++ es') (consume0 TkRightCurly None l6 (fun l7 =>
                PRet (Some (mkSDecl c k name fields deleted)) [] l7))))) = PRet (Some (mkSDecl c k n fs del)) [] rest) as Hgo.
  { unfold consume_ident. rewrite Hx. unfold consume0 at 1. cbn [vis]. rewrite Hy. cbn [tl].
    assert (vis TkDeleted (l7 ++ z :: rest) || vis TkRightCurly (l7 ++ z :: rest) = true) as Hv.
    { destruct Hd; [apply vars_nil_inv in H7; subst l7; cbn [app vis]; now rewrite Hz|].
      apply vars_cons_inv in H7 as (w & l7' & -> & Hw & _). cbn [app vis]. now rewrite Hw. }
    rewrite (parse_fields_complete total fs fts Hf); auto; [|lia|unfold lenN; rewrite ?app_length; cbn [length]; lia].
    cbn [pbind]. cbn [app].
    assert ((if vis TkDeleted (l7 ++ z :: rest) then parse_deleted [] (tl (l7 ++ z :: rest)) else ([], [], l7 ++ z :: rest))
       = (del, [], z :: rest)) as ->.
    { destruct Hd as [|d ns Hn Hp Hs].
      - apply vars_nil_inv in H7. subst l7. cbn [app vis]. now rewrite Hz.
      - apply vars_cons_inv in H7 as (w & l7' & -> & Hw & Hl7). cbn [app vis]. rewrite Hw. cbn [tl].
        destruct (parse_deleted_complete ns [] l7' (z :: rest)) as (s & -> & Hp' & Hs'); auto; [constructor|rewrite Hz; discriminate|].
        rewrite app_nil_r in Hp'. do 2 f_equal. apply (sorted_perm_unique N N.lt); auto; [intros; lia|intros; lia|].
        now rewrite <- Hp', Hp. }
    unfold consume0. cbn [vis padd app]. rewrite Hz. reflexivity. }
  destruct k; exact Hgo.
Qed.
(** What can go wrong, and progress. *)
Lemma parse_decl_cases total l : lenN l <= total -> l <> [] ->
  (only_comment l /\ parse_decl total l = PPanic) \/
  (~ only_comment l /\ exists d es r, parse_decl total l = PRet d es r /\ (d = None -> es <> []) /\ (length r <= length l)%nat /\
     (d <> None -> (length r < length l)%nat)).
Proof.
  intros Hlen Hne. unfold parse_decl. destruct (parse_comment l) as [c l1] eqn:Ec.
  pose proof Ec as Ec'. apply parse_comment_sound in Ec' as (p1 & Hl & Hc & Hp1). destruct l1 as [|t l2].
  - left. split; [|reflexivity]. unfold parse_comment in Ec. destruct l as [|x l]; [congruence|].
    destruct (tvar x) eqn:Ex; try discriminate. injection Ec as _ ->. exists x, paragraphs. auto.
  - right. split.
    { intros (x & ps & -> & Hx). cbn in Ec. rewrite Hx in Ec. discriminate. }
    assert (length l = length p1 + length (t :: l2))%nat as Hll by (rewrite Hl; apply app_length).
    assert (forall (es : list perr) m, (length m <= length (t :: l2))%nat -> es <> [] ->
      exists d es0 r, PRet (A:=option sdecl) None es m = PRet d es0 r /\ (d = None -> es0 <> []) /\
        (length r <= length l)%nat /\ (d <> None -> (length r < length l)%nat)) as Hnone.
    { intros es m Hm He. exists None, es, m. repeat split; auto; [lia|congruence]. }
    assert (forall kind, exists d es r,
      consume_ident None l2 (fun name l3 =>
          consume0 TkLeftCurly None l3 (fun l4 =>
            pbind (parse_fields total (length l4) l4) (fun fields es l5 =>
              let '(deleted, es', l6) :=
                if vis TkDeleted l5 then parse_deleted [] (tl l5) else ([], [], l5) in
              padd (es ++ es') (consume0 TkRightCurly None l6 (fun l7 =>
                PRet (Some (mkSDecl c kind name fields deleted)) [] l7))))) = PRet d es r /\
        (d = None -> es <> []) /\ (length r <= length l)%nat /\ (d <> None -> (length r < length l)%nat)) as Hgo.
    { intros kind. unfold consume_ident. destruct l2 as [|x l3]; [apply Hnone; [cbn; lia|discriminate]|].
      destruct (tvar x) eqn:Ex; try (apply Hnone; [cbn; lia|discriminate]).
      unfold consume0 at 1. destruct (vis TkLeftCurly l3) eqn:Ev; [|apply Hnone; [cbn; lia|discriminate]].
      apply vis_true in Ev as (y & l4 & -> & Hy & _). cbn [tl].
      assert (2 <= total) as Ht2 by (unfold lenN in Hlen; cbn [length] in Hll; lia).
      destruct (parse_fields_total total Ht2 (length l4) l4 (le_n _)) as (fs & es & l5 & -> & H5). cbn [pbind].
      destruct (if vis TkDeleted l5 then parse_deleted [] (tl l5) else ([], [], l5)) as [[del es'] l6] eqn:Ed.
      assert (length l6 <= length l5)%nat as H6.
      { destruct (vis TkDeleted l5); [|injection Ed as _ _ <-; lia]. apply parse_deleted_shorter in Ed.
        destruct l5; cbn in *; lia. }
      unfold consume0. destruct (vis TkRightCurly l6) eqn:Ev; cbn [padd].
      - do 3 eexists. split; [reflexivity|]. split; [discriminate|]. apply vis_true in Ev as (z & l7 & -> & _ & _).
        cbn [length tl] in *. split; [|intros _]; lia.
      - apply Hnone; [cbn [length] in *; lia|]. now destruct (es ++ es'). }
    destruct (tvar t); try apply Hgo; apply Hnone; try discriminate; lia.
Qed.

(** ** Sequences of declarations *)
Lemma parse_decls_sound total : forall fuel l ds r, lenN l <= total -> parse_decls total fuel l = PRet ds [] r ->
  r = [] /\ many decl_tokens ds (vars l).
Proof.
  induction fuel as [|fuel IH]; intros l ds r Hlen; destruct l as [|x l]; cbn [parse_decls];
    try (intros [= <- <-]; split; [reflexivity|constructor]); try discriminate.
  destruct (parse_decl_cases total (x :: l) Hlen ltac:(discriminate)) as [[_ ->]|(_ & d & es & r0 & Ed & Hd & Hr & _)]; [discriminate|].
  rewrite Ed. cbn [pbind]. destruct d as [d|].
  - intros H. apply padd_nil in H as [-> H]. destruct (parse_decls total fuel r0) as [ds' es' r'| |] eqn:Er; cbn [pbind] in H; try discriminate.
    injection H as <- -> ->. apply parse_decl_sound in Ed as (p1 & H1 & Hf); [|exact Hlen].
    apply IH in Er as (-> & Hds); [|unfold lenN in *; lia]. split; [reflexivity|]. rewrite H1, vars_app. now constructor.
  - intros [= <- -> <-]. exfalso. now apply Hd.
Qed.
Lemma parse_decls_complete total ds ts : many decl_tokens ds ts -> forall fuel l rest, vars l = ts ->
  lenN (l ++ rest) <= total -> (length (l ++ rest) <= fuel)%nat ->
  exists fuel', (length rest <= fuel')%nat /\
    parse_decls total fuel (l ++ rest) = pbind (parse_decls total fuel' rest) (fun ds' es' r' => PRet (ds ++ ds') es' r').
Proof.
  induction 1 as [|d ds t ts Hd Hds IH]; intros fuel l rest Hl Hlen Hfuel.
  - apply vars_nil_inv in Hl. subst l. exists fuel. split; [exact Hfuel|]. cbn [app].
    destruct (parse_decls total fuel rest); reflexivity.
  - apply vars_app_inv in Hl as (l1 & l2 & -> & H1 & H2). rewrite <- app_assoc in *.
    assert (exists x l1', l1 = x :: l1') as (x & l1' & ->).
    { destruct l1 as [|x l1']; [|eauto]. destruct Hd as [c k n fs del cs fts dls Hc Hf Hdl]. destruct Hc; discriminate. }
    destruct fuel as [|fuel]; [cbn in Hfuel; lia|]. cbn [parse_decls app].
    change (x :: l1' ++ l2 ++ rest) with ((x :: l1') ++ l2 ++ rest).
    rewrite (parse_decl_complete total d t Hd _ _ H1 Hlen). cbn [pbind padd].
    unfold lenN in *. rewrite !app_length in Hlen, Hfuel. cbn [length] in Hlen, Hfuel.
    destruct (IH fuel l2 rest) as (fuel' & Hf' & E); auto; rewrite ?app_length; try lia.
    exists fuel'. split; [exact Hf'|]. rewrite E. destruct (parse_decls total fuel' rest); reflexivity.
Qed.
Lemma parse_decls_total total : forall fuel l, lenN l <= total -> (length l <= fuel)%nat ->
  parse_decls total fuel l <> PLoop /\
  (parse_decls total fuel l = PPanic -> exists pre t ps, l = pre ++ [t] /\ tvar t = TkComment ps).
Proof.
  induction fuel as [|fuel IH]; intros l Hlen Hf; destruct l as [|x l]; try (cbn in Hf; lia); cbn [parse_decls];
    try (split; discriminate).
  destruct (parse_decl_cases total (x :: l) Hlen ltac:(discriminate)) as [[(t & ps & El & Ht) ->]|(_ & d & es & r0 & Ed & Hd & Hr & Hs)].
  - cbn [pbind]. split; [discriminate|]. intros _. exists [], t, ps. now split.
  - rewrite Ed. cbn [pbind]. destruct d as [d|]; [|split; discriminate]. specialize (Hs ltac:(discriminate)).
    destruct (IH r0) as [H1 H2]; [unfold lenN in *; lia|lia|].
    destruct (parse_decls total fuel r0) as [ds' es' r'| |]; cbn [pbind padd]; try (split; congruence).
    split; [discriminate|]. intros _. destruct (H2 eq_refl) as (pre & t & ps & -> & Ht).
    apply parse_decl_suffix in Ed as [pre' E].
    exists (pre' ++ pre), t, ps. split; [rewrite <- app_assoc; exact E|exact Ht].
Qed.

(** ** Imports *)
Lemma parse_import_cases u stem l : vis TkImport l = true ->
  exists o es r, parse_import u stem l = PRet o es r /\ rest_of r l /\ (length r < length l)%nat /\ (o = None -> es <> []).
Proof.
  intros Hv. unfold parse_import, consume0 at 1. rewrite Hv. apply vis_true in Hv as (t & l1 & -> & _ & _). cbn [tl].
  unfold consume_path. destruct l1 as [|x l2]; [do 3 eexists; repeat split; cbn; auto; discriminate|].
  destruct (tvar x); try (do 3 eexists; repeat split; cbn; auto; discriminate).
  destruct (vis TkAs l2) eqn:Ev.
  - unfold consume0. rewrite Ev. apply vis_true in Ev as (y & l3 & -> & _ & _). cbn [tl]. unfold consume_ident.
    destruct l3 as [|z l4]; [do 3 eexists; repeat split; cbn; auto; discriminate|].
    destruct (tvar z); do 3 eexists; repeat split; cbn; auto; discriminate.
  - destruct (stem p); do 3 eexists; repeat split; cbn; auto; discriminate.
Qed.
Lemma parse_import_sound u stem l i r : parse_import u stem l = PRet (Some i) [] r ->
  exists pre, l = pre ++ r /\ import_tokens u stem i (vars pre).
Proof.
  unfold parse_import, consume0 at 1. destruct (vis TkImport l) eqn:Ev; [|discriminate].
  apply vis_true in Ev as (t & l1 & -> & Ht & _). cbn [tl]. unfold consume_path. destruct l1 as [|x l2]; [discriminate|].
  destruct (tvar x) eqn:Ex; try discriminate. destruct (vis TkAs l2) eqn:Ev.
  - unfold consume0. rewrite Ev. apply vis_true in Ev as (y & l3 & -> & Hy & _). cbn [tl]. unfold consume_ident.
    destruct l3 as [|z l4]; [discriminate|]. destruct (tvar z) eqn:Ez; try discriminate. intros [= <- <-].
    exists [t; x; y; z]. split; [reflexivity|]. cbn [vars map]. rewrite Ht, Ex, Hy, Ez. constructor.
  - destruct (stem p) eqn:Es; [|discriminate]. intros [= <- <-]. exists [t; x]. split; [reflexivity|].
    cbn [vars map]. rewrite Ht, Ex. now constructor.
Qed.
Lemma parse_import_complete u stem i ts : import_tokens u stem i ts -> forall l rest, vars l = ts -> vis TkAs rest = false ->
  parse_import u stem (l ++ rest) = PRet (Some i) [] rest.
Proof.
  destruct 1 as [p s Hs|p n]; intros l rest Hl Hv.
  - apply vars_cons_inv in Hl as (t & l1 & -> & Ht & Hl). apply vars_one in Hl as (x & -> & Hx).
    unfold parse_import, consume0 at 1. cbn [app vis tl]. rewrite Ht. unfold consume_path. rewrite Hx, Hv, Hs. reflexivity.
  - apply vars_cons_inv in Hl as (t & l1 & -> & Ht & Hl). apply vars_cons_inv in Hl as (x & l2 & -> & Hx & Hl).
    apply vars_cons_inv in Hl as (y & l3 & -> & Hy & Hl). apply vars_one in Hl as (z & -> & Hz).
    unfold parse_import, consume0 at 1. cbn [app vis tl]. rewrite Ht. unfold consume_path. rewrite Hx.
    cbn [vis]. rewrite Hy. unfold consume0. cbn [vis tl]. rewrite Hy. unfold consume_ident. rewrite Hz. reflexivity.
Qed.
Lemma parse_imports_total u stem : forall fuel m l, (length l <= fuel)%nat ->
  exists m' es r, parse_imports u stem fuel m l = PRet m' es r /\ rest_of r l.
Proof.
  induction fuel as [|fuel IH]; intros m l Hl; cbn [parse_imports].
  - destruct l; [|cbn in Hl; lia]. cbn [vis]. do 3 eexists. split; [reflexivity|auto].
  - destruct (vis TkImport l) eqn:Ev; [|do 3 eexists; split; [reflexivity|auto]].
    destruct (parse_import_cases u stem l Ev) as (o & es & r & -> & Hs & Hr & _). cbn [pbind].
    destruct o as [[name import]|].
    + destruct (map_insert name import m) as [m' dup]. destruct (IH m' r) as (m2 & es' & r' & -> & Hs'); [lia|].
      cbn [padd]. do 3 eexists. split; [reflexivity|]. now apply (suffix_trans _ r).
    + destruct (IH m r) as (m2 & es' & r' & -> & Hs'); [lia|].
      cbn [padd]. do 3 eexists. split; [reflexivity|]. now apply (suffix_trans _ r).
Qed.
Definition distinct_from (m : list (ident * simport)) (e : ident * simport) : Prop :=
  Forall (fun e' => ident_cmp (fst e) (fst e') <> Eq) m.
Lemma parse_imports_sound u stem : forall fuel m l m' r, StronglySorted klt m ->
  parse_imports u stem fuel m l = PRet m' [] r ->
  exists pre listed, l = pre ++ r /\ many (import_tokens u stem) listed (vars pre) /\
    ForallOrdPairs (fun a b => ident_cmp (fst a) (fst b) <> Eq) listed /\ Forall (distinct_from m) listed /\
    Permutation (listed ++ m) m' /\ StronglySorted klt m'.
Proof.
  induction fuel as [|fuel IH]; intros m l m' r Hs; cbn [parse_imports]; destruct (vis TkImport l) eqn:Ev; try discriminate;
    try (intros [= <- <-]; exists [], []; repeat split; auto; constructor).
  destruct (parse_import_cases u stem l Ev) as (o & es & r0 & Ei & _ & _ & Hn). rewrite Ei. cbn [pbind].
  destruct o as [[name import]|].
  - destruct (map_insert name import m) as [m2 dup] eqn:Em. intros H. apply padd_nil in H as [He H].
    apply app_eq_nil in He as [-> He]. destruct dup; [discriminate|].
    destruct (map_insert_spec _ _ _ _ _ Hs Em) as (Hp & Hs2 & Hf).
    apply parse_import_sound in Ei as (p1 & -> & Hi). apply IH in H as (p2 & listed & -> & Hm & Hd & Hdm & Hp2 & Hs'); [|exact Hs2].
    exists (p1 ++ p2), ((name, import) :: listed). rewrite <- app_assoc, vars_app. split; [reflexivity|]. split; [now constructor|].
    split; [|split].
    + constructor; [|exact Hd]. eapply Forall_impl; [|exact Hdm]. intros e He'. unfold distinct_from in He'.
      rewrite Forall_forall in He'. specialize (He' (name, import) (Permutation_in _ Hp (or_introl eq_refl))).
      cbn [fst] in *. intros E. apply He'. rewrite cmp_sym, E. reflexivity.
    + constructor; [exact Hf|]. eapply Forall_impl; [|exact Hdm]. intros e He'. unfold distinct_from in *.
      apply (Permutation_Forall (Permutation_sym Hp)) in He'. now inversion He'.
    + split; [|exact Hs']. cbn [app]. rewrite Permutation_middle. now rewrite Hp.
  - intros H. apply padd_nil in H as [-> H]. exfalso. now apply Hn.
Qed.
Lemma parse_imports_complete u stem listed ts : many (import_tokens u stem) listed ts -> forall fuel m l rest, vars l = ts ->
  (length (l ++ rest) <= fuel)%nat -> vis TkImport rest = false -> vis TkAs rest = false -> StronglySorted klt m ->
  ForallOrdPairs (fun a b => ident_cmp (fst a) (fst b) <> Eq) listed -> Forall (distinct_from m) listed ->
  exists m', parse_imports u stem fuel m (l ++ rest) = PRet m' [] rest /\
    Permutation (listed ++ m) m' /\ StronglySorted klt m'.
Proof.
  induction 1 as [|[name import] listed t ts Hi Hm IH]; intros fuel m l rest Hl Hfuel Hr1 Hr2 Hs Hd Hdm.
  - apply vars_nil_inv in Hl. subst l. exists m. cbn [app]. split; [|auto]. destruct fuel; cbn [parse_imports]; now rewrite Hr1.
  - apply vars_app_inv in Hl as (l1 & l2 & -> & H1 & H2). rewrite <- app_assoc in *.
    assert (vis TkAs (l2 ++ rest) = false) as Has.
    { destruct Hm as [|i2 listed t2 ts2 Hi2 Hm2]; [apply vars_nil_inv in H2; now subst l2|].
      destruct l2 as [|x l2]; [destruct Hi2; discriminate|]. apply vis_false. destruct Hi2; cbn [vars map app] in H2; injection H2 as Hx _; congruence. }
    assert (vis TkImport (l1 ++ l2 ++ rest) = true) as Hvi.
    { destruct l1 as [|x l1]; [destruct Hi; discriminate|]. cbn [app vis]. destruct Hi; cbn [vars map] in H1; injection H1 as Hx _; now rewrite Hx. }
    assert (0 < length l1)%nat as Hpos by (destruct l1; [destruct Hi; discriminate|cbn; lia]).
    rewrite app_length in Hfuel. destruct fuel as [|fuel]; [lia|]. cbn [parse_imports]. rewrite Hvi.
    rewrite (parse_import_complete u stem (name, import) t Hi l1 (l2 ++ rest) H1 Has). cbn [pbind].
    inversion Hdm as [|? ? Hf Hdm']; subst. inversion Hd as [|? ? Hd1 Hd2]; subst.
    pose proof (map_insert_fresh _ m name import Hf) as Hdup. destruct (map_insert name import m) as [m2 dup] eqn:Em.
    cbn [snd] in Hdup. subst dup. destruct (map_insert_spec _ _ _ _ _ Hs Em) as (Hp & Hs2 & _).
    destruct (IH fuel m2 l2 rest) as (m' & -> & Hp' & Hs'); auto; [lia| |].
    + rewrite Forall_forall in *. intros e He. unfold distinct_from. apply (Permutation_Forall Hp). constructor.
      * specialize (Hd1 e He). cbn [fst] in *. intros E. apply Hd1. rewrite cmp_sym, E. reflexivity.
      * now apply Hdm'.
    + exists m'. cbn [padd app]. repeat split; auto. rewrite Permutation_middle. now rewrite Hp.
Qed.

(** ** Schemas *)
Lemma schema_comment_iff l c l1 : parse_schema_comment l = (c, l1) <-> exists ct, l = ct ++ l1 /\ schema_comment c ct l1.
Proof.
  assert (forall t ps r, tvar t = TkComment ps ->
    (belongs_to_next t r /\ parse_schema_comment (t :: r) = ([], t :: r)) \/
    (~ belongs_to_next t r /\ parse_schema_comment (t :: r) = (ps, r))) as H1.
  { intros t ps r Ht. unfold parse_schema_comment. rewrite Ht. destruct r as [|t' r'].
    - right. split; [intros (t' & r' & H & _); discriminate|reflexivity].
    - assert (tvar t' <> TkStruct /\ tvar t' <> TkChoice -> ~ belongs_to_next t (t' :: r')) as Hn.
      { intros [Ha Hb] (t0 & r0 & [= <- <-] & [H|H] & _); congruence. }
      destruct (tvar t') eqn:Et'; try (right; split; [apply Hn; split; discriminate|reflexivity]).
      + destruct (tend t + 1 <? tstart t') eqn:E.
        * right. split; [|reflexivity]. intros (t0 & r0 & [= <- <-] & _ & H). lia.
        * left. split; [|reflexivity]. exists t', r'. repeat split; [right; exact Et'|lia].
      + destruct (tend t + 1 <? tstart t') eqn:E.
        * right. split; [|reflexivity]. intros (t0 & r0 & [= <- <-] & _ & H). lia.
        * left. split; [|reflexivity]. exists t', r'. repeat split; [left; exact Et'|lia]. }
  assert (forall r, (forall t r' ps, r = t :: r' -> tvar t <> TkComment ps) -> parse_schema_comment r = ([], r)) as H2.
  { intros r H. destruct r as [|t r']; [reflexivity|]. unfold parse_schema_comment.
    destruct (tvar t) as [| | | | | |ps| | | | |i| |m| | | |p| | | | | | |] eqn:E; try reflexivity. exfalso. now apply (H t r' ps). }
  assert (forall l, (exists t r ps, l = t :: r /\ tvar t = TkComment ps) \/ (forall t r' ps, l = t :: r' -> tvar t <> TkComment ps)) as Hdec.
  { intros [|t r]; [right; discriminate|]. destruct (tvar t) as [| | | | | |ps| | | | |i| |m| | | |p| | | | | | |] eqn:E;
      try (right; intros ? ? ? [= <- <-]; congruence). left. exists t, r, ps. auto. }
  split.
  - intros H. destruct (Hdec l) as [(t & r & ps & -> & Ht)|Hn].
    + destruct (H1 t ps r Ht) as [[Hb E]|[Hb E]]; rewrite E in H; injection H as <- <-.
      * exists []. split; [reflexivity|]. constructor. intros t0 r0 ps0 [= <- <-] _. exact Hb.
      * exists [t]. split; [reflexivity|]. now constructor.
    + rewrite (H2 l Hn) in H. injection H as <- <-. exists []. split; [reflexivity|]. constructor.
      intros t r ps E Ht. exfalso. now apply (Hn t r ps).
  - intros (ct & -> & Hc). destruct Hc as [ps t rest Ht Hb|rest Hb].
    + destruct (H1 t ps rest Ht) as [[Hb' _]|[_ E]]; [contradiction|exact E].
    + cbn [app]. destruct (Hdec rest) as [(t & r & ps & -> & Ht)|Hn]; [|now apply H2].
      destruct (H1 t ps r Ht) as [[_ E]|[Hb' _]]; [exact E|]. exfalso. now apply Hb', (Hb t r ps).
Qed.
Lemma many_decl_first ds l : many decl_tokens ds (vars l) -> vis TkImport l = false /\ vis TkAs l = false.
Proof.
  intros H. destruct l as [|x l]; [now split|]. split; apply vis_false; intros E; cbn [vars map] in H; rewrite E in H;
    remember (_ :: map tvar l) as w eqn:Ew; destruct H as [|d ds t ts Hd _]; try discriminate;
    destruct Hd as [c k n fs del cs fts dls Hc Hf Hdl]; destruct Hc; destruct k; discriminate.
Qed.
Lemma klt_irrefl (x : ident * simport) : ~ klt x x.
Proof. unfold klt. rewrite cmp_refl. discriminate. Qed.
Lemma klt_trans (x y z : ident * simport) : klt x y -> klt y z -> klt x z.
Proof. apply cmp_trans. Qed.

Theorem parse_iff u stem ts s : parse u stem ts = ParseOk s <-> schema_grammar u stem s ts.
Proof.
  split.
  - unfold parse, parse_schema. destruct (parse_schema_comment ts) as [c l1] eqn:Ec.
    apply schema_comment_iff in Ec as (ct & -> & Hc).
    destruct (parse_imports_total u stem (length l1) [] l1 (le_n _)) as (m & es & l2 & Em & Hsuf). rewrite Em. cbn [pbind].
    set (total := lenN (ct ++ l1)).
    destruct (parse_decls total (length l2) l2) as [ds es' l3| |] eqn:Ed; cbn [pbind padd]; try discriminate.
    destruct (es ++ es') eqn:Ees; [|discriminate]. destruct l3; [|discriminate]. intros [= <-].
    apply app_eq_nil in Ees as [-> ->].
    apply parse_imports_sound in Em as (it & listed & -> & Hm & Hd & _ & Hp & Hs); [|constructor]. rewrite app_nil_r in Hp.
    apply parse_decls_sound in Ed as [_ Hds]; [|unfold total, lenN; rewrite !app_length; lia].
    econstructor; [exact Hc|exact Hm| |exact Hds]. repeat split; auto.
  - destruct 1 as [c listed stored ds ct it dt Hc Hm (Hd & Hp & Hs) Hds].
    unfold parse, parse_schema. assert (parse_schema_comment (ct ++ it ++ dt) = (c, it ++ dt)) as -> by (apply schema_comment_iff; eauto).
    destruct (many_decl_first ds dt Hds) as [Hf1 Hf2].
    destruct (parse_imports_complete u stem listed (vars it) Hm (length (it ++ dt)) [] it dt) as (m' & -> & Hp' & Hs');
      auto; [constructor|eapply Forall_impl; [|apply Forall_forall; intros; exact I]; intros; constructor|].
    rewrite app_nil_r in Hp'. assert (m' = stored) as ->.
    { apply (sorted_perm_unique _ klt); [apply klt_irrefl|apply klt_trans|exact Hs'|exact Hs|]. now rewrite <- Hp', Hp. }
    cbn [pbind].
    destruct (parse_decls_complete (lenN (ct ++ it ++ dt)) ds (vars dt) Hds (length dt) dt []) as (fuel' & _ & E); auto;
      rewrite ?app_nil_r; try lia; [unfold lenN; rewrite !app_length; lia|].
    rewrite app_nil_r in E. rewrite E. destruct fuel'; cbn [parse_decls pbind padd app]; now rewrite app_nil_r.
Qed.

Theorem parse_never_loops u stem ts : parse u stem ts <> ParseLoop.
Proof.
  unfold parse, parse_schema. destruct (parse_schema_comment ts) as [c l1] eqn:Ec.
  apply schema_comment_iff in Ec as (ct & -> & Hc).
  destruct (parse_imports_total u stem (length l1) [] l1 (le_n _)) as (m & es & l2 & -> & [it ->]). cbn [pbind].
  destruct (parse_decls_total (lenN (ct ++ it ++ l2)) (length l2) l2) as [H1 _]; [unfold lenN; rewrite !app_length; lia|lia|].
  destruct (parse_decls _ (length l2) l2) as [ds es' l3| |]; cbn [pbind padd]; try discriminate; [|congruence].
  destruct (es ++ es'); [destruct l3|]; discriminate.
Qed.
Theorem parse_panic_only u stem ts : parse u stem ts = ParsePanic ->
  exists pre t ps, ts = pre ++ [t] /\ pre <> [] /\ tvar t = TkComment ps.
Proof.
  unfold parse, parse_schema. destruct (parse_schema_comment ts) as [c l1] eqn:Ec.
  apply schema_comment_iff in Ec as (ct & -> & Hc).
  destruct (parse_imports_total u stem (length l1) [] l1 (le_n _)) as (m & es & l2 & -> & [it ->]). cbn [pbind].
  destruct (parse_decls_total (lenN (ct ++ it ++ l2)) (length l2) l2) as [_ H2]; [unfold lenN; rewrite !app_length; lia|lia|].
  destruct (parse_decls _ (length l2) l2) as [ds es' l3| |]; cbn [pbind padd]; try discriminate.
  { destruct (es ++ es'); [destruct l3|]; discriminate. }
  intros _. destruct (H2 eq_refl) as (pre & t & ps & -> & Ht). exists (ct ++ it ++ pre), t, ps.
  rewrite <- !app_assoc. split; [reflexivity|]. split; [|exact Ht]. intros E. apply app_eq_nil in E as [-> E].
  apply app_eq_nil in E as [-> ->]. cbn [app] in Hc. inversion Hc as [|? Hb]; subst.
  destruct (Hb t [] ps eq_refl Ht) as (t' & r' & H & _). discriminate.
Qed.
Theorem parse_panic_if u stem pre s t ps : parse u stem pre = ParseOk s -> pre <> [] -> tvar t = TkComment ps ->
  parse u stem (pre ++ [t]) = ParsePanic.
Proof.
  intros H Hne Ht. apply parse_iff in H. destruct H as [c listed stored ds ct it dt Hc Hm (Hd & Hp & Hs) Hds].
  unfold parse, parse_schema. rewrite <- !app_assoc.
  assert (exists c', parse_schema_comment (ct ++ it ++ dt ++ [t]) = (c', it ++ dt ++ [t])) as (c' & ->).
  { rewrite (app_assoc it). remember (it ++ dt) as w eqn:Ew. clear Ew. destruct Hc as [ps' t' rest Ht' Hb|rest Hb].
    - exists ps'. apply schema_comment_iff. exists [t']. split; [reflexivity|]. constructor; [exact Ht'|].
      intros (t0 & r0 & E & Hk & Hl). destruct rest as [|y r].
      + cbn in E. injection E as <- <-. destruct Hk; congruence.
      + cbn in E. injection E as <- <-. apply Hb. exists y, r. split; [reflexivity|]. split; [exact Hk|exact Hl].
    - exists []. apply schema_comment_iff. exists []. split; [reflexivity|]. constructor. intros t0 r0 ps0 E Ht0.
      destruct rest as [|y r]; [exfalso; apply Hne; reflexivity|].
      cbn in E. injection E as <- <-. destruct (Hb y r ps0 eq_refl Ht0) as (t1 & r1 & -> & H1 & H2).
      exists t1, (r1 ++ [t]). auto. }
  assert (vis TkImport (dt ++ [t]) = false /\ vis TkAs (dt ++ [t]) = false) as [Hf1 Hf2].
  { destruct (many_decl_first ds dt Hds) as [Hf1 Hf2]. destruct dt as [|x dt]; [split; apply vis_false; rewrite Ht; discriminate|]. now split. }
  destruct (parse_imports_complete u stem listed (vars it) Hm (length (it ++ dt ++ [t])) [] it (dt ++ [t])) as (m' & -> & _ & _);
      auto; [constructor|eapply Forall_impl; [|apply Forall_forall; intros; exact I]; intros; constructor|].
  cbn [pbind].
  destruct (parse_decls_complete (lenN (ct ++ it ++ dt ++ [t])) ds (vars dt) Hds (length (dt ++ [t])) dt [t]) as (fuel' & Hf & E); auto.
  { unfold lenN; rewrite !app_length; lia. }
  rewrite E. destruct fuel' as [|fuel']; [cbn in Hf; lia|]. cbn [parse_decls]. unfold parse_decl, parse_comment. rewrite Ht. reflexivity.
Qed.
