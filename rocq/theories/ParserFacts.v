From Verif Require Export ParseSpec IdentFacts.

(** ** Ordered maps and sets *)
Definition klt {V} (a b : ident * V) : Prop := ident_cmp (fst a) (fst b) = Lt.
Lemma cmp_sym a b : ident_cmp b a = CompOpp (ident_cmp a b).
Proof. apply bytes_cmp_antisym. Qed.
Lemma cmp_trans a b c : ident_cmp a b = Lt -> ident_cmp b c = Lt -> ident_cmp a c = Lt.
Proof. intros H1 H2. apply (bytes_cmp_trans _ (utf8_encode (snake_case b))); auto. discriminate. Qed.
Lemma cmp_refl a : ident_cmp a a = Eq.
Proof. unfold ident_cmp. now apply bytes_cmp_eq. Qed.
Lemma cmp_eq_l a b c : ident_cmp a b = Eq -> ident_cmp a c = ident_cmp b c.
Proof. unfold ident_cmp. intros H. apply bytes_cmp_eq in H. now rewrite H. Qed.

Lemma map_insert_spec V (m : list (ident * V)) k v m' :
  StronglySorted klt m -> map_insert k v m = (m', false) ->
  Permutation ((k, v) :: m) m' /\ StronglySorted klt m' /\ Forall (fun e => ident_cmp k (fst e) <> Eq) m.
Proof.
  revert m'. induction m as [|[k' v'] m IH]; intros m' Hs; cbn [map_insert].
  - intros [= <-]. repeat split; auto. constructor; constructor.
  - inversion Hs as [|? ? Hs1 Hs2]; subst. destruct (ident_cmp k k') eqn:E.
    + discriminate.
    + intros [= <-]. repeat split; auto.
      * constructor; [exact Hs|]. constructor; [exact E|]. eapply Forall_impl; [|exact Hs2].
        intros e He. unfold klt in *. cbn [fst] in *. now apply (cmp_trans k k').
      * constructor; [cbn; congruence|]. eapply Forall_impl; [|exact Hs2]. intros e He. unfold klt in He. cbn [fst] in *.
        rewrite (cmp_trans k k' (fst e)); [discriminate|exact E|exact He].
    + destruct (map_insert k v m) as [m2 b] eqn:Ei. intros [= <- ->]. destruct (IH m2 Hs1 eq_refl) as (H1 & H2 & H3).
      repeat split.
      * rewrite perm_swap. now constructor.
      * constructor; [exact H2|]. apply (Permutation_Forall H1). constructor; [|exact Hs2].
        unfold klt. cbn [fst]. rewrite cmp_sym, E. reflexivity.
      * constructor; [cbn; congruence|exact H3].
Qed.
Lemma map_insert_fresh V (m : list (ident * V)) k v :
  Forall (fun e => ident_cmp k (fst e) <> Eq) m -> snd (map_insert k v m) = false.
Proof.
  induction m as [|[k' v'] m IH]; intros H; [reflexivity|]. inversion H; subst. cbn [map_insert fst] in *.
  destruct (ident_cmp k k'); [congruence|reflexivity|]. specialize (IH H3). now destruct (map_insert k v m).
Qed.
Lemma set_insert_spec s n s' : StronglySorted N.lt s -> set_insert n s = (s', false) ->
  Permutation (n :: s) s' /\ StronglySorted N.lt s' /\ ~ In n s.
Proof.
  revert s'. induction s as [|m s IH]; intros s' Hs; cbn [set_insert].
  - intros [= <-]. split; [auto|]. split; [constructor; constructor|now intros []].
  - inversion Hs as [|? ? Hs1 Hs2]; subst. destruct (n <? m) eqn:E1.
    + intros [= <-]. repeat split; auto.
      * constructor; [exact Hs|]. constructor; [lia|]. eapply Forall_impl; [|exact Hs2]. intros; lia.
      * intros [H|H]; [lia|]. rewrite Forall_forall in Hs2. apply Hs2 in H. lia.
    + destruct (n =? m) eqn:E2; [discriminate|]. destruct (set_insert n s) as [s2 b] eqn:Ei. intros [= <- ->].
      destruct (IH s2 Hs1 eq_refl) as (H1 & H2 & H3). repeat split.
      * rewrite perm_swap. now constructor.
      * constructor; [exact H2|]. apply (Permutation_Forall H1). constructor; [lia|exact Hs2].
      * intros [H|H]; [lia|]. now apply H3.
Qed.
Lemma set_insert_fresh s n : ~ In n s -> snd (set_insert n s) = false.
Proof.
  induction s as [|m s IH]; intros H; [reflexivity|]. cbn [set_insert]. destruct (n <? m); [reflexivity|].
  destruct (n =? m) eqn:E; [exfalso; apply H; left; lia|].
  assert (snd (set_insert n s) = false) as H1 by (apply IH; intros Hin; apply H; now right).
  now destruct (set_insert n s).
Qed.

(** Strictly sorted permutations are equal. *)
Lemma sorted_perm_unique A (R : A -> A -> Prop) : (forall x, ~ R x x) -> (forall x y z, R x y -> R y z -> R x z) ->
  forall l1 l2, StronglySorted R l1 -> StronglySorted R l2 -> Permutation l1 l2 -> l1 = l2.
Proof.
  intros Hirr Htr l1. induction l1 as [|x l1 IH]; intros l2 H1 H2 Hp.
  - now apply Permutation_nil in Hp.
  - destruct l2 as [|y l2]; [symmetry in Hp; now apply Permutation_nil in Hp|].
    inversion H1 as [|? ? H3 H4]; subst. inversion H2 as [|? ? H5 H6]; subst.
    assert (x = y) as ->.
    { assert (In x (y :: l2)) as Hx by (apply (Permutation_in x Hp); now left).
      assert (In y (x :: l1)) as Hy by (apply (Permutation_in y (Permutation_sym Hp)); now left).
      destruct Hx as [->|Hx]; [reflexivity|]. destruct Hy as [->|Hy]; [reflexivity|].
      rewrite Forall_forall in H4, H6. apply H4 in Hy. apply H6 in Hx. exfalso. apply (Hirr x). eauto. }
    f_equal. apply IH; auto. now apply Permutation_cons_inv in Hp.
Qed.

(** ** Tokens *)
Lemma vis_true v l : vis v l = true -> exists t l', l = t :: l' /\ tvar t = v /\ tl l = l'.
Proof.
  destruct l as [|t l]; [discriminate|]. cbn [vis]. intros H. exists t, l. split; [reflexivity|]. split; [|reflexivity].
  destruct v, (tvar t); try discriminate H; reflexivity.
Qed.
Lemma vars_cons t l : vars (t :: l) = tvar t :: vars l.
Proof. reflexivity. Qed.
Lemma vars_app a b : vars (a ++ b) = vars a ++ vars b.
Proof. apply map_app. Qed.
Lemma vars_cons_inv l v vs : vars l = v :: vs -> exists t l', l = t :: l' /\ tvar t = v /\ vars l' = vs.
Proof. destruct l as [|t l]; [discriminate|]. intros [= H1 H2]. now exists t, l. Qed.
Lemma vars_app_inv l a b : vars l = a ++ b -> exists la lb, l = la ++ lb /\ vars la = a /\ vars lb = b.
Proof. apply map_eq_app. Qed.
Lemma vars_nil_inv l : vars l = [] -> l = [].
Proof. now destruct l. Qed.
Lemma vars_one l v : vars l = [v] -> exists t, l = [t] /\ tvar t = v.
Proof. destruct l as [|t [|t' l]]; try discriminate. intros [= H]. now exists t. Qed.

(** ** Types *)
(** When no error is reported. *)
Lemma parse_type_sound total l : forall t r, parse_type total l = PRet (Some t) [] r ->
  exists pre, l = pre ++ r /\ type_tokens t (vars pre).
Proof.
  induction l as [|x l IH]; intros t r; cbn [parse_type]; [discriminate|].
  destruct (tvar x) eqn:Ex.
  16: { unfold pbind. destruct (parse_type total l) as [[inner|] es r0| |] eqn:Ep; try discriminate.
        unfold consume0, padd. destruct (vis TkRightSquare r0) eqn:Ev.
        - rewrite app_nil_r. intros [= <- -> <-]. destruct (IH inner r0 eq_refl) as (pre & -> & Hp).
          apply vis_true in Ev as (y & r1 & -> & Hy & Ht). clear Ht. cbn [tl].
          exists (x :: pre ++ [y]). split; [cbn; now rewrite <- app_assoc|].
          rewrite vars_cons, Ex, vars_app, vars_cons, Hy. now constructor.
        - discriminate. }
  all: try (intros [= <- <-]; exists [x]; split; [reflexivity|]; rewrite vars_cons, Ex; constructor).
  all: destruct (total <? 2); [discriminate|];
       destruct ((total - lenN (x :: l) <? total - 2) && vis TkDot l) eqn:Ed;
       unfold consume_ident; rewrite ?Ex; try discriminate.
  - apply andb_true_iff in Ed as [_ Ed]. apply vis_true in Ed as (d & l1 & -> & Hd & Ht). cbn [tl] in *.
    destruct l1 as [|y l1]; [discriminate|]. destruct (tvar y) eqn:Ey; try discriminate.
    intros [= <- <-]. exists [x; d; y]. split; [reflexivity|]. rewrite !vars_cons, Ex, Hd, Ey. constructor.
  - intros [= <- <-]. exists [x]. split; [reflexivity|]. rewrite vars_cons, Ex. constructor.
Qed.
Lemma parse_type_err total l : 2 <= total -> forall r, parse_type total l <> PRet None [] r /\
  parse_type total l <> PPanic /\ parse_type total l <> PLoop.
Proof.
  intros Ht. induction l as [|x l IH]; intros r; cbn [parse_type]; [repeat split; discriminate|].
  replace (total <? 2) with false by lia.
  assert (forall (b : bool), (if b then consume_ident None (x :: l) (fun import r0 =>
     consume_ident None (tl r0) (fun name r' => PRet (Some (SyCustom (Some import) name)) [] r'))
     else consume_ident None (x :: l) (fun name r0 => PRet (Some (SyCustom None name)) [] r0)) <> PRet None [] r /\
    (if b then consume_ident None (x :: l) (fun import r0 =>
     consume_ident None (tl r0) (fun name r' => PRet (Some (SyCustom (Some import) name)) [] r'))
     else consume_ident None (x :: l) (fun name r0 => PRet (Some (SyCustom None name)) [] r0)) <> PPanic /\
    (if b then consume_ident None (x :: l) (fun import r0 =>
     consume_ident None (tl r0) (fun name r' => PRet (Some (SyCustom (Some import) name)) [] r'))
     else consume_ident None (x :: l) (fun name r0 => PRet (Some (SyCustom None name)) [] r0)) <> PLoop) as Hc.
  { intros b. unfold consume_ident. destruct b, (tvar x); try (repeat split; discriminate).
    destruct (tl l) as [|y l1]; try (repeat split; discriminate). destruct (tvar y); repeat split; discriminate. }
  destruct (tvar x); try apply Hc; try (repeat split; discriminate).
  destruct (IH r) as (H1 & H2 & H3). unfold pbind.
  destruct (parse_type total l) as [[inner|] es r0| |]; try (repeat split; congruence).
  unfold consume0, padd. destruct (vis TkRightSquare r0).
  - repeat split; discriminate.
  - repeat split; try discriminate. destruct es; discriminate.
Qed.
Lemma parse_type_complete total t ts : type_tokens t ts -> forall l rest, vars l = ts -> 2 <= total ->
  lenN (l ++ rest) <= total -> vis TkDot rest = false -> parse_type total (l ++ rest) = PRet (Some t) [] rest.
Proof.
  induction 1 as [t ts Ht IH| | | | | | | |n|i n]; intros l rest Hl Htot Hlen Hdot.
  1: { apply vars_cons_inv in Hl as (x & l1 & -> & Hx & Hl). apply vars_app_inv in Hl as (la & lb & -> & Ha & Hb).
       apply vars_one in Hb as (y & -> & Hy). cbn [app parse_type]. rewrite Hx. rewrite <- app_assoc.
       unfold lenN in *. rewrite !app_length in Hlen. cbn [length app] in Hlen. rewrite app_length in Hlen.
       rewrite (IH la ([y] ++ rest)); auto.
       - cbn [pbind app]. unfold consume0. cbn [vis]. rewrite Hy. reflexivity.
       - rewrite app_length. cbn in *. lia.
       - cbn [app vis]. now rewrite Hy. }
  1-7: apply vars_one in Hl as (x & -> & Hx); cbn [app parse_type]; rewrite Hx; reflexivity.
  - apply vars_one in Hl as (x & -> & Hx). cbn [app parse_type]. rewrite Hx. replace (total <? 2) with false by lia.
    rewrite Hdot, andb_false_r. unfold consume_ident. rewrite Hx. reflexivity.
  - apply vars_cons_inv in Hl as (x & l1 & -> & Hx & Hl). apply vars_cons_inv in Hl as (d & l2 & -> & Hd & Hl).
    apply vars_one in Hl as (y & -> & Hy). cbn [app parse_type]. rewrite Hx. replace (total <? 2) with false by lia.
    unfold lenN in *. cbn [app length] in *.
    replace (total - N.of_nat (S (S (S (length rest)))) <? total - 2) with true by lia.
    cbn [vis]. rewrite Hd. cbn [andb]. unfold consume_ident. rewrite Hx. cbn [tl]. rewrite Hy. reflexivity.
Qed.

(** ** Fields *)
Lemma parse_comment_sound l c l1 : parse_comment l = (c, l1) ->
  exists pre, l = pre ++ l1 /\ comment_tokens c (vars pre) /\ (pre = [] \/ exists t, pre = [t]).
Proof.
  unfold parse_comment. destruct l as [|t l]; [intros [= <- <-]; exists []; repeat split; [constructor|auto]|].
  destruct (tvar t) eqn:E; intros [= <- <-]; try (exists []; split; [reflexivity|split; [constructor|auto]]; fail).
  exists [t]. split; [reflexivity|]. rewrite vars_cons, E. split; [constructor|eauto].
Qed.
Definition starts_comment (l : list token) : bool :=
  match l with t :: _ => match tvar t with TkComment _ => true | _ => false end | [] => false end.
Lemma parse_comment_complete c cs l rest : comment_tokens c cs -> vars l = cs -> starts_comment rest = false ->
  parse_comment (l ++ rest) = (c, rest).
Proof.
  intros H Hl Hr. destruct H as [|ps].
  - apply vars_nil_inv in Hl. subst l. cbn [app]. unfold parse_comment. destruct rest as [|t r]; [reflexivity|].
    cbn [starts_comment] in Hr. destruct (tvar t); congruence || reflexivity.
  - apply vars_one in Hl as (t & -> & Ht). cbn. now rewrite Ht.
Qed.
Lemma parse_rule_sound l r l1 : parse_rule l = (r, l1) -> exists pre, l = pre ++ l1 /\ rule_tokens r (vars pre).
Proof.
  unfold parse_rule. destruct l as [|t l]; [intros [= <- <-]; exists []; split; [reflexivity|constructor]|].
  destruct (tvar t) eqn:E; intros [= <- <-]; try (exists []; split; [reflexivity|constructor]; fail);
    (exists [t]; split; [reflexivity|]; rewrite vars_cons, E; constructor).
Qed.
Lemma parse_rule_complete r rs l x rest : rule_tokens r rs -> vars l = rs ->
  match tvar x with TkAsymmetric | TkOptional => False | _ => True end ->
  parse_rule (l ++ x :: rest) = (r, x :: rest).
Proof.
  intros H Hl Hx. destruct H.
  - apply vars_one in Hl as (t & -> & Ht). cbn. now rewrite Ht.
  - apply vars_one in Hl as (t & -> & Ht). cbn. now rewrite Ht.
  - apply vars_nil_inv in Hl. subst. cbn. destruct (tvar x); tauto.
Qed.

Lemma finish_sound c r n ty l4 f rest :
  consume0 TkEquals None l4 (fun l5 =>
    consume_integer None l5 (fun index l6 => PRet (Some (mkSField c r n ty index)) [] l6)) = PRet (Some f) [] rest ->
  exists pre i, l4 = pre ++ rest /\ vars pre = [TkEquals; TkInteger i] /\ f = mkSField c r n ty i.
Proof.
  unfold consume0, consume_integer. destruct (vis TkEquals l4) eqn:Ev; [|discriminate].
  apply vis_true in Ev as (t & l5 & -> & Ht & _). cbn [tl]. destruct l5 as [|t2 l6]; [discriminate|].
  destruct (tvar t2) eqn:E2; try discriminate. intros [= <- <-]. exists [t; t2], n0.
  repeat split. cbn. now rewrite Ht, E2.
Qed.
Lemma padd_nil A es (r : pres A) a rest : padd es r = PRet a [] rest -> es = [] /\ r = PRet a [] rest.
Proof. destruct r; cbn; try discriminate. intros [= <- H <-]. apply app_eq_nil in H as [-> ->]. auto. Qed.

Lemma parse_field_sound total l f rest : parse_field total l = PRet (Some f) [] rest ->
  exists pre, l = pre ++ rest /\ field_tokens f (vars pre).
Proof.
  unfold parse_field. destruct (parse_comment l) as [c l1] eqn:Ec. apply parse_comment_sound in Ec as (p1 & -> & Hc & _).
  destruct (parse_rule l1) as [r l2] eqn:Er. apply parse_rule_sound in Er as (p2 & -> & Hr).
  unfold consume_ident. destruct l2 as [|t l3]; [discriminate|]. destruct (tvar t) eqn:Et; try discriminate. cbv zeta.
  assert (forall ty l4 pt, annotation_tokens ty (vars pt) -> l3 = pt ++ l4 ->
    consume0 TkEquals None l4 (fun l5 =>
      consume_integer None l5 (fun index l6 => PRet (Some (mkSField c r i ty index)) [] l6)) = PRet (Some f) [] rest ->
    exists pre, p1 ++ p2 ++ t :: l3 = pre ++ rest /\ field_tokens f (vars pre)) as Hfin.
  { intros ty l4 pt Hty -> H. apply finish_sound in H as (pre & idx & -> & Hpre & ->).
    exists (p1 ++ p2 ++ [t] ++ pt ++ pre). split; [rewrite <- !app_assoc; reflexivity|].
    rewrite !vars_app, Hpre. cbn [vars map]. rewrite Et. now constructor. }
  destruct (vis TkColon l3) eqn:Ev.
  - apply vis_true in Ev as (y & l4 & -> & Hy & _). cbn [tl] in *. destruct l4 as [|z l4]; [discriminate|].
    unfold pbind. destruct (parse_type total (z :: l4)) as [[ty|] es l5| |] eqn:Ep; try discriminate.
    intros H. apply padd_nil in H as [-> H]. apply parse_type_sound in Ep as (pt & Ept & Htt).
    apply (Hfin ty l5 (y :: pt)); auto.
    + rewrite vars_cons, Hy. now constructor.
    + cbn. now rewrite <- Ept.
  - intros H. apply (Hfin SyUnit l3 []); auto. constructor.
Qed.
Lemma parse_field_complete total f ts : field_tokens f ts -> forall l rest, vars l = ts -> 2 <= total ->
  lenN (l ++ rest) <= total -> parse_field total (l ++ rest) = PRet (Some f) [] rest.
Proof.
  destruct 1 as [c r n t i cs rs ts Hc Hr Ht]. intros l rest Hl Htot Hlen.
  apply vars_app_inv in Hl as (l1 & l' & -> & H1 & Hl). apply vars_app_inv in Hl as (l2 & l'' & -> & H2 & Hl).
  apply vars_cons_inv in Hl as (x & l3 & -> & Hx & Hl). apply vars_app_inv in Hl as (l4 & l5 & -> & H4 & H5).
  apply vars_cons_inv in H5 as (e & l6 & -> & He & H5). apply vars_one in H5 as (k & -> & Hk).
  unfold parse_field. rewrite <- !app_assoc. cbn [app]. rewrite <- !app_assoc. cbn [app].
  rewrite (parse_comment_complete c cs l1); auto.
  2: { destruct Hr; [apply vars_one in H2 as (y & -> & Hy)..|apply vars_nil_inv in H2; subst l2]; cbn; [now rewrite Hy..|now rewrite Hx]. }
  rewrite (parse_rule_complete r rs l2); auto; [|now rewrite Hx].
  unfold consume_ident. rewrite Hx. cbv zeta.
  assert (forall ty, consume0 TkEquals None (e :: k :: rest) (fun l7 =>
      consume_integer None l7 (fun index l8 => PRet (Some (mkSField c r n ty index)) [] l8)) =
      PRet (Some (mkSField c r n ty i)) [] rest) as Hfin.
  { intros ty. unfold consume0, consume_integer. cbn [vis tl]. rewrite He, Hk. reflexivity. }
  destruct Ht as [|t ts Ht].
  - apply vars_nil_inv in H4. subst l4. cbn [app]. replace (vis TkColon (e :: k :: rest)) with false by (cbn [vis]; now rewrite He).
    apply Hfin.
  - apply vars_cons_inv in H4 as (y & l7 & -> & Hy & H7). cbn [app vis]. rewrite Hy. cbn [tl].
    unfold lenN in Hlen. rewrite !app_length in Hlen. cbn [length] in Hlen. rewrite !app_length in Hlen. cbn [length] in Hlen.
    rewrite (parse_type_complete total t ts Ht l7 (e :: k :: rest)); auto.
    + assert (l7 ++ e :: k :: rest <> []) as Hne by (destruct l7; discriminate).
      destruct (l7 ++ e :: k :: rest); [congruence|]. cbn [pbind]. rewrite Hfin. reflexivity.
    + unfold lenN. rewrite app_length. cbn [length]. lia.
    + cbn [vis]. now rewrite He.
Qed.

(** No panics, no silent failures. *)
Definition quiet {A} (r : pres (option A)) : Prop := (forall rest, r <> PRet None [] rest) /\ r <> PPanic /\ r <> PLoop.
Lemma consume_ident_quiet A l (k : ident -> list token -> pres (option A)) : (forall i l', quiet (k i l')) -> quiet (consume_ident None l k).
Proof.
  intros H. unfold consume_ident. destruct l as [|t l]; [repeat split; discriminate|].
  destruct (tvar t); try apply H; repeat split; discriminate.
Qed.
Lemma consume_integer_quiet A l (k : N -> list token -> pres (option A)) : (forall i l', quiet (k i l')) -> quiet (consume_integer None l k).
Proof.
  intros H. unfold consume_integer. destruct l as [|t l]; [repeat split; discriminate|].
  destruct (tvar t); try apply H; repeat split; discriminate.
Qed.
Lemma consume_path_quiet A l (k : str -> list token -> pres (option A)) : (forall i l', quiet (k i l')) -> quiet (consume_path None l k).
Proof.
  intros H. unfold consume_path. destruct l as [|t l]; [repeat split; discriminate|].
  destruct (tvar t); try apply H; repeat split; discriminate.
Qed.
Lemma consume0_quiet A v l (k : list token -> pres (option A)) : (forall l', quiet (k l')) -> quiet (consume0 v None l k).
Proof. intros H. unfold consume0. destruct (vis v l); [apply H|repeat split; discriminate]. Qed.
Lemma ret_quiet A (a : A) es r : quiet (PRet (Some a) es r).
Proof. repeat split; discriminate. Qed.
Lemma padd_quiet A es (r : pres (option A)) : quiet r -> quiet (padd es r).
Proof.
  intros (H1 & H2 & H3). destruct r as [a es' rest| |]; cbn; try congruence. repeat split; try discriminate.
  intros rest' [= -> He _]. apply app_eq_nil in He as [-> ->]. now apply (H1 rest).
Qed.
Lemma parse_field_quiet total l : 2 <= total -> quiet (parse_field total l).
Proof.
  intros Ht. unfold parse_field. destruct (parse_comment l) as [c l1]. destruct (parse_rule l1) as [r l2].
  apply consume_ident_quiet. intros n l3. cbv zeta.
  assert (forall ty l4, quiet (consume0 TkEquals None l4 (fun l5 =>
    consume_integer None l5 (fun index l6 => PRet (Some (mkSField c r n ty index)) [] l6)))) as Hfin.
  { intros ty l4. apply consume0_quiet. intros l5. apply consume_integer_quiet. intros. apply ret_quiet. }
  destruct (vis TkColon l3); [|apply Hfin]. destruct (tl l3) as [|z l4]; [repeat split; discriminate|].
  pose proof (fun r => parse_type_err total (z :: l4) Ht r) as He.
  destruct (parse_type total (z :: l4)) as [[ty|] es l5| |]; cbn [pbind].
  - apply padd_quiet, Hfin.
  - repeat split; try discriminate. intros rest [= -> <-]. destruct (He l5) as (H & _). congruence.
  - destruct (He []) as (_ & H & _). congruence.
  - destruct (He []) as (_ & _ & H). congruence.
Qed.
(** Progress. *)
Lemma parse_type_shorter total l : forall t es r, parse_type total l = PRet t es r -> (length r <= length l)%nat.
Proof.
  induction l as [|x l IH]; intros t es r; cbn [parse_type]; [now intros [= _ _ <-]|].
  destruct (tvar x) eqn:Ex; try (intros [= _ _ <-]; cbn; lia);
    try (destruct (total <? 2); [discriminate|]; destruct (_ && _); unfold consume_ident; rewrite Ex; intros [= _ _ <-]; cbn; lia).
  - destruct (total <? 2); [discriminate|]. destruct (_ && _); unfold consume_ident; rewrite Ex.
    + destruct l as [|d l]; cbn [tl]; [intros [= _ _ <-]; cbn; lia|].
      destruct l as [|y l]; [intros [= _ _ <-]; cbn; lia|]. destruct (tvar y); intros [= _ _ <-]; cbn; lia.
    + intros [= _ _ <-]. cbn. lia.
  - destruct (parse_type total l) as [[inner|] es' r'| |]; cbn [pbind]; try discriminate.
    + unfold consume0. specialize (IH _ _ _ eq_refl). destruct (vis TkRightSquare r') eqn:E; cbn [padd]; intros [= _ _ <-].
      * destruct r'; cbn in *; lia.
      * cbn. lia.
    + specialize (IH _ _ _ eq_refl). intros [= _ _ <-]. cbn. lia.
Qed.
Lemma parse_field_shorter total l f es r : parse_field total l = PRet f es r ->
  (length r <= length l)%nat /\ (f <> None -> (length r < length l)%nat).
Proof.
  unfold parse_field. destruct (parse_comment l) as [c l1] eqn:Ec. apply parse_comment_sound in Ec as (p1 & -> & _).
  destruct (parse_rule l1) as [rr l2] eqn:Er. apply parse_rule_sound in Er as (p2 & -> & _).
  rewrite !app_length. unfold consume_ident.
  destruct l2 as [|t l3]; [intros [= <- _ <-]; cbn; split; [lia|congruence]|].
  destruct (tvar t); try (intros [= <- _ <-]; cbn; split; [lia|congruence]). cbv zeta.
  assert (forall ty l4 es0 f r, (length l4 <= length l3)%nat ->
    padd es0 (consume0 TkEquals None l4 (fun l5 =>
      consume_integer None l5 (fun index l6 => PRet (Some (mkSField c rr i ty index)) [] l6))) = PRet f es r ->
    (length r <= length l3)%nat) as Hfin.
  { intros ty l4 es0 f0 r0 Hle. unfold consume0, consume_integer. destruct (vis TkEquals l4) eqn:E.
    - apply vis_true in E as (y & l5 & -> & _). cbn [tl] in *. destruct l5 as [|z l6]; cbn [padd].
      + intros [= _ _ <-]. cbn; lia.
      + destruct (tvar z); cbn [padd]; intros [= _ _ <-]; cbn in *; lia.
    - cbn [padd]. intros [= _ _ <-]. lia. }
  assert ((length r <= length l3)%nat -> (length r <= length p1 + (length p2 + length (t :: l3)))%nat /\
    (f <> None -> (length r < length p1 + (length p2 + length (t :: l3)))%nat)) as Hdone by (cbn; lia).
  destruct (vis TkColon l3) eqn:Ev.
  - apply vis_true in Ev as (y & l4 & -> & _). cbn [tl] in *. destruct l4 as [|z l4].
    + intros [= <- _ <-]. cbn. split; [lia|congruence].
    + destruct (parse_type total (z :: l4)) as [[ty|] es' r'| |] eqn:Ep; cbn [pbind]; try discriminate.
      * intros H. apply Hdone. apply parse_type_shorter in Ep. apply (Hfin ty r' es' f r); [cbn in *; lia|exact H].
      * intros [= <- _ <-]. apply parse_type_shorter in Ep. apply Hdone. cbn in *; lia.
  - intros H. apply Hdone. apply (Hfin SyUnit l3 [] f r); [lia|]. now rewrite H.
Qed.
