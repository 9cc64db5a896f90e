(** The generated TypeScript functions follow the rules of TsScoping.v. *)
From Verif Require Import TypesFacts IdentFacts BaseFacts.
From Verif Require Import RustEval.
From Verif Require Export TsScoping TsEval TsLinkFacts.

(** ** Contexts *)
Lemma knows_refl E : knows E E.
Proof. induction E as [|a E IH]; constructor; [split; [reflexivity|now left]|exact IH]. Qed.
Lemma knows_cons a E E' : knows E E' -> knows (a :: E) (a :: E').
Proof. intros H. constructor; [split; [reflexivity|now left]|exact H]. Qed.
Lemma knows_update x b E : lookup x E = Some (Let b) -> knows (update x (Let true) E) E.
Proof.
  induction E as [|[y t] E IH]; [discriminate|]. cbn [lookup update]. destruct (str_eqb x y).
  - intros [= ->]. constructor; [|apply knows_refl]. split; [reflexivity|]. destruct b; [now left|now right].
  - intros H. apply knows_cons. now apply IH.
Qed.
Lemma knows_assigned x E E' : knows E E' -> knows ((x, Let true) :: E) ((x, Let false) :: E').
Proof. intros H. constructor; [split; [reflexivity|now right]|exact H]. Qed.
Lemma knows_trans a b c : knows a b -> knows b c -> knows a c.
Proof.
  intros H. revert c. induction H as [|x y a b [H1 H2] H IH]; intros c K; inversion K as [|? z ? ? [K1 K2] K3]; subst; constructor; [|now apply IH].
  split; [congruence|]. unfold status_le in *. destruct H2 as [E|[E1 E2]].
  - rewrite E. exact K2.
  - rewrite E2 in K2. right. split; [exact E1|]. destruct K2 as [K2|[K2 _]]; [congruence|discriminate].
Qed.
Lemma meets_refl R : meets R R.
Proof. destruct R; [apply meets_known, knows_refl|apply meets_never]. Qed.

(** Only local names. *)
Definition clears (E : jctx) : Prop := forallb (fun b => local_ok (fst b)) E = true.
Lemma clears_cons x s E : local_ok x = true -> clears E -> clears ((x, s) :: E).
Proof. intros Hx H. unfold clears. cbn [forallb fst]. now rewrite Hx. Qed.
Lemma clears_update x s E : clears E -> clears (update x s E).
Proof.
  unfold clears. intros H. rewrite forallb_forall in *. intros b Hb. apply (in_map fst) in Hb. rewrite update_names in Hb.
  apply in_map_iff in Hb as (b' & <- & Hb'). now apply H.
Qed.
Lemma clears_outer x E : clears E -> local_ok x = false -> outer x E.
Proof.
  intros H Hx. unfold outer. apply lookup_none. intros Hin. apply in_map_iff in Hin as (b & <- & Hb). unfold clears in H. rewrite forallb_forall in H.
  rewrite (H _ Hb) in Hx. discriminate.
Qed.

(** Variables of fields are declared together. *)
Lemma declare_all_lookup s xs : forall E y, lookup y (declare_all s xs E) =
  if existsb (str_eqb y) xs then match lookup y E with Some _ => Some (s y) | None => None end else lookup y E.
Proof.
  unfold declare_all. induction xs as [|x xs IH]; intros E y; [reflexivity|]. cbn [fold_left existsb]. rewrite IH, lookup_update.
  destruct (str_eqb y x) eqn:Ex; cbn [orb]; [|reflexivity]. apply str_eqb_eq in Ex. subst.
  destruct (lookup x E); destruct (existsb _ xs); reflexivity.
Qed.
Lemma declare_all_clears s xs : forall E, clears E -> clears (declare_all s xs E).
Proof. unfold declare_all. induction xs as [|x xs IH]; intros E H; [exact H|]. cbn [fold_left]. apply IH. now apply clears_update. Qed.

Section Rules.
Context (find : scope -> jcallee -> option (scope * jfn)) (reach : scope -> str -> bool) (here : scope).
Notation flist := (fine_list find reach here).
Notation fstmt := (fine_stmt find reach here).
Lemma fl_one B E s R : fstmt B E s R -> flist B E [s] R.
Proof. destruct R as [E'|]; intros H; [|now apply fl_last]. eapply fl_cons; [exact H|apply fl_nil]. Qed.
Lemma fl_one_as B E s E' E'' : fstmt B E s (Some E') -> E' = E'' -> flist B E [s] (Some E'').
Proof. intros H <-. now apply fl_one. Qed.
Lemma fl_app B E a E' b R : flist B E a (Some E') -> flist B E' b R -> flist B E (a ++ b) R.
Proof.
  revert E. induction a as [|s a IH]; intros E H1 H2; cbn [app].
  - inversion H1; subst. exact H2.
  - inversion H1; subst. eapply fl_cons; [eassumption|]. now apply IH.
Qed.
Lemma fb_known B extra E b F R R' : extra ++ frame b = F -> NoDup (map fst F) -> flist B (F ++ E) b R' -> flow_map (skipn (length F)) R' = R ->
  fine_block find reach here B extra E b R.
Proof. intros H1 H2 H3 <-. now apply fb_block. Qed.
Lemma fb_never B extra E b F : extra ++ frame b = F -> NoDup (map fst F) -> flist B (F ++ E) b None -> fine_block find reach here B extra E b None.
Proof. intros H1 H2 H3. now apply (fb_known _ _ _ _ F _ None). Qed.
End Rules.
Lemma frame_append a b : frame (a ++ b) = frame a ++ frame b.
Proof. unfold frame. now rewrite flat_map_app, map_app. Qed.
Lemma frame_first s ss : frame (s :: ss) = map (fun d => (fst d, Dead (snd d))) (declared_in s) ++ frame ss.
Proof. unfold frame. cbn [flat_map]. now rewrite map_app. Qed.
Lemma scope_atlas u ns s t f : frame (tgen_atlas u ns s t f) = [].
Proof. destruct t as [inner| | | | | | | |]; try destruct inner; destruct f; reflexivity. Qed.
Lemma scope_ser u ns s t f : frame (tgen_ser u ns s t f) = [].
Proof. destruct t as [inner| | | | | | | |]; try destruct inner; destruct f; reflexivity. Qed.
Lemma scope_deser u ns s t f : frame (tgen_deser u ns s t f) = [(txt "payload", Dead false)].
Proof. destruct t as [inner| | | | | | | |]; try destruct inner; destruct f; reflexivity. Qed.

(** ** Steps *)
Ltac slook :=
  repeat first [rewrite lookup_here | rewrite lookup_skip by reflexivity | rewrite lookup_other by reflexivity].
Ltac slk := slook; first [reflexivity | eassumption | erewrite lookup_updated by slk; reflexivity].
Ltac sread := red; slook; first [assumption | left; reflexivity | right; reflexivity | left; slk | right; slk].
Ltac sclears := repeat first [apply clears_cons; [reflexivity|] | apply clears_update]; first [assumption | reflexivity].
Ltac souter := first [apply clears_outer; [sclears|first [assumption|reflexivity]] | reflexivity].
Ltac snorm := try match goal with |- context [declare_all _ (_ :: _) _] => cbn [declare_all fold_left] end; repeat first [rewrite update_here | rewrite update_skip by reflexivity | match goal with |- context [update ?x ?s ?E] => rewrite (update_same x s E) by slk end]; cbv iota.
Ltac stakes :=
  first [eassumption | eexists _, _; split; [match goal with H : good_scope ?f ?r ?sc |- _ => apply (gs_prelude f r sc H); reflexivity end | reflexivity]].
Ltac sbuiltin := split; [souter | match goal with H : good_scope ?f ?r ?sc |- _ => apply (gs_reach f r sc H); reflexivity end].
Ltac sarity := cbn; lia.
Ltac snodup := apply all_different_nodup; reflexivity.
Ltac stype :=
  first [assumption | lazymatch goal with
  | |- True => exact I
  | |- match _ with _ => _ end => cbv iota; stype
  | |- fine_type ?t => let t' := eval hnf in t in change_no_check t with t';
      lazymatch t' with
      | TtPath _ => apply ft_path; try discriminate
      | TtArray _ => apply ft_array; stype
      | TtObj _ => apply ft_object; [try snodup | stypes]
      | TtLit _ => apply ft_literal
      | TtUnion _ _ => apply ft_union; stype
      | TtTuple _ => apply ft_tuple; stypes
      | _ => idtac
      end
  | |- _ => idtac
  end]
with stypes :=
  lazymatch goal with
  | |- Forall _ [] => apply Forall_nil
  | |- Forall _ (_ :: _) => apply Forall_cons; [cbn [snd]; stype | stypes]
  | |- _ => idtac
  end.
Ltac sexpr :=
  lazymatch goal with |- fine_expr _ _ _ _ ?e =>
    let e' := eval hnf in e in change_no_check e with e';
    lazymatch e' with
    | XVar _ => apply fe_var; sread
    | XNum _ _ => apply fe_num; [reflexivity | first [discriminate | reflexivity | intros _; reflexivity]]
    | XBig _ _ => apply fe_big | XBool _ => apply fe_bool | XNull => apply fe_null | XUndefined => apply fe_undefined | XStr _ => apply fe_str
    | XProp _ _ => apply fe_prop; sexpr
    | XIndex _ _ => apply fe_index; sexpr
    | XCall _ (CGlobal ?g) _ => apply fe_call; [apply (fc_global _ _ _ _ g); sbuiltin | sexprs]
    | XCall _ (CFn _) _ => apply fe_call; [apply fc_fn; [souter|stakes] | sexprs]
    | XCall _ (CPath _ _) _ => apply fe_call; [apply fc_path; [souter|stakes] | sexprs]
    | XMethod _ _ _ _ => apply fe_method; [sexpr | reflexivity | sexprs]
    | XNew _ _ _ => apply fe_new; [sbuiltin | sarity | sexprs]
    | XNeg _ => apply fe_neg; sexpr
    | XBin _ _ _ _ => apply fe_bin; sexpr
    | XCond _ _ _ => apply fe_cond; sexpr
    | XParen _ _ => apply fe_paren; sexpr
    | XArr _ _ => apply fe_arr; sexprs
    | XObj _ _ => apply fe_obj; [try snodup | sprops]
    | XAs _ _ => apply fe_as; [sexpr | stype]
    | XIn _ _ => apply fe_in; sexpr
    | XInstance _ _ => apply fe_instance; [sexpr | sbuiltin]
    | _ => first [assumption | idtac]
    end
  end
with sexprs :=
  lazymatch goal with
  | |- Forall _ [] => apply Forall_nil
  | |- Forall _ (_ :: _) => apply Forall_cons; [sexpr | sexprs]
  | |- _ => idtac
  end
with sprops :=
  lazymatch goal with
  | |- Forall _ [] => apply Forall_nil
  | |- Forall _ (_ :: _) => apply Forall_cons; [cbn [fst snd]; sexpr | sprops]
  | |- _ => idtac
  end.
Ltac sknows := first [assumption | apply knows_refl | apply knows_cons; sknows | apply knows_assigned; sknows
  | eapply knows_update; slk | eapply knows_trans; [eapply knows_update; slk | sknows]].
Ltac sout := cbn [flow_map skipn length]; snorm; cbn [skipn].
Ltac smeet := sout; first [apply meets_never | apply meets_known; sknows].
Ltac smeet_last := sout; lazymatch goal with |- meets None ?R => first [unify R (@None jctx) | idtac] | |- _ => idtac end; smeet.
Ltac sframe :=
  repeat first [rewrite frame_append | rewrite frame_first | rewrite scope_atlas | rewrite scope_ser | rewrite scope_deser];
  cbv [frame sub_view tgen_deser_u64 tgen_atlas_u64 tgen_ser_u64 flat_map declared_in map app fst snd jconst jlet jdecl jset jadd from_u64 to_end guarded break_on_range_error
    skip_unknown ser_varint_block serialize_varint_stmt target_buffer over_old_payload set_atlas jif jif_else get_payload payload_size tserialize_header return_unreachable];
  reflexivity.
Ltac sbreak :=
  let go k := (eapply (fs_break _ _ _ _ _ k); [reflexivity | reflexivity | solve [sknows]]) in
  first [go (@nil (str * status)) | eapply (fs_break _ _ _ _ _ [_]); [reflexivity | reflexivity | solve [sknows]]
    | eapply (fs_break _ _ _ _ _ [_; _]); [reflexivity | reflexivity | solve [sknows]]
    | eapply (fs_break _ _ _ _ _ [_; _; _]); [reflexivity | reflexivity | solve [sknows]]
    | eapply (fs_break _ _ _ _ _ [_; _; _; _]); [reflexivity | reflexivity | solve [sknows]]
    | eapply (fs_break _ _ _ _ _ [_; _; _; _; _]); [reflexivity | reflexivity | solve [sknows]]].
(** [other]: what is done about lists of statements that are not known. *)
Ltac slist other :=
  lazymatch goal with |- fine_list _ _ _ _ ?E ?l _ =>
    first [other ltac:(idtac; slist other) |
    let l' := eval hnf in l in change_no_check l with l';
    lazymatch l' with
    | [] => apply fl_nil
    | [_] =>
        lazymatch goal with
        | |- fine_list _ _ _ _ _ _ (Some _) => eapply fl_one_as; [sstmt other | snorm; reflexivity]
        | |- _ => apply fl_one; sstmt other
        end
    | _ :: _ => eapply fl_cons; [sstmt other | snorm; slist other]
    | _ => idtac
    end]
  end
with sstmt other :=
  lazymatch goal with |- fine_stmt _ _ _ ?B ?E ?s ?R =>
    let s' := eval hnf in s in change_no_check s with s';
    lazymatch s' with
    | JLet _ _ _ (Some _) => eapply fs_let; [sexpr | stype | slk]
    | JLet _ _ _ None => eapply fs_declare; [stype | slk]
    | JLets _ => eapply fs_declares; [discriminate | repeat (apply Forall_cons; [slk|]); apply Forall_nil]
    | JLetTuple _ _ => eapply fs_let_tuple; [sexpr | repeat (apply Forall_cons; [slk|]); apply Forall_nil]
    | JAssign _ _ => eapply fs_assign; [sexpr | slk]
    | JOpAssign _ _ _ => eapply fs_op_assign; [sexpr | slk]
    | JAssignTuple _ _ => eapply fs_assign_tuple; [sexpr | repeat (apply Forall_cons; [eexists; slk|]); apply Forall_nil]
    | JExpr _ => apply fs_expr; sexpr
    | JBlock _ => apply fs_block; sblock other
    | JIf _ None => eapply fs_if; [discriminate | | ]; [ | apply meets_refl ]; [sbranches other]
    | JIf _ (Some _) => eapply fs_if_else; [discriminate | sbranches other | sblock other | smeet_last]
    | JFor _ _ _ => eapply fs_for; [sexpr | sblock other]
    | JWhile (XBool true) _ => eapply (fs_forever_break _ _ _ _ E E); [reflexivity | sblock other]
    | JWhile _ _ => eapply fs_while; [sexpr | sblock other]
    | JBreak => sbreak
    | JReturn _ => apply fs_return; sexpr
    | JThrow _ => apply fs_throw; sexpr
    | JTry _ _ _ => eapply fs_try; [sblock other | sblock other | cbn; intuition discriminate | smeet | smeet_last]
    | JSwitch _ _ _ => eapply (fs_switch _ _ _ _ _ _ _ _ None); [sexpr | cbn [map fst]; sexprs_fst | cbn [map snd]; scases other | scase other | smeet_last | now left]
    | JBlank => apply fs_blank
    | _ => idtac
    end
  end
with sexprs_fst := lazymatch goal with
  | |- Forall _ [] => apply Forall_nil
  | |- Forall _ (_ :: _) => apply Forall_cons; [cbn [fst]; sexpr | sexprs_fst]
  | |- _ => idtac end
with sblock other :=
  lazymatch goal with
  | |- fine_block _ _ _ _ _ _ _ None => eapply fb_never; [sframe | try snodup | cbn [app]; slist other]
  | |- _ => eapply fb_known; [sframe | try snodup | cbn [app]; slist other | sout; reflexivity]
  end
with sbranches other :=
  lazymatch goal with
  | |- fine_branches _ _ _ _ _ [] _ => apply fbr_nil
  | |- _ => eapply fbr_cons; [sexpr | sblock other | smeet | sbranches other]
  end
with scases other :=
  lazymatch goal with
  | |- fine_cases _ _ _ _ _ [] => apply fcs_nil
  | |- fine_cases _ _ _ _ _ (_ :: _) => apply fcs_cons; [scase other | scases other]
  | |- _ => idtac
  end
with scase other :=
  lazymatch goal with
  | |- fine_case _ _ _ _ _ ?c _ => let c' := eval hnf in c in change_no_check c with c';
      lazymatch c' with
      | (true, _) => apply fca_braces; sblock other
      | (false, _) => apply fca_plain; [first [sframe | reflexivity] | slist other]
      end
  end.
Ltac none_other k := fail.

Section Prelude.
Context (find : scope -> jcallee -> option (scope * jfn)) (reach : scope -> str -> bool) (here : scope) (Hs : good_scope find reach here).
Lemma constants_reach : Forall (fun c => reach here (fst c) = true) constants.
Proof. repeat constructor; apply (gs_reach _ _ _ Hs); reflexivity. Qed.
Lemma prelude_fine : Forall (fine_fn find reach here) prelude_fns.
Proof.
  unfold prelude_fns. repeat (apply Forall_cons; [apply ff_fn; [exact constants_reach|stypes|stype|]|]);
    [..|apply Forall_nil]; cbv [flat_map app map fst snd]; sblock none_other.
Qed.
End Prelude.
