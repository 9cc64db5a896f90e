(** Unsafe changes have failing messages; any type can be migrated to any other. *)
From Verif Require Export EvolutionFacts2.
From Coq Require Import Relations FinFun.

Definition common_compat (fs gs : list (field_of ty)) : Prop :=
  forall f g, In f fs -> In g gs -> f_index f = f_index g -> compat (f_type f) (f_type g).

Lemma common_compat_forall fs gs : common_compat fs gs ->
  Forall (fun f => match find_field (f_index f) gs with
                   | Some g => compat (f_type f) (f_type g) | None => True end) fs.
Proof.
  intros H. apply Forall_forall. intros f Hf.
  destruct (find_field (f_index f) gs) as [g|] eqn:E; [|exact I].
  apply find_field_in in E as [Hg Ei]. apply H; auto.
Qed.

Lemma known_none ovs fs gs i :
  (forall f v, In (Some v, f) (combine ovs fs) -> f_index f <> i) ->
  assoc i (known_slots ovs fs gs) = None.
Proof.
  revert ovs. induction fs as [|f fs IH]; intros [|ov ovs] H; try reflexivity.
  unfold known_slots. cbn [map2 concat]. rewrite assoc_app. fold (known_slots ovs fs gs).
  rewrite (IH ovs) by (intros f' v Hin; apply (H f' v); now right).
  destruct ov as [v|]; [|reflexivity]. destruct (find_field (f_index f) gs); [|reflexivity].
  cbn [assoc]. destruct (f_index f =? i) eqn:E; [|reflexivity].
  exfalso. apply (H f v); [now left|lia].
Qed.

Lemma struct_missing lim ovs fs gs g :
  wt DOut (VStruct ovs) (TStruct fs) -> ty_wf (TStruct fs) -> ty_wf (TStruct gs) ->
  common_compat fs gs -> In g gs -> f_rule g = Required ->
  (forall f v, In (Some v, f) (combine ovs fs) -> f_index f <> f_index g) ->
  size (VStruct ovs) (TStruct fs) < two64 -> 8 * size (VStruct ovs) (TStruct fs) <= lim ->
  deserialize lim (TStruct gs) (spec_encode true (VStruct ovs) (TStruct fs)) = Err InvalidData.
Proof.
  intros Hw Ha Hb Hc Hg Hr Hno Hl Hlim. rewrite size_exact in * by assumption.
  cbn [wt ty_wf] in *. destruct Ha as [Hnf Hwf], Hb as [Hng Hwg]. rewrite allP_Forall in *.
  unfold deserialize. cbn [decode].
  change (spec_encode true (VStruct ovs) (TStruct fs)) with (concat (map2 opt_field_bytes ovs fs)) in *.
  rewrite (struct_loop_reads lim gs fs ovs _ []); auto using common_compat_forall.
  2:{ apply Forall_forall. intros [v|] _; [apply reads_all|exact I]. }
  cbn [bindr app].
  replace (missing_required gs (known_slots ovs fs gs)) with true; [reflexivity|].
  symmetry. apply existsb_exists. exists g. split; [exact Hg|].
  rewrite Hr, known_none by exact Hno. reflexivity.
Qed.

(** Blanking out one field. *)
Definition blank (i : N) (ovs : list (option val)) (fs : list (field_of ty)) : list (option val) :=
  map2 (fun ov f => if f_index f =? i then None else ov) ovs fs.

Lemma blank_wt i ovs fs :
  (forall f, In f fs -> f_index f = i -> f_rule f = Optional) ->
  wt DOut (VStruct ovs) (TStruct fs) -> wt DOut (VStruct (blank i ovs fs)) (TStruct fs).
Proof.
  cbn [wt]. revert ovs. induction fs as [|f fs IH]; intros [|ov ovs] H Hw; try contradiction;
    [exact I|]. destruct Hw as [Hw1 Hw2]. unfold blank. cbn [map2]. split.
  - destruct (f_index f =? i) eqn:E; [|exact Hw1]. rewrite (H f); [reflexivity|now left|lia].
  - apply IH; [|exact Hw2]. intros g Hg. apply H. now right.
Qed.
Lemma blank_no i ovs fs f v : In (Some v, f) (combine (blank i ovs fs) fs) -> f_index f <> i.
Proof.
  revert ovs. induction fs as [|h fs IH]; intros [|ov ovs]; cbn [blank map2 combine];
    try contradiction. intros [E|Hin]; [|now apply (IH ovs)].
  injection E as E ->. destruct (f_index f =? i) eqn:Ei; [discriminate|lia].
Qed.
Lemma blank_size i ovs fs : wt DOut (VStruct ovs) (TStruct fs) ->
  lenN (spec_encode true (VStruct (blank i ovs fs)) (TStruct fs))
    <= lenN (spec_encode true (VStruct ovs) (TStruct fs)).
Proof.
  change (spec_encode true (VStruct (blank i ovs fs)) (TStruct fs))
    with (concat (map2 opt_field_bytes (blank i ovs fs) fs)).
  change (spec_encode true (VStruct ovs) (TStruct fs)) with (concat (map2 opt_field_bytes ovs fs)).
  cbn [wt]. revert ovs. induction fs as [|f fs IH]; intros [|ov ovs] Hw; try contradiction;
    [reflexivity|]. destruct Hw as [_ Hw]. unfold blank. cbn [map2 concat].
  fold (blank i ovs fs). rewrite !lenN_app. specialize (IH ovs Hw).
  destruct (f_index f =? i); [cbn [opt_field_bytes]; rewrite lenN_nil|]; lia.
Qed.

(** A reader of structs that requires a field the writer may omit or does not know. *)
Lemma struct_unsafe lim fs gs g v0 :
  ty_wf (TStruct fs) -> ty_wf (TStruct gs) -> common_compat fs gs ->
  In g gs -> f_rule g = Required ->
  (forall f, In f fs -> f_index f = f_index g -> f_rule f = Optional) ->
  wt DOut v0 (TStruct fs) -> size v0 (TStruct fs) < two64 -> 8 * size v0 (TStruct fs) <= lim ->
  exists v bs, wt DOut v (TStruct fs) /\ serialize v (TStruct fs) = Some bs /\
    deserialize lim (TStruct gs) bs = Err InvalidData.
Proof.
  intros Ha Hb Hc Hg Hr Ho Hw Hl Hlim.
  destruct v0 as [| | | | | | | | |ovs|]; try contradiction.
  pose proof (blank_wt (f_index g) ovs fs Ho Hw) as Hw'.
  pose proof (blank_size (f_index g) ovs fs Hw) as Hsz.
  rewrite size_exact in Hl, Hlim by assumption.
  exists (VStruct (blank (f_index g) ovs fs)).
  exists (spec_encode true (VStruct (blank (f_index g) ovs fs)) (TStruct fs)).
  split; [exact Hw'|]. split.
  - apply serialize_spec; auto. rewrite size_exact by assumption. lia.
  - apply (struct_missing lim _ fs gs g); auto; try (rewrite size_exact by assumption; lia).
    intros f v. apply blank_no.
Qed.

(** A writer of choices may send, as the last resort, a case the reader does not know, or one for
    which the reader expects a fallback. *)
Lemma choice_unsafe lim fs gs f p :
  ty_wf (TChoice fs) -> ty_wf (TChoice gs) -> common_compat fs gs ->
  In f fs -> f_rule f = Required ->
  (forall g, In g gs -> f_index g = f_index f -> f_rule g = Optional) ->
  wt DOut p (f_type f) ->
  let v := VChoice (f_index f) p None in
  size v (TChoice fs) < two64 -> 8 * size v (TChoice fs) <= lim ->
  exists bs, wt DOut v (TChoice fs) /\ serialize v (TChoice fs) = Some bs /\
    deserialize lim (TChoice gs) bs = Err EOF.
Proof.
  intros Ha Hb Hc Hf Hr Ho Hp v Hl Hlim.
  assert (wt DOut v (TChoice fs)) as Hw.
  { cbn [wt v]. rewrite find_field_nodup by (apply Ha || exact Hf). rewrite Hr. auto. }
  exists (field_bytes f p).
  assert (spec_encode true v (TChoice fs) = field_bytes f p) as E.
  { unfold v. cbn [spec_encode]. rewrite find_field_nodup by (apply Ha || exact Hf).
    rewrite app_nil_r. reflexivity. }
  split; [exact Hw|]. split; [rewrite <- E; now apply serialize_spec|].
  rewrite size_exact, E in Hl, Hlim by assumption.
  unfold deserialize. cbn [ty_wf] in Ha, Hb. destruct Ha as [Hnf Hwf], Hb as [Hng Hwg].
  rewrite allP_Forall, Forall_forall in *. destruct (Hwf f Hf) as [Hi Hwf1].
  pose proof (field_bytes_length f p Hwf1 Hi ltac:(lia)) as Hpos.
  assert (lenN (spec_encode true p (f_type f)) <= lenN (field_bytes f p)) as Hle
    by (unfold field_bytes; rewrite lenN_app; lia).
  cbn [decode choice_loop].
  rewrite field_header_decodes_nil by (auto; lia). cbn [bindr].
  rewrite assoc_map_fields, takeN_all, dropN_all by lia.
  destruct (length (field_bytes f p)) as [|k]; [lia|].
  destruct (find_field (f_index f) gs) as [g|] eqn:Eg; cbn [omap].
  - apply find_field_in in Eg as [Hg Eg]. rewrite (Ho g Hg Eg).
    rewrite (reads_all lim p (f_type f) (f_type g) true) by
      (auto; try lia; now apply Hwg). reflexivity.
  - unfold skip. rewrite N.leb_refl, dropN_all by lia. reflexivity.
Qed.

(** ** The safe relation on field lists with the same types *)
Lemma safe_fields fs gs :
  NoDup (indices fs) -> NoDup (indices gs) -> Forall (fun f => ty_wf (f_type f)) fs ->
  (forall f g, In f fs -> In g gs -> f_index f = f_index g ->
     f_type f = f_type g /\ rule_change_safe (f_rule f) (f_rule g) = true) ->
  (forall f, In f fs -> ~ In (f_index f) (indices gs) -> f_rule f <> Required) ->
  (forall g, In g gs -> ~ In (f_index g) (indices fs) -> f_rule g <> Required) ->
  safe (TStruct fs) (TStruct gs) /\ safe (TChoice fs) (TChoice gs).
Proof.
  intros Hnf Hng Hwf H1 H2 H3. rewrite Forall_forall in Hwf.
  enough (safe (TStruct fs) (TStruct gs)) as H by (split; exact H).
  cbn [safe]. rewrite !allP_Forall, !Forall_forall. split.
  - intros f Hf. destruct (find_field (f_index f) gs) as [g|] eqn:E.
    + apply find_field_in in E as [Hg Ei]. destruct (H1 f g Hf Hg ltac:(lia)) as [Et Hr].
      split; [exact Hr|]. rewrite <- Et. apply safe_refl. now apply Hwf.
    + apply find_field_none in E. specialize (H2 f Hf E). destruct (f_rule f); easy.
  - intros g Hg. destruct (find_field (f_index g) fs) as [f|] eqn:E; [exact I|].
    apply find_field_none in E. specialize (H3 g Hg E). destruct (f_rule g); easy.
Qed.

(** ** Connectivity (README 293) *)
Lemma safe_step_sym a b : safe_step a b -> safe_step b a.
Proof.
  intros (Ha & Hb & Hs). repeat split; try apply Ha; try apply Hb.
  apply safe_sym; auto; [apply Ha|apply Hb].
Qed.
Lemma migratable_sym a b : migratable a b -> migratable b a.
Proof.
  induction 1 as [x y H|x|x y z H1 IH1 H2 IH2].
  - apply rt_step. now apply safe_step_sym.
  - apply rt_refl.
  - eapply rt_trans; eauto.
Qed.

Definition unit_field (i : N) (r : rule) : field_of ty := mkF i r TUnit.
Definition asym (f : field_of ty) : field_of ty := mkF (f_index f) Asymmetric (f_type f).

Lemma fresh_index {T} (fs : list (field_of T)) : lenN fs <= max_index ->
  exists i, i <= max_index /\ ~ In i (indices fs).
Proof.
  intros Hl.
  destruct (Forall_Exists_dec (fun i => In i (indices fs))
    (fun i => in_dec N.eq_dec i (indices fs)) (map N.of_nat (seq 0 (S (length fs))))) as [H|H].
  - exfalso.
    assert (length (map N.of_nat (seq 0 (S (length fs)))) <= length (indices fs))%nat as Hc.
    { apply NoDup_incl_length.
      - apply Injective_map_NoDup; [intros x y; lia|apply seq_NoDup].
      - intros x Hx. rewrite Forall_forall in H. now apply H. }
    unfold indices in Hc. rewrite !map_length, seq_length in Hc. lia.
  - apply Exists_exists in H as (i & Hin & Hni). exists i. split; [|exact Hni].
    apply in_map_iff in Hin as (k & <- & Hk). apply in_seq in Hk. unfold lenN in Hl. lia.
Qed.

Section Chain.
  Context (fs : list (field_of ty)) (k : N).
  Context (Hnd : NoDup (indices fs)).
  Context (Hwf : Forall (fun f => f_index f <= max_index /\ ty_wf (f_type f)) fs).
  Context (Hk : k <= max_index) (Hfresh : ~ In k (indices fs)).

  Let add r := fs ++ [unit_field k r].
  Let weak := map asym fs ++ [unit_field k Required].
  Let last := [unit_field k Required].

  Lemma wf_intro gs : NoDup (indices gs) ->
    Forall (fun f => f_index f <= max_index /\ ty_wf (f_type f)) gs ->
    ty_wf (TStruct gs) /\ ty_wf (TChoice gs).
  Proof. intros A B. cbn [ty_wf]. rewrite allP_Forall. auto. Qed.

  Lemma nd_add r : NoDup (indices (add r)).
  Proof.
    unfold add, indices. rewrite map_app. cbn [map unit_field f_index].
    apply (NoDup_Add (a := k) (l := map f_index fs)); [|auto].
    pose proof (Add_app k (map f_index fs) []) as H. rewrite app_nil_r in H. exact H.
  Qed.
  Lemma wf_add r : Forall (fun f => f_index f <= max_index /\ ty_wf (f_type f)) (add r).
  Proof. unfold add. apply Forall_app. split; [exact Hwf|]. repeat constructor. exact Hk. Qed.
  Lemma nd_weak : NoDup (indices weak).
  Proof.
    pose proof (nd_add Required) as H. unfold add, weak, indices in *.
    rewrite map_app in *. rewrite map_map. exact H.
  Qed.
  Lemma wf_weak : Forall (fun f => f_index f <= max_index /\ ty_wf (f_type f)) weak.
  Proof.
    unfold weak. apply Forall_app. split; [|repeat constructor; exact Hk].
    apply Forall_map. exact Hwf.
  Qed.
  Lemma nd_last : NoDup (indices last).
  Proof. repeat constructor. intros []. Qed.
  Lemma wf_last : Forall (fun f => f_index f <= max_index /\ ty_wf (f_type f)) last.
  Proof. repeat constructor. exact Hk. Qed.

  Lemma types_ok gs : Forall (fun f => f_index f <= max_index /\ ty_wf (f_type f)) gs ->
    Forall (fun f => ty_wf (f_type f)) gs.
  Proof. apply Forall_impl. now intros f []. Qed.

  Lemma in_k : In k (map f_index fs) -> False. Proof. exact Hfresh. Qed.

  Lemma step1 : safe (TStruct fs) (TStruct (add Asymmetric)) /\
                safe (TChoice fs) (TChoice (add Asymmetric)).
  Proof.
    apply safe_fields; auto using nd_add, types_ok.
    - intros f g Hf Hg E. apply in_app_or in Hg as [Hg|[<-|[]]].
      + rewrite (nodup_eq fs f g Hnd Hf Hg E). split; [reflexivity|]. now destruct (f_rule g).
      + exfalso. apply Hfresh. cbn in E. rewrite <- E. now apply in_map.
    - intros f Hf Hn. exfalso. apply Hn. unfold add, indices. rewrite map_app.
      apply in_or_app. left. now apply in_map.
    - intros g Hg Hn. apply in_app_or in Hg as [Hg|[<-|[]]]; [|discriminate].
      exfalso. apply Hn. now apply in_map.
  Qed.

  Lemma add_eq r s f g : In f (add r) -> In g (add s) -> f_index f = f_index g ->
    f = g \/ (f = unit_field k r /\ g = unit_field k s).
  Proof.
    intros Hf Hg E. apply in_app_or in Hf as [Hf|[<-|[]]]; apply in_app_or in Hg as [Hg|[<-|[]]].
    - left. now apply (nodup_eq fs).
    - exfalso. apply Hfresh. cbn in E. rewrite <- E. now apply in_map.
    - exfalso. apply Hfresh. cbn in E. rewrite E. now apply in_map.
    - right. auto.
  Qed.
  Lemma add_indices r s : indices (add r) = indices (add s).
  Proof. unfold add, indices. now rewrite !map_app. Qed.

  Lemma step2 : safe (TStruct (add Asymmetric)) (TStruct (add Required)) /\
                safe (TChoice (add Asymmetric)) (TChoice (add Required)).
  Proof.
    apply safe_fields; auto using nd_add, types_ok, wf_add.
    - intros f g Hf Hg E. destruct (add_eq _ _ f g Hf Hg E) as [->|[-> ->]].
      + split; [reflexivity|]. now destruct (f_rule g).
      + auto.
    - intros f Hf Hn. exfalso. apply Hn. rewrite (add_indices _ Asymmetric). now apply in_map.
    - intros f Hf Hn. exfalso. apply Hn. rewrite (add_indices _ Required). now apply in_map.
  Qed.

  Lemma weak_indices : indices weak = indices (add Required).
  Proof. unfold weak, add, indices. rewrite !map_app, map_map. reflexivity. Qed.

  Lemma step3 : safe (TStruct (add Required)) (TStruct weak) /\
                safe (TChoice (add Required)) (TChoice weak).
  Proof.
    apply safe_fields; auto using nd_add, types_ok, wf_add, nd_weak.
    - intros f g Hf Hg E. unfold weak in Hg. apply in_app_or in Hg as [Hg|Hg].
      + apply in_map_iff in Hg as (h & <- & Hh). cbn [asym f_type f_rule f_index] in *.
        assert (In h (add Required)) as Hh' by (apply in_or_app; now left).
        rewrite (nodup_eq _ f h (nd_add Required) Hf Hh' E).
        split; [reflexivity|]. now destruct (f_rule h).
      + assert (In g (add Required)) as Hg' by (apply in_or_app; now right).
        rewrite (nodup_eq _ f g (nd_add Required) Hf Hg' E).
        split; [reflexivity|]. now destruct (f_rule g).
    - intros f Hf Hn. exfalso. apply Hn. rewrite weak_indices. now apply in_map.
    - intros f Hf Hn. exfalso. apply Hn. rewrite <- weak_indices. now apply in_map.
  Qed.

  Lemma step4 : safe (TStruct weak) (TStruct last) /\ safe (TChoice weak) (TChoice last).
  Proof.
    apply safe_fields; auto using nd_weak, types_ok, wf_weak, nd_last.
    - intros f g Hf [<-|[]] E.
      assert (In (unit_field k Required) weak) as Hu by (apply in_or_app; right; now left).
      rewrite (nodup_eq _ f _ nd_weak Hf Hu E). auto.
    - intros f Hf Hn. apply in_app_or in Hf as [Hf|[<-|[]]].
      + apply in_map_iff in Hf as (h & <- & _). discriminate.
      + exfalso. apply Hn. now left.
    - intros g [<-|[]] Hn. exfalso. apply Hn. rewrite weak_indices. unfold add, indices.
      rewrite map_app. apply in_or_app. right. now left.
  Qed.

  (** Messages exist at every stage. *)
  Lemma find_add r : find_field k (fs ++ [unit_field k r]) = Some (unit_field k r).
  Proof. exact (find_field_nodup (add r) (unit_field k r) (nd_add r)
                 ltac:(apply in_or_app; right; now left)). Qed.

  Lemma struct_inh (gs : list (field_of ty)) r :
    (exists v, wt DOut v (TStruct gs)) -> exists v, wt DOut v (TStruct (gs ++ [unit_field k r])).
  Proof.
    intros [v Hv]. destruct v as [| | | | | | | | |ovs|]; try contradiction.
    exists (VStruct (ovs ++ [Some VUnit])). cbn [wt] in *.
    revert ovs Hv. induction gs as [|g gs IH]; intros [|ov ovs] Hv; try contradiction;
      cbn [app all2P]; [auto|]. destruct Hv as [A B]. split; [exact A|]. now apply IH.
  Qed.
End Chain.

(** A struct whose present fields are made asymmetric needs every field: take inhabitants of the
    optional ones too. So the chain for structs first removes the optional fields. *)
Lemma struct_wt_asym fs ovs :
  wt DOut (VStruct ovs) (TStruct fs) ->
  Forall (fun f => f_rule f <> Optional) fs ->
  wt DOut (VStruct ovs) (TStruct (map asym fs)).
Proof.
  cbn [wt]. revert ovs. induction fs as [|f fs IH]; intros [|ov ovs] Hw Hr; try contradiction;
    [exact I|]. cbn [map all2P asym f_type f_rule]. destruct Hw as [H1 H2]. inversion Hr; subst.
  split; [|now apply IH]. destruct ov as [v|]; [exact H1|].
  exfalso. destruct (f_rule f); easy.
Qed.

Definition not_optional (f : field_of ty) : bool :=
  match f_rule f with Optional => false | _ => true end.

Lemma struct_wt_filter fs ovs :
  wt DOut (VStruct ovs) (TStruct fs) ->
  exists ovs', wt DOut (VStruct ovs') (TStruct (filter not_optional fs)).
Proof.
  cbn [wt]. revert ovs. induction fs as [|f fs IH]; intros [|ov ovs] Hw; try contradiction.
  - now exists [].
  - destruct Hw as [H1 H2]. destruct (IH ovs H2) as [ovs' H']. cbn [filter].
    destruct (not_optional f); [|now exists ovs']. exists (ov :: ovs'). now split.
Qed.

Lemma filter_nodup fs : NoDup (indices fs) -> NoDup (indices (filter not_optional fs)).
Proof.
  unfold indices. induction fs as [|f fs IH]; intros H; [constructor|]. inversion H; subst.
  cbn [filter]. destruct (not_optional f); [|now apply IH]. cbn [map]. constructor; [|now apply IH].
  intros Hin. apply H2. apply in_map_iff in Hin as (g & E & Hg). apply filter_In in Hg as [Hg _].
  rewrite <- E. now apply in_map.
Qed.

Lemma drop_optional_safe fs : NoDup (indices fs) -> Forall (fun f => ty_wf (f_type f)) fs ->
  safe (TStruct fs) (TStruct (filter not_optional fs)).
Proof.
  intros Hn Hwf. apply safe_fields; auto using filter_nodup.
  - intros f g Hf Hg E. apply filter_In in Hg as [Hg _].
    rewrite (nodup_eq fs f g Hn Hf Hg E). split; [reflexivity|]. now destruct (f_rule g).
  - intros f Hf Hni Hr. apply Hni. apply in_map. apply filter_In. split; [exact Hf|].
    unfold not_optional. now rewrite Hr.
  - intros g Hg Hni. exfalso. apply Hni. apply filter_In in Hg as [Hg _]. now apply in_map.
Qed.


Lemma to_single_struct fs : usable (TStruct fs) -> lenN fs <= max_index ->
  exists k, k <= max_index /\ migratable (TStruct fs) (TStruct [unit_field k Required]).
Proof.
  intros (_ & [Hn Hwf] & [v Hv]) Hl. destruct v as [| | | | | | | | |ovs|]; try contradiction.
  apply allP_Forall in Hwf.
  assert (Forall (fun f => ty_wf (f_type f)) fs) as Hty by (eapply Forall_impl; [|exact Hwf]; now intros f []).
  set (gs := filter not_optional fs).
  assert (NoDup (indices gs)) as Hng by (now apply filter_nodup).
  assert (Forall (fun f => f_index f <= max_index /\ ty_wf (f_type f)) gs) as Hwg.
  { rewrite Forall_forall in *. intros f Hf. apply Hwf. now apply filter_In in Hf. }
  assert (lenN gs <= max_index) as Hlg.
  { assert (length gs <= length fs)%nat.
    { unfold gs. clear. induction fs as [|f fs IH]; [reflexivity|]. cbn [filter].
      destruct (not_optional f); cbn [length]; lia. }
    unfold lenN in *. lia. }
  destruct (fresh_index gs Hlg) as (k & Hk & Hfr).
  destruct (struct_wt_filter fs ovs Hv) as [ovs' Hv'].
  exists k. split; [exact Hk|].
  assert (forall r, exists v, wt DOut v (TStruct (gs ++ [unit_field k r]))) as Hadd.
  { intros r. apply struct_inh. eexists. exact Hv'. }
  assert (usable (TStruct gs)) as U0.
  { split; [exact I|]. split; [now apply wf_intro|]. eexists. exact Hv'. }
  assert (forall r, usable (TStruct (gs ++ [unit_field k r]))) as U1.
  { intros r. split; [exact I|]. split; [|apply Hadd].
    apply wf_intro; [now apply nd_add|now apply wf_add]. }
  assert (usable (TStruct (map asym gs ++ [unit_field k Required]))) as U2.
  { split; [exact I|]. split; [apply wf_intro; [now apply nd_weak|now apply wf_weak]|].
    apply struct_inh. exists (VStruct ovs'). apply struct_wt_asym; [exact Hv'|].
    apply Forall_forall. intros f Hf. apply filter_In in Hf as [_ Hf].
    unfold not_optional in Hf. now destruct (f_rule f). }
  assert (usable (TStruct [unit_field k Required])) as U3.
  { split; [exact I|]. split; [apply wf_intro; [apply nd_last|now apply wf_last]|].
    exists (VStruct [Some VUnit]). cbn. auto. }
  assert (usable (TStruct fs)) as U.
  { split; [exact I|]. split; [now apply wf_intro|]. eexists. exact Hv. }
  eapply rt_trans; [apply rt_step; split; [exact U|split; [exact U0|now apply drop_optional_safe]]|].
  eapply rt_trans; [apply rt_step; split; [exact U0|split; [exact (U1 Asymmetric)|now apply step1]]|].
  eapply rt_trans; [apply rt_step; split; [apply U1|split; [exact (U1 Required)|now apply step2]]|].
  eapply rt_trans; [apply rt_step; split; [apply U1|split; [exact U2|now apply step3]]|].
  apply rt_step; split; [exact U2|split; [exact U3|now apply step4]].
Qed.

Lemma choice_wt_ext fs gs : (forall i f, find_field i fs = Some f -> find_field i gs = Some f) ->
  forall v, wt DOut v (TChoice fs) -> wt DOut v (TChoice gs).
Proof.
  intros H. induction v as [|x|n|z|x|bs|s|n|vs IH|ovs IH|i p fb IHp IHfb] using val_ind';
    intros Hw; try contradiction. cbn [wt] in *.
  destruct (find_field i fs) as [f|] eqn:E; [|contradiction]. rewrite (H i f E).
  destruct Hw as [Hw Hfb]. split; [exact Hw|]. destruct fb as [v'|]; [|exact Hfb].
  split; [apply Hfb|]. apply IHfb, Hfb.
Qed.

Lemma to_single_choice fs : usable (TChoice fs) -> lenN fs <= max_index ->
  exists k, k <= max_index /\ migratable (TChoice fs) (TStruct [unit_field k Required]).
Proof.
  intros (_ & [Hn Hwf] & [v Hv]) Hl. apply allP_Forall in Hwf.
  destruct (fresh_index fs Hl) as (k & Hk & Hfr).
  exists k. split; [exact Hk|].
  assert (usable (TChoice fs)) as U.
  { split; [exact I|]. split; [now apply wf_intro|]. eexists. exact Hv. }
  assert (forall r, usable (TChoice (fs ++ [unit_field k r]))) as U1.
  { intros r. split; [exact I|]. split; [apply wf_intro; [now apply nd_add|now apply wf_add]|].
    exists v. apply (choice_wt_ext fs); [|exact Hv]. intros i f E.
    apply find_field_in in E as [Hf <-]. apply find_field_nodup; [now apply nd_add|].
    apply in_or_app. now left. }
  assert (usable (TChoice (map asym fs ++ [unit_field k Required]))) as U2.
  { split; [exact I|]. split; [apply wf_intro; [now apply nd_weak|now apply wf_weak]|].
    exists (VChoice k VUnit None). cbn [wt].
    replace (find_field k (map asym fs ++ [unit_field k Required]))
      with (Some (unit_field k Required)); [now split|].
    symmetry. apply (find_field_nodup _ (unit_field k Required)); [now apply nd_weak|].
    apply in_or_app. right. now left. }
  assert (ty_wf (TStruct [unit_field k Required]) /\ ty_wf (TChoice [unit_field k Required])) as [W3 W4]
    by (apply wf_intro; [apply nd_last|now apply wf_last]).
  assert (usable (TChoice [unit_field k Required])) as U3.
  { split; [exact I|]. split; [exact W4|]. exists (VChoice k VUnit None). cbn.
    rewrite N.eqb_refl. now split. }
  assert (usable (TStruct [unit_field k Required])) as U4.
  { split; [exact I|]. split; [exact W3|]. exists (VStruct [Some VUnit]). cbn. auto. }
  eapply rt_trans; [apply rt_step; split; [exact U|split; [exact (U1 Asymmetric)|now apply step1]]|].
  eapply rt_trans; [apply rt_step; split; [apply U1|split; [exact (U1 Required)|now apply step2]]|].
  eapply rt_trans; [apply rt_step; split; [apply U1|split; [exact U2|now apply step3]]|].
  eapply rt_trans; [apply rt_step; split; [exact U2|split; [exact U3|now apply step4]]|].
  apply rt_step; split; [exact U3|split; [exact U4|]]. cbn. auto.
Qed.

Lemma single_to_single k k' : k <= max_index -> k' <= max_index ->
  migratable (TStruct [unit_field k Required]) (TStruct [unit_field k' Required]).
Proof.
  intros Hk Hk'. destruct (N.eq_dec k k') as [->|Hne]; [apply rt_refl|].
  assert (NoDup (indices [unit_field k Required])) as Hn by apply nd_last.
  assert (Forall (fun f => f_index f <= max_index /\ ty_wf (f_type f)) [unit_field k Required]) as Hwf
    by (now apply wf_last).
  assert (~ In k' (indices [unit_field k Required])) as Hfr by (cbn; intuition).
  assert (exists v, wt DOut v (TStruct [unit_field k Required])) as I0
    by (exists (VStruct [Some VUnit]); cbn; auto).
  assert (usable (TStruct [unit_field k Required])) as U
    by (split; [exact I|]; split; [now apply wf_intro|exact I0]).
  assert (forall r, usable (TStruct ([unit_field k Required] ++ [unit_field k' r]))) as U1.
  { intros r. split; [exact I|]. split; [apply wf_intro; [now apply nd_add|now apply wf_add]|].
    now apply struct_inh. }
  assert (usable (TStruct (map asym [unit_field k Required] ++ [unit_field k' Required]))) as U2.
  { split; [exact I|]. split; [apply wf_intro; [now apply nd_weak|now apply wf_weak]|].
    apply struct_inh. exists (VStruct [Some VUnit]); cbn; auto. }
  assert (usable (TStruct [unit_field k' Required])) as U3.
  { split; [exact I|]. split; [apply wf_intro; [apply nd_last|now apply wf_last]|].
    exists (VStruct [Some VUnit]); cbn; auto. }
  eapply rt_trans; [apply rt_step; split; [exact U|split; [exact (U1 Asymmetric)|now apply step1]]|].
  eapply rt_trans; [apply rt_step; split; [apply U1|split; [exact (U1 Required)|now apply step2]]|].
  eapply rt_trans; [apply rt_step; split; [apply U1|split; [exact U2|now apply step3]]|].
  apply rt_step; split; [exact U2|split; [exact U3|now apply step4]].
Qed.

Lemma migratable_all a b : usable a -> usable b ->
  lenN (fields_of a) <= max_index -> lenN (fields_of b) <= max_index -> migratable a b.
Proof.
  intros Ua Ub La Lb.
  assert (forall t, usable t -> lenN (fields_of t) <= max_index ->
    exists k, k <= max_index /\ migratable t (TStruct [unit_field k Required])) as H.
  { intros t Ut Lt. destruct t; try (now destruct Ut).
    - now apply to_single_struct.
    - now apply to_single_choice. }
  destruct (H a Ua La) as (k & Hk & Ma), (H b Ub Lb) as (k' & Hk' & Mb).
  eapply rt_trans; [exact Ma|]. eapply rt_trans; [now apply (single_to_single k k')|].
  now apply migratable_sym.
Qed.
