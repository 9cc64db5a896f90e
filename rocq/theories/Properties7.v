(** Property theorems about validation: C30 to C33 and C56. See MANIFEST.json. *)
From Verif Require Import TokenSpec IdentFacts Spec RustCodec DecodeFacts SerializeFacts EvolutionFacts3 PrimExtra TreeFacts DefectFacts.

(** C30 *)
Theorem validation_is_sound : forall schemas, loaded schemas -> validate schemas = VOk ->
  valid schemas /\ forall q, ~ cyclic schemas q.
Proof.
  intros schemas HL E. pose proof (validate_spec schemas HL) as H. rewrite E in H. destruct H as [HV Ha].
  split; [exact HV|]. intros q. apply acc_not_cyclic, Ha.
Qed.
Print Assumptions validation_is_sound.

(** C31 *)
Theorem validation_is_complete : forall schemas, loaded schemas -> valid schemas -> (forall q, ~ cyclic schemas q) ->
  validate schemas = VOk.
Proof.
  intros schemas HL HV Hc. pose proof (validate_spec schemas HL) as H. destruct (validate schemas) as [|es| |]; [reflexivity| |destruct H|destruct H].
  exfalso. destruct H as [[H _]|(_ & H1 & H2)]; [now apply H|]. destruct es as [|e es]; [now apply H1|].
  inversion H2 as [|? ? H3 _]; subst. destruct e; try contradiction. destruct (shown_cycle schemas path) as (q & _ & Hq); [assumption|].
  now apply (Hc q).
Qed.
Print Assumptions validation_is_complete.
(** The README says that indices need not be consecutive; a gap is an error unless its indices are marked as deleted. *)
Theorem indices_need_not_be_consecutive_refuted : exists ns s d, let schemas := [(ns, s)] in
  loaded schemas /\ declared schemas ns s d /\
  all_distinct (map sd_name (ss_decls s)) /\ all_distinct (map sf_name (sd_fields d)) /\
  (forall i, In i (field_indices d) -> i <= 2 ^ 62 - 1) /\ NoDup (field_indices d) /\ (forall q, ~ cyclic schemas q) /\
  validate schemas = VErr [VGap 0].
Proof.
  set (d := mkSDecl [] SkStruct (ident_from ascii_unicode (txt "Foo")) [mkSField [] Required (ident_from ascii_unicode (txt "x")) SyUnit 1] []).
  set (s := mkSSchema [] [] [d]). set (ns := [ident_from ascii_unicode (txt "main")]). exists ns, s, d. cbv zeta.
  assert (forall ns' s', In (ns', s') [(ns, s)] -> ns' = ns /\ s' = s) as H1.
  { intros ns' s' [[= <- <-]|[]]. auto. }
  split; [|split; [|split; [|split; [|split; [|split; [|split]]]]]].
  - split; [repeat constructor|]. split.
    + intros ns' s' H. apply H1 in H as [-> ->]. split; constructor.
    + intros ns' s' d' [H Hd]. apply H1 in H as [-> ->]. destruct Hd as [<-|[]]. constructor.
  - split; now left.
  - repeat constructor.
  - repeat constructor.
  - intros i [<-|[]]. vm_compute. discriminate.
  - repeat constructor. intros [].
  - intros q H. unfold cyclic in H. apply Operators_Properties.clos_trans_t1n_iff in H.
    assert (exists q', refers [(ns, s)] q q') as (q' & ns' & s' & d' & [Hin Hd] & _ & f & i & n & ns2 & Hf & Hm & _)
      by (inversion H; subst; eauto).
    apply H1 in Hin as [-> ->]. destruct Hd as [<-|[]]. destruct Hf as [<-|[]]. inversion Hm.
  - vm_compute. reflexivity.
Qed.
Print Assumptions indices_need_not_be_consecutive_refuted.

(** C32 *)
Theorem validation_always_returns : forall schemas, loaded schemas ->
  validate schemas = VOk \/ exists es, validate schemas = VErr es /\ es <> [].
Proof.
  intros schemas HL. pose proof (validate_spec schemas HL) as H. destruct (validate schemas) as [|es| |]; [now left| |destruct H|destruct H].
  right. exists es. split; [reflexivity|]. destruct H as [[H E]|(_ & H & _)]; [|exact H]. intros ->. apply H.
  destruct (validate_files_iff schemas HL) as (es' & E' & Hv). rewrite E in E'. injection E' as <-. now apply Hv.
Qed.
Print Assumptions validation_always_returns.
Theorem cycles_are_detected_exactly : forall schemas, loaded schemas -> valid schemas ->
  ((exists es, validate schemas = VErr es) <-> exists q, cyclic schemas q).
Proof.
  intros schemas HL HV. pose proof (validate_spec schemas HL) as H. split.
  - intros (es & E). rewrite E in H. destruct H as [[H _]|(_ & H1 & H2)]; [now apply H in HV|]. destruct es as [|e es]; [now destruct H1|].
    inversion H2 as [|? ? H3 _]; subst. destruct e; try contradiction. destruct (shown_cycle schemas path) as (q & _ & Hq); [assumption|].
    now exists q.
  - intros (q & Hq). destruct (validate schemas) as [|es| |]; [|eauto|destruct H|destruct H]. exfalso. destruct H as [_ H].
    now apply (acc_not_cyclic schemas q (H q)).
Qed.
Print Assumptions cycles_are_detected_exactly.
(** What is reported is a chain of references that comes back to one of its types. *)
Theorem reported_cycles_are_cycles : forall schemas es e, loaded schemas -> valid schemas -> validate schemas = VErr es -> In e es ->
  exists path, e = VCycle path /\ shows_cycle schemas path /\ exists q, In q path /\ cyclic schemas q.
Proof.
  intros schemas es e HL HV E He. pose proof (validate_spec schemas HL) as H. rewrite E in H. destruct H as [[H _]|(_ & _ & H)]; [now apply H in HV|].
  rewrite Forall_forall in H. specialize (H e He). destruct e; try contradiction. exists path.
  assert (shows_cycle schemas path) as Hs by assumption. split; [reflexivity|]. split; [exact Hs|]. now apply shown_cycle.
Qed.
Print Assumptions reported_cycles_are_cycles.

(** C33 *)
Theorem validated_types_are_finite_trees : forall schemas ns s d, loaded schemas -> validate schemas = VOk -> declared schemas ns s d ->
  exists T, decl_denotes schemas ns s d T /\ ty_wf T /\ forall T', decl_denotes schemas ns s d T' -> T' = T.
Proof.
  intros schemas ns s d HL E Hd. pose proof (validate_spec schemas HL) as H. rewrite E in H. destruct H as [HV Ha].
  destruct (acc_denotes schemas HV (ns, sd_name d) (Ha _) ns s d Hd (same_q_refl _)) as (Ts & Hf).
  exists (declaration_type (sd_kind d) Ts). assert (decl_denotes schemas ns s d (declaration_type (sd_kind d) Ts)) as Hdn by (exists Ts; auto).
  split; [exact Hdn|]. split; [now apply (decl_denotes_wf schemas HV ns s d)|].
  intros T' (Ts' & Hf' & ->). f_equal. destruct HL as (L1 & L2 & L3).
  apply (proj2 (denotes_unique schemas (conj L1 (conj L2 L3)) HV) ns s _ Ts Hf); [apply (L2 ns s); apply Hd|exact Hf'].
Qed.
Print Assumptions validated_types_are_finite_trees.
(** So what is proved of well-formed types holds of declared types, for instance the round trip. *)
Theorem validated_types_round_trip : forall schemas ns s d T v bs, loaded schemas -> validate schemas = VOk -> declared schemas ns s d ->
  decl_denotes schemas ns s d T -> wt DOut v T -> size v T < 2 ^ 60 -> serialize v T = Some bs ->
  deserialize isize_max T bs = Ok (to_in v T) [].
Proof.
  intros schemas ns s d T v bs HL E Hd HT Hw Hsz Hs. pose proof (validate_spec schemas HL) as H. rewrite E in H. destruct H as [HV _].
  apply roundtrip60; auto. now apply (decl_denotes_wf schemas HV ns s d).
Qed.
Print Assumptions validated_types_round_trip.

(** C56 *)
Theorem reported_errors_are_the_defects : forall schemas es, loaded schemas -> ~ valid schemas -> validate schemas = VErr es ->
  forall e, In e es <-> defect schemas e.
Proof.
  intros schemas es HL HV E. pose proof (validate_spec schemas HL) as H. rewrite E in H.
  destruct H as [[_ H]|[H _]]; [|now apply HV in H]. now apply validate_files_defects.
Qed.
Print Assumptions reported_errors_are_the_defects.
Theorem invalid_schemas_have_defects : forall schemas, loaded schemas -> (valid schemas <-> forall e, ~ defect schemas e).
Proof.
  intros schemas HL. destruct (validate_files_iff schemas HL) as (es & E & Hv). rewrite <- Hv.
  pose proof (validate_files_defects schemas HL es E) as Hd. split.
  - intros -> e H. now apply Hd in H.
  - intros H. destruct es as [|e es]; [reflexivity|]. exfalso. apply (H e). apply Hd. now left.
Qed.
Print Assumptions invalid_schemas_have_defects.
