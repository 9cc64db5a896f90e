(** The type trees of validated declarations. *)
From Coq Require Import Relations.Operators_Properties.
From Verif Require Import IdentFacts TypesFacts.
From Verif Require Export CycleFacts.

Scheme denotes_mut := Induction for denotes Sort Prop
with denotes_fields_mut := Induction for denotes_fields Sort Prop.
Combined Scheme denotes_both from denotes_mut, denotes_fields_mut.

Section Trees.
Context (schemas : list (namespace * sschema)) (HL : loaded schemas) (HV : valid schemas).
Notation declared := (declared schemas).
Notation denotes := (denotes schemas).
Notation denotes_fields := (denotes_fields schemas).

Lemma denotes_unique :
  (forall ns s t T, denotes ns s t T -> imports_ok s -> forall T', denotes ns s t T' -> T' = T) /\
  (forall ns s fs Ts, denotes_fields ns s fs Ts -> imports_ok s -> forall Ts', denotes_fields ns s fs Ts' -> Ts' = Ts).
Proof.
  apply (denotes_both schemas
    (fun ns s t T _ => imports_ok s -> forall T', denotes ns s t T' -> T' = T)
    (fun ns s fs Ts _ => imports_ok s -> forall Ts', denotes_fields ns s fs Ts' -> Ts' = Ts)).
  1: { intros ns s t T H IH Hs T' H'. inversion H'; subst. f_equal. now apply IH. }
  1-7: intros ns s Hs T' H'; now inversion H'.
  - intros ns s i n ns' ns2 s2 d2 fs Hl Hd Hq Hf IH Hs T' H'. inversion H' as [| | | | | | | |? ? ? ? ns'' ns3 s3 d3 fs' Hl' Hd' Hq' Hf' ]; subst.
    apply (type_namespace_iff ns s i ns' Hs) in Hl. apply (type_namespace_iff ns s i ns'' Hs) in Hl'.
    assert (ns'' = ns') as -> by congruence.
    destruct (declared_unique schemas HL HV ns2 s2 d2 ns3 s3 d3 Hd Hd') as (<- & <- & <-).
    { apply (same_q_trans _ (ns', n)); [exact Hq|now apply same_q_sym]. }
    f_equal. apply IH; [|exact Hf']. destruct HL as (_ & L2 & _). apply (L2 ns2 s2). apply Hd.
  - intros ns s Hs Ts' H'. now inversion H'.
  - intros ns s f fs T Ts H1 IH1 H2 IH2 Hs Ts' H'. inversion H'; subst. f_equal; [|now apply IH2]. f_equal. now apply IH1.
Qed.

Lemma fields_wf ns s fs Ts : denotes_fields ns s fs Ts -> indices Ts = map sf_index fs.
Proof. induction 1 as [|ns s f fs T Ts H1 H2 IH]; [reflexivity|]. unfold indices in *. cbn [map f_index]. now f_equal. Qed.
Lemma denotes_wf :
  (forall ns s t T, denotes ns s t T -> ty_wf T) /\
  (forall ns s fs Ts, denotes_fields ns s fs Ts -> Forall (fun f => sf_index f <= 2 ^ 62 - 1) fs ->
     allP (fun f => f_index f <= max_index /\ ty_wf (f_type f)) Ts).
Proof.
  apply (denotes_both schemas
    (fun ns s t T _ => ty_wf T)
    (fun ns s fs Ts _ => Forall (fun f => sf_index f <= 2 ^ 62 - 1) fs -> allP (fun f => f_index f <= max_index /\ ty_wf (f_type f)) Ts));
    try (intros; exact I).
  - auto.
  - intros ns s i n ns' ns2 s2 d2 fs Hl Hd Hq Hf IH. destruct HV as [_ V]. destruct (V ns2 s2 d2 Hd) as [V1 V2 V3 V4 V5 V6].
    assert (NoDup (indices fs) /\ allP (fun f => f_index f <= max_index /\ ty_wf (f_type f)) fs) as K.
    { split; [rewrite (fields_wf _ _ _ _ Hf); exact V2|]. apply IH. apply Forall_forall. intros f Hin. apply V4. now apply in_map. }
    now destruct (sd_kind d2).
  - intros ns s f fs T Ts H1 IH1 H2 IH2 Hm. inversion Hm; subst. cbn [allP f_index f_type]. split; [|now apply IH2]. split; [|exact IH1].
    unfold max_index. assumption.
Qed.
Lemma decl_denotes_wf ns s d T : declared ns s d -> decl_denotes schemas ns s d T -> ty_wf T.
Proof.
  intros Hd (fs & Hf & ->). destruct HV as [_ V]. destruct (V ns s d Hd) as [V1 V2 V3 V4 V5 V6].
  assert (NoDup (indices fs) /\ allP (fun f => f_index f <= max_index /\ ty_wf (f_type f)) fs) as K.
  { split; [rewrite (fields_wf _ _ _ _ Hf); exact V2|]. apply (proj2 denotes_wf _ _ _ _ Hf). apply Forall_forall. intros f Hin.
    apply V4. now apply in_map. }
  now destruct (sd_kind d).
Qed.

Lemma type_denotes ns s t : type_resolves schemas ns s t ->
  (forall i n ns' ns2 s2 d2, mentions t i n -> leads_to ns s i ns' -> declared ns2 s2 d2 -> same_q (ns2, sd_name d2) (ns', n) ->
     exists Ts, denotes_fields ns2 s2 (sd_fields d2) Ts) ->
  exists T, denotes ns s t T.
Proof.
  induction t as [t IH| | |i n| | | | |]; intros Hr Hx; try (solve [eexists; constructor]).
  - destruct IH as (T & H).
    + intros i n Hm. apply Hr. now constructor.
    + intros i n ns' ns2 s2 d2 Hm. apply Hx. now constructor.
    + exists (TArray T). now constructor.
  - destruct (Hr i n (mentions_custom i n)) as (ns' & ns2 & s2 & d2 & A & B & D).
    destruct (Hx i n ns' ns2 s2 d2 (mentions_custom i n) A B D) as (Ts & H). exists (declaration_type (sd_kind d2) Ts).
    now apply (dn_custom _ ns s i n ns' ns2 s2 d2 Ts).
Qed.
Lemma acc_denotes q : Acc (back schemas) q -> forall ns s d, declared ns s d -> same_q (ns, sd_name d) q ->
  exists Ts, denotes_fields ns s (sd_fields d) Ts.
Proof.
  induction 1 as [q _ IH]. intros ns s d Hd Hq. destruct HV as [_ V]. pose proof (V ns s d Hd) as Hvd.
  assert (forall f, In f (sd_fields d) -> exists T, denotes ns s (sf_type f) T) as Ht.
  { intros f Hf. apply type_denotes.
    - intros i n Hm. now apply (vd_resolves _ _ _ _ Hvd f).
    - intros i n ns' ns2 s2 d2 Hm Hl Hd2 Hq2. apply (IH (ns', n)); [|exact Hd2|exact Hq2].
      exists ns, s, d. split; [exact Hd|]. split; [exact Hq|]. exists f, i, n, ns'. repeat split; auto; apply same_q_refl. }
  clear - Ht. induction (sd_fields d) as [|f fs IH]; [exists []; constructor|].
  destruct IH as (Ts & H); [intros g Hg; apply Ht; now right|]. destruct (Ht f (or_introl eq_refl)) as (T & HT).
  eexists. constructor; eassumption.
Qed.
End Trees.
