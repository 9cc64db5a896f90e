(** Consequences of [reads_all]: round trip, injectivity, unsafe changes, connectivity. *)
From Verif Require Export EvolutionFacts.
From Coq Require Import Relations.

(** ** Round trip *)
Lemma migrate_self : forall v t, wt DOut v t -> ty_wf t -> migrate v t t = to_in v t.
Proof.
  induction v as [|x|n|z|x|bs|s|n|vs IH|ovs IH|i p fb IHp IHfb] using val_ind';
    intros t Hw Ht; try (destruct t; easy).
  - destruct t; try contradiction. cbn [wt ty_wf migrate to_in] in *. destruct Hw as [_ Hw].
    apply allP_Forall in Hw. f_equal. apply map_ext_in. intros v Hv.
    rewrite Forall_forall in *. auto.
  - destruct t as [| | | | | | | |fs|]; try contradiction.
    cbn [wt ty_wf migrate to_in] in *. destruct Ht as [Hn Hwf]. apply allP_Forall in Hwf.
    f_equal.
    transitivity (map (fun g => slot_of (f_index g)
      (map2 (fun ov f => (f_index f, match ov with
                                     | Some v => Some (to_in v (f_type f)) | None => None end))
         ovs fs)) fs).
    + apply map_ext. intros g. f_equal.
      assert (forall gs, incl gs fs -> forall ovs', incl ovs' ovs ->
        all2P (fun ov f => match ov with Some v => wt DOut v (f_type f)
                                 | None => always_present DOut (f_rule f) = false end) ovs' gs ->
        map2 (fun ov f => (f_index f, match ov, find_field (f_index f) fs with
                    | Some v, Some g => Some (migrate v (f_type f) (f_type g))
                    | _, _ => None end)) ovs' gs =
        map2 (fun ov f => (f_index f, match ov with
                 | Some v => Some (to_in v (f_type f)) | None => None end)) ovs' gs) as H.
      { induction gs as [|h gs IHg]; intros Hi ovs' Ho Hw'; destruct ovs' as [|ov ovs'];
          try contradiction; [reflexivity|].
        cbn [map2]. destruct Hw' as [Hw1 Hw2]. f_equal.
        - f_equal. destruct ov as [v|]; [|reflexivity].
          assert (In h fs) as Hh by (apply Hi; now left).
          rewrite find_field_nodup by auto. f_equal.
          rewrite Forall_forall in IH, Hwf.
          apply (IH (Some v)); [apply Ho; now left|exact Hw1|now apply Hwf].
        - apply IHg; [intros y Hy; apply Hi; now right|intros y Hy; apply Ho; now right|exact Hw2]. }
      apply H; auto using incl_refl.
    + clear IH Hwf. revert ovs Hw Hn. induction fs as [|f fs IH]; intros [|ov ovs] Hw Hn;
        try contradiction; [reflexivity|].
      destruct Hw as [_ Hw]. inversion Hn as [|? ? Hni Hnd]; subst.
      cbn [map map2 slot_of]. rewrite N.eqb_refl. f_equal.
      rewrite <- (IH ovs Hw Hnd). apply map_ext_in. intros g Hg.
      destruct (f_index f =? f_index g) eqn:E; [|reflexivity].
      exfalso. apply Hni. replace (f_index f) with (f_index g) by lia. now apply in_map.
  - destruct t as [| | | | | | | | |fs]; try contradiction.
    pose proof Ht as Ht0. cbn [wt ty_wf migrate to_in] in *. destruct Ht as [Hn Hwf].
    apply allP_Forall in Hwf. rewrite Forall_forall in Hwf.
    destruct (find_field i fs) as [f|] eqn:Ef; [|contradiction].
    apply find_field_in in Ef as [Hf Ei]. destruct Hw as [Hw Hfb].
    rewrite IHp by (auto; now apply Hwf). f_equal.
    destruct fb as [v'|]; [|reflexivity]. destruct (f_rule f); try reflexivity.
    f_equal. apply IHfb; [apply Hfb|exact Ht0].
Qed.

Lemma serialize_spec v t : wt DOut v t -> ty_wf t -> size v t < two64 ->
  serialize v t = Some (spec_encode true v t).
Proof.
  intros Hw Ht Hl. rewrite size_exact in Hl by assumption.
  now destruct (ser_spec v t true Hw Ht Hl) as (A & B & _).
Qed.

Lemma evolution_reads lim v a b bs :
  wt DOut v a -> ty_wf a -> ty_wf b -> compat a b ->
  size v a < two64 -> 8 * size v a <= lim ->
  serialize v a = Some bs ->
  deserialize lim b bs = Ok (migrate v a b) [].
Proof.
  intros Hw Ha Hb Hc Hl Hlim Hs. rewrite (serialize_spec v a Hw Ha Hl) in Hs.
  injection Hs as <-. rewrite size_exact in * by assumption. now apply reads_all.
Qed.

Lemma roundtrip lim v t bs : wt DOut v t -> ty_wf t -> size v t < two64 ->
  8 * size v t <= lim -> serialize v t = Some bs ->
  deserialize lim t bs = Ok (to_in v t) [].
Proof.
  intros Hw Ht Hl Hlim Hs. rewrite <- migrate_self by assumption.
  apply evolution_reads; auto. apply safe_compat; auto. now apply safe_refl.
Qed.

(** ** Injectivity: read with the type whose asymmetric choice cases are made optional. *)
Fixpoint opt_ty (t : ty) : ty :=
  match t with
  | TArray e => TArray (opt_ty e)
  | TStruct fs => TStruct (map (fun f => mkF (f_index f) (f_rule f) (opt_ty (f_type f))) fs)
  | TChoice fs => TChoice (map (fun f =>
      mkF (f_index f) (match f_rule f with Required => Required | _ => Optional end)
          (opt_ty (f_type f))) fs)
  | _ => t
  end.

Lemma find_field_map {T U} (h : field_of T -> field_of U) i fs :
  (forall f, f_index (h f) = f_index f) ->
  find_field i (map h fs) = omap h (find_field i fs).
Proof.
  intros H. induction fs as [|f fs IH]; [reflexivity|]. cbn [map find_field].
  rewrite H. destruct (f_index f =? i); auto.
Qed.
Lemma indices_map {T U} (h : field_of T -> field_of U) fs :
  (forall f, f_index (h f) = f_index f) -> indices (map h fs) = indices fs.
Proof. intros H. unfold indices. rewrite map_map. apply map_ext. exact H. Qed.

Lemma opt_ty_wf : forall t, ty_wf t -> ty_wf (opt_ty t).
Proof.
  induction t as [| | | | | | |t IH|fs IH|fs IH] using ty_ind'; intros H; cbn [opt_ty ty_wf] in *;
    auto; destruct H as [Hn Hwf]; rewrite allP_Forall in *; rewrite indices_map by reflexivity;
    (split; [exact Hn|]); apply Forall_map; rewrite Forall_forall in *; intros f Hf;
    cbn [f_index f_type]; (split; [now apply Hwf|]); apply IH; auto; now apply Hwf.
Qed.

Lemma opt_ty_compat : forall t, ty_wf t -> compat t (opt_ty t).
Proof.
  induction t as [| | | | | | |t IH|fs IH|fs IH] using ty_ind'; intros H;
    cbn [opt_ty ty_wf compat] in *; auto; destruct H as [Hn Hwf]; rewrite !allP_Forall in *;
    rewrite !Forall_forall in *.
  - split.
    + intros f Hf. rewrite find_field_map by reflexivity. rewrite find_field_nodup by auto.
      cbn [omap f_type]. apply IH; auto. now apply Hwf.
    + intros g Hg. apply in_map_iff in Hg as (f & <- & Hf). cbn [f_rule f_index]. intros Hr.
      rewrite find_field_nodup by auto. now rewrite Hr.
  - intros f Hf. rewrite find_field_map by reflexivity. rewrite find_field_nodup by auto.
    cbn [omap f_type f_rule]. split; [apply IH; auto; now apply Hwf|].
    destruct (f_rule f); easy.
Qed.

Lemma migrate_opt : forall v t, wt DOut v t -> ty_wf t -> migrate v t (opt_ty t) = v.
Proof.
  induction v as [|x|n|z|x|bs|s|n|vs IH|ovs IH|i p fb IHp IHfb] using val_ind';
    intros t Hw Ht; try (destruct t; easy).
  - destruct t; try contradiction. cbn [wt ty_wf migrate opt_ty] in *. destruct Hw as [_ Hw].
    apply allP_Forall in Hw. f_equal. rewrite <- (map_id vs) at 2. apply map_ext_in. intros v Hv.
    rewrite Forall_forall in *. auto.
  - destruct t as [| | | | | | | |fs|]; try contradiction.
    cbn [wt ty_wf migrate opt_ty] in *. destruct Ht as [Hn Hwf]. apply allP_Forall in Hwf.
    f_equal. rewrite map_map. cbn [f_index].
    transitivity (map (fun g => slot_of (f_index g)
      (map2 (fun ov f => (f_index (T := ty) f, ov)) ovs fs)) fs).
    + apply map_ext. intros g. f_equal.
      assert (forall gs, incl gs fs -> forall ovs', incl ovs' ovs ->
        all2P (fun ov f => match ov with Some v => wt DOut v (f_type f)
                                 | None => always_present DOut (f_rule f) = false end) ovs' gs ->
        map2 (fun ov f => (f_index f, match ov, find_field (f_index f)
                   (map (fun f => mkF (f_index f) (f_rule f) (opt_ty (f_type f))) fs) with
                    | Some v, Some g => Some (migrate v (f_type f) (f_type g))
                    | _, _ => None end)) ovs' gs =
        map2 (fun ov f => (f_index f, ov)) ovs' gs) as H.
      { induction gs as [|h gs IHg]; intros Hi ovs' Ho Hw'; destruct ovs' as [|ov ovs'];
          try contradiction; [reflexivity|].
        cbn [map2]. destruct Hw' as [Hw1 Hw2]. f_equal.
        - f_equal. destruct ov as [v|]; [|reflexivity].
          assert (In h fs) as Hh by (apply Hi; now left).
          rewrite find_field_map by reflexivity.
          rewrite find_field_nodup by auto. cbn [omap f_type]. f_equal.
          rewrite Forall_forall in IH, Hwf.
          apply (IH (Some v)); [apply Ho; now left|exact Hw1|now apply Hwf].
        - apply IHg; [intros y Hy; apply Hi; now right|intros y Hy; apply Ho; now right|exact Hw2]. }
      apply H; auto using incl_refl.
    + clear IH Hwf. revert ovs Hw Hn. induction fs as [|f fs IH]; intros [|ov ovs] Hw Hn;
        try contradiction; [reflexivity|].
      destruct Hw as [_ Hw]. inversion Hn as [|? ? Hni Hnd]; subst.
      cbn [map map2 slot_of]. rewrite N.eqb_refl. f_equal.
      transitivity (map (fun g => slot_of (f_index g)
        (map2 (fun ov f => (f_index (T := ty) f, ov)) ovs fs)) fs); [|apply (IH ovs Hw Hnd)].
      apply map_ext_in. intros g Hg.
      destruct (f_index f =? f_index g) eqn:E; [|reflexivity].
      exfalso. apply Hni. replace (f_index f) with (f_index g) by lia. now apply in_map.
  - destruct t as [| | | | | | | | |fs]; try contradiction.
    pose proof Ht as Ht0. cbn [opt_ty] in *. cbn [wt ty_wf migrate] in *. destruct Ht as [Hn Hwf].
    apply allP_Forall in Hwf. rewrite Forall_forall in Hwf.
    rewrite find_field_map by reflexivity.
    destruct (find_field i fs) as [f|] eqn:Ef; [|contradiction].
    apply find_field_in in Ef as [Hf Ei]. destruct Hw as [Hw Hfb]. cbn [omap f_type f_rule].
    rewrite IHp by (auto; now apply Hwf). f_equal.
    destruct fb as [v'|]; destruct (f_rule f); try reflexivity; try (now destruct Hfb);
      exact (f_equal Some (IHfb (TChoice fs) (proj2 Hfb) Ht0)).
Qed.

Lemma spec_encode_inj isf v1 v2 t : wt DOut v1 t -> wt DOut v2 t -> ty_wf t ->
  lenN (spec_encode isf v1 t) < two64 -> spec_encode isf v1 t = spec_encode isf v2 t -> v1 = v2.
Proof.
  intros H1 H2 Ht Hl E.
  pose proof (reads_all (8 * lenN (spec_encode isf v1 t)) v1 t (opt_ty t) isf H1 Ht
                (opt_ty_wf t Ht) (opt_ty_compat t Ht) Hl ltac:(lia)) as R1.
  pose proof (reads_all (8 * lenN (spec_encode isf v1 t)) v2 t (opt_ty t) isf H2 Ht
                (opt_ty_wf t Ht) (opt_ty_compat t Ht) ltac:(rewrite <- E; exact Hl)
                ltac:(rewrite <- E; lia)) as R2.
  rewrite <- E in R2. rewrite R1 in R2.
  rewrite !migrate_opt in R2 by assumption. congruence.
Qed.

Lemma serialize_inj v1 v2 t bs : wt DOut v1 t -> wt DOut v2 t -> ty_wf t ->
  size v1 t < two64 -> size v2 t < two64 ->
  serialize v1 t = Some bs -> serialize v2 t = Some bs -> v1 = v2.
Proof.
  intros H1 H2 Ht L1 L2 S1 S2.
  rewrite (serialize_spec v1 t) in S1 by assumption. rewrite (serialize_spec v2 t) in S2 by assumption.
  rewrite size_exact in L1 by assumption.
  apply (spec_encode_inj true v1 v2 t); congruence.
Qed.
