(** Facts about the values of the generated TypeScript types, and about heaps that grow. *)
From Verif Require Import TypesFacts IdentFacts BaseFacts TsPrimFacts RustAtlasFacts.
From Verif Require Export TsValue TsPreludeFacts3.

(** ** Heaps *)

(** Nothing changes but the scratch buffer. *)
Definition grows (h h' : heap) : Prop := (length h <= length h')%nat /\ (scratch h -> scratch h') /\ forall r, (0 < r)%nat -> (r < length h)%nat -> nth_error h' r = nth_error h r.
Lemma scratch_pos h : scratch h -> (0 < length h)%nat. Proof. intros (s & H & _). now apply nth_lt in H. Qed.
Lemma scratch_alloc c h : scratch h -> scratch (alloc c h).
Proof. intros Hs. pose proof (scratch_pos _ Hs). destruct Hs as (s & H1 & H2). exists s. split; [|exact H2]. now rewrite nth_alloc_old. Qed.
Lemma scratch_put r c h : r <> O -> scratch h -> scratch (put r c h).
Proof. intros Hr (s & H1 & H2). exists s. split; [|exact H2]. now rewrite nth_put_other. Qed.
Lemma grows_refl h : grows h h. Proof. split; [|split]; auto. Qed.
Lemma grows_trans a b c : grows a b -> grows b c -> grows a c.
Proof. intros (H1 & S1 & H2) (H3 & S2 & H4). split; [lia|]. split; [auto|]. intros r Hr Hl. rewrite H4 by lia. now apply H2. Qed.
Lemma grows_alloc c h : grows h (alloc c h).
Proof. split; [rewrite alloc_length; lia|]. split; [apply scratch_alloc|]. intros r _ Hl. now apply nth_alloc_old. Qed.
Lemma grows_scratched h h' : scratched h h' -> grows h h'.
Proof.
  intros (s & E & ->). split; [now rewrite put_length|]. split.
  - intros Hs. pose proof (scratch_pos _ Hs). exists s. split; [now apply nth_put|exact E].
  - intros r Hr _. apply nth_put_other. lia.
Qed.
(** A cell that is new. *)
Lemma grows_put h h' r c : grows h h' -> (length h <= r)%nat -> grows h (put r c h').
Proof.
  intros (H1 & Hs & H2) Hr. split; [now rewrite put_length|]. split.
  - intros Sc. pose proof (scratch_pos _ Sc). apply scratch_put; [lia|auto].
  - intros x Hx Hl. rewrite nth_put_other by lia. now apply H2.
Qed.
Lemma grows_cell h h' r c : grows h h' -> r <> O -> nth_error h r = Some c -> nth_error h' r = Some c.
Proof. intros (_ & _ & H) Hr Hc. rewrite H; [exact Hc|lia|now apply nth_lt in Hc]. Qed.
Lemma grows_pos h h' : grows h h' -> (0 < length h)%nat -> (0 < length h')%nat. Proof. intros [H _]. lia. Qed.

(** ** Values *)
Lemma all2P_imp {A B} (P Q : A -> B -> Prop) l : Forall (fun a => forall b, P a b -> Q a b) l -> forall l', all2P P l l' -> all2P Q l l'.
Proof. induction 1 as [|a l Ha _ IH]; intros [|b l'] H; cbn [all2P] in *; try contradiction; auto. destruct H. split; auto. Qed.
Section Mono.
Context (u : unicode).
Lemma js_value_mono d h h' lo lo' v : (lo' <= lo)%nat -> (forall r c, (lo <= r)%nat -> nth_error h r = Some c -> nth_error h' r = Some c) ->
  forall t m, js_value u d h lo v t m -> js_value u d h' lo' v t m.
Proof.
  intros Hlo Hh. induction v as [|x|n|z|x|bs|s|n|vs IH|ovs IH|i p fb IHp IHfb] using val_ind'; intros t m; cbn [js_value]; auto.
  - intros (r & -> & H1 & H2). exists r. repeat split; auto; try lia.
  - intros (r & -> & H1 & H2). exists r. repeat split; auto; try lia.
  - destruct t; try contradiction. intros (r & ms & -> & H1 & H2 & H3). exists r, ms. repeat split; auto; try lia.
    eapply all2P_imp; [|exact H3]. rewrite Forall_forall in *. intros v Hv b. now apply IH.
  - destruct t as [| | | | | | | |ns s k name fs]; try contradiction. intros (ps & -> & H1 & H2). exists ps. repeat split; auto.
    eapply all2P_imp; [|exact H2]. rewrite Forall_forall in *. intros [v|] Hv b; [|auto]. now apply (IH (Some v)).
  - destruct t as [| | | | | | | |ns s k name fs]; try contradiction. destruct (named_field i fs) as [f|]; [|contradiction].
    intros (ps & -> & H1 & H2 & H3). exists ps. split; [reflexivity|]. split; [auto|]. split; [|exact H3]. destruct fb as [v'|]; [now apply IHfb|exact I].
Qed.
Lemma js_value_grows d h h' lo v t m : grows h h' -> (0 < lo)%nat -> js_value u d h lo v t m -> js_value u d h' lo v t m.
Proof. intros H Hlo. apply js_value_mono; [lia|]. intros r c Hr Hc. eapply grows_cell; eauto. lia. Qed.

Lemma jatlas_ind' (P : jatlas -> Prop) : (forall n, P (JSize n)) -> (forall bs, P (JStr bs)) -> (forall n l, Forall P l -> P (JArr n l)) ->
  (forall n l, Forall (optP P) l -> P (JStruct n l)) -> (forall i n p fb, P p -> optP P fb -> P (JChoice i n p fb)) -> forall a, P a.
Proof.
  intros H1 H2 H3 H4 H5. fix IH 1. intros [n|bs|n l|n l|i n p fb].
  - apply H1.
  - apply H2.
  - apply H3. induction l as [|a l IHl]; constructor; auto.
  - apply H4. induction l as [|[a|] l IHl]; constructor; auto. exact (IH a). exact I.
  - apply H5; auto. destruct fb; [exact (IH j)|exact I].
Qed.
Lemma js_atlas_mono h h' lo lo' a : (lo' <= lo)%nat -> (forall r c, (lo <= r)%nat -> nth_error h r = Some c -> nth_error h' r = Some c) ->
  forall t m, js_atlas u h lo a t m -> js_atlas u h' lo' a t m.
Proof.
  intros Hlo Hh. induction a as [n|bs|n l IH|n l IH|i n p fb IHp IHfb] using jatlas_ind'; intros t m; cbn [js_atlas]; auto.
  - intros (r & -> & H1 & H2). exists r. repeat split; auto; try lia.
  - destruct t; try contradiction. intros (r & ms & -> & H1 & H2 & H3). exists r, ms. repeat split; auto; try lia.
    eapply all2P_imp; [|exact H3]. rewrite Forall_forall in *. intros v Hv b. now apply IH.
  - destruct t as [| | | | | | | |ns s k name fs]; try contradiction. intros (ps & -> & H1 & H2). exists ps. repeat split; auto.
    eapply all2P_imp; [|exact H2]. rewrite Forall_forall in *. intros [v|] Hv b; [|auto]. now apply (IH (Some v)).
  - destruct t as [| | | | | | | |ns s k name fs]; try contradiction. destruct (named_field i fs) as [f|]; [|contradiction].
    intros (mp & mf & -> & H1 & H2). exists mp, mf. repeat split; auto. destruct fb as [v'|]; [now apply IHfb|exact I].
Qed.
Lemma js_atlas_grows h h' lo lo' a t m : grows h h' -> (0 < lo')%nat -> (lo' <= lo)%nat -> js_atlas u h lo a t m -> js_atlas u h' lo' a t m.
Proof. intros H H1 Hlo. apply js_atlas_mono; [lia|]. intros r c Hr Hc. eapply grows_cell; eauto. lia. Qed.

(** ** Links *)
Context (find : scope -> jcallee -> option (scope * jfn)) (reach : scope -> str -> bool).
Lemma tlinked_sized here ns s t nt : tlinked u find reach here ns s t nt -> sized_sty t = sized_element (erase nt).
Proof.
  destruct nt; cbn [tlinked erase]; try (intros ->; reflexivity); [intros (t' & -> & _); reflexivity|].
  intros ((i & n & x & p & -> & _) & _). now destruct k.
Qed.
Lemma tlinked_unit here ns s t nt : tlinked u find reach here ns s t nt -> is_unit_sty t = is_unit (erase nt).
Proof.
  destruct nt; cbn [tlinked erase]; try (intros ->; reflexivity); [intros (t' & -> & _); reflexivity|].
  intros ((i & n & x & p & -> & _) & _). now destruct k.
Qed.
Lemma tlinked_integer here ns s t nt : tlinked u find reach here ns s t nt -> integer_encoded_sty t = integer_encoded (erase nt).
Proof.
  destruct nt as [| | | | | | |e|]; cbn [tlinked erase]; try (intros ->; reflexivity).
  - intros (t' & -> & H). apply tlinked_unit in H. destruct t', (erase e); cbn in *; congruence.
  - intros ((i & n & x & p & -> & _) & _). now destruct k.
Qed.
End Mono.

(** ** Declarations of variables *)
Lemma frame_atlas u ns s t f : block_frame (tgen_atlas u ns s t f) = [].
Proof. destruct t as [inner| | | | | | | |]; try destruct inner; destruct f; reflexivity. Qed.
Lemma frame_ser u ns s t f : block_frame (tgen_ser u ns s t f) = [].
Proof. destruct t as [inner| | | | | | | |]; try destruct inner; destruct f; reflexivity. Qed.
Lemma frame_deser u ns s t f : block_frame (tgen_deser u ns s t f) = [(txt "payload", SDead false)].
Proof. destruct t as [inner| | | | | | | |]; try destruct inner; destruct f; reflexivity. Qed.
