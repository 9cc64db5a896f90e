(** Readers: places in the chain, and what the reading operations of the generated code do. *)
From Verif Require Import BaseFacts TypesFacts IdentFacts.
From Verif Require Export RustAtlasFacts.

(** ** The chain of readers *)
Definition keeps {A} (r : reader) (x : cres A) : Prop :=
  match x with COk _ r' | CErr _ r' => chain_length r' = chain_length r | _ => True end.
Definition keeps_ok {A} (r : reader) (x : cres A) : Prop :=
  match x with COk _ r' => chain_length r' = chain_length r | _ => True end.
Lemma keeps_weak {A} r (x : cres A) : keeps r x -> keeps_ok r x.
Proof. destruct x; auto. exact (fun _ => I). Qed.
Lemma keeps_bind {A B} r (x : cres A) (k : A -> reader -> cres B) : keeps r x ->
  (forall a r', chain_length r' = chain_length r -> keeps r' (k a r')) -> keeps r (cbind x k).
Proof.
  intros Hx Hk. destruct x as [a r'|e r'| |]; cbn [cbind keeps] in *; auto. specialize (Hk a r' Hx). destruct (k a r'); cbn [keeps] in *; congruence.
Qed.
Lemma keeps_ok_bind {A B} r (x : cres A) (k : A -> reader -> cres B) : keeps_ok r x ->
  (forall a r', chain_length r' = chain_length r -> keeps_ok r' (k a r')) -> keeps_ok r (cbind x k).
Proof.
  intros Hx Hk. destruct x as [a r'|e r'| |]; cbn [cbind keeps_ok] in *; auto. specialize (Hk a r' Hx). destruct (k a r'); cbn [keeps_ok] in *; congruence.
Qed.
Lemma keeps_map {A B} (f : A -> B) r x : keeps r x -> keeps r (cmap f x).
Proof. intros H. apply keeps_bind; auto. intros a r' _. reflexivity. Qed.
Lemma keeps_ok_map {A B} (f : A -> B) r x : keeps_ok r x -> keeps_ok r (cmap f x).
Proof. intros H. apply keeps_ok_bind; auto. intros a r' _. reflexivity. Qed.
Lemma keeps_ret {A} (x : res A) r : keeps r (cret x r).
Proof. destruct x; cbn [cret keeps]; auto. Qed.
Lemma read_chain n r : chain_length (snd (read n r)) = chain_length r.
Proof.
  revert n. induction r as [[|c cs]|limit r IH]; intros n; cbn [read]; auto.
  - destruct (lenN c <=? n); reflexivity.
  - destruct (limit =? 0); auto. specialize (IH (N.min n limit)). destruct (read (N.min n limit) r) as [b r']. cbn [snd chain_length] in *. now rewrite IH.
Qed.
Lemma consume_chain r : forall n, chain_length (consume n r) = chain_length r.
Proof. induction r as [[|c cs]|limit r IH]; intros n; cbn [consume chain_length]; auto. destruct (lenN c <=? n); reflexivity. Qed.
Lemma keeps_read_exact F : forall n acc r, keeps r (cread_exact F n acc r).
Proof.
  induction F as [|F IH]; intros n acc r; cbn [cread_exact keeps]; auto. destruct (n =? 0); [reflexivity|].
  pose proof (read_chain n r) as H. destruct (read n r) as [[|x b] r']; cbn [snd] in H; [exact H|].
  specialize (IH (n - lenN (x :: b)) (acc ++ x :: b) r'). destruct (cread_exact F _ _ r'); cbn [keeps] in *; congruence.
Qed.
Lemma keeps_read_to_end F : forall acc r, keeps r (cread_to_end F acc r).
Proof.
  induction F as [|F IH]; intros acc r; cbn [cread_to_end keeps]; auto.
  pose proof (read_chain 32 r) as H. destruct (read 32 r) as [[|x b] r']; cbn [snd] in H; [exact H|].
  specialize (IH (acc ++ x :: b) r'). destruct (cread_to_end F _ r'); cbn [keeps] in *; congruence.
Qed.
Lemma keeps_skip F : forall n r, keeps r (cskip F n r).
Proof.
  induction F as [|F IH]; intros n r; cbn [cskip keeps]; auto. destruct (n =? 0); [reflexivity|]. cbv zeta.
  match goal with |- keeps r (cskip F ?m ?r') => specialize (IH m r'); pose proof (consume_chain r (N.min (lenN (fill_buf r)) n)) as H; destruct (cskip F m r') end; cbn [keeps] in *; congruence.
Qed.
Lemma keeps_finish F : forall r, keeps r (cfinish F r).
Proof.
  induction F as [|F IH]; intros r; cbn [cfinish keeps]; auto. cbv zeta. destruct (fill_buf r) as [|x b] eqn:E; [reflexivity|].
  pose proof (consume_chain r (lenN (x :: b))) as H. specialize (IH (consume (lenN (x :: b)) r)). destruct (cfinish F _); cbn [keeps] in *; congruence.
Qed.
Lemma keeps_varint F r : keeps r (cdeserialize_varint F r).
Proof. apply keeps_bind; [apply keeps_read_exact|]. intros a r' _. apply keeps_bind; [apply keeps_read_exact|]. intros b r2 _. apply keeps_ret. Qed.
Lemma keeps_header F r : keeps r (cdeserialize_field_header F r).
Proof.
  apply keeps_bind; [apply keeps_varint|]. intros a r' _. cbv zeta. destruct (_ =? 0); [reflexivity|]. destruct (_ =? 1); [reflexivity|].
  destruct (_ =? 2); [destruct (fill_buf r'); reflexivity|]. apply keeps_bind; [apply keeps_varint|]. intros b r2 _. reflexivity.
Qed.
Lemma keeps_u64 F is_field n r : keeps r (cdec_u64 F is_field n r).
Proof.
  unfold cdec_u64. destruct is_field; [|apply keeps_varint]. destruct (n =? 0); [reflexivity|]. destruct (n =? 8); [|apply keeps_varint].
  apply keeps_bind; [apply keeps_read_exact|]. intros b r2 _. reflexivity.
Qed.
Lemma keeps_f64 F is_field n r : keeps r (cdec_f64 F is_field n r).
Proof. unfold cdec_f64. destruct (_ && _); [reflexivity|]. apply keeps_bind; [apply keeps_read_exact|]. intros b r2 _. reflexivity. Qed.
Lemma keeps_small element : (forall r, keeps r (element r)) -> forall n r, keeps_ok r (csmall_loop n element r).
Proof.
  intros H n. induction n as [|n IH]; intros r; cbn [csmall_loop keeps_ok]; auto. pose proof (H r) as Hr. destruct (element r) as [v r'|[] r'| |]; cbn [keeps] in Hr; auto; try exact I.
  specialize (IH r'). apply (keeps_ok_map (cons v)) in IH. unfold keeps_ok in *. destruct (cmap _ _); congruence.
Qed.
Lemma untake_chain r p : chain_length r = S p -> chain_length (untake r) = p.
Proof. destruct r; cbn [chain_length untake]; congruence. Qed.
Lemma keeps_sized F element : (forall n r, keeps_ok r (element n r)) -> forall n r, keeps_ok r (csized_loop F n element r).
Proof.
  intros H n. induction n as [|n IH]; intros r; cbn [csized_loop keeps_ok]; auto. pose proof (keeps_varint F r) as Hr.
  destruct (cdeserialize_varint F r) as [sz r'|[] r'| |]; cbn [keeps] in Hr; auto; try exact I.
  pose proof (H sz (RTake sz r')) as K. destruct (element sz (RTake sz r')) as [v r2|? ?| |]; cbn [cbind keeps_ok] in *; auto.
  cbn [chain_length] in K. apply untake_chain in K. specialize (IH (untake r2)). apply (keeps_ok_map (cons v)) in IH. unfold keeps_ok in *. destruct (cmap _ _); congruence.
Qed.
Lemma assoc_in {A} i (l : list (N * A)) a : assoc i l = Some a -> In (i, a) l.
Proof. induction l as [|[j b] l IH]; [discriminate|]. cbn [assoc]. destruct (j =? i) eqn:E; [intros [= <-]; left; f_equal; lia|right; auto]. Qed.
Lemma keeps_struct F ds : (forall i d, In (i, d) ds -> forall n r, keeps_ok r (d n r)) -> forall n slots r, keeps_ok r (cstruct_loop F n ds slots r).
Proof.
  intros H n. induction n as [|n IH]; intros slots r; cbn [cstruct_loop keeps_ok]; auto. pose proof (keeps_header F r) as Hr.
  destruct (cdeserialize_field_header F r) as [[i sz] r'|[] r'| |]; cbn [keeps] in Hr; auto; try exact I.
  unfold cdecoder in *. destruct (assoc i ds) as [d|] eqn:Ed.
  - apply assoc_in in Ed. pose proof (H i d Ed sz (RTake sz r')) as K. destruct (d sz (RTake sz r')) as [v r2|? ?| |]; cbn [cbind keeps_ok] in *; auto.
    cbn [chain_length] in K. apply untake_chain in K. specialize (IH (get_or_insert i v slots) (untake r2)). unfold keeps_ok in *. destruct (cstruct_loop F n ds _ (untake r2)); congruence || exact I.
  - pose proof (keeps_skip F sz (RTake sz r')) as K. destruct (cskip F sz (RTake sz r')) as [v r2|? ?| |]; cbn [cbind keeps_ok keeps] in *; auto.
    cbn [chain_length] in K. apply untake_chain in K. specialize (IH slots (untake r2)). unfold keeps_ok in *. destruct (cstruct_loop F n ds _ (untake r2)); congruence || exact I.
Qed.
Lemma keeps_choice F ds : (forall i ru d, In (i, (ru, d)) ds -> forall n r, keeps_ok r (d n r)) -> forall n r, keeps_ok r (cchoice_loop F n ds r).
Proof.
  intros H n. induction n as [|n IH]; intros r; cbn [cchoice_loop keeps_ok]; auto. pose proof (keeps_header F r) as Hr.
  destruct (cdeserialize_field_header F r) as [[i sz] r'|? r'| |]; cbn [keeps cbind] in Hr; auto; try exact I. cbn [cbind].
  unfold cdecoder in *. destruct (assoc i ds) as [[ru d]|] eqn:Ed.
  - apply assoc_in in Ed. pose proof (H i ru d Ed sz (RTake sz r')) as K. destruct (d sz (RTake sz r')) as [v r2|? ?| |]; cbn [cbind keeps_ok] in *; auto.
    cbn [chain_length] in K. apply untake_chain in K. pose proof (keeps_finish F (untake r2)) as Kf. specialize (IH (untake r2)).
    destruct ru.
    + destruct (cfinish F (untake r2)); cbn [cbind keeps keeps_ok] in *; auto. congruence.
    + destruct (cchoice_loop F n ds (untake r2)); cbn [cbind keeps_ok] in *; auto. congruence.
    + destruct (cfinish F (untake r2)); cbn [cbind keeps keeps_ok] in *; auto. congruence.
  - pose proof (keeps_skip F sz (RTake sz r')) as K. destruct (cskip F sz (RTake sz r')) as [v r2|? ?| |]; cbn [cbind keeps_ok keeps] in *; auto.
    cbn [chain_length] in K. apply untake_chain in K. specialize (IH (untake r2)). unfold keeps_ok in *. destruct (cchoice_loop F n ds (untake r2)); congruence || exact I.
Qed.
Lemma keeps_reserve {A} lim n r (x : cres A) : keeps_ok r x -> keeps_ok r (creserve lim n x).
Proof. intros H. unfold creserve. destruct (lim <? n); [exact I|exact H]. Qed.
Lemma keeps_decode F lim t : forall is_field n r, keeps_ok r (cdecode F lim t is_field n r).
Proof.
  induction t as [| | | | | | |e IH|fs IH|fs IH] using ty_ind'; intros is_field n r.
  - reflexivity.
  - apply keeps_ok_map, keeps_weak, keeps_f64.
  - apply keeps_ok_map, keeps_weak, keeps_u64.
  - apply keeps_ok_map, keeps_weak, keeps_u64.
  - apply keeps_ok_map, keeps_weak, keeps_u64.
  - apply keeps_reserve, keeps_ok_map, keeps_weak, keeps_read_to_end.
  - apply keeps_reserve, keeps_ok_bind; [apply keeps_weak, keeps_read_to_end|]. intros bs r' _. destruct (utf8_decode bs); exact I || reflexivity.
  - destruct e; try (apply keeps_ok_map; apply keeps_sized; intros m r'; exact (IH false m r')).
    + apply keeps_ok_map, keeps_weak, keeps_u64.
    + apply keeps_reserve, keeps_ok_map. apply keeps_small. intros r'. exact (keeps_map _ _ _ (keeps_f64 F false 0 r')).
    + apply keeps_ok_map. apply keeps_small. intros r'. exact (keeps_map _ _ _ (keeps_u64 F false 0 r')).
    + apply keeps_ok_map. apply keeps_small. intros r'. exact (keeps_map _ _ _ (keeps_u64 F false 0 r')).
    + apply keeps_ok_map. apply keeps_small. intros r'. exact (keeps_map _ _ _ (keeps_u64 F false 0 r')).
  - apply keeps_ok_bind.
    + apply keeps_struct. intros i d Hin. apply in_map_iff in Hin as (f & [= <- <-] & Hf). rewrite Forall_forall in IH. intros m r'. now apply IH.
    + intros slots r' _. destruct (missing_required fs slots); exact I || reflexivity.
  - apply keeps_choice. intros i ru d Hin. apply in_map_iff in Hin as (f & [= <- <- <-] & Hf). rewrite Forall_forall in IH. intros m r'. now apply IH.
Qed.

(** ** Reading uses up the source *)
Fixpoint amount (r : reader) : nat := match r with RBase chunks => length (concat chunks) | RTake _ r' => amount r' end.
Definition shrinks {A} (r : reader) (x : cres A) : Prop :=
  match x with COk _ r' | CErr _ r' => (amount r' <= amount r)%nat | _ => True end.
Lemma untake_amount r : amount (untake r) = amount r. Proof. now destruct r. Qed.
Lemma shrinks_from {A} r r' (x : cres A) : (amount r' <= amount r)%nat -> shrinks r' x -> shrinks r x.
Proof. intros H Hx. destruct x; cbn [shrinks] in *; auto; lia. Qed.
Lemma shrinks_bind {A B} r (x : cres A) (k : A -> reader -> cres B) : shrinks r x -> (forall a r', shrinks r' (k a r')) -> shrinks r (cbind x k).
Proof. intros Hx Hk. destruct x as [a r'|e r'| |]; cbn [cbind shrinks] in *; auto. exact (shrinks_from r r' _ Hx (Hk a r')). Qed.
Lemma shrinks_map {A B} (f : A -> B) r x : shrinks r x -> shrinks r (cmap f x).
Proof. intros H. apply shrinks_bind; auto. intros a r'. cbn. lia. Qed.
Lemma shrinks_ret {A} (x : res A) r : shrinks r (cret x r).
Proof. destruct x; cbn [cret shrinks]; auto. Qed.
Lemma read_amount r : forall n, (amount (snd (read n r)) + length (fst (read n r)) = amount r)%nat.
Proof.
  induction r as [[|c cs]|limit r IH]; intros n; cbn [read]; auto.
  - destruct (lenN c <=? n); cbn [fst snd amount concat]; rewrite ?app_length; [lia|]. pose proof (take_drop n c) as H. apply (f_equal (@length N)) in H.
    rewrite app_length in H. lia.
  - destruct (limit =? 0); [cbn; lia|]. specialize (IH (N.min n limit)). destruct (read (N.min n limit) r) as [b r']. cbn [fst snd amount] in *. lia.
Qed.
Lemma consume_amount r : forall n, (amount (consume n r) <= amount r)%nat.
Proof.
  induction r as [[|c cs]|limit r IH]; intros n; cbn [consume amount]; auto. destruct (lenN c <=? n); cbn [amount concat]; rewrite ?app_length; [lia|].
  rewrite dropN_skipn, skipn_length. lia.
Qed.
Lemma shrinks_read_exact F : forall n acc r, shrinks r (cread_exact F n acc r).
Proof.
  induction F as [|F IH]; intros n acc r; cbn [cread_exact shrinks]; auto. destruct (n =? 0); [cbn; lia|].
  pose proof (read_amount r n) as H. destruct (read n r) as [[|x b] r']; cbn [fst snd] in H; [cbn in *; lia|]. apply (shrinks_from _ r'); [lia|apply IH].
Qed.
Lemma read_exact_amount F : forall n acc r a r', cread_exact F n acc r = COk a r' -> (N.to_nat n + amount r' <= amount r)%nat.
Proof.
  induction F as [|F IH]; intros n acc r a r'; cbn [cread_exact]; [discriminate|]. destruct (n =? 0) eqn:E; [intros [= <- <-]; lia|].
  pose proof (read_amount r n) as H. destruct (read n r) as [[|x b] r1]; [discriminate|]. cbn [fst snd] in H. intros K. apply IH in K. unfold lenN in K. lia.
Qed.
Lemma shrinks_read_to_end F : forall acc r, shrinks r (cread_to_end F acc r).
Proof.
  induction F as [|F IH]; intros acc r; cbn [cread_to_end shrinks]; auto.
  pose proof (read_amount r 32) as H. destruct (read 32 r) as [[|x b] r']; cbn [fst snd] in H; [cbn in *; lia|]. apply (shrinks_from _ r'); [lia|apply IH].
Qed.
Lemma shrinks_skip F : forall n r, shrinks r (cskip F n r).
Proof.
  induction F as [|F IH]; intros n r; cbn [cskip shrinks]; auto. destruct (n =? 0); [cbn; lia|]. cbv zeta. eapply shrinks_from; [|apply IH]. apply consume_amount.
Qed.
Lemma shrinks_finish F : forall r, shrinks r (cfinish F r).
Proof.
  induction F as [|F IH]; intros r; cbn [cfinish shrinks]; auto. cbv zeta. destruct (fill_buf r) as [|x b] eqn:E; [cbn; lia|].
  eapply shrinks_from; [|apply IH]. apply consume_amount.
Qed.
Lemma shrinks_varint F r : shrinks r (cdeserialize_varint F r).
Proof. apply shrinks_bind; [apply shrinks_read_exact|]. intros a r'. apply shrinks_bind; [apply shrinks_read_exact|]. intros b r2. apply shrinks_ret. Qed.
Lemma shrinks_header F r : shrinks r (cdeserialize_field_header F r).
Proof.
  apply shrinks_bind; [apply shrinks_varint|]. intros a r'. cbv zeta. destruct (_ =? 0); [cbn; lia|]. destruct (_ =? 1); [cbn; lia|].
  destruct (_ =? 2); [destruct (fill_buf r'); cbn; lia|]. apply shrinks_bind; [apply shrinks_varint|]. intros b r2. cbn; lia.
Qed.
(** A header takes at least one byte. *)
Lemma varint_amount F r n r' : cdeserialize_varint F r = COk n r' -> (amount r' < amount r)%nat.
Proof.
  unfold cdeserialize_varint. destruct (cread_exact F 1 [] r) as [fb r1| | |] eqn:E; try discriminate. cbn [cbind]. apply read_exact_amount in E.
  pose proof (shrinks_read_exact F (trailing_zeros (nth 0 fb 0)) [] r1) as H. destruct (cread_exact F (trailing_zeros _) [] r1) as [buf r2| | |]; try discriminate.
  cbn [cbind shrinks] in *. destruct (varint_of_parts _ buf []); try discriminate. intros [= _ <-]. lia.
Qed.
Lemma header_amount F r h r' : cdeserialize_field_header F r = COk h r' -> (amount r' < amount r)%nat.
Proof.
  unfold cdeserialize_field_header. destruct (cdeserialize_varint F r) as [tag r1| | |] eqn:E; try discriminate. apply varint_amount in E. cbn [cbind]. cbv zeta.
  destruct (_ =? 0); [intros [= _ <-]; lia|]. destruct (_ =? 1); [intros [= _ <-]; lia|].
  destruct (_ =? 2); [destruct (fill_buf r1); [discriminate|intros [= _ <-]; lia]|].
  destruct (cdeserialize_varint F r1) as [x r2| | |] eqn:E2; try discriminate. apply varint_amount in E2. cbn [cbind]. intros [= _ <-]. lia.
Qed.
Lemma shrinks_u64 F is_field n r : shrinks r (cdec_u64 F is_field n r).
Proof.
  unfold cdec_u64. destruct is_field; [|apply shrinks_varint]. destruct (n =? 0); [cbn; lia|]. destruct (n =? 8); [|apply shrinks_varint].
  apply shrinks_bind; [apply shrinks_read_exact|]. intros b r2. cbn; lia.
Qed.
Lemma shrinks_f64 F is_field n r : shrinks r (cdec_f64 F is_field n r).
Proof. unfold cdec_f64. destruct (_ && _); [cbn; lia|]. apply shrinks_bind; [apply shrinks_read_exact|]. intros b r2. cbn; lia. Qed.
Lemma shrinks_small element : (forall r, shrinks r (element r)) -> forall n r, shrinks r (csmall_loop n element r).
Proof.
  intros H n. induction n as [|n IH]; intros r; cbn [csmall_loop shrinks]; auto. pose proof (H r) as Hr. destruct (element r) as [v r'|[] r'| |]; cbn [shrinks] in *; auto; try exact I.
  apply (shrinks_from _ r' _ Hr), shrinks_map, IH.
Qed.
Lemma shrinks_sized F element : (forall n r, shrinks r (element n r)) -> forall n r, shrinks r (csized_loop F n element r).
Proof.
  intros H n. induction n as [|n IH]; intros r; cbn [csized_loop shrinks]; auto. pose proof (shrinks_varint F r) as Hr.
  destruct (cdeserialize_varint F r) as [sz r'|[] r'| |]; cbn [shrinks] in *; auto; try exact I.
  apply (shrinks_from _ r' _ Hr). apply (shrinks_bind r'); [exact (H sz (RTake sz r'))|]. intros v r2. apply shrinks_map.
  apply (shrinks_from _ (untake r2)); [now rewrite untake_amount|apply IH].
Qed.
Lemma shrinks_struct F ds : (forall i d, In (i, d) ds -> forall n r, shrinks r (d n r)) -> forall n slots r, shrinks r (cstruct_loop F n ds slots r).
Proof.
  intros H n. induction n as [|n IH]; intros slots r; cbn [cstruct_loop shrinks]; auto. pose proof (shrinks_header F r) as Hr.
  destruct (cdeserialize_field_header F r) as [[i sz] r'|[] r'| |]; cbn [shrinks] in *; auto; try exact I.
  apply (shrinks_from _ r' _ Hr). unfold cdecoder in *. destruct (assoc i ds) as [d|] eqn:Ed.
  - apply assoc_in in Ed. apply (shrinks_bind r'); [exact (H i d Ed sz (RTake sz r'))|]. intros v r2. apply (shrinks_from _ (untake r2)); [now rewrite untake_amount|apply IH].
  - apply (shrinks_bind r'); [exact (shrinks_skip F sz (RTake sz r'))|]. intros v r2. apply (shrinks_from _ (untake r2)); [now rewrite untake_amount|apply IH].
Qed.
Lemma shrinks_choice F ds : (forall i ru d, In (i, (ru, d)) ds -> forall n r, shrinks r (d n r)) -> forall n r, shrinks r (cchoice_loop F n ds r).
Proof.
  intros H n. induction n as [|n IH]; intros r; cbn [cchoice_loop shrinks]; auto. apply shrinks_bind; [apply shrinks_header|]. intros [i sz] r'.
  unfold cdecoder in *. destruct (assoc i ds) as [[ru d]|] eqn:Ed.
  - apply assoc_in in Ed. apply (shrinks_bind r'); [exact (H i ru d Ed sz (RTake sz r'))|]. intros v r2. apply (shrinks_from _ (untake r2)); [now rewrite untake_amount|].
    destruct ru; apply shrinks_bind; try apply shrinks_finish; try apply IH; intros ? ?; cbn; lia.
  - apply (shrinks_bind r'); [exact (shrinks_skip F sz (RTake sz r'))|]. intros v r2. apply (shrinks_from _ (untake r2)); [now rewrite untake_amount|apply IH].
Qed.
Lemma shrinks_reserve {A} lim n r (x : cres A) : shrinks r x -> shrinks r (creserve lim n x).
Proof. intros H. unfold creserve. destruct (lim <? n); [exact I|exact H]. Qed.
Lemma shrinks_decode F lim t : forall is_field n r, shrinks r (cdecode F lim t is_field n r).
Proof.
  induction t as [| | | | | | |e IH|fs IH|fs IH] using ty_ind'; intros is_field n r.
  - cbn; lia.
  - apply shrinks_map, shrinks_f64.
  - apply shrinks_map, shrinks_u64.
  - apply shrinks_map, shrinks_u64.
  - apply shrinks_map, shrinks_u64.
  - apply shrinks_reserve, shrinks_map, shrinks_read_to_end.
  - apply shrinks_reserve, shrinks_bind; [apply shrinks_read_to_end|]. intros bs r'. destruct (utf8_decode bs); cbn; lia.
  - destruct e; try (apply shrinks_map; apply shrinks_sized; intros m r'; exact (IH false m r')).
    + apply shrinks_map, shrinks_u64.
    + apply shrinks_reserve, shrinks_map. apply shrinks_small. intros r'. exact (shrinks_map _ _ _ (shrinks_f64 F false 0 r')).
    + apply shrinks_map. apply shrinks_small. intros r'. exact (shrinks_map _ _ _ (shrinks_u64 F false 0 r')).
    + apply shrinks_map. apply shrinks_small. intros r'. exact (shrinks_map _ _ _ (shrinks_u64 F false 0 r')).
    + apply shrinks_map. apply shrinks_small. intros r'. exact (shrinks_map _ _ _ (shrinks_u64 F false 0 r')).
  - apply shrinks_bind.
    + apply shrinks_struct. intros i d Hin. apply in_map_iff in Hin as (f & [= <- <-] & Hf). rewrite Forall_forall in IH. intros m r'. now apply IH.
    + intros slots r'. destruct (missing_required fs slots); cbn; lia.
  - apply shrinks_choice. intros i ru d Hin. apply in_map_iff in Hin as (f & [= <- <- <-] & Hf). rewrite Forall_forall in IH. intros m r'. now apply IH.
Qed.
