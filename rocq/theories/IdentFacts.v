From Verif Require Export IdentSpec Utf8Facts BaseFacts.

Lemma str_eqb_eq a : forall b, str_eqb a b = true <-> a = b.
Proof.
  induction a as [|x a IH]; intros [|y b]; cbn [str_eqb]; try (split; (reflexivity || discriminate)).
  rewrite andb_true_iff, IH. split; [intros [H ->]; f_equal; lia|]. intros [= -> ->]. split; [lia|reflexivity].
Qed.
Lemma str_eqb_refl a : str_eqb a a = true.
Proof. now apply str_eqb_eq. Qed.

(** ** C36: comparison *)
Lemma ident_eqb_eq a b : ident_eqb a b = true <-> snake_case a = snake_case b.
Proof. apply str_eqb_eq. Qed.

Lemma bytes_cmp_eq a : forall b, bytes_cmp a b = Eq <-> a = b.
Proof.
  induction a as [|x a IH]; intros [|y b]; cbn [bytes_cmp]; try (split; (reflexivity || discriminate)).
  destruct (x ?= y) eqn:E.
  - apply N.compare_eq in E. subst. rewrite IH. split; [now intros ->|now intros [=]].
  - split; [discriminate|]. intros [= -> _]. now rewrite N.compare_refl in E.
  - split; [discriminate|]. intros [= -> _]. now rewrite N.compare_refl in E.
Qed.
Lemma bytes_cmp_antisym a : forall b, bytes_cmp b a = CompOpp (bytes_cmp a b).
Proof.
  induction a as [|x a IH]; intros [|y b]; cbn [bytes_cmp]; try reflexivity.
  rewrite (N.compare_antisym x y). destruct (x ?= y); cbn; [apply IH|reflexivity|reflexivity].
Qed.
Lemma bytes_cmp_trans a : forall b c r, bytes_cmp a b = r -> bytes_cmp b c = r -> r <> Eq -> bytes_cmp a c = r.
Proof.
  induction a as [|x a IH]; intros [|y b] [|z c] r; cbn [bytes_cmp]; try congruence.
  destruct (x ?= y) eqn:E1.
  - apply N.compare_eq in E1. subst y. intros H1. destruct (x ?= z); [|congruence|congruence].
    intros H2 Hr. now apply (IH b).
  - intros <-. destruct (y ?= z) eqn:E2.
    + apply N.compare_eq in E2. subst z. intros _ _. now rewrite E1.
    + intros _ _. rewrite N.compare_lt_iff in *. replace (x ?= z) with Lt; [reflexivity|].
      symmetry. apply N.compare_lt_iff. lia.
    + discriminate.
  - intros <-. destruct (y ?= z) eqn:E2.
    + apply N.compare_eq in E2. subst z. intros _ _. now rewrite E1.
    + discriminate.
    + intros _ _. rewrite N.compare_gt_iff in *. replace (x ?= z) with Gt; [reflexivity|].
      symmetry. apply N.compare_gt_iff. lia.
Qed.

(** ** Words *)
Definition cons_hd (c : N) (l : list str) : list str :=
  match l with w :: ws => (c :: w) :: ws | [] => [[c]] end.
Definition is_sep (c : N) : bool := (c =? underscore) || (c =? hyphen).
(** The words including empty ones. *)
Fixpoint raw (u : unicode) (s : str) : list str :=
  match s with
  | [] => [[]]
  | c :: s' =>
      if is_sep c then [] :: raw u s'
      else if is_uppercase u c then [] :: cons_hd c (raw u s')
      else cons_hd c (raw u s')
  end.
Lemma raw_nonnil u s : raw u s <> [].
Proof.
  destruct s as [|c s]; [discriminate|]. cbn [raw]. destruct (is_sep c); [discriminate|].
  destruct (is_uppercase u c); [discriminate|]. unfold cons_hd. destruct (raw u s); discriminate.
Qed.
Lemma split_on_nonnil c s : split_on c s <> [].
Proof.
  destruct s as [|d s]; [discriminate|]. cbn [split_on]. destruct (d =? c); [discriminate|].
  destruct (split_on c s); discriminate.
Qed.

Lemma fm_cons c l : c <> hyphen ->
  flat_map (split_on hyphen) (cons_hd c l) = match l with [] => [[c]] | _ => cons_hd c (flat_map (split_on hyphen) l) end.
Proof.
  intros Hc. destruct l as [|w ws]; cbn [cons_hd flat_map].
  - cbn [split_on]. replace (c =? hyphen) with false by lia. reflexivity.
  - cbn [split_on]. replace (c =? hyphen) with false by lia. pose proof (split_on_nonnil hyphen w).
    destruct (split_on hyphen w); [congruence|reflexivity].
Qed.
Lemma split_on_cons sep c s : c <> sep -> split_on sep (c :: s) = cons_hd c (split_on sep s).
Proof. intros H. cbn [split_on]. replace (c =? sep) with false by lia. reflexivity. Qed.

Lemma raw_spec u s : (forall c, is_sep c = true -> is_uppercase u c = false) ->
  flat_map (split_on hyphen) (split_on underscore (snaked u s)) = raw u s.
Proof.
  intros Hu. induction s as [|c s IH]; [reflexivity|]. unfold snaked in *. cbn [flat_map raw].
  pose proof (split_on_nonnil underscore (flat_map (fun c => if is_uppercase u c then [underscore; c] else [c]) s)) as Hn.
  set (rest := flat_map _ s) in *.
  assert (forall d, d <> underscore -> d <> hyphen ->
    flat_map (split_on hyphen) (split_on underscore (d :: rest)) = cons_hd d (raw u s)) as Hd.
  { intros d H1 H2. rewrite split_on_cons by exact H1. rewrite fm_cons by exact H2. rewrite IH.
    destruct (split_on underscore rest); [congruence|reflexivity]. }
  destruct (is_sep c) eqn:Es.
  - rewrite (Hu c Es). cbn [app]. unfold is_sep in Es. destruct (c =? underscore) eqn:E1.
    + cbn [split_on]. rewrite E1. cbn [flat_map split_on app]. now rewrite IH.
    + assert (c = hyphen) as -> by lia. rewrite split_on_cons by (vm_compute; discriminate).
      destruct (split_on underscore rest) as [|w ws]; [congruence|]. cbn [cons_hd flat_map split_on].
      rewrite N.eqb_refl. cbn [app]. f_equal. exact IH.
  - unfold is_sep in Es. destruct (is_uppercase u c); cbn [app].
    + cbn [split_on]. rewrite N.eqb_refl. cbn [flat_map split_on app]. f_equal. apply Hd; lia.
    + apply Hd; lia.
Qed.

Definition asciis (s : str) : Prop := forallb is_ascii s = true.
Lemma asciis_cons c s : asciis (c :: s) <-> is_ascii c = true /\ asciis s.
Proof. unfold asciis. cbn [forallb]. apply andb_true_iff. Qed.
Lemma asciis_app a b : asciis (a ++ b) <-> asciis a /\ asciis b.
Proof. unfold asciis. rewrite forallb_app. apply andb_true_iff. Qed.

Section Ascii.
Context (u : unicode) (Hu : ascii_agrees u).

Lemma sep_not_upper c : is_sep c = true -> is_uppercase u c = false.
Proof.
  intros H. unfold is_sep, underscore, hyphen in H. rewrite (agrees_upper u Hu).
  - unfold ascii_is_upper. lia.
  - unfold is_ascii. lia.
Qed.
Lemma words_raw s : split_words u s = filter is_nonempty (raw u s).
Proof. unfold split_words. now rewrite (raw_spec u s sep_not_upper). Qed.

(** Glueing the raw words of two parts. *)
Fixpoint glue (a b : list str) : list str :=
  match a with
  | [] => b
  | [l] => match b with h :: t => (l ++ h) :: t | [] => [l] end
  | w :: a' => w :: glue a' b
  end.
Lemma glue_cons w a b : a <> [] -> glue (w :: a) b = w :: glue a b.
Proof. destruct a; [congruence|reflexivity]. Qed.
Lemma glue_hd c a b : a <> [] -> b <> [] -> glue (cons_hd c a) b = cons_hd c (glue a b).
Proof. destruct a as [|w [|w2 a]]; [congruence| |reflexivity]. destruct b; [congruence|reflexivity]. Qed.
Lemma raw_app a b : raw u (a ++ b) = glue (raw u a) (raw u b).
Proof.
  induction a as [|c a IH]; cbn [app raw].
  - pose proof (raw_nonnil u b). destruct (raw u b); [congruence|reflexivity].
  - pose proof (raw_nonnil u a). pose proof (raw_nonnil u b).
    assert (cons_hd c (raw u a) <> []) by (unfold cons_hd; destruct (raw u a); discriminate).
    destruct (is_sep c); [rewrite glue_cons by auto; now rewrite IH|].
    destruct (is_uppercase u c).
    + rewrite glue_cons by auto. rewrite glue_hd by auto. now rewrite IH.
    + rewrite glue_hd by auto. now rewrite IH.
Qed.

(** A word with no separator and no capital. *)
Definition clean (w : str) : Prop := Forall (fun c => is_sep c = false /\ is_uppercase u c = false) w.
Lemma raw_clean w : clean w -> raw u w = [w].
Proof.
  induction w as [|c w IH]; intros H; [reflexivity|]. inversion H as [|? ? [H1 H2] H3]; subst.
  cbn [raw]. rewrite H1, H2, IH by exact H3. reflexivity.
Qed.
Lemma raw_capital c w : is_sep c = false -> is_uppercase u c = true -> clean w -> raw u (c :: w) = [[]; c :: w].
Proof. intros H1 H2 H3. cbn [raw]. rewrite H1, H2, raw_clean by exact H3. reflexivity. Qed.

Definition proper (w : str) : Prop := w <> [] /\ clean w.

Lemma words_join ws : Forall proper ws -> split_words u (join [underscore] ws) = ws.
Proof.
  intros H. rewrite words_raw.
  assert (ws <> [] -> raw u (join [underscore] ws) = ws) as Hr.
  { induction ws as [|w ws IH]; [congruence|]. intros _. inversion H as [|? ? [_ H1] H2]; subst.
    destruct ws as [|w2 ws].
    - cbn [join]. now apply raw_clean.
    - change (join [underscore] (w :: w2 :: ws)) with (w ++ [underscore] ++ join [underscore] (w2 :: ws)).
      rewrite raw_app, raw_clean by exact H1. cbn [app raw]. change (is_sep underscore) with true.
      cbv iota. rewrite IH by (auto; discriminate). cbn [glue]. now rewrite app_nil_r. }
  destruct ws as [|w ws]; [reflexivity|]. rewrite Hr by discriminate.
  clear Hr. induction H as [|x l [Hx _] Hl IH]; [reflexivity|]. cbn [filter]. rewrite IH.
  destruct x; [congruence|reflexivity].
Qed.

Lemma filter_nonempty l : Forall (fun w : str => w <> []) l -> filter is_nonempty l = l.
Proof. induction 1 as [|w l H1 H2 IH]; [reflexivity|]. cbn [filter]. rewrite IH. destruct w; [congruence|reflexivity]. Qed.

(** A capitalised word: a capital, then no capital and no separator. *)
Definition capital (w : str) : Prop := match w with [] => False | c :: w' =>
  is_sep c = false /\ is_uppercase u c = true /\ clean w' end.
Lemma raw_capitals ws : Forall capital ws -> raw u (concat ws) = [] :: ws.
Proof.
  induction 1 as [|w ws H1 H2 IH]; [reflexivity|]. cbn [concat]. rewrite raw_app, IH.
  destruct w as [|c w]; [destruct H1|]. destruct H1 as (A & B & C). rewrite raw_capital by assumption.
  cbn [glue]. now rewrite app_nil_r.
Qed.
Lemma capital_nonempty w : capital w -> w <> [].
Proof. destruct w; [intros []|discriminate]. Qed.
Lemma words_capitals ws : Forall capital ws -> split_words u (concat ws) = ws.
Proof.
  intros H. rewrite words_raw, raw_capitals by exact H. cbn [filter is_nonempty].
  apply filter_nonempty. eapply Forall_impl; [|exact H]. apply capital_nonempty.
Qed.
Lemma words_camel w ws : proper w -> Forall capital ws -> split_words u (w ++ concat ws) = w :: ws.
Proof.
  intros [H1 H2] H. rewrite words_raw, raw_app, raw_clean, raw_capitals by assumption. cbn [glue].
  rewrite app_nil_r. apply filter_nonempty. constructor; [exact H1|].
  eapply Forall_impl; [|exact H]. apply capital_nonempty.
Qed.

(** The words of an ASCII string: no separators, capitals only in front. *)
Definition shape (w : str) : Prop := match w with [] => False | c :: w' =>
  is_sep c = false /\ is_ascii c = true /\ clean w' /\ asciis w' end.
Lemma raw_shape s : asciis s ->
  match raw u s with
  | h :: t => (clean h /\ asciis h) /\ Forall (fun w => w = [] \/ shape w) t
  | [] => False
  end.
Proof.
  induction s as [|c s IH]; intros Ha; [cbn; repeat split; constructor|].
  apply asciis_cons in Ha as [Hc Ha]. specialize (IH Ha). cbn [raw].
  destruct (raw u s) as [|h t] eqn:E; [contradiction|]. destruct IH as [[I1 I2] I3].
  destruct (is_sep c) eqn:Es.
  - split; [repeat split; constructor|]. constructor; [|exact I3]. destruct h as [|d h]; [now left|right].
    inversion I1 as [|? ? [A B] C]; subst. apply asciis_cons in I2 as [I2 I4]. repeat split; assumption.
  - cbn [cons_hd]. destruct (is_uppercase u c) eqn:Ec.
    + split; [repeat split; constructor|]. constructor; [|exact I3]. right. repeat split; assumption.
    + split; [|exact I3]. split; [constructor; auto|now apply asciis_cons].
Qed.
Lemma words_shape s : asciis s -> Forall shape (split_words u s).
Proof.
  intros Ha. rewrite words_raw. pose proof (raw_shape s Ha) as H. destruct (raw u s) as [|h t]; [contradiction|].
  destruct H as [[H1 H2] H3].
  assert (forall l, Forall (fun w => w = [] \/ shape w) l -> Forall shape (filter is_nonempty l)) as Hf.
  { induction 1 as [|w l [->|Hw] Hl IHl]; cbn [filter]; [constructor|exact IHl|].
    destruct w; [destruct Hw|]. cbn. constructor; auto. }
  apply Hf. constructor; [|exact H3]. destruct h as [|d h]; [now left|right].
  inversion H1 as [|? ? [A B] C]; subst. apply asciis_cons in H2 as [H2 H4]. repeat split; assumption.
Qed.

Definition alower (w : str) : str := map ascii_lower w.
Lemma lower_ascii c : is_ascii c = true -> is_ascii (ascii_lower c) = true.
Proof. unfold is_ascii, ascii_lower, ascii_is_upper. destruct (_ && _) eqn:E; lia. Qed.
Lemma alower_asciis w : asciis w -> asciis (alower w).
Proof.
  induction w as [|c w IH]; [auto|]. intros H. apply asciis_cons in H as [H1 H2].
  apply asciis_cons. split; [now apply lower_ascii|now apply IH].
Qed.
Lemma lower_not_upper c : is_ascii c = true -> is_uppercase u (ascii_lower c) = false.
Proof.
  intros H. rewrite (agrees_upper u Hu) by now apply lower_ascii.
  unfold ascii_lower, ascii_is_upper, is_ascii in *. destruct ((65 <=? c) && (c <=? 90)) eqn:E; lia.
Qed.
Lemma lower_sep c : is_sep c = false -> is_sep (ascii_lower c) = false.
Proof.
  unfold is_sep, ascii_lower, ascii_is_upper, underscore, hyphen. destruct (_ && _) eqn:E; lia.
Qed.
Lemma alower_clean w : asciis w -> Forall (fun c => is_sep c = false) w -> clean (alower w).
Proof.
  induction w as [|c w IH]; intros Ha H; [constructor|]. inversion H as [|? ? K1 K2]; subst. apply asciis_cons in Ha as [H1 H2].
  constructor; [split; [now apply lower_sep|now apply lower_not_upper]|now apply IH].
Qed.
Lemma clean_nosep w : clean w -> Forall (fun c => is_sep c = false) w.
Proof. intros H. eapply Forall_impl; [|exact H]. cbv beta. tauto. Qed.
Lemma alower_shape w : shape w -> proper (alower w).
Proof.
  destruct w as [|c w]; [intros []|]. intros (A & B & C & D). split; [discriminate|].
  apply (alower_clean (c :: w)); [now apply asciis_cons|]. constructor; [exact A|now apply clean_nosep].
Qed.
Lemma lower_shape w : shape w -> str_lower u w = alower w.
Proof.
  destruct w as [|c w]; [intros []|]. intros (A & B & C & D). apply (agrees_lower u Hu). now apply asciis_cons.
Qed.
Lemma lower_words s : asciis s -> map (str_lower u) (split_words u s) = map alower (split_words u s).
Proof.
  intros Ha. apply map_ext_in. intros w Hw. apply lower_shape. pose proof (words_shape s Ha) as H.
  rewrite Forall_forall in H. now apply H.
Qed.
Lemma lower_idem c : ascii_lower (ascii_lower c) = ascii_lower c.
Proof.
  unfold ascii_lower, ascii_is_upper. destruct ((65 <=? c) && (c <=? 90)) eqn:E1.
  - replace ((65 <=? c + 32) && (c + 32 <=? 90)) with false by lia. reflexivity.
  - now rewrite E1.
Qed.
Lemma alower_idem w : alower (alower w) = alower w.
Proof. unfold alower. rewrite map_map. apply map_ext. apply lower_idem. Qed.

Lemma snake_words s : asciis s ->
  split_words u (snake_case (ident_from u s)) = map alower (split_words u s).
Proof.
  intros Ha. cbn [snake_case ident_from]. rewrite lower_words by exact Ha. apply words_join.
  pose proof (words_shape s Ha) as H. apply Forall_forall. intros w Hw. apply in_map_iff in Hw as (w' & <- & Hw').
  rewrite Forall_forall in H. apply alower_shape, H, Hw'.
Qed.
Lemma join_asciis ws : Forall asciis ws -> asciis (join [underscore] ws).
Proof.
  induction 1 as [|w ws H1 H2 IH]; [reflexivity|]. destruct ws as [|w2 ws]; [exact H1|].
  change (join [underscore] (w :: w2 :: ws)) with (w ++ [underscore] ++ join [underscore] (w2 :: ws)).
  apply asciis_app. split; [exact H1|]. apply asciis_app. split; [reflexivity|exact IH].
Qed.
Lemma shape_asciis w : shape w -> asciis w.
Proof. destruct w as [|c w]; [intros []|]. intros (A & B & C & D). now apply asciis_cons. Qed.
Lemma snake_asciis s : asciis s -> asciis (snake_case (ident_from u s)).
Proof.
  intros Ha. cbn [snake_case ident_from]. rewrite lower_words by exact Ha. apply join_asciis.
  apply Forall_forall. intros w Hw. apply in_map_iff in Hw as (w' & <- & Hw').
  pose proof (words_shape s Ha) as H. rewrite Forall_forall in H. apply alower_asciis, shape_asciis, H, Hw'.
Qed.
Lemma snake_of_words s ws : asciis s -> asciis ws -> map alower (split_words u s) = map alower (split_words u ws) ->
  snake_case (ident_from u s) = snake_case (ident_from u ws).
Proof. intros H1 H2 E. cbn [snake_case ident_from]. rewrite !lower_words by assumption. now rewrite E. Qed.
Lemma words_of_snake s t : asciis s -> asciis t ->
  snake_case (ident_from u s) = snake_case (ident_from u t) ->
  map alower (split_words u s) = map alower (split_words u t).
Proof. intros H1 H2 E. rewrite <- !snake_words by assumption. now rewrite E. Qed.

(** Capitalising. *)
Definition acap (w : str) : str := match w with [] => [] | c :: w' => ascii_upper c :: alower w' end.
Lemma cap_shape w : shape w -> capitalize u w = acap w.
Proof.
  destruct w as [|c w]; [intros []|]. intros (A & B & C & D). cbn [capitalize acap].
  rewrite (agrees_to_upper u Hu c B), (agrees_lower u Hu w D). reflexivity.
Qed.
Lemma upper_lower c : ascii_upper (ascii_lower c) = ascii_upper c.
Proof.
  unfold ascii_upper, ascii_lower, ascii_is_upper, ascii_is_lower. destruct ((65 <=? c) && (c <=? 90)) eqn:E1; [|reflexivity].
  replace ((97 <=? c + 32) && (c + 32 <=? 122)) with true by lia.
  replace ((97 <=? c) && (c <=? 122)) with false by lia. lia.
Qed.
Lemma lower_upper c : ascii_lower (ascii_upper c) = ascii_lower c.
Proof.
  unfold ascii_upper, ascii_lower, ascii_is_upper, ascii_is_lower. destruct ((97 <=? c) && (c <=? 122)) eqn:E1; [|reflexivity].
  replace ((65 <=? c - 32) && (c - 32 <=? 90)) with true by lia.
  replace ((65 <=? c) && (c <=? 90)) with false by lia. lia.
Qed.
Lemma acap_alower w : acap (alower w) = acap w.
Proof. destruct w as [|c w]; [reflexivity|]. unfold acap, alower. cbn [map]. rewrite upper_lower. f_equal. apply alower_idem. Qed.
Lemma alower_acap w : alower (acap w) = alower w.
Proof. destruct w as [|c w]; [reflexivity|]. unfold acap. cbn [alower map]. rewrite lower_upper. f_equal. apply alower_idem. Qed.
Lemma fm_caps l : Forall shape l -> flat_map (capitalize u) l = concat (map acap l).
Proof. induction 1 as [|w l H1 H2 IH]; [reflexivity|]. cbn. now rewrite IH, cap_shape. Qed.
Lemma pascal_words s : asciis s -> pascal_case u (ident_from u s) = concat (map acap (split_words u s)).
Proof. intros Ha. apply fm_caps. now apply words_shape. Qed.
Lemma camel_words s : asciis s -> camel_case u (ident_from u s) =
  match split_words u s with [] => [] | w :: ws => alower w ++ concat (map acap ws) end.
Proof.
  intros Ha. unfold camel_case. cbn [original ident_from]. pose proof (words_shape s Ha) as H.
  destruct (split_words u s) as [|w ws]; [reflexivity|]. inversion H; subst.
  rewrite lower_shape, fm_caps by assumption. reflexivity.
Qed.

Lemma snake_determines s t : asciis s -> asciis t ->
  snake_case (ident_from u s) = snake_case (ident_from u t) ->
  pascal_case u (ident_from u s) = pascal_case u (ident_from u t) /\
  camel_case u (ident_from u s) = camel_case u (ident_from u t).
Proof.
  intros Hs Ht E. apply (words_of_snake s t Hs Ht) in E.
  rewrite !pascal_words, !camel_words by assumption.
  assert (forall a b, map alower a = map alower b -> map acap a = map acap b) as Hm.
  { intros a b Hab. rewrite <- (map_ext (fun w => acap (alower w)) acap acap_alower a).
    rewrite <- (map_ext (fun w => acap (alower w)) acap acap_alower b).
    rewrite <- !(map_map alower acap). now rewrite Hab. }
  split; [now rewrite (Hm _ _ E)|].
  destruct (split_words u s) as [|w ws], (split_words u t) as [|w' ws']; try discriminate E; [reflexivity|].
  injection E as E1 E2. now rewrite E1, (Hm _ _ E2).
Qed.

Definition letter_head (w : str) : Prop := match w with [] => False | c :: _ => ascii_is_letter c = true end.
Lemma acap_capital w : shape w -> letter_head w -> capital (acap w).
Proof.
  destruct w as [|c w]; [intros []|]. intros (A & B & C & D) L. cbn [letter_head acap capital] in *.
  assert (is_ascii (ascii_upper c) = true) as Ha
    by (unfold is_ascii, ascii_upper, ascii_is_lower in *; destruct (_ && _) eqn:?; lia).
  split; [|split].
  - unfold is_sep, ascii_upper, ascii_is_letter, ascii_is_lower, ascii_is_upper, underscore, hyphen in *.
    destruct ((97 <=? c) && (c <=? 122)) eqn:E; lia.
  - rewrite (agrees_upper u Hu) by exact Ha.
    unfold ascii_upper, ascii_is_letter, ascii_is_lower, ascii_is_upper in *.
    destruct ((97 <=? c) && (c <=? 122)) eqn:E; lia.
  - apply alower_clean; [exact D|]. now apply clean_nosep.
Qed.
Lemma acap_asciis w : shape w -> asciis (acap w).
Proof.
  destruct w as [|c w]; [intros []|]. intros (A & B & C & D). apply asciis_cons. split.
  - unfold is_ascii, ascii_upper, ascii_is_lower in *. destruct (_ && _) eqn:?; lia.
  - now apply alower_asciis.
Qed.
Lemma concat_asciis l : Forall asciis l -> asciis (concat l).
Proof. induction 1; [reflexivity|]. cbn. apply asciis_app. auto. Qed.
Lemma caps_asciis l : Forall shape l -> asciis (concat (map acap l)).
Proof.
  intros H. apply concat_asciis, Forall_forall. intros w Hw. apply in_map_iff in Hw as (x & <- & Hx).
  rewrite Forall_forall in H. apply acap_asciis, H, Hx.
Qed.
Lemma caps_capital l : Forall shape l -> Forall letter_head l -> Forall capital (map acap l).
Proof.
  intros H1 H2. apply Forall_forall. intros w Hw. apply in_map_iff in Hw as (x & <- & Hx).
  rewrite Forall_forall in H1, H2. apply acap_capital; auto.
Qed.
Lemma map_alower_acap l : map alower (map acap l) = map alower l.
Proof. rewrite map_map. apply map_ext. apply alower_acap. Qed.

Lemma pascal_same_ident s : asciis s -> Forall letter_head (split_words u s) ->
  snake_case (ident_from u (pascal_case u (ident_from u s))) = snake_case (ident_from u s).
Proof.
  intros Ha Hl. pose proof (words_shape s Ha) as Hs. apply snake_of_words; [|exact Ha|].
  - rewrite pascal_words by exact Ha. now apply caps_asciis.
  - rewrite pascal_words by exact Ha. rewrite words_capitals by (now apply caps_capital). apply map_alower_acap.
Qed.
Lemma camel_same_ident s : asciis s -> Forall letter_head (tl (split_words u s)) ->
  snake_case (ident_from u (camel_case u (ident_from u s))) = snake_case (ident_from u s).
Proof.
  intros Ha Hl. pose proof (words_shape s Ha) as Hs. apply snake_of_words; [|exact Ha|].
  - rewrite camel_words by exact Ha. destruct (split_words u s) as [|w ws]; [reflexivity|].
    inversion Hs; subst. apply asciis_app. split; [now apply alower_asciis, shape_asciis|now apply caps_asciis].
  - rewrite camel_words by exact Ha. destruct (split_words u s) as [|w ws]; [reflexivity|].
    inversion Hs; subst. cbn [tl] in Hl.
    rewrite words_camel by (try (now apply alower_shape); now apply caps_capital).
    cbn [map]. rewrite alower_idem. f_equal. apply map_alower_acap.
Qed.
Lemma snake_same_ident s : asciis s ->
  snake_case (ident_from u (snake_case (ident_from u s))) = snake_case (ident_from u s).
Proof.
  intros Ha. apply snake_of_words; [now apply snake_asciis|exact Ha|].
  rewrite snake_words by exact Ha. rewrite map_map. apply map_ext. apply alower_idem.
Qed.

(** ** From the specification's conditions *)
Lemma ident_chars_asciis s : ident_chars s -> asciis s.
Proof.
  induction 1 as [|c s H1 H2 IH]; [reflexivity|]. apply asciis_cons. split; [|exact IH].
  unfold is_ascii, ascii_is_letter, ascii_is_upper, ascii_is_lower, ascii_is_digit, underscore in *. lia.
Qed.
Lemma raw_letters s : ident_chars s -> forall b, digit_starts_word b s = false ->
  match raw u s with
  | h :: t => (b = true -> h = [] \/ letter_head h) /\ Forall (fun w => w = [] \/ letter_head w) t
  | [] => False
  end.
Proof.
  induction 1 as [|c s H1 H2 IH]; intros b Hd; [cbn; auto|].
  cbn [digit_starts_word] in Hd. apply orb_false_iff in Hd as [Hd1 Hd2]. specialize (IH _ Hd2). cbn [raw].
  destruct (raw u s) as [|h t]; [contradiction|]. destruct IH as [I1 I2].
  assert (c <> hyphen) as Hh.
  { intros ->. vm_compute in H1. destruct H1 as [H1|[H1|H1]]; discriminate H1. }
  destruct (is_sep c) eqn:Es.
  - assert ((c =? underscore) = true) as E by (unfold is_sep in Es; lia). split; [auto|]. constructor; auto.
  - assert ((c =? underscore) = false) as E by (unfold is_sep in Es; lia).
    cbn [cons_hd]. destruct (is_uppercase u c) eqn:Eu.
    + split; [auto|]. constructor; [|exact I2]. right. cbn [letter_head].
      assert (is_ascii c = true) as Ha.
      { pose proof (ident_chars_asciis (c :: s) (Forall_cons c H1 H2)) as H. now apply asciis_cons in H. }
      rewrite (agrees_upper u Hu) in Eu by exact Ha. unfold ascii_is_letter. now rewrite Eu.
    + split; [|exact I2]. intros ->. right. cbn [andb letter_head] in *.
      destruct H1 as [H1|[H1|H1]]; [exact H1|congruence|lia].
Qed.
Lemma words_letters s : ident_chars s -> words_start_with_letters s -> Forall letter_head (split_words u s).
Proof.
  intros Hc Hw. rewrite words_raw. pose proof (raw_letters s Hc true Hw) as H.
  destruct (raw u s) as [|h t]; [contradiction|]. destruct H as [H1 H2].
  assert (forall l, Forall (fun w => w = [] \/ letter_head w) l -> Forall letter_head (filter is_nonempty l)) as Hf.
  { induction 1 as [|w l [->|Hw'] Hl IHl]; cbn [filter]; [constructor|exact IHl|].
    destruct w; [destruct Hw'|]. cbn. constructor; auto. }
  apply Hf. constructor; auto.
Qed.

(** ** Suffixes *)
Lemma words_app_suffix s w : asciis s -> capital w -> asciis w ->
  split_words u (s ++ [underscore] ++ w) = split_words u s ++ [w].
Proof.
  intros Ha Hw Hwa. rewrite !words_raw, raw_app. cbn [app raw]. change (is_sep underscore) with true. cbv iota.
  destruct w as [|c w]; [destruct Hw|]. destruct Hw as (A & B & C). rewrite raw_capital by assumption.
  assert (forall l, l <> [] -> glue l [[]; []; c :: w] = l ++ [[]; c :: w]) as Hg.
  { induction l as [|x l IH]; [congruence|]. intros _. destruct l as [|y l].
    - cbn. now rewrite app_nil_r.
    - rewrite glue_cons by discriminate. rewrite IH by discriminate. reflexivity. }
  rewrite Hg by apply raw_nonnil. rewrite filter_app. reflexivity.
Qed.
Lemma suffix_capital x : capital (suffix_str x) /\ asciis (suffix_str x) /\ letter_head (suffix_str x).
Proof.
  split; [|split; destruct x; reflexivity].
  assert (forall c w, ascii_is_upper c = true -> Forall (fun d => ascii_is_lower d = true) w -> capital (c :: w)) as H.
  { intros c w Hc Hw. cbn [capital]. unfold is_sep, underscore, hyphen.
    split; [unfold ascii_is_upper in Hc; lia|]. split.
    - rewrite (agrees_upper u Hu); [exact Hc|]. unfold is_ascii, ascii_is_upper in *. lia.
    - eapply Forall_impl; [|exact Hw]. cbv beta. intros d Hd. split.
      + unfold is_sep, underscore, hyphen, ascii_is_lower in *. lia.
      + rewrite (agrees_upper u Hu); unfold is_ascii, ascii_is_upper, ascii_is_lower in *; lia. }
  destruct x; cbn; apply H; repeat constructor.
Qed.
Definition orig_suffix (s : str) (x : option suffix) : str :=
  match x with None => s | Some x => s ++ [underscore] ++ suffix_str x end.
Lemma with_suffix_from s x : with_suffix u (ident_from u s) x = ident_from u (orig_suffix s x).
Proof. destruct x; reflexivity. Qed.
Lemma orig_suffix_words s x : asciis s ->
  asciis (orig_suffix s x) /\
  split_words u (orig_suffix s x) =
    split_words u s ++ match x with None => [] | Some x => [suffix_str x] end.
Proof.
  intros Ha. destruct x as [x|]; cbn [orig_suffix]; [|now rewrite app_nil_r].
  destruct (suffix_capital x) as (H1 & H2 & _). split; [|now apply words_app_suffix].
  apply asciis_app. split; [exact Ha|]. apply asciis_app. split; [reflexivity|exact H2].
Qed.

(** ** C37 *)
Lemma converted_injective c x y s t : asciis s -> asciis t ->
  Forall letter_head (split_words u s) -> Forall letter_head (split_words u t) ->
  (x = y \/ (x <> None /\ y <> None)) ->
  in_case u c (with_suffix u (ident_from u s) x) = in_case u c (with_suffix u (ident_from u t) y) ->
  snake_case (ident_from u s) = snake_case (ident_from u t) /\ x = y.
Proof.
  intros Hs Ht Ls Lt Hxy E. rewrite !with_suffix_from in E.
  destruct (orig_suffix_words s x Hs) as [As Ws]. destruct (orig_suffix_words t y Ht) as [At Wt].
  assert (Forall letter_head (split_words u (orig_suffix s x))) as Lsx.
  { rewrite Ws. apply Forall_app. split; [exact Ls|]. destruct x; [|constructor]. constructor; [|constructor]. apply suffix_capital. }
  assert (Forall letter_head (split_words u (orig_suffix t y))) as Lty.
  { rewrite Wt. apply Forall_app. split; [exact Lt|]. destruct y; [|constructor]. constructor; [|constructor]. apply suffix_capital. }
  assert (snake_case (ident_from u (orig_suffix s x)) = snake_case (ident_from u (orig_suffix t y))) as Hsn.
  { destruct c; cbn [in_case] in E.
    - exact E.
    - rewrite <- (camel_same_ident (orig_suffix s x)), <- (camel_same_ident (orig_suffix t y)); auto; [now rewrite E| |].
      + inversion Lty; [constructor|assumption].
      + inversion Lsx; [constructor|assumption].
    - rewrite <- (pascal_same_ident (orig_suffix s x)), <- (pascal_same_ident (orig_suffix t y)); auto. now rewrite E. }
  apply words_of_snake in Hsn; auto. rewrite Ws, Wt, !map_app in Hsn.
  destruct x as [x|], y as [y|]; cbn [map] in Hsn; try (destruct Hxy as [Hxy|[Hx Hy]]; congruence).
  - apply app_inj_tail in Hsn as [H1 H2]. split; [now apply snake_of_words|].
    destruct x, y; try reflexivity; vm_compute in H2; discriminate H2.
  - rewrite !app_nil_r in Hsn. split; [now apply snake_of_words|reflexivity].
Qed.

(** Characters of converted names. *)
Definition word_char (c : N) : Prop := ascii_is_letter c = true \/ ascii_is_digit c = true.
Lemma lower_char c : word_char c -> word_char (ascii_lower c).
Proof.
  unfold word_char, ascii_is_letter, ascii_lower, ascii_is_digit, ascii_is_upper, ascii_is_lower.
  destruct ((65 <=? c) && (c <=? 90)) eqn:E; lia.
Qed.
Lemma upper_char c : word_char c -> word_char (ascii_upper c).
Proof.
  unfold word_char, ascii_is_letter, ascii_upper, ascii_is_digit, ascii_is_upper, ascii_is_lower.
  destruct ((97 <=? c) && (c <=? 122)) eqn:E; lia.
Qed.
Lemma raw_chars s : ident_chars s -> Forall (Forall word_char) (raw u s).
Proof.
  induction 1 as [|c s H1 H2 IH]; [repeat constructor|]. cbn [raw].
  pose proof (raw_nonnil u s) as Hn. destruct (raw u s) as [|h t]; [congruence|]. inversion IH; subst.
  destruct (is_sep c) eqn:Es; [repeat (constructor; auto)|].
  assert (word_char c) as Hc.
  { destruct H1 as [H1|[H1|H1]]; [now left|now right|]. subst c. discriminate Es. }
  cbn [cons_hd]. destruct (is_uppercase u c); repeat (constructor; auto).
Qed.
Lemma words_chars s : ident_chars s -> Forall (Forall word_char) (split_words u s).
Proof.
  intros H. rewrite words_raw. apply raw_chars in H. apply Forall_forall. intros w Hw.
  apply filter_In in Hw as [Hw _]. rewrite Forall_forall in H. now apply H.
Qed.
Lemma alower_chars w : Forall word_char w -> Forall word_char (alower w).
Proof. induction 1; constructor; auto using lower_char. Qed.
Lemma acap_chars w : Forall word_char w -> Forall word_char (acap w).
Proof. destruct 1; constructor; auto using upper_char, alower_chars. Qed.
Lemma concat_chars l : Forall (Forall word_char) l -> Forall word_char (concat (map acap l)).
Proof. induction 1; [constructor|]. cbn. apply Forall_app. auto using acap_chars. Qed.
Lemma suffix_chars x : Forall word_char (suffix_str x).
Proof. destruct x; cbn; repeat (constructor; [left; reflexivity|]); constructor. Qed.

Lemma converted_chars c x s : ident_chars s ->
  let w := in_case u c (with_suffix u (ident_from u s) x) in
  match c with Snake => ident_chars w | _ => Forall word_char w end.
Proof.
  intros Hs. cbv zeta. rewrite with_suffix_from. pose proof (ident_chars_asciis s Hs) as Ha.
  destruct (orig_suffix_words s x Ha) as [A W].
  assert (Forall (Forall word_char) (split_words u (orig_suffix s x))) as Hw.
  { rewrite W. apply Forall_app. split; [now apply words_chars|]. destruct x; repeat constructor. apply suffix_chars. }
  destruct c; cbn [in_case].
  - cbn [snake_case ident_from]. rewrite lower_words by exact A.
    assert (forall l, Forall (Forall word_char) l -> ident_chars (join [underscore] (map alower l))) as Hj.
    { induction 1 as [|w l H1 H2 IH]; [constructor|].
      assert (ident_chars (alower w)) as Hlw.
      { apply alower_chars in H1. eapply Forall_impl; [|exact H1]. unfold word_char. cbv beta. tauto. }
      destruct l as [|w2 l]; [exact Hlw|]. cbn [map] in *.
      change (join [underscore] (alower w :: alower w2 :: map alower l))
        with (alower w ++ [underscore] ++ join [underscore] (alower w2 :: map alower l)).
      apply Forall_app. split; [exact Hlw|]. constructor; [auto|exact IH]. }
    now apply Hj.
  - rewrite camel_words by exact A. destruct (split_words u (orig_suffix s x)) as [|w ws]; [constructor|].
    inversion Hw; subst. apply Forall_app. split; [now apply alower_chars|now apply concat_chars].
  - rewrite pascal_words by exact A. now apply concat_chars.
Qed.

Lemma rust_names_injective c x y s t : ident_chars s -> ident_chars t ->
  words_start_with_letters s -> words_start_with_letters t ->
  (x = y \/ (x <> None /\ y <> None)) ->
  rust_name u (ident_from u s) c x = rust_name u (ident_from u t) c y ->
  ident_eqb (ident_from u s) (ident_from u t) = true /\ x = y.
Proof.
  intros Hs Ht Ls Lt Hxy E. rewrite ident_eqb_eq.
  apply (converted_injective c); auto using ident_chars_asciis, words_letters.
  unfold rust_name in E. cbv zeta in E.
  pose proof (converted_chars c x s Hs) as C1. pose proof (converted_chars c y t Ht) as C2. cbv zeta in C1, C2.
  set (a := in_case u c (with_suffix u (ident_from u s) x)) in *.
  set (b := in_case u c (with_suffix u (ident_from u t) y)) in *.
  assert (forall w, match c with Snake => ident_chars w | _ => Forall word_char w end -> ~ In 35 w) as Hn.
  { intros w Hw Hin. destruct c; [unfold ident_chars in Hw| |]; rewrite Forall_forall in Hw; apply Hw in Hin; vm_compute in Hin;
      repeat (destruct Hin as [Hin|Hin]); discriminate Hin. }
  assert (forall w, In 35 (txt "r#" ++ w)) as Hr by (intros w; right; now left).
  destruct (existsb (str_eqb a) RUST_KEYWORDS), (existsb (str_eqb b) RUST_KEYWORDS); auto.
  - now apply app_inv_head in E.
  - exfalso. apply (Hn b C2). rewrite <- E. apply Hr.
  - exfalso. apply (Hn a C1). rewrite E. apply Hr.
Qed.

Lemma ts_names_injective c x y s t : ident_chars s -> ident_chars t ->
  words_start_with_letters s -> words_start_with_letters t -> c <> Snake ->
  (x = y \/ (x <> None /\ y <> None)) ->
  ts_name u (ident_from u s) c x = ts_name u (ident_from u t) c y ->
  ident_eqb (ident_from u s) (ident_from u t) = true /\ x = y.
Proof.
  intros Hs Ht Ls Lt Hc Hxy E. rewrite ident_eqb_eq.
  apply (converted_injective c); auto using ident_chars_asciis, words_letters.
  unfold ts_name in E. cbv zeta in E.
  pose proof (converted_chars c x s Hs) as C1. pose proof (converted_chars c y t Ht) as C2. cbv zeta in C1, C2.
  set (a := in_case u c (with_suffix u (ident_from u s) x)) in *.
  set (b := in_case u c (with_suffix u (ident_from u t) y)) in *.
  assert (forall w, match c with Snake => ident_chars w | _ => Forall word_char w end -> ~ In 95 w) as Hn.
  { intros w Hw Hin. destruct c; [congruence| |]; rewrite Forall_forall in Hw; apply Hw in Hin; vm_compute in Hin;
      repeat (destruct Hin as [Hin|Hin]); discriminate Hin. }
  assert (forall w, In 95 (txt "_" ++ w)) as Hr by (intros w; now left).
  destruct (existsb (str_eqb a) TYPESCRIPT_KEYWORDS), (existsb (str_eqb b) TYPESCRIPT_KEYWORDS); auto.
  - now apply app_inv_head in E.
  - exfalso. apply (Hn b C2). rewrite <- E. apply Hr.
  - exfalso. apply (Hn a C1). rewrite E. apply Hr.
Qed.
End Ascii.
