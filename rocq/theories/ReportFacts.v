(** Proofs about the model of error.rs. *)
From Verif Require Import ReportSpec TokenFacts TokenFacts2 PrinterFacts.

(** ** Decimal numbers *)
Lemma digits_lead fuel : forall n acc, n < 2 ^ N.of_nat fuel -> 0 < n ->
  exists ds c, decimal_digits fuel n acc = (c :: ds) ++ acc /\ c <> 48.
Proof.
  induction fuel as [|fuel IH]; intros n acc Hn H0; [cbn in Hn; lia|]. cbn [decimal_digits]. cbv zeta.
  pose proof (N.div_mod n 10 ltac:(lia)) as Hd. pose proof (N.mod_lt n 10 ltac:(lia)) as Hm.
  destruct (n / 10 =? 0) eqn:E.
  - exists [], (48 + n mod 10). split; [reflexivity|]. lia.
  - rewrite Nat2N.inj_succ, N.pow_succ_r' in Hn.
    destruct (IH (n / 10) (48 + n mod 10 :: acc)) as (ds & c & H1 & H2); [lia|lia|].
    exists (ds ++ [48 + n mod 10]), c. split; [|exact H2]. rewrite H1. cbn. now rewrite <- app_assoc.
Qed.
Definition numeral (n : N) (s : str) : Prop := decimal s n /\ forall t, s <> 48 :: t.
Lemma number_numeral n : 0 < n -> numeral n (print_number n).
Proof.
  intros H. split; [apply (number_decimal (fun _ => None))|]. intros t E. unfold print_number in E.
  destruct (digits_lead (S (N.to_nat (N.log2 n))) n []) as (ds & c & H1 & H2); [|exact H|].
  - rewrite Nat2N.inj_succ, N2Nat.id. apply N.log2_spec. lia.
  - rewrite H1 in E. injection E as E _. lia.
Qed.
Lemma decimal_upper s n : decimal s n -> n < 10 ^ lenN s.
Proof.
  induction 1; [reflexivity|]. unfold lenN in *. rewrite app_length. cbn. rewrite Nat.add_1_r, Nat2N.inj_succ, N.pow_succ_r'. lia.
Qed.
Lemma decimal_lower s n : decimal s n -> s <> [] -> (forall t, s <> 48 :: t) -> 0 < n -> 10 ^ lenN s <= n * 10.
Proof.
  induction 1 as [|s n d H IH Hd]; intros He Hz Hn; [congruence|].
  unfold lenN in *. rewrite app_length. cbn [length]. rewrite Nat.add_1_r, Nat2N.inj_succ, N.pow_succ_r'.
  destruct s as [|c s].
  - inversion H as [E|a b c0 E E1 E2 E3]; [subst n|destruct a; discriminate]. cbn. lia.
  - assert (forall t, c :: s <> 48 :: t) as Hz' by (intros t E; injection E as -> ->; apply (Hz (t ++ [48 + d])); reflexivity).
    assert (0 < n) as Hn'.
    { destruct (N.eq_dec n 0) as [->|]; [exfalso|lia]. clear -H Hz'.
      remember (c :: s) as l eqn:E. remember 0 as z eqn:Ez. revert c s E Hz'. induction H as [|l n d H IH Hd]; intros c s E Hz; [discriminate|].
      assert (n = 0) by lia. assert (d = 0) by lia. subst n d.
      destruct l as [|c' l]; [apply (Hz []); reflexivity|]. cbn in E. 
      apply (IH eq_refl c' l eq_refl). intros t Et. injection Et as -> ->. apply (Hz (t ++ [48 + 0])). reflexivity. }
    specialize (IH ltac:(discriminate) Hz' Hn'). lia.
Qed.
Lemma decimal_same_length s n : decimal s n -> forall s', decimal s' n -> length s = length s' -> s = s'.
Proof.
  induction 1 as [|s n d H IH Hd]; intros s' H' Hl; [now destruct s'|].
  rewrite app_length in Hl. cbn in Hl. inversion H' as [E1 E2|s1 n1 d1 H1 Hd1 E1 E2]; subst.
  - cbn in Hl. lia.
  - rewrite app_length in Hl. cbn in Hl. assert (n1 = n /\ d1 = d) as [-> ->] by lia. f_equal. apply IH; [exact H1|lia].
Qed.
Lemma decimal_nonempty s n : decimal s n -> 0 < n -> s <> [].
Proof. intros H Hn ->. apply decimal_upper in H. change (lenN []) with 0 in H. rewrite N.pow_0_r in H. lia. Qed.
Lemma numeral_unique n s : 0 < n -> numeral n s -> s = print_number n.
Proof.
  intros Hn [H1 H2]. destruct (number_numeral n Hn) as [H3 H4]. apply (decimal_same_length s n H1); [exact H3|].
  pose proof (decimal_upper _ _ H1). pose proof (decimal_upper _ _ H3).
  pose proof (decimal_lower _ _ H1 (decimal_nonempty _ _ H1 Hn) H2 Hn).
  pose proof (decimal_lower _ _ H3 (decimal_nonempty _ _ H3 Hn) H4 Hn).
  assert (10 ^ lenN s < 10 ^ (lenN (print_number n) + 1)) as A by (rewrite N.pow_add_r; change (10 ^ 1) with 10; lia).
  assert (10 ^ lenN (print_number n) < 10 ^ (lenN s + 1)) as B by (rewrite N.pow_add_r; change (10 ^ 1) with 10; lia).
  apply N.pow_lt_mono_r_iff in A; [|lia]. apply N.pow_lt_mono_r_iff in B; [|lia]. unfold lenN in A, B. lia.
Qed.

(** ** Lines *)
Lemma no_newline_cons c s : no_newline (c :: s) <-> c <> 10 /\ no_newline s.
Proof. unfold no_newline. cbn. intuition. Qed.
Lemma no_newline_app a b : no_newline (a ++ b) <-> no_newline a /\ no_newline b.
Proof. unfold no_newline. rewrite in_app_iff. tauto. Qed.
Lemma split_last l : no_newline l -> split_on 10 l = [l].
Proof.
  induction l as [|c l IH]; [reflexivity|]. intros H. apply no_newline_cons in H as [H1 H2]. cbn.
  rewrite (proj2 (N.eqb_neq c 10) H1), (IH H2). reflexivity.
Qed.
Lemma split_more l s : no_newline l -> split_on 10 (l ++ 10 :: s) = l :: split_on 10 s.
Proof.
  induction l as [|c l IH]; intros H; [reflexivity|]. apply no_newline_cons in H as [H1 H2]. cbn.
  rewrite (proj2 (N.eqb_neq c 10) H1), (IH H2). reflexivity.
Qed.
Lemma first_line s : no_newline s \/ exists l s', s = l ++ 10 :: s' /\ no_newline l.
Proof.
  induction s as [|c s [H|(l & s' & -> & H)]].
  - left. intros [].
  - destruct (N.eq_dec c 10) as [->|Hc]; [right; exists [], s; split; [reflexivity|intros []]|left; now apply no_newline_cons].
  - right. destruct (N.eq_dec c 10) as [->|Hc]; [exists [], (l ++ 10 :: s'); split; [reflexivity|intros []]|].
    exists (c :: l), s'. split; [reflexivity|now apply no_newline_cons].
Qed.
Lemma line_unique l s l' s' : no_newline l -> no_newline l' -> l ++ 10 :: s = l' ++ 10 :: s' -> l = l' /\ s = s'.
Proof.
  revert l'. induction l as [|c l IH]; intros [|c' l'] H H' E.
  - now injection E.
  - injection E as <- _. now apply no_newline_cons in H'.
  - injection E as -> _. now apply no_newline_cons in H.
  - injection E as -> E. apply no_newline_cons in H as [_ H]. apply no_newline_cons in H' as [_ H']. destruct (IH l' H H' E) as [-> ->]. auto.
Qed.
Lemma lines_ind (P : str -> Prop) :
  (forall l, no_newline l -> P l) -> (forall l s, no_newline l -> P s -> P (l ++ 10 :: s)) -> forall s, P s.
Proof.
  intros H1 H2 s. remember (length s) as n eqn:E. revert s E. induction n as [n IH] using lt_wf_ind. intros s ->.
  destruct (first_line s) as [H|(l & s' & -> & H)]; [now apply H1|]. apply H2; [exact H|]. apply (IH (length s')); [|reflexivity].
  rewrite app_length. cbn. lia.
Qed.

Fixpoint rows_from (i pos : N) (ls : list str) : list row :=
  match ls with [] => [] | l :: ls' => mkRow (i + 1) pos l :: rows_from (i + 1) (pos + blen l + 1) ls' end.
Lemma newlines_app a b : newlines (a ++ b) = newlines a + newlines b.
Proof. unfold newlines. rewrite count_occ_app. lia. Qed.
Lemma newlines_none l : no_newline l -> newlines l = 0.
Proof. intros H. unfold newlines. now rewrite (proj1 (count_occ_not_In _ _ _) H). Qed.
Lemma newlines_nil : newlines [] = 0.
Proof. reflexivity. Qed.
Definition line_from (i pos : N) (s : str) (w : row) : Prop :=
  exists before after, s = before ++ w_line w ++ after /\ no_newline (w_line w) /\
    (before = [] \/ exists b, before = b ++ [10]) /\ (after = [] \/ exists a, after = 10 :: a) /\
    w_offset w = pos + blen before /\ w_number w = i + 1 + newlines before.
Lemma rows_lines s : forall i pos w, In w (rows_from i pos (split_on 10 s)) <-> line_from i pos s w.
Proof.
  induction s as [l Hl|l s Hl IH] using lines_ind; intros i pos w.
  - rewrite split_last by exact Hl. cbn [rows_from In]. split.
    + intros [<-|[]]. exists [], []. cbn. rewrite app_nil_r, blen_nil, newlines_nil. repeat split; auto; lia.
    + intros (b & a & E & Hw & Hb & Ha & Ho & Hn). left. subst l. rewrite !no_newline_app in Hl. destruct Hl as (Hb' & _ & Ha').
      destruct Hb as [->|(b' & ->)]; [|exfalso; apply Hb'; rewrite in_app_iff; cbn; auto].
      destruct Ha as [->|(a' & ->)]; [|exfalso; apply Ha'; cbn; auto].
      rewrite blen_nil in Ho. rewrite newlines_nil in Hn. destruct w as [wn wo wl]. cbn in *. rewrite app_nil_r. f_equal; lia.
  - rewrite split_more by exact Hl. cbn [rows_from In]. rewrite IH. split.
    + intros [<-|(b & a & E & Hw & Hb & Ha & Ho & Hn)].
      * exists [], (10 :: s). cbn. rewrite blen_nil, newlines_nil. repeat split; eauto; lia.
      * exists (l ++ 10 :: b), a. repeat split; auto.
        -- rewrite E, <- !app_assoc. reflexivity.
        -- right. destruct Hb as [->|(b' & ->)]; [now exists l|]. exists (l ++ 10 :: b'). now rewrite <- app_assoc.
        -- rewrite Ho, blen_app, blen_cons, clen_ascii by lia. lia.
        -- rewrite Hn. change (10 :: b) with ([10] ++ b). rewrite !newlines_app, (newlines_none l Hl). change (newlines [10]) with 1. lia.
    + intros (b & a & E & Hw & Hb & Ha & Ho & Hn). destruct Hb as [->|(b' & ->)].
      * left. cbn in E. rewrite blen_nil in Ho. rewrite newlines_nil in Hn. destruct Ha as [->|(a' & ->)].
        -- exfalso. rewrite app_nil_r in E. rewrite <- E in Hw. apply Hw. rewrite in_app_iff. cbn. auto.
        -- apply line_unique in E as [E ->]; [|assumption..]. destruct w as [wn wo wl]. cbn in *. subst. f_equal; cbn; lia.
      * right. destruct (first_line b') as [Hn'|(l1 & b1 & -> & Hl1)].
        -- rewrite <- !app_assoc in E. cbn in E. apply line_unique in E as [-> ->]; [|assumption..].
           exists [], a. cbn. rewrite blen_nil, newlines_nil. repeat split; auto; [rewrite Ho, blen_app, blen_cons, blen_nil, clen_ascii by lia; lia|].
           rewrite Hn, newlines_app, (newlines_none _ Hn'). change (newlines [10]) with 1. cbn. lia.
        -- rewrite <- !app_assoc in E. cbn in E. apply line_unique in E as [-> ->]; [|assumption..].
           exists (b1 ++ [10]), a. rewrite <- !app_assoc. repeat split; eauto.
           ++ rewrite Ho. repeat (rewrite blen_app || rewrite blen_cons || rewrite blen_nil). rewrite (clen_ascii 10) by lia. lia.
           ++ rewrite Hn, <- app_assoc. change (10 :: b1) with ([10] ++ b1). cbn [app]. 
              change (10 :: b1 ++ [10]) with ([10] ++ b1 ++ [10]).
              rewrite newlines_app, (newlines_none _ Hl1), newlines_app. change (newlines [10]) with 1. lia.
Qed.
Lemma rows_lines_of s w : In w (rows_from 0 0 (split_on 10 s)) <-> line_of s w.
Proof.
  rewrite rows_lines. unfold line_from, line_of. split; intros (b & a & E & H1 & H2 & H3 & H4 & H5); exists b, a; repeat split; auto.
Qed.
Lemma rows_after ls : forall i pos w, In w (rows_from i pos ls) -> i < w_number w /\ pos <= w_offset w.
Proof.
  induction ls as [|l ls IH]; intros i pos w; [intros []|]. cbn. intros [<-|H]; [cbn; lia|]. apply IH in H. lia.
Qed.
Lemma rows_sorted ls : forall i pos, StronglySorted (fun v w => w_number v < w_number w) (rows_from i pos ls).
Proof.
  induction ls as [|l ls IH]; intros i pos; [constructor|]. cbn. constructor; [apply IH|]. apply Forall_forall. intros w H.
  apply rows_after in H. cbn. lia.
Qed.

(** What [relevant] pushes. *)
Definition touches_b (r : srange) (w : row) : bool :=
  (w_offset w <? r_end r) && (r_start r <=? w_offset w + blen (w_line w)).
Lemma touches_iff r w : touches_b r w = true <-> touches r w.
Proof. unfold touches_b, touches, blen. rewrite andb_true_iff, N.ltb_lt, N.leb_le. tauto. Qed.
Definition section (u : unicode) (r : srange) (w : row) : N * N :=
  let t := trim_end u (w_line w) in
  let e := N.min (r_end r - w_offset w) (blen t) in
  if w_offset w <? r_start r then (N.min (r_start r - w_offset w) (blen t), e)
  else (match find_text u t with Some o => o | None => e end, e).
Definition pushed (u : unicode) (r : srange) (w : row) : lline :=
  mkLine (print_number (w_number w)) (trim_end u (w_line w)) (fst (section u r w)) (snd (section u r w)).
Lemma none_touched r ls : forall i pos, r_end r <= pos -> filter (touches_b r) (rows_from i pos ls) = [].
Proof.
  induction ls as [|l ls IH]; intros i pos H; [reflexivity|]. cbn. unfold touches_b at 1. cbn [w_offset w_line].
  destruct (N.ltb_spec pos (r_end r)); [lia|]. cbn. apply IH. lia.
Qed.
Lemma relevant_rows u r ls : forall i pos, relevant u r i pos ls = map (pushed u r) (filter (touches_b r) (rows_from i pos ls)).
Proof.
  induction ls as [|l ls IH]; intros i pos; [reflexivity|]. cbn [relevant rows_from filter]. unfold touches_b at 1.
  cbn [w_offset w_line]. destruct (N.leb_spec (r_end r) pos) as [H|H].
  - destruct (N.ltb_spec pos (r_end r)); [lia|]. cbn. now rewrite none_touched by lia.
  - destruct (N.ltb_spec pos (r_end r)); [|lia]. cbn [andb].
    destruct (N.leb_spec (pos + blen l + 1) (r_start r)) as [H2|H2]; destruct (N.leb_spec (r_start r) (pos + blen l)) as [H3|H3]; try lia.
    + apply IH.
    + cbn [map]. rewrite <- IH. unfold pushed, section. cbn [w_offset w_line w_number].
      now destruct (pos <? r_start r).
Qed.

(** ** Cutting strings *)
Lemma blen_zero s : blen s = 0 -> s = [].
Proof. destruct s as [|c s]; [reflexivity|]. rewrite blen_cons. pose proof (clen_pos c). lia. Qed.
Lemma cut_app x y : cut (blen x) (x ++ y) = Some (x, y).
Proof.
  induction x as [|c x IH]; [now destruct y|]. cbn [app cut]. rewrite blen_cons. pose proof (clen_pos c).
  destruct (N.eqb_spec (clen c + blen x) 0); [lia|]. destruct (N.leb_spec (clen c) (clen c + blen x)); [|lia].
  replace (clen c + blen x - clen c) with (blen x) by lia. now rewrite IH.
Qed.
Lemma prefix_le (p q p' q' : str) : p ++ q = p' ++ q' -> blen p <= blen p' -> exists m, p' = p ++ m.
Proof.
  revert p'. induction p as [|c p IH]; intros p' E H; [now exists p'|]. destruct p' as [|c' p'].
  - rewrite blen_cons, blen_nil in H. pose proof (clen_pos c). lia.
  - injection E as -> E. rewrite !blen_cons in H. destruct (IH p' E) as [m ->]; [lia|]. now exists m.
Qed.
Lemma prefix_lt (p q p' q' : str) : p ++ q = p' ++ q' -> blen p < blen p' -> exists c m, p' = p ++ c :: m.
Proof.
  intros E H. destruct (prefix_le _ _ _ _ E) as [[|c m] ->]; [lia| |now exists c, m].
  rewrite app_nil_r in H. lia.
Qed.
Lemma char_at s j : j < blen s -> exists x c y, s = x ++ c :: y /\ blen x <= j < blen x + clen c.
Proof.
  induction s as [|c s IH] using rev_ind; [rewrite blen_nil; lia|]. rewrite blen_app, blen_cons, blen_nil. intros H.
  destruct (N.lt_ge_cases j (blen s)) as [H1|H1].
  - destruct (IH H1) as (x & c' & y & -> & H2). exists x, c', (y ++ [c]). rewrite <- app_assoc. auto.
  - exists s, c, []. split; [reflexivity|lia].
Qed.

Lemma trim_end_spec u s : exists ws, s = trim_end u s ++ ws /\ whites u ws /\
  (trim_end u s = [] \/ is_whitespace u (last (trim_end u s) 0) = false).
Proof.
  unfold trim_end. destruct (trim_start_spec u (rev s)) as (a & E & Ha & Hb). exists (rev a). split; [|split].
  - apply (f_equal (@rev _)) in E. now rewrite rev_involutive, rev_app_distr in E.
  - unfold whites in *. now apply Forall_rev.
  - rewrite last_rev. destruct Hb as [->|Hb]; [now left|]. right. exact Hb.
Qed.
Lemma find_text_spec u s : match find_text u s with
  | Some o => exists a c b, s = a ++ c :: b /\ whites u a /\ is_whitespace u c = false /\ o = blen a
  | None => whites u s end.
Proof.
  induction s as [|c s IH]; [constructor|]. cbn. destruct (is_whitespace u c) eqn:Ec.
  - destruct (find_text u s) as [o|].
    + destruct IH as (a & v & b & -> & H1 & H2 & ->). exists (c :: a), v, b. repeat split; auto; [now constructor|]. now rewrite blen_cons.
    + now constructor.
  - exists [], c, s. repeat split; auto. constructor.
Qed.
Lemma whites_app u a b : whites u (a ++ b) <-> whites u a /\ whites u b.
Proof. apply Forall_app. Qed.
Lemma whites_in u s c : whites u s -> In c s -> is_whitespace u c = true.
Proof. intros H Hc. now apply (proj1 (Forall_forall _ _) H). Qed.
Lemma last_in (s : str) : s <> [] -> In (last s 0) s.
Proof. intros H. destruct (exists_last H) as (a & c & ->). rewrite last_last, in_app_iff. cbn. auto. Qed.

Lemma bound_in (contents P Q before line after : str) : contents = P ++ Q -> contents = before ++ line ++ after ->
  blen before <= blen P <= blen before + blen line -> exists x y, line = x ++ y /\ P = before ++ x.
Proof.
  intros E1 E2 [H1 H2]. rewrite E1 in E2. symmetry in E2. destruct (prefix_le _ _ _ _ E2 H1) as [x ->].
  rewrite <- app_assoc in E2. apply app_inv_head in E2. symmetry in E2. rewrite blen_app in H2.
  destruct (prefix_le _ _ _ _ E2) as [y ->]; [lia|]. now exists x, y.
Qed.
Lemma t_cut (t ws x y : str) : t ++ ws = x ++ y -> exists p q, t = p ++ q /\ blen p = N.min (blen x) (blen t).
Proof.
  intros E. destruct (N.le_ge_cases (blen x) (blen t)) as [H|H].
  - symmetry in E. destruct (prefix_le _ _ _ _ E H) as [q ->]. exists x, q. split; [reflexivity|]. rewrite blen_app. lia.
  - exists t, []. rewrite app_nil_r. split; [reflexivity|lia].
Qed.
(** A non-white character in a prefix. *)
Lemma first_text u t o x v q : find_text u t = Some o -> t = x ++ v :: q -> ~ whites u (x ++ [v]) -> o <= blen x.
Proof.
  intros H E Hx. pose proof (find_text_spec u t) as Hs. rewrite H in Hs. destruct Hs as (a & c & b & E2 & Ha & Hc & ->).
  destruct (N.le_gt_cases (blen a) (blen x)) as [L|L]; [exact L|]. exfalso. apply Hx. rewrite E in E2.
  destruct (prefix_lt _ _ _ _ E2 L) as (v' & m & ->). rewrite <- app_assoc in E2. apply app_inv_head in E2. injection E2 as <- _.
  change (v :: m) with ([v] ++ m) in Ha. rewrite app_assoc in Ha. now apply whites_app in Ha as [Ha _].
Qed.
Lemma prefix_step (x y : str) v x' y' : x ++ v :: y = x' ++ y' -> blen x < blen x' -> exists m, x' = x ++ v :: m.
Proof.
  intros E L. destruct (prefix_lt _ _ _ _ E L) as (c & m & ->). rewrite <- app_assoc in E. apply app_inv_head in E.
  injection E as <- _. now exists m.
Qed.
Lemma section_marks u contents r w : is_whitespace u 10 = true -> good_range u contents r -> line_of contents w -> touches r w ->
  exists pre mid post, trim_end u (w_line w) = pre ++ mid ++ post /\ section u r w = (blen pre, blen pre + blen mid) /\
    forall j, blen pre <= j < blen pre + blen mid <-> marked u r w j.
Proof.
  intros Hn10 (a & b & c & (Ec & Es & Ee) & Hb) (before & after & El & Hnl & Hbe & Haf & Eo & _) [Ht1 Ht2].
  fold (blen a) in Es, Ee. fold (blen b) in Ee. fold (blen before) in Eo. fold (blen (w_line w)) in Ht2.
  set (line := w_line w) in *. set (off := w_offset w) in *.
  destruct (trim_end_spec u line) as (ws & Et & Hws & Hlast). set (t := trim_end u line) in *.
  assert (forall x v y, line = x ++ v :: y -> ~ whites u (v :: y) -> exists q, t = x ++ v :: q) as Hpre.
  { intros x v y E Hy. rewrite Et in E. symmetry in E. destruct (N.lt_ge_cases (blen x) (blen t)) as [H|H]; [now apply (prefix_step _ _ _ _ _ E)|].
    exfalso. apply Hy. symmetry in E. destruct (prefix_le _ _ _ _ E H) as [m ->]. rewrite <- app_assoc in E. apply app_inv_head in E.
    subst ws. now apply whites_app in Hws as [_ Hws]. }
  assert (exists x y, line = x ++ y /\ blen x = N.min (r_end r - off) (blen line) /\
            (r_end r - off <= blen line -> a ++ b = before ++ x)) as (xe & ye & Exe & Hxe & Habx).
  { destruct (N.le_gt_cases (r_end r - off) (blen line)) as [H|H].
    - destruct (bound_in contents (a ++ b) c before line after) as (x & y & E1 & E2); [now rewrite <- app_assoc|exact El|rewrite blen_app; lia|].
      exists x, y. apply (f_equal blen) in E2 as E3. rewrite !blen_app in E3. split; [exact E1|]. split; [lia|auto].
    - exists line, []. rewrite app_nil_r. split; [reflexivity|]. split; [lia|]. lia. }
  assert (blen line = blen t + blen ws) as Hlt by (rewrite Et at 1; apply blen_app).
  assert (exists tp tq, t = tp ++ tq /\ blen tp = N.min (r_end r - off) (blen t)) as (tp & tq & Etp & Htp).
  { destruct (t_cut t ws xe ye) as (p & q & E1 & E2); [now rewrite <- Et|]. exists p, q. split; [exact E1|].
    rewrite E2, Hxe. lia. }
  (* the start of the section *)
  assert (exists pre, blen pre = (if off <? r_start r then N.min (r_start r - off) (blen t) else match find_text u t with Some o => o | None => blen tp end) /\
            (exists q, t = pre ++ q) /\ blen pre <= blen tp /\
            forall x v y, line = x ++ v :: y -> ~ whites u (v :: y) -> off + blen x < r_end r ->
              (blen pre <= blen x <-> r_start r <= off + blen x /\ ~ whites u (x ++ [v]))) as (pre & Hpr & [q Eq] & Hle & Hm).
  { destruct (N.ltb_spec off (r_start r)) as [H|H].
    - destruct (bound_in contents a (b ++ c) before line after) as (x & y & E1 & E2); [exact Ec|exact El|lia|].
      apply (f_equal blen) in E2 as E3. rewrite blen_app in E3.
      destruct (t_cut t ws x y) as (p & q & E4 & E5); [now rewrite <- Et|]. exists p.
      split; [rewrite E5; lia|]. split; [now exists q|]. split; [rewrite E5, Htp; lia|].
      intros x0 v y0 H0 H1 H2. destruct (Hpre _ _ _ H0 H1) as [q0 Eq0].
      assert (blen x0 < blen t) as Hx0 by (rewrite Eq0, blen_app, blen_cons; pose proof (clen_pos v); lia).
      split; [|intros [Hp1 Hp2]; rewrite E5; lia].
      intros Hp. split; [lia|]. intros Hw. destruct Hb as [->|(Hb & _)]; [rewrite blen_nil in Ee; lia|].
      destruct b as [|v0 b]; [rewrite blen_nil in Ee; lia|]. cbn in Hb.
      assert (exists m, x0 ++ [v] = x ++ v0 :: m) as [m Em].
      { assert (blen x <= blen x0) as Hx by lia. rewrite E1 in H0. destruct (prefix_le _ _ _ _ H0 Hx) as [m ->].
        rewrite <- app_assoc in H0. apply app_inv_head in H0.
        assert (exists y2, y ++ after = v0 :: y2) as [y2 Ey2].
        { rewrite Ec, E1, E2, <- !app_assoc in El. apply app_inv_head in El. apply app_inv_head in El. eexists. symmetry. exact El. }
        rewrite H0 in Ey2. destruct m as [|m0 m]; cbn in Ey2; injection Ey2 as -> _; [exists []; now rewrite app_nil_r|].
        exists (m ++ [v]). now rewrite <- !app_assoc. }
      apply whites_in with (c := v0) in Hw; [congruence|]. rewrite Em, in_app_iff. cbn. auto.
    - pose proof (find_text_spec u t) as Hf. destruct (find_text u t) as [o|] eqn:Ef.
      + destruct Hf as (p & v & q & E1 & Hp & Hv & ->). exists p. split; [reflexivity|]. split; [now exists (v :: q)|]. split.
        * rewrite Htp. apply N.min_glb; [|rewrite E1, blen_app; lia].
          destruct (N.le_gt_cases (r_end r - off) (blen line)) as [L|L]; [|rewrite Hlt, E1, !blen_app in L; lia].
          specialize (Habx L). destruct Hb as [->|(Hb & x1 & v1 & y1 & E2 & Hv1 & Hy1)]; [rewrite blen_nil in Ee; lia|].
          assert (In v1 xe) as Hin.
          { assert (blen a <= blen before) as L2 by lia. destruct (prefix_le _ _ _ _ Habx L2) as [b0 E0]. rewrite E0 in Habx.
            rewrite <- app_assoc in Habx. apply app_inv_head in Habx.
            destruct (N.le_gt_cases (blen b0) (blen x1)) as [L3|L3].
            - rewrite E2 in Habx. symmetry in Habx. destruct (prefix_le _ _ _ _ Habx L3) as [m ->].
              rewrite <- app_assoc in Habx. apply app_inv_head in Habx. rewrite Habx, in_app_iff. cbn. auto.
            - exfalso. destruct Hbe as [Hbe|(b1 & Hbe)].
              + rewrite Hbe in E0. symmetry in E0. apply app_eq_nil in E0 as [_ ->]. rewrite blen_nil in L3. lia.
              + rewrite E2 in Habx. destruct (prefix_step _ _ _ _ _ Habx L3) as (m & ->). rewrite <- app_assoc in Habx.
                apply app_inv_head in Habx. injection Habx as E3.
                assert (last (a ++ x1 ++ v1 :: m) 0 = 10) as E4 by (rewrite <- E0, Hbe; apply last_last).
                rewrite last_app_ne in E4 by (now destruct x1). rewrite last_app_ne in E4 by discriminate.
                destruct m as [|m0 m]; [cbn in E4; congruence|].
                change (v1 :: m0 :: m) with ([v1] ++ m0 :: m) in E4. rewrite last_app_ne in E4 by discriminate.
                apply Hy1. rewrite E3, in_app_iff. left. rewrite <- E4. apply last_in. discriminate. }
          apply in_split in Hin as (x2 & y2 & E6).
          destruct (Hpre x2 v1 (y2 ++ ye)) as [q2 Eq2]; [rewrite Exe, E6, <- app_assoc; reflexivity|intros Hw; inversion Hw; congruence|].
          assert (blen p <= blen x2) as Hpx.
          { apply (first_text u t _ x2 v1 q2 Ef Eq2). intros Hw. apply whites_app in Hw as [_ Hw]. inversion Hw. congruence. }
          assert (blen x2 <= blen xe) by (rewrite E6, blen_app; lia). lia.
        * intros x v0 y H0 H1 H2. destruct (Hpre _ _ _ H0 H1) as [q0 Eq0]. split.
          -- intros Hx. split; [lia|]. intros Hw. apply (whites_in _ _ v) in Hw; [congruence|].
             assert (p ++ v :: q = x ++ v0 :: q0) as E9 by congruence. destruct (prefix_le _ _ _ _ E9 Hx) as [m ->].
             rewrite <- app_assoc in E9. apply app_inv_head in E9. destruct m as [|m0 m]; injection E9 as -> _; rewrite !in_app_iff; cbn; auto.
          -- intros [_ Hw]. now apply (first_text u t _ x v0 q0 Ef Eq0).
      + exists tp. split; [reflexivity|]. split; [now exists tq|]. split; [lia|].
        intros x v y H0 H1 H2. exfalso. apply H1. destruct (Hpre _ _ _ H0 H1) as [q0 Eq0].
        assert (line = (x ++ v :: q0) ++ ws) as E9 by (now rewrite <- Eq0). rewrite H0, <- app_assoc in E9.
        apply app_inv_head in E9. rewrite E9. cbn. rewrite Eq0 in Hf. apply whites_app in Hf as [_ Hf].
        change (v :: q0 ++ ws) with ((v :: q0) ++ ws). apply whites_app. auto. }
  assert (exists mid, tp = pre ++ mid) as [mid Emid] by (apply (prefix_le pre q tp tq); [congruence|exact Hle]).
  exists pre, mid, tq. split; [now rewrite Etp, Emid, <- app_assoc|]. rewrite <- blen_app, <- Emid. split.
  { unfold section. fold line t off. rewrite <- Htp. destruct (off <? r_start r); rewrite <- Hpr; reflexivity. }
  intros j. unfold marked. fold line off. split.
  - intros [H1 H2]. destruct (char_at t j) as (x & v & y & E & Hj); [lia|].
    assert (line = x ++ v :: (y ++ ws)) as El2 by (rewrite Et at 1; rewrite E, <- app_assoc; reflexivity).
    assert (~ whites u (v :: y ++ ws)) as Hvy.
    { intros Hw. destruct Hlast as [E0|Hl]; [rewrite E0 in E; now destruct x|]. rewrite E, last_app_ne in Hl by discriminate.
      change (v :: y ++ ws) with ((v :: y) ++ ws) in Hw. apply whites_app in Hw as [Hw _].
      apply whites_in with (c := last (v :: y) 0) in Hw; [congruence|]. apply last_in. discriminate. }
    assert (blen pre <= blen x) as Hpx.
    { destruct (N.le_gt_cases (blen pre) (blen x)) as [L|L]; [exact L|]. exfalso.
      assert (x ++ v :: y = pre ++ q) as E9 by congruence. destruct (prefix_step _ _ _ _ _ E9 L) as [m ->].
      rewrite blen_app, blen_cons in H1. lia. }
    assert (off + blen x < r_end r) as Hxe2 by lia.
    apply (Hm x v _ El2 Hvy Hxe2) in Hpx as [Hp1 Hp2]. exists x, v, (y ++ ws). fold (blen x) (blen (x ++ [v])).
    rewrite blen_app, blen_cons, blen_nil, N.add_0_r. auto 6.
  - intros (x & v & y & E & Hj & [Hr1 Hr2] & Hw1 & Hw2). fold (blen x) (blen (x ++ [v])) in *.
    rewrite blen_app, blen_cons, blen_nil, N.add_0_r in Hj. split.
    + assert (blen pre <= blen x) by (apply (Hm x v y E Hw2 Hr2); auto). lia.
    + destruct (Hpre x v y E Hw2) as [q0 Eq0].
      assert (blen x < blen tp) as L.
      { rewrite Htp. apply N.min_glb_lt; [lia|]. rewrite Eq0, blen_app, blen_cons. pose proof (clen_pos v). lia. }
      assert (x ++ v :: q0 = tp ++ tq) as E9 by congruence. destruct (prefix_step _ _ _ _ _ E9 L) as [m ->].
      rewrite blen_app, blen_cons. lia.
Qed.

(** ** The listing *)
Lemma nth_copies n c j : nth_error (copies c n) j = if (j <? N.to_nat n)%nat then Some c else None.
Proof.
  unfold copies. destruct (Nat.ltb_spec j (N.to_nat n)) as [H|H].
  - rewrite (nth_error_nth' _ c) by (now rewrite repeat_length). f_equal. apply nth_repeat.
  - apply nth_error_None. now rewrite repeat_length.
Qed.
Lemma marks_spec u r w from to : from <= to -> (forall j, from <= j < to <-> marked u r w j) ->
  marks u r w (if from =? to then [] else copies 32 from ++ copies 8254 (to - from)).
Proof.
  intros Hle H. unfold marks. destruct (N.eqb_spec from to) as [->|Hne].
  - split; [|split; [constructor|now left]]. intros j. rewrite <- H. destruct (N.to_nat j); split; intros; [discriminate|lia|discriminate|lia].
  - split; [|split].
    + intros j. rewrite <- H. destruct (N.lt_ge_cases j from) as [L|L].
      * rewrite nth_error_app1 by (unfold copies; rewrite repeat_length; lia). rewrite nth_copies.
        destruct (Nat.ltb_spec (N.to_nat j) (N.to_nat from)); [|lia]. split; [discriminate|lia].
      * rewrite nth_error_app2 by (unfold copies; rewrite repeat_length; lia). rewrite nth_copies. unfold copies. rewrite repeat_length.
        destruct (Nat.ltb_spec (N.to_nat j - N.to_nat from) (N.to_nat (to - from))); split; try discriminate; try lia; auto.
    + apply Forall_app. split; apply Forall_forall; intros c Hc; apply repeat_spec in Hc; auto.
    + right. rewrite last_app_ne.
      * unfold copies. replace (N.to_nat (to - from)) with (S (N.to_nat (to - from - 1))) by lia.
        generalize (N.to_nat (to - from - 1)). induction n as [|n IH]; [reflexivity|]. exact IH.
      * unfold copies. replace (N.to_nat (to - from)) with (S (N.to_nat (to - from - 1))) by lia. discriminate.
Qed.
Lemma line_number contents w : line_of contents w -> 0 < w_number w.
Proof. intros (b & a & _ & _ & _ & _ & _ & ->). lia. Qed.
Lemma render_shows u contents r w width last : is_whitespace u 10 = true -> good_range u contents r -> line_of contents w -> touches r w ->
  exists t, render None width last (pushed u r w) = Some t /\ shows u r (N.to_nat width) last w t.
Proof.
  intros Hn Hr Hl Ht. destruct (section_marks u contents r w Hn Hr Hl Ht) as (pre & mid & post & E & Es & Hm).
  unfold render, pushed. rewrite Es. cbn [ll_number ll_text ll_from ll_to fst snd]. rewrite E, <- blen_app, app_assoc, cut_app, cut_app.
  eexists. split; [reflexivity|]. destruct (trim_end_spec u (w_line w)) as (ws & Ew & Hws & Hlast).
  pose proof (number_numeral (w_number w) (line_number _ _ Hl)) as [Hd Hz].
  exists (print_number (w_number w)), (trim_end u (w_line w)), ws, (if blen pre =? blen (pre ++ mid) then [] else copies 32 (blen pre) ++ copies 8254 (blen (pre ++ mid) - blen pre)).
  repeat (split; [assumption|]). split.
  - apply marks_spec; [rewrite blen_app; lia|]. now rewrite blen_app.
  - cbn [paint]. rewrite E. unfold copies at 1. replace (N.to_nat (width - lenN (print_number (w_number w)))) with (N.to_nat width - length (print_number (w_number w)))%nat by (unfold lenN; lia).
    rewrite <- !app_assoc. do 6 f_equal. cbn [app]. 
    destruct (N.eqb_spec (blen pre) (blen (pre ++ mid))) as [H|H].
    + unfold copies. now destruct last.
    + assert (copies 8254 (blen (pre ++ mid) - blen pre) <> []) as Hne.
      { unfold copies. destruct (N.to_nat (blen (pre ++ mid) - blen pre)) eqn:E1; [rewrite blen_app in *; lia|discriminate]. }
      destruct (copies 32 (blen pre) ++ copies 8254 (blen (pre ++ mid) - blen pre)) as [|c0 m0] eqn:E2; [apply app_eq_nil in E2 as [_ E2]; congruence|].
      unfold copies at 1. now destruct last.
Qed.
Lemma fold_max {A} (f : A -> N) l : forall m, (forall x, In x l -> f x <= fold_left (fun a x => N.max a (f x)) l m) /\
  m <= fold_left (fun a x => N.max a (f x)) l m /\
  (fold_left (fun a x => N.max a (f x)) l m = m \/ exists x, In x l /\ f x = fold_left (fun a x => N.max a (f x)) l m).
Proof.
  induction l as [|y l IH]; intros m; cbn.
  - split; [intros x []|]. split; [lia|auto].
  - destruct (IH (N.max m (f y))) as (H1 & H2 & H3). split; [|split].
    + intros x [<-|Hx]; [lia|auto].
    + lia.
    + destruct H3 as [H3|(x & Hx & H3)]; [|right; eauto].
      destruct (N.max_spec m (f y)) as [[_ E]|[_ E]]; rewrite E in *; [right; exists y; auto|left; exact H3].
Qed.
Lemma render_all_shown u contents r width : is_whitespace u 10 = true -> good_range u contents r -> forall ws,
  Forall (fun w => line_of contents w /\ touches r w) ws ->
  exists ts, render_all None width (map (pushed u r) ws) = Some ts /\ all_shown u r (N.to_nat width) ws ts.
Proof.
  intros Hn Hr ws. induction 1 as [|w ws [Hl Ht] _ (ts & IH1 & IH2)]; [eexists; split; [reflexivity|constructor]|].
  cbn [map render_all]. destruct (render_shows u contents r w width (negb (is_nonempty (map (pushed u r) ws))) Hn Hr Hl Ht) as (t & H1 & H2).
  rewrite H1, IH1. eexists. split; [reflexivity|]. constructor; [|exact IH2]. now destruct ws.
Qed.
Lemma join_separated ts : join [10] ts = separated 10 ts.
Proof. induction ts as [|t [|t' ts] IH]; [reflexivity..|]. change (t ++ [10] ++ join [10] (t' :: ts) = t ++ 10 :: separated 10 (t' :: ts)). now rewrite IH. Qed.
Theorem listing_lists u contents r : is_whitespace u 10 = true -> good_range u contents r ->
  exists text, listing u None contents r = Some text /\ lists u contents r text.
Proof.
  intros Hn Hr. unfold listing. rewrite relevant_rows. set (ws := filter (touches_b r) (rows_from 0 0 (split_on 10 contents))).
  assert (forall w, In w ws <-> line_of contents w /\ touches r w) as Hin.
  { intros w. unfold ws. rewrite filter_In, rows_lines_of, touches_iff. reflexivity. }
  set (width := gutter_width (map (pushed u r) ws)).
  destruct (render_all_shown u contents r width Hn Hr ws) as (ts & H1 & H2); [apply Forall_forall; intros w; apply Hin|].
  rewrite H1. eexists. split; [reflexivity|]. exists ws, (N.to_nat width), ts. split; [|split; [|split; [exact H2|apply join_separated]]].
  - split; [|exact Hin]. unfold ws. generalize (rows_sorted (split_on 10 contents) 0 0). generalize (rows_from 0 0 (split_on 10 contents)).
    induction 1 as [|w l _ IH Hf]; [constructor|]. cbn. destruct (touches_b r w); [|exact IH]. constructor; [exact IH|].
    apply Forall_forall. intros v Hv. apply filter_In in Hv as [Hv _]. exact (proj1 (Forall_forall _ _) Hf v Hv).
  - assert (width = fold_left (fun a w => N.max a (lenN (print_number (w_number w)))) ws 0) as Eg.
    { unfold width, gutter_width. clear. generalize 0. induction ws as [|w l IH]; intros m; [reflexivity|]. cbn. apply IH. }
    destruct (fold_max (fun w => lenN (print_number (w_number w))) ws 0) as (H3 & _ & H4). rewrite <- Eg in H3, H4. split.
    + intros w number Hw Hd Hz. pose proof (line_number _ _ (proj1 (proj1 (Hin w) Hw))) as H0.
      rewrite (numeral_unique _ _ H0 (conj Hd Hz)). apply H3 in Hw. unfold lenN in Hw. lia.
    + destruct ws as [|w0 ws0] eqn:Ews; [now left|right]. rewrite <- Ews in *.
      assert (exists w, In w ws /\ lenN (print_number (w_number w)) = width) as (w & Hw & H5).
      { destruct H4 as [H4|H4]; [|exact H4]. assert (In w0 ws) as Hw0 by (rewrite Ews; now left). exists w0. split; [exact Hw0|].
        apply H3 in Hw0. lia. }
      pose proof (line_number _ _ (proj1 (proj1 (Hin w) Hw))) as H0. destruct (number_numeral _ H0) as [Hd Hz].
      exists w, (print_number (w_number w)). unfold lenN in H5. repeat split; auto. lia.
Qed.
(** It does not panic, coloured or not. *)
Lemma render_total u p contents r w width last : is_whitespace u 10 = true -> good_range u contents r -> line_of contents w -> touches r w ->
  exists t, render p width last (pushed u r w) = Some t.
Proof.
  intros Hn Hr Hl Ht. destruct (section_marks u contents r w Hn Hr Hl Ht) as (pre & mid & post & E & Es & Hm).
  unfold render, pushed. rewrite Es. cbn [ll_number ll_text ll_from ll_to fst snd]. rewrite E, <- blen_app, app_assoc, cut_app, cut_app.
  eexists. reflexivity.
Qed.
Lemma render_all_total u p contents r width : is_whitespace u 10 = true -> good_range u contents r -> forall ws,
  Forall (fun w => line_of contents w /\ touches r w) ws -> exists ts, render_all p width (map (pushed u r) ws) = Some ts.
Proof.
  intros Hn Hr ws. induction 1 as [|w ws [Hl Ht] _ (ts & IH1)]; [eexists; reflexivity|].
  cbn [map render_all]. rewrite IH1. destruct (render_total u p contents r w width (negb (is_nonempty (map (pushed u r) ws))) Hn Hr Hl Ht) as (t & ->).
  eexists. reflexivity.
Qed.
Theorem listing_total u p contents r : is_whitespace u 10 = true -> good_range u contents r -> exists text, listing u p contents r = Some text.
Proof.
  intros Hn Hr. unfold listing. rewrite relevant_rows. set (ws := filter (touches_b r) (rows_from 0 0 (split_on 10 contents))).
  destruct (render_all_total u p contents r (gutter_width (map (pushed u r) ws)) Hn Hr ws) as (ts & ->); [|eexists; reflexivity].
  apply Forall_forall. intros w. unfold ws. rewrite filter_In, rows_lines_of, touches_iff. auto.
Qed.
