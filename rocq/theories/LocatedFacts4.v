(** The range of some tokens of a file can be listed. *)
From Verif Require Import LocatedSpec ReportSpec ReportFacts TokenFacts TokenFacts2 LexErrFacts LocatedFacts2.

Section Sane.
Context (u : unicode) (Hu : ascii_agrees u) (Hw : white_not_alphabetic u).
Definition last_visible (text : str) : Prop := exists x v y, text = x ++ v :: y /\ is_whitespace u v = false /\ no_newline y.
Lemma comment_visible lines body : comment_body u lines body -> last_visible (35 :: body).
Proof.
  induction 1 as [l Hl|l ws ls t Hl Hws Hb (x & v & y & E & H1 & H2)].
  - exists [], 35, l. split; [reflexivity|]. split; [apply (hash_not_white u Hu)|exact Hl].
  - exists (35 :: l ++ 10 :: ws ++ x), v, y. split; [|now split]. rewrite E. rewrite <- !app_comm_cons, <- !app_assoc, <- !app_comm_cons, <- !app_assoc. reflexivity.
Qed.
Lemma one_line_visible c t : is_whitespace u c = false -> no_newline t -> last_visible (c :: t).
Proof. intros H1 H2. now exists [], c, t. Qed.
Lemma letters_no_newline k : Forall (fun d => ascii_is_letter d || ascii_is_digit d = true) k -> no_newline k.
Proof. intros H Hin. rewrite Forall_forall in H. apply H in Hin. discriminate. Qed.
Lemma lexeme_visible text v rest : lexeme u text v rest -> last_visible text.
Proof.
  intros H. pose proof (lexeme_not_white u Hu Hw _ _ _ H) as (c0 & t0 & E & Hc0).
  destruct H as [c v rest H|k v rest H|c name rest H Hn|name rest Hne Hh Hn|digits n rest Hd Hdec|p rest|lines body ps rest Hb].
  - injection E as -> <-. apply one_line_visible; [exact Hc0|intros []].
  - subst k. apply one_line_visible; [exact Hc0|]. apply reserved_start in H as (c & k' & [= <- <-] & _ & H). now apply letters_no_newline.
  - injection E as -> <-. apply one_line_visible; [exact Hc0|]. now apply (name_no_newline u Hu).
  - injection E as <- <-. apply one_line_visible; [exact Hc0|]. now apply (name_no_newline u Hu).
  - subst digits. apply one_line_visible; [exact Hc0|]. apply decimal_value in Hdec as [_ Hdg]. inversion Hdg; subst. now apply digits_no_newline.
  - exists (39 :: p), 39, []. split; [reflexivity|]. split; [apply (white_ascii u Hu); [lia|reflexivity]|intros []].
  - now apply (comment_visible lines).
Qed.
Lemma ordered_slice (R : token -> token -> Prop) a x b y c : ForallOrdPairs R (a ++ x :: b ++ y :: c) -> R x y.
Proof.
  induction a as [|z a IH]; cbn [app]; intros H; inversion H as [|? ? H1 H2]; subst; [|now apply IH].
  rewrite Forall_forall in H1. apply H1. apply in_app_iff. right. now left.
Qed.
Lemma covers_good contents ts a b c r : lexed u 0 contents ts -> ts = a ++ b ++ c -> covers r b -> good_range u contents r.
Proof.
  intros Hlex Hts (Hne & Hs & He). destruct b as [|t1 b]; [congruence|]. clear Hne. cbn [map hd] in Hs.
  assert (exists t2, In t2 (t1 :: b) /\ r_end r = tend t2 /\ (t2 = t1 \/ tend t1 <= tstart t2)) as (t2 & Hin & He2 & Hord).
  { destruct b as [|y b] using rev_ind; [exists t1; split; [now left|split; [exact He|now left]]|]. clear IHb.
    exists y. split; [right; apply in_app_iff; right; now left|]. split.
    - rewrite He. change (t1 :: b ++ [y]) with ((t1 :: b) ++ [y]). rewrite map_app. cbn [map]. now rewrite last_last.
    - right. destruct (lexed_ordered u 0 contents ts Hlex) as [Ho _]. rewrite Hts in Ho.
      replace (a ++ (t1 :: b ++ [y]) ++ c) with (a ++ t1 :: b ++ y :: c) in Ho by (cbn [app]; now rewrite <- app_assoc).
      exact (ordered_slice _ a t1 b y c Ho). }
  assert (In t1 ts) as Hi1 by (rewrite Hts; apply in_app_iff; right; apply in_app_iff; left; now left).
  assert (In t2 ts) as Hi2 by (rewrite Hts; apply in_app_iff; right; apply in_app_iff; now left).
  destruct (lexed_pieces u 0 contents ts Hlex t1 Hi1) as (p1 & x1 & q1 & E1 & S1 & T1 & L1).
  destruct (lexed_pieces u 0 contents ts Hlex t2 Hi2) as (p2 & x2 & q2 & E2 & S2 & T2 & L2).
  assert (blen p1 <= blen p2) as Hle by (destruct Hord as [->|Hord]; lia).
  destruct (prefix_le p1 (x1 ++ q1) p2 (x2 ++ q2)) as [m ->]; [now rewrite <- E1, <- E2|exact Hle|].
  exists p1, (m ++ x2), q2. split; [|right; split].
  - split; [now rewrite E2, <- !app_assoc|]. fold (blen p1) (blen (m ++ x2)). rewrite !blen_app in *. lia.
  - rewrite <- app_assoc in E2. rewrite E2 in E1. apply app_inv_head in E1.
    apply lexeme_not_white in L1 as (c1 & z1 & -> & Hc1); auto. cbn [app] in E1.
    destruct (m ++ x2) as [|d w] eqn:Ed.
    + apply app_eq_nil in Ed as [-> ->]. apply lexeme_nonempty in L2. congruence.
    + cbn [hd]. rewrite app_assoc, Ed in E1. injection E1 as -> _. exact Hc1.
  - destruct (lexeme_visible _ _ _ L2) as (x & v & y & -> & H1 & H2). exists (m ++ x), v, y. rewrite <- app_assoc. auto.
Qed.
Lemma end_good contents ts t : lexed u 0 contents ts -> In t ts -> good_range u contents (mkRange (tend t) (tend t)).
Proof.
  intros Hlex Hin. destruct (lexed_pieces u 0 contents ts Hlex t Hin) as (p & x & q & E & _ & T & _).
  exists (p ++ x), [], q. split; [|now left]. split; [now rewrite E, <- app_assoc|]. cbn [r_start r_end]. fold (blen (p ++ x)) (blen []).
  rewrite blen_app, blen_nil. lia.
Qed.
Lemma complaint_good stem pal contents ts e : lexed u 0 contents ts -> complaint u stem pal ts e -> good_range u contents (xp_range e).
Proof.
  intros Hlex. destruct 1 as [before t after what v E Hx|before t what v E Hx|before t mid t' n after E H1 H2 H3
    |before its mid its' after n n' r E H1 H2 H3 Hc|before its after r p E H1 H2 Hc]; cbn [xp_range].
  - apply (covers_good contents ts before [t] after); auto. now split.
  - apply (end_good contents ts); [exact Hlex|]. rewrite E. apply in_app_iff. right. now left.
  - apply (covers_good contents ts (before ++ t :: mid) [t'] after); auto; [|now split]. rewrite E. now rewrite <- app_assoc.
  - apply (covers_good contents ts (before ++ its ++ mid) its' after); auto. now rewrite E, <- !app_assoc.
  - now apply (covers_good contents ts before its after).
Qed.
End Sane.
