(** The texts of tokens in messages. *)
From Coq Require Import String.
From Verif Require Import TokenFacts PrinterFacts ReportFacts PrintSpec.
From Verif Require Export Located TokenSpec.
Open Scope N_scope. Open Scope list_scope.

Definition proper (u : unicode) (p : str) : Prop := tidy u p /\ no_newline p.
Lemma trimmed_proper u l t : no_newline l -> trimmed u l t -> t <> [] -> proper u t.
Proof.
  intros Hn (a & b & -> & _ & _ & [->|[H1 H2]]) Ht; [congruence|]. split; [now repeat split|].
  intros H. apply Hn. apply in_app_iff. right. apply in_app_iff. now left.
Qed.
Lemma separated_proper u ls : ls <> [] -> Forall (proper u) ls -> proper u (separated 32 ls).
Proof.
  intros Hne H. induction H as [|l ls Hl Hls IH]; [congruence|]. destruct ls as [|l2 ls]; [exact Hl|].
  specialize (IH ltac:(discriminate)). change (separated 32 (l :: l2 :: ls)) with (l ++ 32 :: separated 32 (l2 :: ls)).
  destruct Hl as [(H1 & H2 & H3) H4], IH as [(I1 & I2 & I3) I4]. set (q := separated 32 (l2 :: ls)) in *. split; [split; [|split]|].
  - now destruct l.
  - now destruct l.
  - rewrite <- I3. f_equal. clear - I1. induction l as [|c l IH]; cbn [app].
    + destruct q; [congruence|reflexivity].
    + rewrite <- IH. destruct (l ++ 32 :: q) eqn:E; [now destruct l|reflexivity].
  - intros H. apply in_app_iff in H as [H|[H|H]]; [contradiction|discriminate|contradiction].
Qed.
Lemma paragraphs_proper u lines ps : Forall no_newline lines -> comment_paragraphs u lines ps -> Forall (proper u) ps.
Proof.
  intros Hn (tls & bs & H1 & H2 & ->).
  assert (Forall (fun t => t <> [] -> proper u t) tls) as Ht.
  { clear H2. induction H1 as [|l t ls ts Hl Hls IH]; [constructor|]. inversion_clear Hn. constructor; [|auto]. now apply trimmed_proper with l. }
  clear H1 Hn. induction H2 as [|ls bs H IH|b ls bs Hb Hne Hl H IH]; cbn [map]; [constructor| |].
  - inversion_clear Ht. auto.
  - apply Forall_app in Ht as [Ht1 Ht2]. constructor; [|auto]. apply separated_proper; [exact Hb|].
    clear - Ht1 Hne. induction Ht1; inversion_clear Hne; constructor; auto.
Qed.
Lemma body_lines u lines body : comment_body u lines body -> Forall no_newline lines.
Proof. induction 1; repeat constructor; auto. Qed.

Lemma comment_text_reads u : is_whitespace u 32 = true -> forall ps p, Forall (proper u) (p :: ps) ->
  exists lines body, comment_text true (p :: ps) = 35 :: body ++ [10] /\ comment_body u lines body /\ comment_paragraphs u lines (p :: ps).
Proof.
  intros Hw. induction ps as [|q ps IH]; intros p H; inversion H as [|? ? [(P1 & P2 & P3) P4] Hps]; subst.
  - exists [32 :: p], (32 :: p). split; [reflexivity|]. split.
    + constructor. intros [E|E]; [discriminate|contradiction].
    + exists [p], [[p]]. split; [|split; [|reflexivity]].
      * repeat constructor. exists [32], []. rewrite app_nil_r. repeat split; try (repeat constructor; exact Hw). now right.
      * change [p] with ([p] ++ []) at 1. repeat constructor; auto. discriminate.
  - destruct (IH q Hps) as (lines & body & E & Hb & (tls & bs & T1 & T2 & T3)).
    exists ((32 :: p) :: [] :: lines), ((32 :: p) ++ 10 :: [] ++ 35 :: [] ++ 10 :: [] ++ 35 :: body). split; [|split].
    + cbn [comment_text app] in E |- *. injection E as E. rewrite <- !app_assoc. cbn [app]. rewrite E. reflexivity.
    + constructor; [intros [D|D]; [discriminate|contradiction]|constructor|]. constructor; [intros []|constructor|exact Hb].
    + exists (p :: [] :: tls), ([p] :: bs). split; [|split; [|cbn [map]; now rewrite T3]].
      * constructor; [|constructor; [exists [], []; repeat split; try constructor; reflexivity|exact T1]].
        exists [32], []. rewrite app_nil_r. repeat split; try (repeat constructor; exact Hw). now right.
      * change (p :: [] :: tls) with ([p] ++ [] :: tls). constructor; [discriminate|repeat constructor; exact P1|eauto|now constructor].
Qed.
