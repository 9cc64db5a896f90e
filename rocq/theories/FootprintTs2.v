(** What the generated TypeScript returns is bounded by a polynomial in the length of the buffer. *)
From Verif Require Export FootprintTs.
From Coq Require Import Lia.

Lemma utf8_char_short c : lenN (utf8_char c) <= 4.
Proof. unfold utf8_char. repeat match goal with |- context [if ?c then _ else _] => destruct c end; unfold lenN; cbn [length]; lia. Qed.
Lemma encode_cons c s : lenN (utf8_encode (c :: s)) = lenN (utf8_char c) + lenN (utf8_encode s).
Proof. unfold utf8_encode. cbn [flat_map]. apply lenN_app. Qed.

Definition pending (need : N) : N := if need =? 0 then 0 else 3.
Lemma first_short b k x : (forall n c l h, lenN (utf8_encode (k n c l h)) <= 3 * x + pending n) ->
  lenN (utf8_encode (utf8_first b k)) <= 3 * x + 3.
Proof.
  intros Hk. unfold utf8_first.
  destruct (b <? 128) eqn:E1.
  { rewrite encode_cons. specialize (Hk 0 0 128 191). unfold pending in Hk. change (0 =? 0) with true in Hk. cbn iota in Hk.
    assert (lenN (utf8_char b) = 1) as -> by (unfold utf8_char; now rewrite E1). lia. }
  destruct (inr 194 223 b); [specialize (Hk 1 (b - 192) 128 191); exact Hk|].
  destruct (inr 224 239 b); [match goal with |- context [k ?n ?c ?l ?h] => specialize (Hk n c l h) end; exact Hk|].
  destruct (inr 240 244 b); [match goal with |- context [k ?n ?c ?l ?h] => specialize (Hk n c l h) end; exact Hk|].
  rewrite encode_cons. specialize (Hk 0 0 128 191). unfold pending in Hk. change (0 =? 0) with true in Hk. cbn iota in Hk.
  change (lenN (utf8_char 65533)) with 3. lia.
Qed.
Lemma lossy_short bs : forall need cp lo hi, lenN (utf8_encode (utf8_lossy need cp lo hi bs)) <= 3 * lenN bs + pending need.
Proof.
  induction bs as [|b bs IH]; intros need cp lo hi; cbn [utf8_lossy].
  - unfold pending. destruct (need =? 0); [apply N.le_refl|]. change (lenN (utf8_encode [65533])) with 3. lia.
  - rewrite lenN_cons. destruct (need =? 0) eqn:E0.
    + unfold pending. rewrite E0. pose proof (first_short b (fun n c l h => utf8_lossy n c l h bs) (lenN bs)) as H.
      specialize (H (fun n c l h => IH n c l h)). cbv beta in H. lia.
    + assert (pending need = 3) as -> by (unfold pending; now rewrite E0).
      destruct (inr lo hi b) eqn:Eb.
      * cbv zeta. destruct (need =? 1).
        { rewrite encode_cons. pose proof (utf8_char_short (64 * cp + (b - 128))). specialize (IH 0 0 128 191). change (pending 0) with 0 in IH. lia. }
        pose proof (IH (need - 1) (64 * cp + (b - 128)) 128 191) as H. unfold pending in H. destruct (need - 1 =? 0); lia.
      * rewrite encode_cons. change (lenN (utf8_char 65533)) with 3. pose proof (first_short b (fun n c l h => utf8_lossy n c l h bs) (lenN bs)) as H.
        specialize (H (fun n c l h => IH n c l h)). cbv beta in H. lia.
Qed.
Lemma text_short bs : lenN (utf8_encode (text_decode bs)) <= 3 * lenN bs.
Proof.
  unfold text_decode. pose proof (lossy_short bs 0 0 128 191) as H. change (pending 0) with 0 in H.
  destruct (utf8_lossy 0 0 128 191 bs) as [|c s]; [cbn [strip_bom]; lia|].
  rewrite encode_cons in H. cbn [strip_bom]. destruct (c =? 65279); [lia|]. rewrite encode_cons. lia.
Qed.

Notation w1 := (weight 1).

Lemma step_le c a b x y : a <= c -> b <= x * c -> 1 + x <= y -> a + b <= y * c.
Proof. intros. nia. Qed.
Lemma mono_le c x y b : b <= x * c -> x <= y -> b <= y * c.
Proof. intros. nia. Qed.

Lemma small_bound c el vlen : (forall off o v, el off = JOk (o, v) -> off < o <= vlen /\ w1 v <= c) ->
  forall n off, jpost (fun vs => sumN (map w1 vs) <= (vlen - off) * c) (ts_small_loop n el off).
Proof.
  intros Hel. induction n as [|n IH]; intros off; [discriminate|]. cbn [ts_small_loop].
  destruct (el off) as [[o v]| | |] eqn:E; try discriminate.
  - destruct (Hel _ _ _ E) as [Ho Hw].
    apply (jpost_jsnd (fun vs => sumN (map w1 vs) <= (vlen - o) * c)); [apply IH|]. intros a Ha. cbn [map sumN].
    assert (1 + (vlen - o) <= vlen - off) as H by lia. exact (step_le _ _ _ _ _ Hw Ha H).
  - intros o a [= <- <-]. apply N.le_0_l.
Qed.
Lemma sized_bound c (el : tdecoder) w : view_ok w ->
  (forall sz w', view_ok w' -> vbuf w' = vbuf w -> jpost (fun v => w1 v <= c) (el sz w' 0)) ->
  forall n off, jpost (fun vs => sumN (map w1 vs) <= (vlen w - off) * c) (ts_sized_loop n el w off).
Proof.
  intros Hv Hel. induction n as [|n IH]; intros off; [discriminate|]. cbn [ts_sized_loop].
  destruct (ts_deserialize_varint w off) as [[o1 sz]| | |] eqn:E; try discriminate;
    [|intros o a [= <- <-]; apply N.le_0_l].
  apply varint_progress in E; [|exact Hv].
  destruct (new_view (vbuf w) (voff w + o1) sz) as [w'| | |] eqn:En; try discriminate.
  apply new_view_ok in En as (Hw' & Eb & _); [|exact Hv]. cbn [jbind].
  destruct (el sz w' 0) as [[o2 v]| | |] eqn:Ee; try discriminate. cbn [jbind fst snd].
  eapply jpost_jsnd; [apply IH|]. cbv beta. intros a Ha. cbn [map sumN].
  pose proof (Hel sz w' Hw' Eb o2 v Ee) as Hw. cbv beta in Hw.
  assert (1 + (vlen w - (o2 + o1)) <= vlen w - off) as H by lia. exact (step_le _ _ _ _ _ Hw Ha H).
Qed.
Lemma struct_bound (Q : N -> val -> Prop) (ds : list (N * tdecoder)) w : view_ok w ->
  (forall i d, tassoc i ds = Some d -> forall sz w', view_ok w' -> vbuf w' = vbuf w -> jpost (Q i) (d sz w' 0)) ->
  forall n slots off res, (forall i v, tassoc i slots = Some v -> Q i v) ->
  ts_struct_loop n ds slots w off = JOk res -> forall i v, tassoc i res = Some v -> Q i v.
Proof.
  intros Hv Hd. induction n as [|n IH]; intros slots off res Hs E; [discriminate|]. cbn [ts_struct_loop] in E.
  destruct (ts_deserialize_header w off) as [[[o1 i] sz]| | |]; try discriminate E.
  - destruct (tassoc i ds) as [d|] eqn:Ed; [|exact (IH slots _ res Hs E)].
    destruct (new_view (vbuf w) (voff w + o1) sz) as [w'| | |] eqn:En; try discriminate E.
    apply new_view_ok in En as (Hw' & Eb & _); [|exact Hv]. cbn [jbind] in E.
    destruct (d sz w' 0) as [[o2 x]| | |] eqn:Ee; try discriminate E. cbn [jbind fst snd] in E.
    refine (IH _ _ res _ E). intros j v. cbn [tassoc]. destruct (i =? j) eqn:Eij; [|apply Hs].
    intros [= <-]. replace j with i by lia. now apply (Hd i d Ed sz w' Hw' Eb o2).
  - injection E as <-. exact Hs.
Qed.
Lemma choice_bound c fs (buf : bytes) :
  (forall f, In f fs -> forall sz w', view_ok w' -> vbuf w' = buf -> jpost (fun v => 1 + w1 v <= c) (ts_decode (f_type f) true sz w' 0)) ->
  forall n w off v, view_ok w -> vbuf w = buf ->
  ts_choice_loop n (map (fun f => (f_index f, (f_rule f, ts_decode (f_type f) true))) fs) w off = JOk v ->
  w1 v <= (vlen w - off) * c.
Proof.
  intros Hd. induction n as [|n IH]; intros w off v Hv Hb E; [discriminate|]. cbn [ts_choice_loop] in E.
  destruct (ts_deserialize_header w off) as [[[o1 i] sz]| | |] eqn:Eh; try discriminate E. cbn [jbind] in E.
  apply ts_header_progress in Eh; [|exact Hv].
  rewrite (tassoc_fields (fun f => (f_rule f, ts_decode (f_type f) true))) in E.
  destruct (find_field i fs) as [f|] eqn:Ef; cbn [omap] in E.
  2: { apply (IH w (o1 + sz)) in E; [|exact Hv|exact Hb]. assert (vlen w - (o1 + sz) <= vlen w - off) as H by lia. exact (mono_le _ _ _ _ E H). }
  destruct (new_view (vbuf w) (voff w + o1) sz) as [w'| | |] eqn:En; try discriminate E.
  apply new_view_ok in En as (Hw' & Eb & _); [|exact Hv]. cbn [jbind] in E.
  destruct (ts_decode (f_type f) true sz w' 0) as [[o2 x]| | |] eqn:Ee; try discriminate E.
  cbn [jbind fst snd] in E.
  pose proof (find_field_in _ _ _ Ef) as [Hin _]. pose proof (Hd f Hin sz w' Hw' (eq_trans Eb Hb) o2 x Ee) as Hx. cbv beta in Hx.
  assert (1 <= vlen w - off) as H1 by lia.
  destruct (f_rule f) eqn:Er.
  all: try (injection E as <-; cbn [weight]; rewrite N.add_0_r; apply (mono_le c 1); [lia|exact H1]).
  destruct (vlen w <? o2 + o1) eqn:El; [discriminate|].
  destruct (new_view _ _ _) as [w2| | |] eqn:En2 in E; try discriminate E. cbn [jbind] in E.
  apply new_view_ok in En2 as (Hw2 & Eb2 & _ & El2); [|exact Hv].
  destruct (ts_choice_loop n _ w2 0) as [fb| | |] eqn:Ec in E; try discriminate E. cbn [jbind] in E.
  apply IH in Ec; [|exact Hw2|congruence]. injection E as <-. cbn [weight]. rewrite El2 in Ec.
  assert (1 + (vlen w - (o2 + o1) - 0) <= vlen w - off) as H by lia. exact (step_le _ _ _ _ _ Hx Ec H).
Qed.

Lemma view_len w : view_ok w -> vlen w <= lenN (vbuf w).
Proof. intros [H _]. lia. Qed.

Lemma bound_in (f : field_of ty) fs len : In f fs -> ts_bound len (f_type f) <= sumN (map (fun f => ts_bound len (f_type f)) fs).
Proof. intros H. apply sumN_in. apply in_map_iff. eauto. Qed.

Lemma ts_decode_bounded : forall t, ty_wf t -> forall isf psz w off, view_ok w ->
  jpost (fun v => w1 v <= ts_bound (lenN (vbuf w)) t) (ts_decode t isf psz w off).
Proof.
  assert (forall (A : Type) (f : A -> val) (x : jres (N * A)) b, 1 <= b -> (forall a, w1 (f a) = 1) -> jpost (fun v => w1 v <= b) (jsnd f x)) as Hone.
  { intros A f x b Hb Hf. apply (jpost_jsnd (fun _ => True)); [intros o a _; exact I|]. intros a _. rewrite Hf. exact Hb. }
  induction t as [| | | | | | |e IH|fs IH|fs IH] using ty_ind'; intros Hwf isf psz w off Hv; cbn [ts_decode ts_bound]; cbv zeta;
    try (apply Hone; [lia|reflexivity]).
  - intros o a [= <- <-]. cbn [weight]. lia.
  - intros o a [= <- <-]. cbn [weight]. rewrite lenN_takeN, lenN_dropN. lia.
  - destruct (vlen w <? off); [discriminate|]. intros o a [= <- <-]. cbn [weight].
    match goal with |- 1 + lenN (utf8_encode (text_decode ?b)) <= _ => pose proof (text_short b) as H; assert (lenN b <= lenN (vbuf w)) as H2 by (rewrite lenN_takeN, lenN_dropN; lia) end. lia.
  - pose proof (view_len w Hv) as Hl. set (c := ts_bound (lenN (vbuf w)) e) in *.
    assert (is_unit e = false -> jpost (fun v => w1 v <= 1 + lenN (vbuf w) * c)
      (jsnd VArr (ts_sized_loop (S (length (vbuf w))) (ts_decode e false) w off))) as Hsz.
    { intros Hu. eapply jpost_jsnd.
      - apply (sized_bound c); [exact Hv|]. intros sz w' Hw' Eb. unfold c. rewrite <- Eb. now apply IH.
      - cbv beta. intros l Hs. cbn [weight]. apply N.add_le_mono_l. apply (mono_le _ _ _ _ Hs). lia. }
    assert (is_unit e = false -> sized_element e = false -> jpost (fun v => w1 v <= 1 + lenN (vbuf w) * c)
      (jsnd VArr (ts_small_loop (S (length (vbuf w))) (fun off => ts_decode e false 0 w off) off))) as Hsm.
    { intros Hu Hse. eapply jpost_jsnd.
      - apply (small_bound c _ (vlen w)). intros o o2 v Ev. split; [now apply (elem_progress e w o o2 v)|]. now apply (IH Hwf false 0 w o Hv o2 v).
      - cbv beta. intros l Hs. cbn [weight]. apply N.add_le_mono_l. apply (mono_le _ _ _ _ Hs). lia. }
    destruct e; cbn [is_unit]; try (now apply Hsz); try (now apply Hsm).
    intros o a E. destruct (ts_dec_u64 isf psz w off) as [[o1 n]| | |]; try discriminate E. cbn [jbind snd fst] in E.
    destruct (n <? 4294967296) eqn:En; [|discriminate E]. injection E as <- <-. cbn [weight]. lia.
  - destruct Hwf as [Hn Hwf]. apply allP_Forall in Hwf. rewrite Forall_forall in IH, Hwf.
    intros o a E.
    destruct (ts_struct_loop _ _ _ _ _) as [slots| | |] eqn:El in E; try discriminate E. cbn [jbind] in E.
    destruct (ts_missing fs slots) eqn:Em; [discriminate E|]. injection E as <- <-.
    assert (forall i v, tassoc i slots = Some v -> exists f, find_field i fs = Some f /\ w1 v <= ts_bound (lenN (vbuf w)) (f_type f)) as Hq.
    { eapply (struct_bound (fun i v => exists f, find_field i fs = Some f /\ w1 v <= ts_bound (lenN (vbuf w)) (f_type f))); [exact Hv| | |exact El];
        [|discriminate]. intros i d Hd sz w' Hw' Eb. rewrite tassoc_fields in Hd.
      destruct (find_field i fs) as [f|] eqn:Ef; [|discriminate]. cbn [omap] in Hd. injection Hd as <-.
      intros o v Ev. exists f. split; [reflexivity|]. apply find_field_in in Ef as [Hf _]. rewrite <- Eb.
      exact (IH f Hf (proj2 (Hwf f Hf)) true sz w' 0 Hw' o v Ev). }
    cbn [weight]. rewrite map_map. apply N.add_le_mono_l.
    assert (forall gs, (forall g, In g gs -> In g fs) ->
      sumN (map (fun f => 1 + match tassoc (f_index f) slots with Some v => w1 v | None => 0 end) gs)
      <= sumN (map (fun f => 1 + ts_bound (lenN (vbuf w)) (f_type f)) gs)) as Hall.
    { induction gs as [|g gs IHg]; intros Hin; [apply N.le_refl|]. cbn [map sumN].
      specialize (IHg (fun x Hx => Hin x (or_intror Hx))).
      destruct (tassoc (f_index g) slots) as [v|] eqn:Ea; [|lia].
      destruct (Hq _ _ Ea) as (f & Hf & Hw). rewrite (find_field_nodup fs g Hn (Hin g (or_introl eq_refl))) in Hf. injection Hf as <-. lia. }
    now apply Hall.
  - destruct Hwf as [Hn Hwf]. apply allP_Forall in Hwf. rewrite Forall_forall in IH, Hwf.
    intros o a E. destruct (ts_choice_loop _ _ _ _) as [x| | |] eqn:El in E; try discriminate E.
    cbn [jbind] in E. injection E as <- <-.
    eapply choice_bound in El; [| |exact Hv|reflexivity].
    + pose proof (view_len w Hv) as Hl. eapply N.le_trans; [exact El|]. apply N.mul_le_mono_r. lia.
    + intros f Hf sz w' Hw' Eb o v Ev. pose proof (IH f Hf (proj2 (Hwf f Hf)) true sz w' 0 Hw' o v Ev) as H. cbv beta in H.
      rewrite Eb in H. pose proof (bound_in f fs (lenN (vbuf w)) Hf). lia.
Qed.

Lemma ts_deserialize_bounded t w v : ty_wf t -> view_ok w -> ts_deserialize t w = TsMessage v -> w1 v <= ts_bound (lenN (vbuf w)) t.
Proof.
  intros Ht Hv E. unfold ts_deserialize in E.
  destruct (ts_decode t true (vlen w) w 0) as [[o x]| | |] eqn:Ed; try discriminate E.
  injection E as <-. now apply (ts_decode_bounded t Ht true (vlen w) w 0 Hv o).
Qed.
