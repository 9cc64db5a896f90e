(** Every message the generated TypeScript returns has the declared type. *)
From Verif Require Export TsDecFacts2.

Definition rng (a b : N) : Prop := b < 55296 \/ (57344 <= a /\ b < 1114112).
Definition uinv (need cp lo hi : N) : Prop :=
  need = 0 \/
  (128 <= lo /\ hi <= 191 /\
   ((need = 1 /\ rng (64 * cp + lo - 128) (64 * cp + hi - 128)) \/
    (need = 2 /\ rng ((64 * cp + lo - 128) * 64) ((64 * cp + hi - 128) * 64 + 63)) \/
    (need = 3 /\ rng ((64 * cp + lo - 128) * 4096) ((64 * cp + hi - 128) * 4096 + 4095)))).

Lemma utf8_first_ok b k : (forall n c l h, uinv n c l h -> str_ok (k n c l h)) -> str_ok (utf8_first b k).
Proof.
  intros Hk. unfold utf8_first, inr.
  destruct (b <? 128) eqn:E1; [constructor; [left; lia|apply Hk; now left]|].
  destruct ((194 <=? b) && (b <=? 223)) eqn:E2;
    [apply Hk; right; unfold rng; split; [lia|]; split; [lia|]; left; split; [reflexivity|lia]|].
  destruct ((224 <=? b) && (b <=? 239)) eqn:E3.
  { apply Hk. right. unfold rng. destruct (b =? 224) eqn:A; destruct (b =? 237) eqn:B; (split; [lia|]; split; [lia|]);
      right; left; (split; [reflexivity|lia]). }
  destruct ((240 <=? b) && (b <=? 244)) eqn:E4.
  { apply Hk. right. unfold rng. destruct (b =? 240) eqn:A; destruct (b =? 244) eqn:B; (split; [lia|]; split; [lia|]);
      right; right; (split; [reflexivity|lia]). }
  constructor; [right; lia|apply Hk; now left].
Qed.

Lemma utf8_lossy_ok bs : forall need cp lo hi, uinv need cp lo hi -> str_ok (utf8_lossy need cp lo hi bs).
Proof.
  induction bs as [|b bs IH]; intros need cp lo hi H; cbn [utf8_lossy].
  - destruct (need =? 0); constructor; [right; lia|constructor].
  - destruct (need =? 0) eqn:E0; [apply utf8_first_ok; intros; now apply IH|].
    destruct (inr lo hi b) eqn:Eb.
    + unfold inr in Eb. destruct H as [H|(Hl & Hh & H)]; [lia|].
      destruct (need =? 1) eqn:E1.
      * constructor; [|apply IH; now left]. unfold scalar_ok, rng in *. lia.
      * apply IH. right. split; [lia|]. split; [lia|]. unfold rng in *. lia.
    + constructor; [right; lia|]. apply utf8_first_ok. intros. now apply IH.
Qed.

Lemma text_decode_ok bs : str_ok (text_decode bs).
Proof.
  unfold text_decode. pose proof (utf8_lossy_ok bs 0 0 128 191 (or_introl eq_refl)) as H.
  destruct (utf8_lossy 0 0 128 191 bs) as [|c s]; [exact H|]. cbn [strip_bom].
  destruct (c =? 65279); [now inversion H|exact H].
Qed.

Definition jpost {A} (Q : A -> Prop) (x : jres (N * A)) : Prop := forall o a, x = JOk (o, a) -> Q a.
Lemma jpost_jsnd {A B} (Q : A -> Prop) (R : B -> Prop) (f : A -> B) x :
  jpost Q x -> (forall a, Q a -> R (f a)) -> jpost R (jsnd f x).
Proof.
  intros H Hf o b E. unfold jsnd in E. destruct x as [[o' a]| | |]; try discriminate E.
  cbn [jbind fst snd] in E. injection E as <- <-. apply Hf. now apply (H o').
Qed.

Lemma varint_jpost w off : view_ok w -> jpost (fun n => n < two64) (ts_deserialize_varint w off).
Proof.
  intros Hv o n E. rewrite ts_deserialize_varint_eq in E by exact Hv.
  pose proof (proj1 (varint_post _ (vrest_ok w off Hv))) as H.
  destruct (deserialize_varint (vrest w off)) as [x rest|e| | |]; try discriminate E.
  cbn [as_js] in E. injection E as _ <-. cbn [rpost] in H. tauto.
Qed.
Lemma get_u64_lt w off n : view_ok w -> get_u64 w off = JOk n -> n < two64.
Proof.
  intros Hv E. unfold get_u64, jmap in E. rewrite vget_rest in E by (auto; lia).
  destruct (8 <=? _); [|discriminate]. cbn [jbind] in E. injection E as <-.
  pose proof (vrest_ok w off Hv) as H.
  assert (bytes_ok (takeN 8 (vrest w off))) as H1 by (apply bytes_ok_takeN; exact H).
  pose proof (le_val_bound _ H1) as H2. pose proof (lenN_takeN 8 (vrest w off)) as H3.
  eapply N.lt_le_trans; [exact H2|]. unfold two64. change 18446744073709551616 with (2 ^ 64).
  apply N.pow_le_mono_r; lia.
Qed.
Lemma u64_jpost isf psz w off : view_ok w -> jpost (fun n => n < two64) (ts_dec_u64 isf psz w off).
Proof.
  intros Hv. unfold ts_dec_u64. pose proof (varint_jpost w off Hv) as H.
  destruct isf; [|exact H]. destruct (psz =? 0); [intros o a [= <- <-]; reflexivity|].
  destruct (psz =? 8); [|exact H]. intros o n E.
  destruct (get_u64 w off) as [x| | |] eqn:Eg; try discriminate E. cbn [jbind] in E. injection E as <- <-.
  now apply (get_u64_lt w off).
Qed.
Lemma js_bits_lt b : b < two64 -> js_bits b < two64.
Proof. intros H. unfold js_bits. destruct (is_nan b); [reflexivity|exact H]. Qed.
Lemma f64_jpost isf psz w off : view_ok w -> jpost (fun n => n < two64) (ts_dec_f64 isf psz w off).
Proof.
  intros Hv. unfold ts_dec_f64. destruct (isf && _); [intros o a [= <- <-]; reflexivity|].
  intros o n E. destruct (get_u64 w off) as [x| | |] eqn:Eg; try discriminate E.
  cbn [jbind] in E. injection E as <- <-. apply js_bits_lt. now apply (get_u64_lt w off).
Qed.

Lemma small_jpost (Q : val -> Prop) el : (forall off, jpost Q (el off)) ->
  forall n off, jpost (Forall Q) (ts_small_loop n el off).
Proof.
  intros Hel. induction n as [|n IH]; intros off; [discriminate|]. cbn [ts_small_loop].
  destruct (el off) as [[o v]| | |] eqn:E; try discriminate.
  - apply (jpost_jsnd (Forall Q)); [apply IH|]. intros a Ha. constructor; [now apply (Hel off o)|exact Ha].
  - intros o a [= <- <-]. constructor.
Qed.
Lemma sized_jpost (Q : val -> Prop) (el : tdecoder) w : view_ok w ->
  (forall sz w', view_ok w' -> jpost Q (el sz w' 0)) ->
  forall n off, jpost (Forall Q) (ts_sized_loop n el w off).
Proof.
  intros Hv Hel. induction n as [|n IH]; intros off; [discriminate|]. cbn [ts_sized_loop].
  destruct (ts_deserialize_varint w off) as [[o1 sz]| | |] eqn:E; try discriminate;
    [|intros o a [= <- <-]; constructor].
  destruct (new_view (vbuf w) (voff w + o1) sz) as [w'| | |] eqn:En; try discriminate.
  apply new_view_ok in En as (Hw' & _); [|exact Hv]. cbn [jbind].
  destruct (el sz w' 0) as [[o2 v]| | |] eqn:Ee; try discriminate. cbn [jbind fst snd].
  apply (jpost_jsnd (Forall Q)); [apply IH|]. intros a Ha. constructor; [|exact Ha].
  now apply (Hel sz w' Hw' o2).
Qed.
Lemma struct_jpost (Q : N -> val -> Prop) (ds : list (N * tdecoder)) w : view_ok w ->
  (forall i d, tassoc i ds = Some d -> forall sz w', view_ok w' -> jpost (Q i) (d sz w' 0)) ->
  forall n slots off res, (forall i v, tassoc i slots = Some v -> Q i v) ->
  ts_struct_loop n ds slots w off = JOk res -> forall i v, tassoc i res = Some v -> Q i v.
Proof.
  intros Hv Hd. induction n as [|n IH]; intros slots off res Hs E; [discriminate|]. cbn [ts_struct_loop] in E.
  destruct (ts_deserialize_header w off) as [[[o1 i] sz]| | |]; try discriminate E.
  - destruct (tassoc i ds) as [d|] eqn:Ed; [|exact (IH slots _ res Hs E)].
    destruct (new_view (vbuf w) (voff w + o1) sz) as [w'| | |] eqn:En; try discriminate E.
    apply new_view_ok in En as (Hw' & _); [|exact Hv]. cbn [jbind] in E.
    destruct (d sz w' 0) as [[o2 x]| | |] eqn:Ee; try discriminate E. cbn [jbind fst snd] in E.
    refine (IH _ _ res _ E). intros j v. cbn [tassoc]. destruct (i =? j) eqn:Eij; [|apply Hs].
    intros [= <-]. replace j with i by lia. now apply (Hd i d Ed sz w' Hw' o2).
  - injection E as <-. exact Hs.
Qed.

Lemma ts_choice_typed fs : NoDup (indices fs) ->
  (forall f, In f fs -> forall sz w', view_ok w' -> jpost (fun v => wt DIn v (f_type f)) (ts_decode (f_type f) true sz w' 0)) ->
  forall n w off v, view_ok w ->
  ts_choice_loop n (map (fun f => (f_index f, (f_rule f, ts_decode (f_type f) true))) fs) w off = JOk v ->
  wt DIn v (TChoice fs).
Proof.
  intros Hn Hd. induction n as [|n IH]; intros w off v Hv E; [discriminate|]. cbn [ts_choice_loop] in E.
  destruct (ts_deserialize_header w off) as [[[o1 i] sz]| | |]; try discriminate E. cbn [jbind] in E.
  rewrite (tassoc_fields (fun f => (f_rule f, ts_decode (f_type f) true))) in E.
  destruct (find_field i fs) as [f|] eqn:Ef; cbn [omap] in E; [|now apply (IH w (o1 + sz))].
  destruct (new_view (vbuf w) (voff w + o1) sz) as [w'| | |] eqn:En; try discriminate E.
  apply new_view_ok in En as (Hw' & _); [|exact Hv]. cbn [jbind] in E.
  destruct (ts_decode (f_type f) true sz w' 0) as [[o2 x]| | |] eqn:Ee; try discriminate E.
  cbn [jbind fst snd] in E.
  pose proof (find_field_in _ _ _ Ef) as [Hin _]. pose proof (Hd f Hin sz w' Hw' o2 x Ee) as Hx. cbv beta in Hx.
  destruct (f_rule f) eqn:Er.
  all: try (injection E as <-; cbn [wt]; rewrite Ef, Er; auto; fail).
  destruct (vlen w <? o2 + o1) eqn:El; [discriminate|].
  destruct (new_view _ _ _) as [w2| | |] eqn:En2 in E; try discriminate E. cbn [jbind] in E.
  apply new_view_ok in En2 as (Hw2 & _); [|exact Hv].
  destruct (ts_choice_loop n _ w2 0) as [fb| | |] eqn:Ec in E; try discriminate E. cbn [jbind] in E.
  apply IH in Ec; [|exact Hw2]. injection E as <-. cbn [wt]. rewrite Ef, Er. auto.
Qed.

Lemma ts_decode_typed : forall t, ty_wf t -> forall isf psz w off, view_ok w ->
  jpost (fun v => wt DIn v t) (ts_decode t isf psz w off).
Proof.
  induction t as [| | | | | | |e IH|fs IH|fs IH] using ty_ind'; intros Hwf isf psz w off Hv; cbn [ts_decode]; cbv zeta.
  - intros o a [= <- <-]. exact I.
  - apply (jpost_jsnd (fun n => n < two64)); [now apply f64_jpost|auto].
  - apply (jpost_jsnd (fun n => n < two64)); [now apply u64_jpost|auto].
  - apply (jpost_jsnd (fun n => n < two64)); [now apply u64_jpost|].
    intros n Hn. cbn [wt]. rewrite ts_zigzag_decode_eq by exact Hn. now apply zigzag_decode_ok.
  - apply (jpost_jsnd (fun n => n < two64)); [now apply u64_jpost|]. intros; exact I.
  - intros o a [= <- <-]. apply bytes_ok_takeN, bytes_ok_dropN, (proj2 Hv).
  - destruct (vlen w <? off); [discriminate|]. intros o a [= <- <-]. apply text_decode_ok.
  - assert (is_unit e = false -> jpost (fun v => wt DIn v (TArray e))
      (jsnd VArr (ts_sized_loop (S (length (vbuf w))) (ts_decode e false) w off))) as Hsz.
    { intros Hu. apply (jpost_jsnd (Forall (fun v => wt DIn v e))).
      - apply sized_jpost; [exact Hv|]. intros sz w' Hw'. now apply IH.
      - intros l Hl. cbn [wt]. destruct e; try discriminate Hu; (split; [reflexivity|now apply allP_Forall]). }
    assert (is_unit e = false -> jpost (fun v => wt DIn v (TArray e))
      (jsnd VArr (ts_small_loop (S (length (vbuf w))) (fun off => ts_decode e false 0 w off) off))) as Hsm.
    { intros Hu. apply (jpost_jsnd (Forall (fun v => wt DIn v e))).
      - apply small_jpost. intros o. now apply IH.
      - intros l Hl. cbn [wt]. destruct e; try discriminate Hu; (split; [reflexivity|now apply allP_Forall]). }
    destruct e; try (now apply Hsz); try (now apply Hsm).
    intros o a E. pose proof (u64_jpost isf psz w off Hv) as H.
    destruct (ts_dec_u64 isf psz w off) as [[o1 n]| | |]; try discriminate E. cbn [jbind snd fst] in E.
    destruct (n <? 4294967296) eqn:En; [|discriminate E]. injection E as <- <-. cbn [wt].
    unfold two64. lia.
  - destruct Hwf as [Hn Hwf]. apply allP_Forall in Hwf. rewrite Forall_forall in IH, Hwf.
    intros o a E.
    destruct (ts_struct_loop _ _ _ _ _) as [slots| | |] eqn:El in E; try discriminate E. cbn [jbind] in E.
    destruct (ts_missing fs slots) eqn:Em; [discriminate E|]. injection E as <- <-.
    assert (forall i v, tassoc i slots = Some v -> exists f, find_field i fs = Some f /\ wt DIn v (f_type f)) as Hq.
    { eapply (struct_jpost (fun i v => exists f, find_field i fs = Some f /\ wt DIn v (f_type f))); [exact Hv| | |exact El];
        [|discriminate]. intros i d Hd sz w' Hw'. rewrite tassoc_fields in Hd.
      destruct (find_field i fs) as [f|] eqn:Ef; [|discriminate]. cbn [omap] in Hd. injection Hd as <-.
      intros o v Ev. exists f. split; [reflexivity|]. apply find_field_in in Ef as [Hf _].
      exact (IH f Hf (proj2 (Hwf f Hf)) true sz w' 0 Hw' o v Ev). }
    cbn [wt].
    assert (map (fun f => tassoc (f_index f) slots) fs = map (fun f => assoc (f_index f) slots) fs) as ->
      by (apply map_ext; intros; apply tassoc_assoc).
    apply all2P_assoc. intros f Hf. rewrite <- tassoc_assoc.
    destruct (tassoc (f_index f) slots) as [v|] eqn:Ea.
    + destruct (Hq _ _ Ea) as (g & Hg & Hw). rewrite (find_field_nodup fs f Hn Hf) in Hg.
      injection Hg as <-. exact Hw.
    + destruct (f_rule f) eqn:Er; try reflexivity. exfalso.
      assert (ts_missing fs slots = true); [|congruence].
      apply existsb_exists. exists f. split; [exact Hf|]. now rewrite Er, Ea.
  - destruct Hwf as [Hn Hwf]. apply allP_Forall in Hwf. rewrite Forall_forall in IH, Hwf.
    intros o a E. destruct (ts_choice_loop _ _ _ _) as [x| | |] eqn:El in E; try discriminate E.
    cbn [jbind] in E. injection E as <- <-. eapply ts_choice_typed; [exact Hn| |exact Hv|exact El].
    intros f Hf sz w' Hw'. apply (IH f Hf); [apply (Hwf f Hf)|exact Hw'].
Qed.

Lemma ts_deserialized_typed t w v : ty_wf t -> view_ok w -> ts_deserialize t w = TsMessage v -> wt DIn v t.
Proof.
  intros Ht Hv E. unfold ts_deserialize in E.
  destruct (ts_decode t true (vlen w) w 0) as [[o x]| | |] eqn:Ed; try discriminate E.
  injection E as <-. now apply (ts_decode_typed t Ht true (vlen w) w 0 Hv o).
Qed.
