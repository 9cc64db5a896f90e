(** The generated deserialization code reads what the model reads: values that are not of declared types. *)
From Verif Require Import TypesFacts IdentFacts BaseFacts TsPrimFacts RustAtlasFacts.
From Verif Require Export TsSerSim2.

(** ** Outcomes *)
Definition thrown (k : jerr) (h : heap) (o : sout) : Prop := exists E' h', o = SoThrow (JvError k) E' h' /\ grows h h' /\ scratch h'.
Definition outcome {A} (x : jres A) (h : heap) (K : A -> sout -> Prop) (o : sout) : Prop :=
  match x with JOk a => K a o | JRange => thrown KRange h o | JError => thrown KOther h o | JFuel => True end.
Lemma thrown_snext k h o f : thrown k h o -> thrown k h (snext o f).
Proof. intros (E' & h' & -> & H). exists E', h'. auto. Qed.
Lemma thrown_leave k h n o : thrown k h o -> thrown k h (leave_block n o).
Proof. intros (E' & h' & -> & H). eexists _, h'. split; [reflexivity|exact H]. Qed.
Lemma thrown_after k h o : thrown k h o -> thrown k h (after_loop o).
Proof. intros (E' & h' & -> & H). exists E', h'. auto. Qed.
Lemma thrown_grows k h h1 o : grows h h1 -> thrown k h1 o -> thrown k h o.
Proof. intros G (E' & h' & -> & G' & H). exists E', h'. split; [reflexivity|]. split; [exact (grows_trans _ _ _ G G')|exact H]. Qed.
Lemma thrown_at k h h1 E : grows h h1 -> scratch h1 -> thrown k h (SoThrow (JvError k) E h1).
Proof. intros G S. now exists E, h1. Qed.
Lemma outcome_imp {A} (x : jres A) h (K K' : A -> sout -> Prop) o : outcome x h K o -> (forall a, x = JOk a -> K a o -> K' a o) -> outcome x h K' o.
Proof. destruct x; cbn [outcome]; auto. Qed.
(** What follows keeps what has been thrown. *)
Lemma outcome_then {A} (x : jres A) h (K K' : A -> sout -> Prop) o (g : sout -> sout) : (forall k, thrown k h o -> thrown k h (g o)) -> outcome x h K o ->
  (forall a, x = JOk a -> K a o -> K' a (g o)) -> outcome x h K' (g o).
Proof. intros Hg. destruct x; cbn [outcome]; auto. Qed.
Lemma outcome_bind {A B} (x : jres A) (k : A -> jres B) h K o : outcome x h (fun a o => outcome (k a) h K o) o -> outcome (jbind x k) h K o.
Proof. destruct x; exact (fun H => H). Qed.
Lemma outcome_grows {A} (x : jres A) h h1 (K : A -> sout -> Prop) o : grows h h1 -> outcome x h1 K o -> outcome x h K o.
Proof. intros G. destruct x; cbn [outcome]; auto; now apply thrown_grows. Qed.

Section Deser.
Context (rounds : nat) (find : scope -> jcallee -> option (scope * jfn)) (reach : scope -> str -> bool) (u : unicode).
Context (Hg0 : good_scope find reach []) (Hrounds : (9 <= rounds)%nat).
Notation run := (run_jfn rounds find reach).
Notation ev d here := (jeval find reach (run d) here).
Notation ex d here := (jexec rounds find reach (run d) here).
Notation rs d here := (run_stmts (jexec rounds find reach (run d) here)).
Notation tlinked := (tlinked u find reach).
Notation tinstalled := (tinstalled u find reach).
Ltac jfn_call := erewrite callee_fn; [|jlocal|jprelude].

(** Where the input is. *)
Record reading (h : heap) (r : nat) (vo vl : N) (bs : bytes) : Prop := mkReading {
  rd_new : r <> O;
  rd_cell : nth_error h r = Some (CellBuf bs);
  rd_bytes : bytes_ok bs;
  rd_view : vo + vl <= lenN bs;
  rd_scratch : scratch h }.
Lemma reading_grows h h' r vo vl bs : reading h r vo vl bs -> grows h h' -> scratch h' -> reading h' r vo vl bs.
Proof. intros [H1 H2 H3 H4 H5] G S. constructor; auto. eapply grows_cell; eassumption. Qed.
Lemma reading_scratched h h' r vo vl bs : reading h r vo vl bs -> scratched h h' -> reading h' r vo vl bs.
Proof. intros H G. eapply reading_grows; [exact H|now apply grows_scratched|]. eapply scratched_scratch; [exact G|apply H]. Qed.

(** ** Integers *)
Definition updated (off : N) (m : jv) (E : jenv) : jenv := update (txt "payload") (SVar m) (update (txt "offset") (SVar (JvNum off)) E).
Lemma deser_u64_sim here d f psz E h r vo vl bs off : good_scope find reach here -> clear E -> lookup (txt "payload") E = Some (SDead false) ->
  var (txt "dataView") E = Some (JvView r vo vl) -> lookup (txt "offset") E = Some (SVar (JvNum off)) -> (f = true -> var (txt "payloadSize") E = Some (JvNum psz)) ->
  reading h r vo vl bs -> (2 <= d)%nat ->
  match ts_dec_u64 f psz (mkView bs vo vl) off with
  | JOk (off', n) => exists h', rs d here (tgen_deser_u64 f) E h = SoNext (updated off' (JvBig (Z.of_N n)) E) h' /\ scratched h h'
  | JRange => exists x h', rs d here (tgen_deser_u64 f) E h = SoThrow (JvError KRange) (update (txt "payload") x E) h' /\ scratched h h'
  | _ => False
  end.
Proof.
  intros Hg Hc Hp Hv Ho Hs [R1 R2 R3 R4 R5] Hd. assert (var (txt "offset") E = Some (JvNum off)) as Ho' by (unfold var; now rewrite Ho).
  destruct d as [|[|d]]; [lia|lia|]. pose proof (call_deserialize_varint rounds find reach Hg0 Hrounds d r vo vl bs off h R1 R2 R3 R5) as HV.
  assert (scratched h h) as Hself. { destruct R5 as (s8 & A & B). exists s8. split; [exact B|]. now rewrite put_same. }
  unfold tgen_deser_u64, ts_dec_u64. tsu. destruct f.
  - specialize (Hs eq_refl). js. jblock. js. rewrite cases_cons. jop. destruct (psz =? 0).
    + rewrite body_plain by reflexivity. jop. exists h. split; [|exact Hself]. unfold updated. rewrite update_twice. now rewrite (update_same (txt "offset")) by exact Ho.
    + rewrite cases_cons. jop. destruct (psz =? 8).
      * rewrite body_plain by reflexivity. js. rewrite (get64_eq _ _ _ _ _ bs) by exact R2. pose proof (get_u64_cases (mkView bs vo vl) off) as Hcs.
        destruct (get_u64 (mkView bs vo vl) off) as [n| | |]; cbn [jbind]; try contradiction; jop.
        -- exists h. split; [|exact Hself]. unfold updated. rewrite update_twice. rewrite update_comm by reflexivity. reflexivity.
        -- eexists _, h. split; [reflexivity|exact Hself].
      * rewrite cases_default, body_plain by reflexivity. js. jfn_call. destruct (ts_deserialize_varint _ _) as [[o1 n]| | |]; cbn [read_result] in HV; try contradiction; destruct HV as (h1 & S1 & R); rewrite R.
        -- unfold pair_value. jop. exists h1. split; [|exact S1]. unfold updated. rewrite (update_comm (txt "offset")) by reflexivity. now rewrite update_twice.
        -- jop. eexists _, h1. split; [reflexivity|exact S1].
  - js. jfn_call. destruct (ts_deserialize_varint _ _) as [[o1 n]| | |]; cbn [read_result] in HV; try contradiction; destruct HV as (h1 & S1 & R); rewrite R.
    + unfold pair_value. jop. exists h1. split; [|exact S1]. unfold updated. rewrite (update_comm (txt "offset")) by reflexivity. now rewrite update_twice.
    + jop. eexists _, h1. split; [reflexivity|exact S1].
Qed.
Lemma from_u64_sim here d f psz E h r vo vl bs off e (g : N -> heap -> jout jv) : good_scope find reach here -> clear E -> lookup (txt "payload") E = Some (SDead false) ->
  var (txt "dataView") E = Some (JvView r vo vl) -> lookup (txt "offset") E = Some (SVar (JvNum off)) -> (f = true -> var (txt "payloadSize") E = Some (JvNum psz)) ->
  reading h r vo vl bs -> (2 <= d)%nat ->
  (forall n h1 E1, clear E1 -> var (txt "payload") E1 = Some (JvBig (Z.of_N n)) -> ev d here e E1 h1 = g n h1) ->
  match ts_dec_u64 f psz (mkView bs vo vl) off with
  | JOk (off', n) => exists h', scratched h h' /\
      match g n h' with
      | ExVal m h2 => rs d here (from_u64 f e) E h = SoNext (updated off' m E) h2
      | ExThrow v h2 => exists E', rs d here (from_u64 f e) E h = SoThrow v E' h2
      | _ => True
      end
  | JRange => exists x h', rs d here (from_u64 f e) E h = SoThrow (JvError KRange) (update (txt "payload") x E) h' /\ scratched h h'
  | _ => False
  end.
Proof.
  intros Hg Hc Hp Hv Ho Hs HR Hd He. unfold from_u64. tsu. js. jblock. js. rewrite (run_block_eq _ _ _ _ _ [(txt "payload", SDead false)]); [|rewrite frame_app; unfold tgen_deser_u64; destruct f; reflexivity|reflexivity].
  cbn [app length]. rewrite run_stmts_app.
  match goal with |- context [rs d here (tgen_deser_u64 f) ?E1 h] => pose proof (deser_u64_sim here d f psz E1 h r vo vl bs off) as HU end.
  match type of HU with ?P -> _ => specialize (HU Hg) end.
  match type of HU with ?P -> _ => assert P as HX by jclear; specialize (HU HX); clear HX end.
  match type of HU with ?P -> _ => assert P as HX by jlk; specialize (HU HX); clear HX end.
  match type of HU with ?P -> _ => assert P as HX by jvar; specialize (HU HX); clear HX end.
  match type of HU with ?P -> _ => assert P as HX by jlk; specialize (HU HX); clear HX end.
  match type of HU with ?P -> _ => assert P as HX by (intros Hf; specialize (Hs Hf); jvar); specialize (HU HX); clear HX end.
  specialize (HU HR Hd). destruct (ts_dec_u64 f psz (mkView bs vo vl) off) as [[o1 n]| | |]; try contradiction.
  - destruct HU as (h1 & R & S1). exists h1. split; [exact S1|]. rewrite R. unfold updated. jop.
    match goal with |- context [jeval _ _ _ _ e ?E1 h1] => assert (ev d here e E1 h1 = g n h1) as Hev by (apply He; [jclear|jvar]) end.
    destruct (g n h1) as [m h2|v h2| |]; auto; rewrite Hev; jop.
    + rewrite (update_comm (txt "offset")) by reflexivity. now rewrite update_twice.
    + eexists. reflexivity.
  - destruct HU as (x & h1 & R & S1). rewrite R. jop. eexists _, h1. split; [reflexivity|exact S1].
Qed.

(** ** Values *)

(** How many calls are inside each other; [n]: more than there are bytes. *)
Fixpoint jdd (n : nat) (nt : nty) : nat :=
  match nt with
  | NArray e => jdd n e
  | NDecl _ _ k _ fs =>
      let d := fold_right Nat.max O (map (fun f => jdd n (snd f)) fs) in
      match k with SkStruct => S d | SkChoice => S n + d end
  | _ => O
  end.
Definition reads (E : jenv) (h : heap) (nt : nty) (off' : N) (v : val) (o : sout) : Prop :=
  exists m h', o = SoNext (updated off' m E) h' /\ grows h h' /\ scratch h' /\ js_value u DIn h' (length h) v nt m.
Definition deser_stmt (nt : nty) : Prop := forall here ns s t f psz d E h r vo vl bs off, good_scope find reach here -> tlinked here ns s t nt ->
  clear E -> lookup (txt "payload") E = Some (SDead false) ->
  var (txt "dataView") E = Some (JvView r vo vl) -> lookup (txt "offset") E = Some (SVar (JvNum off)) -> (f = true -> var (txt "payloadSize") E = Some (JvNum psz)) ->
  var (txt "textDecoder") E = Some JvDecoder -> reading h r vo vl bs -> (length bs < rounds)%nat -> (jdd (S (length bs)) nt + 3 <= d)%nat ->
  outcome (ts_decode (erase nt) f psz (mkView bs vo vl) off) h
    (fun x o => reads E h nt (fst x) (snd x) o) (rs d here (tgen_deser u ns s t f) E h).

Lemma scratched_thrown h h' E : scratch h -> scratched h h' -> thrown KRange h (SoThrow (JvError KRange) E h').
Proof. intros S1 S2. apply thrown_at; [now apply grows_scratched|]. eapply scratched_scratch; eassumption. Qed.
Lemma rd_self h r vo vl bs : reading h r vo vl bs -> scratched h h.
Proof. intros H. destruct (rd_scratch _ _ _ _ _ H) as (s8 & A & B). exists s8. split; [exact B|]. now rewrite put_same. Qed.

Lemma unit_deser : deser_stmt NUnit.
Proof.
  intros here ns s t f psz d E h r vo vl bs off Hg -> Hc Hp Hv Ho Hs Ht HR Hr Hd. cbn [tgen_deser ts_decode erase outcome fst snd]. tsu. js.
  exists JvNull, h. unfold updated. rewrite (update_same (txt "offset")) by exact Ho. split; [reflexivity|]. split; [apply grows_refl|]. split; [apply HR|reflexivity].
Qed.
(** An element of an array without sizes: what has been thrown leaves the offset as it was. *)
Definition small_stmt (nt : nty) : Prop := forall here ns s t f psz d E h r vo vl bs off, good_scope find reach here -> tlinked here ns s t nt ->
  clear E -> lookup (txt "payload") E = Some (SDead false) ->
  var (txt "dataView") E = Some (JvView r vo vl) -> lookup (txt "offset") E = Some (SVar (JvNum off)) -> (f = true -> var (txt "payloadSize") E = Some (JvNum psz)) ->
  reading h r vo vl bs -> (3 <= d)%nat ->
  match ts_decode (erase nt) f psz (mkView bs vo vl) off with
  | JOk x => reads E h nt (fst x) (snd x) (rs d here (tgen_deser u ns s t f) E h)
  | JRange => exists x h', rs d here (tgen_deser u ns s t f) E h = SoThrow (JvError KRange) (update (txt "payload") x E) h' /\ scratched h h'
  | _ => False
  end.
Lemma small_deser nt : small_stmt nt -> deser_stmt nt.
Proof.
  intros H here ns s t f psz d E h r vo vl bs off Hg Hk Hc Hp Hv Ho Hs Ht HR Hr Hd. pose proof (H here ns s t f psz d E h r vo vl bs off Hg Hk Hc Hp Hv Ho Hs HR ltac:(lia)) as K.
  destruct (ts_decode _ _ _ _ _) as [x| | |]; cbn [outcome]; try contradiction; auto. destruct K as (x & h1 & -> & S1). apply scratched_thrown; [apply HR|exact S1].
Qed.
Lemma u64_small : small_stmt NU64.
Proof.
  intros here ns s t f psz d E h r vo vl bs off Hg -> Hc Hp Hv Ho Hs HR Hd. cbn [tgen_deser ts_decode erase].
  pose proof (deser_u64_sim here d f psz E h r vo vl bs off Hg Hc Hp Hv Ho Hs HR ltac:(lia)) as H. unfold jsnd.
  destruct (ts_dec_u64 f psz (mkView bs vo vl) off) as [[o1 n]| | |]; cbn [jbind fst snd]; try contradiction; [|exact H].
  destruct H as (h1 & R & S1). exists (JvBig (Z.of_N n)), h1. split; [exact R|]. split; [now apply grows_scratched|]. split; [|reflexivity]. eapply scratched_scratch; [exact S1|apply HR].
Qed.
Lemma s64_small : small_stmt NS64.
Proof.
  intros here ns s t f psz d E h r vo vl bs off Hg -> Hc Hp Hv Ho Hs HR Hd. cbn [tgen_deser ts_decode erase]. rewrite run_stmts_app.
  pose proof (deser_u64_sim here d f psz E h r vo vl bs off Hg Hc Hp Hv Ho Hs HR ltac:(lia)) as H. unfold jsnd.
  destruct (ts_dec_u64 f psz (mkView bs vo vl) off) as [[o1 n]| | |]; cbn [jbind fst snd]; try contradiction.
  - destruct H as (h1 & R & S1). rewrite R. unfold updated. tsu. jop. destruct d as [|d]; [lia|]. jfn_call. rewrite call_zigzag_decode by exact Hg0. jop. rewrite update_twice.
    eexists _, h1. split; [reflexivity|]. split; [now apply grows_scratched|]. split; [|reflexivity]. eapply scratched_scratch; [exact S1|apply HR].
  - destruct H as (x & h1 & R & S1). rewrite R. jop. eexists _, h1. split; [reflexivity|exact S1].
Qed.
Lemma bool_small : small_stmt NBool.
Proof.
  intros here ns s t f psz d E h r vo vl bs off Hg -> Hc Hp Hv Ho Hs HR Hd. cbn [tgen_deser ts_decode erase].
  pose proof (from_u64_sim here d f psz E h r vo vl bs off (XBin None BNe (jx "payload") (XBig false 0)) (fun n h => ExVal (JvBool (negb (n =? 0))) h) Hg Hc Hp Hv Ho Hs HR ltac:(lia)) as H.
  match type of H with ?P -> _ => assert P as HX end. { intros n h1 E1 C1 V1. tsu. js. cbn [apply_op strict_eq]. change 0%Z with (Z.of_N 0). now rewrite zn_eqb. } specialize (H HX). unfold jsnd.
  destruct (ts_dec_u64 f psz (mkView bs vo vl) off) as [[o1 n]| | |]; cbn [jbind fst snd]; try contradiction; [|exact H].
  destruct H as (h1 & S1 & R). eexists _, h1. split; [exact R|]. split; [now apply grows_scratched|]. split; [|reflexivity]. eapply scratched_scratch; [exact S1|apply HR].
Qed.
Lemma f64_small : small_stmt NF64.
Proof.
  intros here ns s t f psz d E h r vo vl bs off Hg -> Hc Hp Hv Ho Hs HR Hd. cbn [tgen_deser ts_decode erase]. unfold ts_dec_f64, jsnd.
  assert (var (txt "offset") E = Some (JvNum off)) as Ho' by (unfold var; now rewrite Ho). pose proof (rd_self _ _ _ _ _ HR) as Hself. pose proof HR as [R1 R2 R3 R4 R5].
  pose proof (get_u64_cases (mkView bs vo vl) off) as Hcs. tsu. destruct f; cbn [andb].
  - specialize (Hs eq_refl). js. jblock. js. rewrite cases_cons. jop. destruct (psz =? 0).
    + rewrite body_plain by reflexivity. jop. cbn [jbind fst snd]. eexists _, h. unfold updated. rewrite update_twice, (update_same (txt "offset")) by exact Ho. split; [reflexivity|]. split; [apply grows_refl|]. split; [exact R5|]. right. auto.
    + rewrite cases_default, body_plain by reflexivity. js. rewrite (getf64_eq _ _ _ _ _ bs) by exact R2.
      destruct (get_u64 (mkView bs vo vl) off) as [n| | |]; cbn [jbind fst snd]; try contradiction; jop.
      * eexists _, h. unfold updated. rewrite update_twice, (update_comm (txt "offset")) by reflexivity. split; [reflexivity|]. split; [apply grows_refl|]. split; [exact R5|]. now left.
      * eexists _, h. split; [reflexivity|exact Hself].
  - js. rewrite (getf64_eq _ _ _ _ _ bs) by exact R2. destruct (get_u64 (mkView bs vo vl) off) as [n| | |]; cbn [jbind fst snd]; try contradiction; jop.
    + eexists _, h. unfold updated. rewrite (update_comm (txt "offset")) by reflexivity. split; [reflexivity|]. split; [apply grows_refl|]. split; [exact R5|]. now left.
    + exists (SDead false), h. rewrite update_same by exact Hp. split; [reflexivity|exact Hself].
Qed.
Ltac jget := cbn [get_prop]; repeat match goal with |- context[str_eqb (txt ?a) (txt ?b)] => let r := eval vm_compute in (str_eqb (txt a) (txt b)) in change (str_eqb (txt a) (txt b)) with r end; jop.
Lemma bytes_deser : deser_stmt NBytes.
Proof.
  intros here ns s t f psz d E h r vo vl bs off Hg -> Hc Hp Hv Ho Hs Ht HR Hr Hd. cbn [tgen_deser ts_decode erase outcome fst snd vlen voff vbuf]. unfold to_end. tsu.
  assert (var (txt "offset") E = Some (JvNum off)) as Ho' by (unfold var; now rewrite Ho). pose proof HR as [R1 R2 R3 R4 R5].
  js. jget. jget. jget. jget. cbn [call_jmethod]. replace (buffer r h) with (Some bs) by (symmetry; now apply buffer_cell). jop. jget.
  replace (N.min (vo + vl) (lenN bs) - (vo + off)) with (vl - off) by lia.
  eexists _, _. unfold updated. rewrite (update_comm (txt "offset")) by reflexivity. split; [reflexivity|]. split; [apply grows_alloc|]. split; [now apply scratch_alloc|].
  cbn [js_value]. eexists. split; [reflexivity|]. split; [lia|apply nth_alloc].
Qed.
Lemma string_deser : deser_stmt NString.
Proof.
  intros here ns s t f psz d E h r vo vl bs off Hg -> Hc Hp Hv Ho Hs Ht HR Hr Hd. cbn [tgen_deser ts_decode erase vlen voff vbuf]. unfold to_end. tsu.
  assert (var (txt "offset") E = Some (JvNum off)) as Ho' by (unfold var; now rewrite Ho). pose proof HR as [R1 R2 R3 R4 R5].
  js. jget. jget. jget. cbn [apply_op]. destruct (vl <? off) eqn:El; jop; cbn [call_new new_part].
  - apply N.ltb_lt in El. cbn [range_error]. unfold range_error. jop. apply thrown_at; [apply grows_refl|exact R5].
  - apply N.ltb_ge in El. replace (buffer r h) with (Some bs) by (symmetry; now apply buffer_cell). replace (vo + off + (vl - off) <=? lenN bs) with true by (symmetry; apply N.leb_le; lia). jop.
    cbn [call_jmethod]. replace (buffer r h) with (Some bs) by (symmetry; now apply buffer_cell). jop. jget. cbn [outcome fst snd].
    eexists _, _. unfold updated. rewrite (update_comm (txt "offset")) by reflexivity. split; [reflexivity|]. split; [apply grows_refl|]. split; [exact R5|reflexivity].
Qed.
Lemma units_deser : deser_stmt (NArray NUnit).
Proof.
  intros here ns s t f psz d E h r vo vl bs off Hg (t' & -> & ->) Hc Hp Hv Ho Hs Ht HR Hr Hd. cbn [tgen_deser ts_decode erase].
  match goal with |- context [from_u64 f ?e] => pose proof (from_u64_sim here d f psz E h r vo vl bs off e
    (fun n h => if n <? 4294967296 then ExVal (JvArr (length h)) (alloc (CellArr (repeat JvNull (N.to_nat n))) h) else range_error h) Hg Hc Hp Hv Ho Hs HR ltac:(lia)) as H end.
  match type of H with ?P -> _ => assert P as HX end.
  { intros n h1 E1 C1 V1. tsu. js. rewrite callee_global; [|jlocal|jreach]. cbn [call_global]. rewrite zn_neg, N2Z.id. jop. rewrite callee_global; [|jlocal|jreach]. cbn [call_global].
    destruct (n <? 4294967296); [|reflexivity]. jop. cbn [call_jmethod]. replace (array (length h1) (alloc (CellArr (repeat JvUndef (N.to_nat n))) h1)) with (Some (repeat JvUndef (N.to_nat n))) by (symmetry; apply array_cell, nth_alloc).
    rewrite put_last, repeat_length. reflexivity. }
  specialize (H HX). destruct (ts_dec_u64 f psz (mkView bs vo vl) off) as [[o1 n]| | |]; cbn [jbind fst snd]; try contradiction.
  - destruct H as (h1 & S1 & H). pose proof (scratched_scratch _ _ S1 (rd_scratch _ _ _ _ _ HR)) as S1'. destruct (n <? 4294967296); cbn [outcome].
    + eexists _, _. split; [exact H|]. split; [eapply grows_trans; [apply grows_scratched; exact S1|apply grows_alloc]|]. split; [now apply scratch_alloc|]. cbn [js_value].
      eexists. split; [reflexivity|]. split; [|apply nth_alloc]. apply grows_scratched in S1. apply S1.
    + destruct H as (E' & ->). apply thrown_at; [now apply grows_scratched|exact S1'].
  - destruct H as (x & h1 & -> & S1). apply scratched_thrown; [apply HR|exact S1].
Qed.
End Deser.
