(** Loops over arrays, and blocks, in generated TypeScript code. *)
From Verif Require Import TypesFacts IdentFacts BaseFacts TsPrimFacts RustAtlasFacts.
From Verif Require Export TsSimBase.

(** Enter a block, given its variables. *)
Ltac jblock_as F :=
  match goal with |- context [run_block ?g ?ex ?ss ?E ?h] =>
    rewrite (run_block_eq g ex ss E h F);
    [cbn [app length]
    |repeat first [rewrite frame_cons | rewrite frame_app | rewrite frame_atlas | rewrite frame_ser | rewrite frame_deser]; reflexivity
    |try reflexivity] end.

Section Loops.
Context (rounds : nat) (find : scope -> jcallee -> option (scope * jfn)) (reach : scope -> str -> bool).
Context (call : scope -> jfn -> list jv -> heap -> jout jv) (here : scope).
Notation ev := (jeval find reach call here).
Notation ex := (jexec rounds find reach call here).
Notation rs := (run_stmts (jexec rounds find reach call here)).
Notation rb := (run_block (jexec rounds find reach call here) []).

Lemma for_loop (inv : nat -> jenv -> heap -> Prop) x limit b n : (n < rounds)%nat ->
  (forall k E h, inv k E h -> ev limit ((x, SVar (JvNum (N.of_nat k))) :: E) h = ExVal (JvNum (N.of_nat n)) h) ->
  (forall k E h, (k < n)%nat -> inv k E h -> exists E' h',
     rb b ((x, SVar (JvNum (N.of_nat k))) :: E) h = SoNext ((x, SVar (JvNum (N.of_nat k))) :: E') h' /\ inv (S k) E' h') ->
  forall E h, inv O E h -> exists E' h', ex (JFor x limit b) E h = SoNext E' h' /\ inv n E' h'.
Proof.
  intros Hn Hl Hb.
  assert (forall j k r E h, (k + j = n)%nat -> (j < r)%nat -> inv k E h -> exists E' h',
    run_while (condition find reach call here (XBin None BLt (XVar x) limit)) (fun E h => snext (rb b E h) (increment x)) r ((x, SVar (JvNum (N.of_nat k))) :: E) h =
    SoNext ((x, SVar (JvNum (N.of_nat n))) :: E') h' /\ inv n E' h') as Hw.
  { induction j as [|j IH]; intros k [|r] E h Hk Hr Hi; try lia; rewrite while_step, jcondition, jev_bin, (jev_var _ _ _ _ _ (JvNum (N.of_nat k))) by (discriminate || (rewrite var_here; reflexivity));
      cbn [ebind]; rewrite (Hl k E h Hi); cbn [ebind apply_op value_or_stuck as_bool sbind].
    - replace (N.of_nat k <? N.of_nat n) with false by (symmetry; apply N.ltb_ge; lia). exists E, h. replace k with n in * by lia. auto.
    - replace (N.of_nat k <? N.of_nat n) with true by (symmetry; apply N.ltb_lt; lia).
      destruct (Hb k E h ltac:(lia) Hi) as (E' & h' & R & Hi'). rewrite R. cbn [snext]. unfold increment. rewrite var_here. cbn [slot_value apply_op].
      unfold assign. rewrite lookup_here, update_here. cbn [next_env snext]. replace (N.of_nat k + 1) with (N.of_nat (S k)) by lia. apply IH; [lia|lia|exact Hi']. }
  intros E h Hi. destruct (Hw n O rounds E h) as (E' & h' & R & Hi'); [lia|lia|exact Hi|]. exists E', h'. split; [|exact Hi'].
  rewrite jx_for. change (JvNum 0) with (JvNum (N.of_nat 0)). rewrite R. reflexivity.
Qed.

(** The loop over the elements of [oldPayload]. *)
Lemma over_loop (inv : nat -> jenv -> heap -> Prop) b F r ms : (length ms < rounds)%nat ->
  block_frame b = F -> all_different (txt "oldPayload" :: txt "i" :: txt "payload" :: map fst F) = true ->
  (forall k E h, inv k E h -> var (txt "oldPayload") E = Some (JvArr r) /\ nth_error h r = Some (CellArr ms)) ->
  (forall k E h m, nth_error ms k = Some m -> inv k E h -> exists F' E' h',
     rs b ((txt "payload", SConst m) :: F ++ (txt "i", SVar (JvNum (N.of_nat k))) :: E) h =
     SoNext ((txt "payload", SConst m) :: F' ++ (txt "i", SVar (JvNum (N.of_nat k))) :: E') h' /\ length F' = length F /\ inv (S k) E' h') ->
  forall E h, inv O E h -> exists E' h', ex (over_old_payload b) E h = SoNext E' h' /\ inv (length ms) E' h'.
Proof.
  intros Hn HF Hd Hi Hb. cbn [all_different] in Hd. apply andb_true_iff in Hd as [D1 Hd]. apply andb_true_iff in Hd as [D2 D3].
  apply negb_true_iff in D1, D2. unfold over_old_payload. tsu. apply for_loop; [exact Hn| |].
  - intros k E h H. destruct (Hi k E h H) as [H1 H2]. js. cbn [get_prop]. replace (array r h) with (Some ms) by (symmetry; now apply array_cell).
    reflexivity.
  - intros k E h Hk H. destruct (Hi k E h H) as [H1 H2]. destruct (nth_error ms k) as [m|] eqn:Em; [|apply nth_error_None in Em; lia].
    rewrite (run_block_eq _ _ _ _ _ ((txt "payload", SDead true) :: F)); [|rewrite frame_cons, HF; reflexivity|exact D3]. cbn [app length].
    assert (forall y, existsb (str_eqb y) (txt "payload" :: map fst F) = false -> forall s,
      lookup y ((txt "payload", s) :: F ++ (txt "i", SVar (JvNum (N.of_nat k))) :: E) = lookup y ((txt "i", SVar (JvNum (N.of_nat k))) :: E)) as Hv.
    { intros y Hy s. cbn [existsb] in Hy. apply orb_false_iff in Hy as [Hy Hy']. rewrite lookup_skip by exact Hy. rewrite lookup_app, (lookup_none y F); [reflexivity|].
      intros Hin. assert (existsb (str_eqb y) (map fst F) = true); [|congruence]. apply existsb_exists. exists y. split; [exact Hin|apply str_eqb_refl]. }
    cbn [existsb] in D1. apply orb_false_iff in D1 as [D0 D1].
    rewrite run_stmts_cons, jx_let, jev_index. erewrite jev_var by (unfold var; rewrite Hv by exact D1; rewrite lookup_skip by reflexivity; exact H1). cbn [ebind].
    erewrite jev_var by (unfold var; rewrite Hv by exact D2; rewrite lookup_here; reflexivity). cbn [ebind index_value].
    replace (array r h) with (Some ms) by (symmetry; now apply array_cell). rewrite Nat2N.id, Em. cbn [value_or_stuck sbind]. jstep. cbn [next_env snext]. rewrite update_here.
    destruct (Hb k E h m Em H) as (F' & E' & h' & R & L & Hi'). rewrite R. cbn [leave_block skipn]. exists E', h'. split; [|exact Hi'].
    rewrite <- L, skipn_app, skipn_all, Nat.sub_diag. reflexivity.
Qed.
End Loops.
