(** The generated [deserialize_from_reader_ref] functions read what the model's deserializer reads. *)
From Verif Require Import TypesFacts IdentFacts RustSerFacts.
From Verif Require Export RustReadFacts.

(** ** Places in the chain of readers *)
Lemma cut_chain k : forall r, (k <= chain_length r)%nat -> chain_length (cut k r) = (chain_length r - k)%nat.
Proof.
  induction k as [|k IH]; intros r H; cbn [cut]; [lia|]. destruct r as [c|n r]; cbn [chain_length untake] in *; [lia|]. rewrite IH by lia. lia.
Qed.
Lemma at_self r : reader_at (chain_length r) r = Some r.
Proof. unfold reader_at. rewrite Nat.leb_refl, Nat.sub_diag. reflexivity. Qed.
Lemma at_under r p : chain_length r = S p -> reader_at p r = Some (untake r).
Proof.
  intros H. unfold reader_at. rewrite H. replace (Nat.leb p (S p)) with true by (symmetry; apply Nat.leb_le; lia).
  replace (S p - p)%nat with 1%nat by lia. reflexivity.
Qed.
Lemma at_chain p r0 r : reader_at p r0 = Some r -> chain_length r = p.
Proof.
  unfold reader_at. destruct (Nat.leb p (chain_length r0)) eqn:E; [|discriminate]. apply Nat.leb_le in E. intros [= <-]. rewrite cut_chain by lia. lia.
Qed.

Section Deser.
Context {W : Type} (w : writer W) (rounds : nat) (lim : N) (wraps : bool) (u : unicode) (prog : rmod).
Notation run := (run_fn w rounds lim wraps prog).
Notation ev d ns self := (eval w rounds lim wraps prog (run d) (mods u ns) self).
Notation ex d ns self := (exec w rounds lim wraps prog (run d) (mods u ns) self).
Notation eb d ns self := (eval_block w rounds lim wraps prog (run d) (mods u ns) self).
Ltac evs := repeat (ev_step; cbn [obind]).
Ltac drop := first [rewrite leave1 | rewrite leave2 | rewrite leave_self].

(** [o] is what comes of reading with the outcome [x]: an error is returned; what a success leads to is [K]. *)
Definition agrees {A B} (x : cres A) (s : st W) (K : A -> st W -> out W B -> Prop) (o : out W B) : Prop :=
  match x with
  | COk a r => K a (set_reader s r) o
  | CErr e r => o = OReturn (RvErr (ReKind e)) (set_reader s r)
  | CPanic => o = OPanic
  | COutOfFuel => o = OFuel
  end.
Lemma agrees_imp {A B} (x : cres A) s (K K' : A -> st W -> out W B -> Prop) o : agrees x s K o ->
  (forall a r, x = COk a r -> K a (set_reader s r) o -> K' a (set_reader s r) o) -> agrees x s K' o.
Proof. destruct x; cbn [agrees]; auto. Qed.
Lemma agrees_bind {A B C} (x : cres A) s K (K' : A -> st W -> out W C -> Prop) (o : out W B) f : agrees x s K o ->
  (forall a r o', x = COk a r -> K a (set_reader s r) o' -> K' a (set_reader s r) (obind o' f)) -> agrees x s K' (obind o f).
Proof. destruct x; cbn [agrees]; auto; intros ->; reflexivity. Qed.
Lemma agrees_scoped {A B} (x : cres A) s K (K' : A -> st W -> out W B -> Prop) (o : out W B) E : agrees x s K o ->
  (forall a r o', x = COk a r -> K a (set_reader s r) o' -> K' a (set_reader s r) (scoped E o')) -> agrees x s K' (scoped E o).
Proof. destruct x; cbn [agrees]; auto; intros ->; reflexivity. Qed.
Lemma set_reader_twice (s : st W) r r' : set_reader (set_reader s r) r' = set_reader s r'. Proof. reflexivity. Qed.
Lemma agrees_cbind {A B C} (x : cres A) (k : A -> reader -> cres B) s K (o : out W C) :
  agrees x s (fun a s' o' => agrees (k a (st_reader s')) s' K o') o -> agrees (cbind x k) s K o.
Proof. destruct x as [a r|e r| |]; cbn [agrees cmap cbind]; auto. Qed.
Lemma agrees_cmap {A B C} (f : A -> B) (x : cres A) s K (o : out W C) : agrees x s (fun a => K (f a)) o -> agrees (cmap f x) s K o.
Proof. destruct x; exact (fun H => H). Qed.
(** A function that reads, and [?]. *)
Lemma agrees_try {A} (x : cres A) f s E :
  agrees x s (fun a s' o => o = OVal (f a) E s')
    (obind (of_fres (io_value f s x) E) (fun v E s => match v with RvOk v => OVal v E s | RvErr x => OReturn (RvErr x) s | _ => OStuck end)).
Proof. destruct x; reflexivity. Qed.

Definition small (t : ty) : bool := match t with TBool | TF64 | TS64 | TU64 => true | _ => false end.
(** The variables that reading a payload leaves behind. *)
Definition leftover (x : str) : bool := str_eqb x (txt "payload") || str_eqb x (txt "buffer") || str_eqb x (txt "deserialize_element").
Definition payload_is (v : rv) (B : env) : Prop := lookup (txt "payload") B = Some v /\ forallb (fun b => leftover (fst b)) B = true.

Definition dec_val (nt : nty) (E : env) (v : val) (st' : st W) (o : out W (list unit)) : Prop :=
  exists B l, o = OVal l (B ++ E) st' /\ payload_is (embed u DIn v nt) B.
(** How deep calls may be nested. *)
Fixpoint dd (nt : nty) : nat :=
  match nt with
  | NArray e => Nat.max 1 (dd e)
  | NDecl _ _ k _ fs =>
      let d := fold_right Nat.max O (map (fun f => dd (snd f)) fs) in
      S (match k with SkStruct => d | SkChoice => rounds + d end)
  | _ => O
  end.
Definition deser_stmt (nt : nty) : Prop := forall ns s t is_field n r depth E st self,
  linked u prog ns s t nt -> (dd nt <= depth)%nat -> st_reader st = r ->
  lookup (txt "sub_reader") E = Some (RvReader (chain_length r)) ->
  (is_field || negb (small (erase nt)) = true -> lookup (txt "payload_size") E = Some (RvInt n)) -> (amount r < rounds)%nat ->
  agrees (cdecode rounds lim (erase nt) is_field n r) st (dec_val nt E) (run_list (ex depth ns self) (gen_deser u ns s (length ns) t is_field) E st).
Definition deser_call (nt : nty) : Prop := match nt with
  | NDecl ns s k name fs => forall r p depth st,
      installed u prog ns s k name (map fst fs) -> allP (fun f => linked u prog ns s (sf_type (fst f)) (snd f)) fs ->
      (dd nt <= depth)%nat -> reader_at p (st_reader st) = Some r -> forall is_field n,
      (amount r < rounds)%nat ->
      run depth (mods u ns) (type_name u name SIn)
        (match k with SkStruct => struct_deser u ns s (length ns) name (map fst fs) | SkChoice => choice_deser u ns s (length ns) name (map fst fs) end) [RvReader p] st =
        io_value (fun v => embed u DIn v nt) st (cdecode rounds lim (erase nt) is_field n r)
  | _ => True
  end.

(** Numbers. *)
Lemma varint_read ns self depth E st r p : reader_at p (st_reader st) = Some r -> lookup (txt "sub_reader") E = Some (RvReader p) ->
  ev depth ns self (ECall (CTop (length ns) FnDeserializeVarint) [mut_sub_reader]) E st = of_fres (io_value RvInt st (cdeserialize_varint rounds r)) E.
Proof. intros Hr HE. unfold mut_sub_reader, vr. rewrite <- (mods_length u ns). evs. cbn [call_top]. unfold read_with. rewrite Hr. reflexivity. Qed.
Lemma eight_read ns self depth E st r x : st_reader st = r -> lookup (txt "sub_reader") E = Some (RvReader (chain_length r)) ->
  lookup x E = Some (RvBytes (repeat 0 (N.to_nat 8))) ->
  agrees (cread_exact rounds 8 [] r) st (fun bs st' o => o = OVal RvUnit (update x (RvBytes bs) E) st')
    (obind (read_call w rounds lim wraps prog (run depth) (mods u ns) self FnReadExact mut_sub_reader x E st)
       (fun v E s => match v with RvOk v => OVal v E s | RvErr x => OReturn (RvErr x) s | _ => OStuck end)).
Proof.
  intros Hr HE Hx. unfold read_call, mut_sub_reader, vr. evs. rewrite Hx. cbn [read_into]. rewrite Hr, at_self. cbv zeta.
  change (lenN (repeat 0 (N.to_nat 8))) with 8. destruct (cread_exact rounds 8 [] r); cbn [agrees io_value of_fres obind]; reflexivity || exact I.
Qed.
Lemma u64_deser ns self depth E st is_field n r : st_reader st = r -> lookup (txt "sub_reader") E = Some (RvReader (chain_length r)) ->
  (is_field = true -> lookup (txt "payload_size") E = Some (RvInt n)) ->
  agrees (cdec_u64 rounds is_field n r) st (fun m st' o => o = OVal [tt] ((txt "payload", RvInt m) :: E) st')
    (run_list (ex depth ns self) (gen_deser_u64 (length ns) is_field) E st).
Proof.
  intros Hr Hs Hn. unfold gen_deser_u64, cdec_u64, lets, letm. assert (reader_at (chain_length r) (st_reader st) = Some r) as Hat by (rewrite Hr; apply at_self).
  assert (forall E' : env, agrees (cdeserialize_varint rounds r) st (fun m st' o => o = OVal (RvInt m) E' st')
    (obind (of_fres (io_value RvInt st (cdeserialize_varint rounds r)) E')
       (fun v E s => match v with RvOk v => OVal v E s | RvErr x => OReturn (RvErr x) s | _ => OStuck end))) as Hv by (intros E'; apply agrees_try).
  destruct is_field.
  - specialize (Hn eq_refl). unfold vr at 1. rewrite run_cons, ex_let_var. unfold u64_lit. evs.
    destruct (n =? 0) eqn:E0; [|destruct (n =? 8) eqn:E8].
    + rewrite (arms_take _ _ _ _ _ _ _ _ _ _ _ _ _ _ []) by (cbn [match_pat]; now rewrite E0). cbn [app]. evs. cbn [scoped obind]. rewrite leave_self. evs. cbn [agrees]. rewrite <- Hr; destruct st; reflexivity.
    + rewrite arms_skip by (cbn [match_pat]; now rewrite E0).
      rewrite (arms_take _ _ _ _ _ _ _ _ _ _ _ _ _ _ []) by (cbn [match_pat]; now rewrite E8). cbn [app].
      rewrite ev_block, eb_eq, run_cons, ex_let_var, ev_zeros. cbn [obind]. rewrite run_cons, ex_semi, ev_try. unfold vr at 1. rewrite ev_read_whole.
      pose proof (eight_read ns self depth ((txt "buffer", RvBytes (repeat 0 (N.to_nat 8))) :: E) st r (txt "buffer") Hr ltac:(lk) ltac:(apply lookup_here)) as H.
      destruct (cread_exact rounds 8 [] r) as [bs r'|e r'| |]; cbn [agrees cbind] in *; rewrite H; cbn [obind scoped]; try reflexivity.
      rewrite update_here. unfold vr. evs. cbn [call_std of_fres scoped obind]. drop. rewrite leave_self. cbn [obind]. evs. reflexivity.
    + rewrite arms_skip by (cbn [match_pat]; now rewrite E0). rewrite arms_skip by (cbn [match_pat]; now rewrite E8).
      rewrite (arms_take _ _ _ _ _ _ _ _ _ _ _ _ _ _ []) by reflexivity. cbn [app]. rewrite ev_try, (varint_read ns self depth E st r _ Hat Hs).
      specialize (Hv E). destruct (cdeserialize_varint rounds r) as [m r'|e r'| |]; cbn [agrees] in *; rewrite Hv; cbn [obind scoped]; try reflexivity.
      rewrite leave_self. evs. reflexivity.
  - rewrite run_cons, ex_let_var, ev_try, (varint_read ns self depth E st r _ Hat Hs).
    specialize (Hv E). destruct (cdeserialize_varint rounds r) as [m r'|e r'| |]; cbn [agrees] in *; rewrite Hv; cbn [obind]; try reflexivity.
Qed.

(** Ending a loop at the end of the input. *)
Definition eof_result {A} (x : cres A) (E : env) (s : st W) (K : A -> st W -> out W rv) : out W rv :=
  match x with
  | COk a r => K a (set_reader s r)
  | CErr EOF r => OBreak E (set_reader s r)
  | CErr e r => OReturn (RvErr (ReKind e)) (set_reader s r)
  | CPanic => OPanic
  | COutOfFuel => OFuel
  end.
Lemma eof_sim {A} ns self depth call (f : A -> rv) x ok e blank E st : ev depth ns self call E st = of_fres (io_value f st x) E ->
  ev depth ns self (EMatch false call (eof_arms ok e blank)) E st =
    eof_result x E st (fun a s => scoped E (ev depth ns self e ((txt ok, f a) :: E) s)).
Proof.
  intros Hc. rewrite ev_match, Hc. unfold eof_arms, pv, vr. destruct x as [a r|k r| |]; cbn [io_value of_fres obind eof_result]; try reflexivity.
  rewrite arms_skip by reflexivity. rewrite (arms_take _ _ _ _ _ _ _ _ _ _ _ _ _ _ [(txt "err", RvIoError (ReKind k))]) by reflexivity.
    cbn [app]. rewrite ev_block, eb_eq, run_cons, ex_if_let. evs. cbn [call_method of_fres obind match_pat match_con map]. destruct k.
    + rewrite str_eqb_refl. cbn [app]. evs. cbn [scoped obind]. f_equal. rewrite !leave_self. drop. reflexivity.
    + destruct blank; cbn [app]; evs; cbn [call_std of_fres obind scoped]; reflexivity.
Qed.

(** Elements of a vector that are read one after the other. *)
Definition element_fn (ns : namespace) (s : sschema) (t : sty) : fndef :=
  FnDef false (txt "deserialize_element") (Some (txt "::std::io::BufRead")) false
    [Par true (txt "sub_reader") (TyRef true (TyPath [txt "T"]))] (io_result (gen_type u ns s t SIn))
    (Blk false (gen_deser u ns s (length ns) t false) (Some (ECall (CStd FnOk) [vr "payload"]))).
Lemma forallb_lookup x B : forallb (fun b : str * rv => leftover (fst b)) B = true -> leftover x = false -> lookup x B = None.
Proof.
  intros HB Hx. apply lookup_none. intros Hin. apply in_map_iff in Hin as ([y v] & E & Hin). cbn [fst] in E. subst y.
  rewrite forallb_forall in HB. specialize (HB _ Hin). cbn [fst] in HB. congruence.
Qed.
Lemma lookup_over x B (E : env) : forallb (fun b : str * rv => leftover (fst b)) B = true -> leftover x = false -> lookup x (B ++ E) = lookup x E.
Proof. intros HB Hx. rewrite lookup_app. now rewrite (forallb_lookup x B HB Hx). Qed.
Lemma lookup_payload v B (E : env) : payload_is v B -> lookup (txt "payload") (B ++ E) = Some v.
Proof. intros [H _]. rewrite lookup_app. now rewrite H. Qed.
Lemma element_call e ns s t depth self st r : deser_stmt e -> linked u prog ns s t e -> small (erase e) = true -> (dd e <= depth)%nat -> st_reader st = r ->
  (amount r < rounds)%nat ->
  run (S depth) (mods u ns) self (element_fn ns s t) [RvReader (chain_length r)] st =
    io_value (fun v => embed u DIn v e) st (cdecode rounds lim (erase e) false 0 r).
Proof.
  intros IH Hl Hs Hd Hr Hx. unfold element_fn. rewrite run_one, eb_eq.
  specialize (IH ns s t false 0 r depth [(txt "sub_reader", RvReader (chain_length r))] st self Hl Hd Hr (lookup_here _ _ _)).
  rewrite Hs in IH. cbn [orb negb] in IH. specialize (IH ltac:(discriminate) Hx).
  destruct (cdecode rounds lim (erase e) false 0 r) as [v r'|k r'| |]; cbn [agrees io_value] in *.
  - destruct IH as (B & l & -> & HB). cbn [obind]. rewrite ev_std by reflexivity. unfold vr. rewrite run_cons.
    rewrite (ev_var _ _ _ _ _ _ _ _ _ (embed u DIn v e)) by now apply lookup_payload. cbn [obind]. evs. reflexivity.
  - rewrite IH. reflexivity.
  - rewrite IH. reflexivity.
  - rewrite IH. reflexivity.
Qed.
Definition small_block : block :=
  Blk false [SSemi (EMethod (vr "payload") MPush
    [EMatch false (ECall (CLocal (txt "deserialize_element")) [mut_sub_reader]) (eof_arms "element" (vr "element") false)])] None.
Lemma small_loop_sim e ns s t depth self E1 : deser_stmt e -> linked u prog ns s t e -> small (erase e) = true -> (dd e < depth)%nat ->
  lookup (txt "deserialize_element") E1 = Some (RvFn (element_fn ns s t)) ->
  forall k r st acc, st_reader st = r -> lookup (txt "sub_reader") E1 = Some (RvReader (chain_length r)) -> (amount r < rounds)%nat ->
  agrees (csmall_loop k (cdecode rounds lim (erase e) false 0) r) st
    (fun vs st' o => o = OVal tt ((txt "payload", RvVec (acc ++ map (fun v => embed u DIn v e) vs)) :: E1) st')
    (run_loop (fun E s => obind (eb depth ns self small_block E s) (fun _ E s => OVal tt E s)) k ((txt "payload", RvVec acc) :: E1) st).
Proof.
  intros IH Hl Hs Hd Hf. destruct depth as [|depth]; [lia|]. induction k as [|k IHk]; intros r st acc Hr HE Ha; [reflexivity|].
  cbn [csmall_loop run_loop]. unfold small_block at 1. rewrite eb_eq, run_cons, ex_semi. unfold vr at 1. rewrite ev_change by reflexivity.
  assert (keeps r (cdecode rounds lim (erase e) false 0 r)) as Hk.
  { destruct (erase e); try discriminate; apply keeps_map; try apply keeps_u64. apply keeps_f64. }
  pose proof (element_call e ns s t depth self st r IH Hl Hs ltac:(lia) Hr Ha) as Hc. pose proof (shrinks_decode rounds lim (erase e) false 0 r) as Hsh.
  destruct (cdecode rounds lim (erase e) false 0 r) as [v r'|x r'| |] eqn:Ed.
  1,2,3,4: rewrite (eof_sim ns self (S depth) _ (fun v => embed u DIn v e) (cdecode rounds lim (erase e) false 0 r));
    [|unfold mut_sub_reader, vr; evs; rewrite lookup_skip by reflexivity; rewrite Hf, Ed, Hc; reflexivity].
  - rewrite Ed. cbn [eof_result]. unfold vr. evs. cbn [scoped]. drop. cbn [obind]. rewrite lookup_here. cbn [change]. rewrite update_here. cbn [obind]. evs. cbn [scoped obind]. rewrite leave_same_length by reflexivity.
    cbn [keeps] in Hk. specialize (IHk r' (set_reader st r') (acc ++ [embed u DIn v e]) eq_refl). rewrite Hk in IHk. cbn [shrinks] in Hsh. specialize (IHk HE ltac:(lia)).
    destruct (csmall_loop k _ r') as [vs r2|x r2| |]; cbn [agrees cmap cbind] in *; auto. rewrite IHk. cbn [map]. now rewrite <- app_assoc.
  - rewrite Ed. cbn [eof_result]. destruct x; cbn [obind scoped agrees map].
    + rewrite leave_self, app_nil_r. reflexivity.
    + reflexivity.
  - rewrite Ed. cbn [eof_result obind scoped agrees]. reflexivity.
  - rewrite Ed. cbn [eof_result obind scoped agrees]. reflexivity.
Qed.

(** Elements that come with their size. *)
Definition sized_block (ns : namespace) (s : sschema) (t : sty) : block :=
  Blk false
    [lets "payload_size" (EMatch false (ECall (CTop (length ns) FnDeserializeVarint) [mut_sub_reader])
                            (eof_arms "payload_size" (as_usize (vr "payload_size")) false));
     letm "sub_reader" (ECall (CStd FnTake) [mut_sub_reader; as_u64 (vr "payload_size")]);
     SSemi (EMethod (vr "payload") MPush [EBlock (Blk false (gen_deser u ns s (length ns) t false) (Some (vr "payload")))])] None.
Lemma sized_loop_sim e ns s t depth self E1 p : deser_stmt e -> linked u prog ns s t e -> (dd e <= depth)%nat ->
  lookup (txt "sub_reader") E1 = Some (RvReader p) ->
  forall k r st acc, reader_at p (st_reader st) = Some r -> (amount r < rounds)%nat ->
  agrees (csized_loop rounds k (cdecode rounds lim (erase e) false) r) st
    (fun vs st' o => o = OVal tt ((txt "payload", RvVec (acc ++ map (fun v => embed u DIn v e) vs)) :: E1) st')
    (run_loop (fun E x => obind (eb depth ns self (sized_block ns s t) E x) (fun _ E x => OVal tt E x)) k ((txt "payload", RvVec acc) :: E1) st).
Proof.
  intros IH Hl Hd HE. induction k as [|k IHk]; intros r st acc Hr Ha; [reflexivity|].
  cbn [csized_loop run_loop]. unfold sized_block at 1, lets, letm. rewrite eb_eq, run_cons, ex_let_var.
  rewrite (eof_sim ns self depth _ RvInt (cdeserialize_varint rounds r)) by (apply (varint_read ns self depth _ st r p Hr); lk).
  pose proof (keeps_varint rounds r) as Hk. pose proof (shrinks_varint rounds r) as Hs1. pose proof (at_chain _ _ _ Hr) as Hp.
  destruct (cdeserialize_varint rounds r) as [sz r1|x r1| |]; cbn [eof_result obind scoped agrees]; auto.
  2:{ destruct x; cbn [obind scoped agrees map]; [rewrite leave_self, app_nil_r|]; reflexivity. }
  cbn [keeps] in Hk. unfold as_usize, as_u64, mut_sub_reader, vr. evs. cbn [scoped]. drop. cbn [obind]. evs. cbn [call_std set_reader st_reader].
  replace (reader_at p r1) with (Some r1) by (rewrite <- Hp, <- Hk; symmetry; apply at_self). cbn [of_fres obind]. evs.
  match goal with |- context [run_list _ (gen_deser _ _ _ _ _ _) ?E0 ?st0] =>
    pose proof (IH ns s t false sz (RTake sz r1) depth E0 st0 self Hl Hd eq_refl) as K end.
  cbn [chain_length] in K. rewrite Hk, Hp in K. cbn [shrinks] in Hs1. specialize (K (lookup_here _ _ _) ltac:(intros _; lk) ltac:(cbn [amount]; lia)).
  pose proof (shrinks_decode rounds lim (erase e) false sz (RTake sz r1)) as Hs2.
  pose proof (keeps_decode rounds lim (erase e) false sz (RTake sz r1)) as Hk2.
  destruct (cdecode rounds lim (erase e) false sz (RTake sz r1)) as [v r2|x r2| |]; cbn [agrees cbind] in *; auto.
  - destruct K as (B & l & -> & HB). cbn [obind]. rewrite (ev_var _ _ _ _ _ _ _ _ _ (embed u DIn v e)) by now apply lookup_payload.
    cbn [scoped obind]. rewrite leave_app by reflexivity. cbn [obind]. lk. cbn [change]. rewrite !update_skip by reflexivity. rewrite update_here. cbn [obind]. evs. cbn [scoped obind].
    match goal with |- context [leave ?E0 (?a :: ?b :: ?c :: ?E)] => replace (leave E0 (a :: b :: c :: E)) with (c :: E) by (symmetry; exact (leave_app [a; b] (c :: E) E0 eq_refl)) end.
    cbn [keeps_ok chain_length] in Hk2. rewrite Hk, Hp in Hk2.
    match goal with |- context [run_loop _ k _ ?st0] => specialize (IHk (untake r2) st0 (acc ++ [embed u DIn v e]) (at_under _ _ Hk2) ltac:(cbn [shrinks amount] in Hs2; rewrite untake_amount; lia)) end.
    destruct (csized_loop rounds k _ (untake r2)) as [vs r3|x r3| |]; cbn [agrees cmap cbind] in *; auto. rewrite IHk. cbn [map]. now rewrite <- app_assoc.
  - rewrite K. reflexivity.
  - rewrite K. reflexivity.
  - rewrite K. reflexivity.
Qed.

(** ** Payloads *)
Lemma u64_then nt ns self depth E st is_field n r (f : N -> val) e : st_reader st = r -> lookup (txt "sub_reader") E = Some (RvReader (chain_length r)) ->
  (is_field = true -> lookup (txt "payload_size") E = Some (RvInt n)) ->
  (forall m st', ev depth ns self e ((txt "payload", RvInt m) :: E) st' = OVal (embed u DIn (f m) nt) ((txt "payload", RvInt m) :: E) st') ->
  agrees (cmap f (cdec_u64 rounds is_field n r)) st (dec_val nt E) (run_list (ex depth ns self) (gen_deser_u64 (length ns) is_field ++ [lets "payload" e]) E st).
Proof.
  intros Hr Hs Hn He. pose proof (u64_deser ns self depth E st is_field n r Hr Hs Hn) as H. rewrite run_list_app.
  destruct (cdec_u64 rounds is_field n r) as [m r'|k r'| |]; cbn [agrees cmap cbind] in *; rewrite H; cbn [obind]; try reflexivity.
  unfold lets. rewrite run_cons, ex_let_var, He. cbn [obind]. rewrite run_nil. cbn [obind].
  exists [(txt "payload", embed u DIn (f m) nt); (txt "payload", RvInt m)], [tt; tt]. split; [reflexivity|]. split; [apply lookup_here|reflexivity].
Qed.
Lemma reserve_sim {A} ns self depth E1 st n old (x : cres A) K rest : lookup (txt "payload_size") E1 = Some (RvInt n) ->
  (match old with RvBytes _ | RvString _ => True | _ => False end) ->
  agrees x st K (run_list (ex depth ns self) rest ((txt "payload", old) :: E1) st) ->
  agrees (creserve lim n x) st (fun a st' o => exists o', o = obind o' (fun l E s => OVal (tt :: l) E s) /\ K a st' o')
    (run_list (ex depth ns self) (SSemi (EMethod (vr "payload") MReserveExact [vr "payload_size"]) :: rest) ((txt "payload", old) :: E1) st).
Proof.
  intros Hn Ho H. rewrite run_cons, ex_semi. unfold vr. evs. rewrite lookup_here. unfold creserve, change. destruct old; try contradiction; destruct (lim <? n); cbn [obind agrees]; try reflexivity;
  rewrite update_here; apply agrees_bind with (1 := H) || (eapply agrees_imp; [|]); eauto.
Qed.

Lemma unit_deser : deser_stmt NUnit.
Proof.
  intros ns s t is_field n r depth E st self Ht _ Hr _ _ _. cbn [linked] in Ht. subst t. cbn [erase cdecode agrees gen_deser]. unfold lets. evs.
  exists [(txt "payload", RvUnit)], [tt]. split; [rewrite <- Hr; destruct st; reflexivity|]. split; [apply lookup_here|reflexivity].
Qed.
Lemma bool_deser : deser_stmt NBool.
Proof.
  intros ns s t is_field n r depth E st self Ht _ Hr Hs Hn Ha. cbn [linked] in Ht. subst t. cbn [erase cdecode gen_deser].
  apply (u64_then NBool ns self depth E st is_field n r (fun n => VBool (negb (n =? 0)))); [exact Hr|exact Hs|intros ->; now apply Hn|].
  intros m st'. unfold vr, u64_lit. evs. reflexivity.
Qed.
Lemma s64_deser : deser_stmt NS64.
Proof.
  intros ns s t is_field n r depth E st self Ht _ Hr Hs Hn Ha. cbn [linked] in Ht. subst t. cbn [erase cdecode gen_deser].
  apply (u64_then NS64 ns self depth E st is_field n r (fun n => VS64 (zigzag_decode n))); [exact Hr|exact Hs|intros ->; now apply Hn|].
  intros m st'. unfold vr. rewrite <- (mods_length u ns). evs. reflexivity.
Qed.
Lemma nu64_deser : deser_stmt NU64.
Proof.
  intros ns s t is_field n r depth E st self Ht _ Hr Hs Hn Ha. cbn [linked] in Ht. subst t. cbn [erase cdecode gen_deser]. apply agrees_cmap.
  eapply agrees_imp; [apply u64_deser; auto; intros ->; now apply Hn|]. intros m r' _ ->.
  exists [(txt "payload", RvInt m)], [tt]. split; [reflexivity|]. split; [apply lookup_here|reflexivity].
Qed.
Lemma units_deser : deser_stmt (NArray NUnit).
Proof.
  intros ns s t is_field n r depth E st self (t' & -> & Ht) _ Hr Hs Hn Ha. cbn [linked] in Ht. subst t'. cbn [erase cdecode gen_deser].
  apply (u64_then (NArray NUnit) ns self depth E st is_field n r VUnits); [exact Hr|exact Hs|intros ->; now apply Hn|].
  intros m st'. unfold vr, as_usize. evs. reflexivity.
Qed.
Lemma f64_deser : deser_stmt NF64.
Proof.
  intros ns s t is_field n r depth E st self Ht _ Hr Hs Hn Ha. cbn [linked] in Ht. subst t. cbn [erase cdecode gen_deser]. unfold cdec_f64, eight_bytes, lets, letm.
  pose proof (eight_read ns self depth ((txt "buffer", RvBytes (repeat 0 (N.to_nat 8))) :: E) st r (txt "buffer") Hr ltac:(lk) ltac:(apply lookup_here)) as H.
  cbn [erase small negb] in Hn. rewrite orb_false_r in Hn. apply agrees_cmap. destruct is_field; cbn [andb].
  - specialize (Hn eq_refl). rewrite run_cons, ex_let_var, ev_if. unfold vr at 1, usize_lit. rewrite ev_bin, (ev_var _ _ _ _ _ _ _ _ _ _ _ _ Hn). cbn [obind]. rewrite ev_int. cbn [obind bin_value].
    destruct (n =? 0).
    + rewrite eb_eq, run_nil. cbn [obind]. rewrite ev_zero. cbn [scoped obind]. rewrite leave_self. evs. cbn [agrees].
      exists [(txt "payload", RvF64 0)], [tt]. split; [rewrite <- Hr; destruct st; reflexivity|]. split; [apply lookup_here|reflexivity].
    + rewrite eb_eq, run_cons, ex_let_var, ev_zeros. cbn [obind]. rewrite run_cons, ex_semi, ev_try. unfold vr at 1. rewrite ev_read by reflexivity.
      destruct (cread_exact rounds 8 [] r) as [bs r'|k r'| |]; cbn [agrees cbind] in *; rewrite H; cbn [obind scoped]; try reflexivity.
      rewrite update_here. unfold vr. evs. cbn [call_std of_fres obind scoped]. drop. cbn [obind]. evs.
      exists [(txt "payload", RvF64 (le_val bs))], [tt]. split; [reflexivity|]. split; [apply lookup_here|reflexivity].
  - cbn [app]. rewrite run_cons, ex_let_var, ev_zeros. cbn [obind]. rewrite run_cons, ex_semi, ev_try. unfold vr at 1. rewrite ev_read by reflexivity.
    destruct (cread_exact rounds 8 [] r) as [bs r'|k r'| |]; cbn [agrees cbind] in *; rewrite H; cbn [obind scoped]; try reflexivity.
    rewrite update_here. unfold vr. evs. cbn [call_std of_fres obind]. evs.
    exists [(txt "payload", RvF64 (le_val bs)); (txt "buffer", RvBytes bs)], [tt; tt; tt]. split; [reflexivity|]. split; [apply lookup_here|reflexivity].
Qed.
Lemma bytes_deser : deser_stmt NBytes.
Proof.
  intros ns s t is_field n r depth E st self Ht _ Hr Hs Hn Ha. cbn [linked] in Ht. subst t. cbn [erase cdecode gen_deser]. unfold lets, letm.
  cbn [erase small negb] in Hn. rewrite orb_true_r in Hn. specialize (Hn eq_refl). rewrite run_cons, ex_let_var, ev_vec_empty. cbn [obind].
  eapply agrees_bind; [apply (reserve_sim ns self depth E st n (RvBytes []) _ (fun v s o => exists l bs, o = OVal l ((txt "payload", RvBytes bs) :: E) s /\ v = VBytes bs)); auto|].
  - unfold mut_sub_reader, vr. rewrite run_cons, ex_semi, ev_try, ev_read by reflexivity. unfold read_call. evs. rewrite lookup_here. cbn [read_into]. rewrite Hr, at_self. cbv zeta.
    destruct (cread_to_end rounds [] r) as [bs r'|k r'| |]; cbn [agrees cmap cbind io_value of_fres obind]; try exact I; try reflexivity.
    rewrite update_here. evs. exists [tt], bs. auto.
  - intros v r' o _ (o' & -> & l & bs & -> & ->). cbn [obind]. exists [(txt "payload", RvBytes bs)], (tt :: tt :: l). split; [reflexivity|]. split; [apply lookup_here|reflexivity].
Qed.
Lemma string_deser : deser_stmt NString.
Proof.
  intros ns s t is_field n r depth E st self Ht _ Hr Hs Hn Ha. cbn [linked] in Ht. subst t. cbn [erase cdecode gen_deser]. unfold lets, letm.
  cbn [erase small negb] in Hn. rewrite orb_true_r in Hn. specialize (Hn eq_refl). rewrite run_cons, ex_let_var. evs. cbn [call_std of_fres obind].
  eapply agrees_bind; [apply (reserve_sim ns self depth E st n (RvString []) _ (fun v s o => exists l bs, o = OVal l ((txt "payload", RvString bs) :: E) s /\ v = VString bs)); auto|].
  - unfold mut_sub_reader, vr. rewrite run_cons, ex_semi, ev_try, ev_read by reflexivity. unfold read_call. evs. rewrite lookup_here. cbn [read_into]. rewrite Hr, at_self.
    destruct (cread_to_end rounds [] r) as [bs r'|k r'| |]; cbn [agrees cmap cbind io_value of_fres obind]; try exact I; try reflexivity.
    destruct (utf8_decode bs) as [text|]; cbn [agrees of_fres obind]; [|reflexivity].
    rewrite update_here. evs. exists [tt], text. auto.
  - intros v r' o _ (o' & -> & l & bs & -> & ->). cbn [obind]. exists [(txt "payload", RvString bs)], (tt :: tt :: l). split; [reflexivity|]. split; [apply lookup_here|reflexivity].
Qed.

Lemma reserve_vec {A} ns self depth E1 st n (x : cres A) K rest : lookup (txt "payload_size") E1 = Some (RvInt n) ->
  agrees x st K (run_list (ex depth ns self) rest ((txt "payload", RvVec []) :: E1) st) ->
  agrees (creserve lim (8 * n) x) st (fun a st' o => exists o', o = obind o' (fun l E s => OVal (tt :: l) E s) /\ K a st' o')
    (run_list (ex depth ns self) (SSemi (EMethod (vr "payload") MReserveExact [vr "payload_size"]) :: rest) ((txt "payload", RvVec []) :: E1) st).
Proof.
  intros Hn H. rewrite run_cons, ex_semi. unfold vr. evs. rewrite lookup_here. unfold creserve, change. destruct (lim <? 8 * n); cbn [obind agrees]; try reflexivity.
  rewrite update_here. apply agrees_bind with (1 := H). eauto.
Qed.
Lemma small_array e ns s t depth self E st r : deser_stmt e -> linked u prog ns s t e -> small (erase e) = true -> (1 <= depth)%nat -> st_reader st = r ->
  lookup (txt "sub_reader") E = Some (RvReader (chain_length r)) -> dd e = O -> (amount r < rounds)%nat ->
  agrees (cmap VArr (csmall_loop rounds (fun r => cdecode rounds lim (erase e) false 0 r) r)) st
    (fun v st' o => exists l, o = OVal l ((txt "payload", embed u DIn v (NArray e)) :: (txt "deserialize_element", RvFn (element_fn ns s t)) :: E) st')
    (run_list (ex depth ns self) [SLoop small_block] ((txt "payload", RvVec []) :: (txt "deserialize_element", RvFn (element_fn ns s t)) :: E) st).
Proof.
  intros IH Hl Hs Hd Hr HE Hz Ha. apply agrees_cmap. rewrite run_cons, ex_loop. eapply agrees_bind.
  - apply (small_loop_sim e ns s t depth self ((txt "deserialize_element", RvFn (element_fn ns s t)) :: E)); auto; try lk. lia.
  - intros vs r' o _ ->. cbn [obind]. evs. exists [tt]. reflexivity.
Qed.
Lemma sized_array e ns s t depth self E st r : deser_stmt e -> linked u prog ns s t e -> (dd e <= depth)%nat -> st_reader st = r ->
  lookup (txt "sub_reader") E = Some (RvReader (chain_length r)) -> (amount r < rounds)%nat ->
  agrees (cmap VArr (csized_loop rounds rounds (cdecode rounds lim (erase e) false) r)) st (dec_val (NArray e) E)
    (run_list (ex depth ns self) [letm "payload" (ECall (CStd FnVecNew) []); SLoop (sized_block ns s t)] E st).
Proof.
  intros IH Hl Hd Hr HE Ha. apply agrees_cmap. unfold letm. rewrite run_cons, ex_let_var. evs. cbn [call_std of_fres obind]. rewrite run_cons, ex_loop.
  rewrite obind_assoc. eapply agrees_bind.
  - apply (sized_loop_sim e ns s t depth self E (chain_length r)); auto. rewrite Hr. apply at_self.
  - intros vs r' o _ ->. cbn [obind]. evs. cbn [app embed].
    exists [(txt "payload", RvVec (map (fun v => embed u DIn v e) vs))], [tt; tt]. split; [reflexivity|]. split; [apply lookup_here|reflexivity].
Qed.
Lemma array_deser e : deser_stmt e -> deser_stmt (NArray e).
Proof.
  intros IH ns s t is_field n r depth E st self (t' & -> & Hl) Hd Hr Hs Hn Ha. cbn [dd] in Hd.
  assert (forall v st' o, (exists l, o = OVal l ((txt "payload", embed u DIn v (NArray e)) :: (txt "deserialize_element", RvFn (element_fn ns s t')) :: E) st') ->
    dec_val (NArray e) E v st' (obind o (fun l E s => OVal (tt :: tt :: l) E s))) as Hsmall.
  { intros v st' o (l & ->). exists [(txt "payload", embed u DIn v (NArray e)); (txt "deserialize_element", RvFn (element_fn ns s t'))], (tt :: tt :: l).
    split; [reflexivity|]. split; [apply lookup_here|reflexivity]. }
  destruct e; cbn [linked] in Hl.
  1: subst t'; apply units_deser; auto; cbn [linked]; eauto.
  (* numbers *)
  1,2,3,4: subst t'; cbn [erase gen_deser app cdecode]; unfold letm; rewrite run_cons, ex_fn; cbn [obind fn_name]; rewrite run_cons, ex_let_var; evs; cbn [call_std of_fres obind].
  1,2,3,4: rewrite obind_assoc; cbn [obind].
  - cbn [erase small negb] in Hn. rewrite orb_true_r in Hn. specialize (Hn eq_refl).
    eapply agrees_bind.
    + apply (reserve_vec ns self depth _ st n). { lk. } exact (small_array NF64 ns s SyF64 depth self E st r IH eq_refl eq_refl ltac:(lia) Hr Hs eq_refl Ha).
    + intros v r' o _ (o' & -> & l & ->). cbn [obind].
      exists [(txt "payload", embed u DIn v (NArray NF64)); (txt "deserialize_element", RvFn (element_fn ns s SyF64))], (tt :: tt :: tt :: l).
      split; [reflexivity|]. split; [apply lookup_here|reflexivity].
  - eapply agrees_bind; [exact (small_array NU64 ns s SyU64 depth self E st r IH eq_refl eq_refl ltac:(lia) Hr Hs eq_refl Ha)|]. intros v r' o _ Ho. now apply Hsmall.
  - eapply agrees_bind; [exact (small_array NS64 ns s SyS64 depth self E st r IH eq_refl eq_refl ltac:(lia) Hr Hs eq_refl Ha)|]. intros v r' o _ Ho. now apply Hsmall.
  - eapply agrees_bind; [exact (small_array NBool ns s SyBool depth self E st r IH eq_refl eq_refl ltac:(lia) Hr Hs eq_refl Ha)|]. intros v r' o _ Ho. now apply Hsmall.
  - subst t'. exact (sized_array NBytes ns s SyBytes depth self E st r IH eq_refl ltac:(lia) Hr Hs Ha).
  - subst t'. exact (sized_array NString ns s SyString depth self E st r IH eq_refl ltac:(lia) Hr Hs Ha).
  - destruct Hl as (t2 & -> & Hl). exact (sized_array (NArray e) ns s (SyArray t2) depth self E st r IH (ex_intro _ t2 (conj eq_refl Hl)) ltac:(lia) Hr Hs Ha).
  - pose proof Hl as ((i & m & -> & _) & _). destruct k; exact (sized_array (NDecl _ _ _ _ _) ns s (SyCustom i m) depth self E st r IH Hl ltac:(lia) Hr Hs Ha).
Qed.
Lemma custom_deser ns2 s2 k name fs : deser_call (NDecl ns2 s2 k name fs) -> deser_stmt (NDecl ns2 s2 k name fs).
Proof.
  intros IH ns s t is_field n r depth E st self ((i & m & -> & Hdes) & Hin & Hl) Hd Hr Hs Hn Ha. cbn [gen_deser]. unfold lets, mut_sub_reader, vr. evs.
  rewrite Hdes, (in_deserialize _ _ _ _ _ _ _ Hin). cbn [fst snd].
  assert (reader_at (chain_length r) (st_reader st) = Some r) as Hat by (rewrite Hr; apply at_self).
  specialize (IH r _ depth st Hin Hl Hd Hat is_field n Ha).
  destruct (cdecode rounds lim (erase (NDecl ns2 s2 k name fs)) is_field n r) as [v r'|e r'| |] eqn:Ed;
  rewrite IH; cbn [io_value of_fres obind agrees]; try reflexivity. evs.
  eexists [_], [tt]. split; [reflexivity|]. split; [apply lookup_here|reflexivity].
Qed.

(** ** Structs *)
(** The local variables start with an underscore; the fixed names do not. *)
Lemma local_other f x : (match x with c :: _ => negb (c =? 95) | [] => true end) = true -> str_eqb x (local_name u f) = false.
Proof.
  intros H. apply str_eqb_neq. intros ->. unfold local_name, rust_local in H. cbn in H. discriminate.
Qed.
Lemma local_leftover f B : forallb (fun b : str * rv => leftover (fst b)) B = true -> lookup (local_name u f) B = None.
Proof.
  intros H. apply forallb_lookup with (1 := H). unfold leftover. rewrite !(str_eqb_sym (local_name u f)), !local_other by reflexivity. reflexivity.
Qed.
Lemma update_over {A} x (v : A) B E : lookup x B = None -> update x v (B ++ E) = B ++ update x v E.
Proof.
  induction B as [|[y z] B IH]; [reflexivity|]. cbn [lookup app update]. destruct (str_eqb x y); [discriminate|]. intros H. now rewrite IH.
Qed.
Lemma update_map {A} x (v : A) l : NoDup (map fst l) -> update x v l = map (fun b => if str_eqb x (fst b) then (fst b, v) else b) l.
Proof.
  induction l as [|[y z] l IH]; [reflexivity|]. cbn [map fst update]. intros Hn. inversion Hn as [|? ? Hni Hn']; subst. destruct (str_eqb x y) eqn:E.
  - apply str_eqb_eq in E. subst y. f_equal. rewrite <- (map_id l) at 1. apply map_ext_in. intros [y z'] Hin. cbn [fst].
    destruct (str_eqb x y) eqn:E; [|reflexivity]. apply str_eqb_eq in E. subst y. exfalso. apply Hni. now apply (in_map fst) in Hin.
  - now rewrite IH.
Qed.
Definition local_value (slots : list (N * val)) (f : sfield * nty) : rv :=
  RvOpt (match assoc (sf_index (fst f)) slots with Some v => Some (embed u DIn v (snd f)) | None => None end).
Definition locals_env (fs : list (sfield * nty)) (slots : list (N * val)) : env :=
  rev (map (fun f => (local_name u (fst f), local_value slots f)) fs).
Lemma locals_keys fs slots : NoDup (map (local_name u) (map fst fs)) -> NoDup (map fst (locals_env fs slots)).
Proof. intros H. unfold locals_env. rewrite map_rev. apply NoDup_rev. rewrite map_map in *. exact H. Qed.
Lemma locals_lookup_one fs slots f : NoDup (map (local_name u) (map fst fs)) -> In f fs -> lookup (local_name u (fst f)) (locals_env fs slots) = Some (local_value slots f).
Proof.
  intros Hn Hin. apply lookup_nodup; [now apply locals_keys|]. unfold locals_env. rewrite <- in_rev. now apply (in_map (fun f => (local_name u (fst f), local_value slots f))).
Qed.
Lemma locals_other fs slots x E : (match x with c :: _ => negb (c =? 95) | [] => true end) = true -> lookup x (locals_env fs slots ++ E) = lookup x E.
Proof.
  intros H. rewrite lookup_app. rewrite lookup_none; [reflexivity|]. unfold locals_env. rewrite map_rev, map_map, <- in_rev. intros Hin. apply in_map_iff in Hin as (f & E1 & _).
  cbn [fst] in E1. pose proof (local_other (fst f) x H) as K. rewrite E1, str_eqb_refl in K. discriminate.
Qed.
Lemma get_or_insert_same i v slots : assoc i (get_or_insert i v slots) = Some (match assoc i slots with Some x => x | None => v end).
Proof.
  unfold get_or_insert. destruct (assoc i slots) as [x|] eqn:E; [exact E|]. induction slots as [|[j y] slots IH]; cbn [app assoc] in *.
  - replace (i =? i) with true by lia. reflexivity.
  - destruct (j =? i); [discriminate|auto].
Qed.
Lemma get_or_insert_other i j v slots : j <> i -> assoc j (get_or_insert i v slots) = assoc j slots.
Proof.
  intros H. unfold get_or_insert. destruct (assoc i slots); [reflexivity|]. induction slots as [|[k y] slots IH]; cbn [app assoc].
  - replace (i =? j) with false by lia. reflexivity.
  - destruct (k =? j); auto.
Qed.
Lemma locals_update fs slots f v : NoDup (map (local_name u) (map fst fs)) -> NoDup (map sf_index (map fst fs)) -> In f fs ->
  update (local_name u (fst f)) (RvOpt (Some (match assoc (sf_index (fst f)) slots with Some x => embed u DIn x (snd f) | None => embed u DIn v (snd f) end))) (locals_env fs slots) =
    locals_env fs (get_or_insert (sf_index (fst f)) v slots).
Proof.
  intros Hn Hi Hin. rewrite update_map by now apply locals_keys. unfold locals_env. rewrite map_rev, map_map. f_equal. apply map_ext_in. intros g Hg. cbn [fst].
  rewrite map_map in Hn, Hi. destruct (str_eqb (local_name u (fst f)) (local_name u (fst g))) eqn:E.
  - apply str_eqb_eq in E. assert (f = g) as -> by (eapply (nodup_key (fun x => local_name u (fst x))); eauto). f_equal. unfold local_value. rewrite get_or_insert_same.
    destruct (assoc (sf_index (fst g)) slots); reflexivity.
  - f_equal. unfold local_value. rewrite get_or_insert_other; [reflexivity|]. intros K. assert (g = f) as -> by (eapply (nodup_key (fun x => sf_index (fst x))); eauto). now rewrite str_eqb_refl in E.
Qed.
Lemma decoder_of i (g : sfield * nty -> cdecoder) fs : assoc i (map (fun f => (sf_index (fst f), g f)) fs) = match named_field i fs with Some f => Some (g f) | None => None end.
Proof. induction fs as [|f fs IH]; [reflexivity|]. cbn [map assoc named_field]. destruct (sf_index (fst f) =? i); auto. Qed.
Lemma named_none i fs f : named_field i fs = None -> In f fs -> sf_index (fst f) <> i.
Proof.
  induction fs as [|g fs IH]; [intros _ []|]. cbn [named_field]. destruct (sf_index (fst g) =? i) eqn:E; [discriminate|]. intros H [->|Hin]; [lia|auto].
Qed.
(** One field: its payload is read into the variable for it. *)
Lemma header_read ns self depth E st r p : reader_at p (st_reader st) = Some r -> lookup (txt "reader") E = Some (RvReader p) ->
  ev depth ns self (ECall (CTop (length ns) FnDeserializeFieldHeader) [mut_reader]) E st =
    of_fres (io_value (fun h => RvPair (RvInt (fst h)) (RvInt (snd h))) st (cdeserialize_field_header rounds r)) E.
Proof. intros Hr HE. unfold mut_reader, vr. rewrite <- (mods_length u ns). evs. cbn [call_top]. unfold read_with. rewrite Hr. reflexivity. Qed.
Lemma skip_sim ns self depth E st i sz r p : st_reader st = r -> chain_length r = p ->
  lookup (txt "sub_reader") E = Some (RvReader p) -> lookup (txt "payload_size") E = Some (RvInt sz) ->
  agrees (cskip rounds sz r) st (fun _ st' o => o = OVal RvUnit E st')
    (run_arms w rounds lim wraps prog (run depth) (mods u ns) self (RvInt i) E st [skip_arm (length ns)]).
Proof.
  intros Hr Hp HE Hn. unfold skip_arm. rewrite (arms_take _ _ _ _ _ _ _ _ _ _ _ _ _ _ []) by reflexivity. cbn [app]. unfold mut_sub_reader, vr. rewrite <- (mods_length u ns). evs.
  cbn [call_top]. unfold read_with. rewrite Hr, <- Hp, at_self. destruct (cskip rounds sz r) as [x r'|k r'| |]; cbn [io_value of_fres obind scoped agrees]; try reflexivity.
  evs. cbn [scoped]. rewrite !leave_self. reflexivity.
Qed.

(** The decoders of the fields. *)
Definition decoders (fs : list (sfield * nty)) : list (N * cdecoder) := map (fun f => (sf_index (fst f), cdecode rounds lim (erase (snd f)) true)) fs.
Lemma take_sim ns self depth E st r sz p : reader_at p (st_reader st) = Some r -> lookup (txt "reader") E = Some (RvReader p) -> lookup (txt "payload_size") E = Some (RvInt sz) ->
  ex depth ns self take_sub_reader E st = OVal tt ((txt "sub_reader", RvReader (S p)) :: E) (set_reader st (RTake sz r)).
Proof. intros Hr HE Hn. unfold take_sub_reader, letm, mut_reader, as_u64, vr. evs. cbn [call_std]. rewrite Hr. reflexivity. Qed.
Lemma int_arm here (i j : N) : i <> j -> match_pat here (PInt i []) (RvInt j) = None.
Proof. intros H. cbn [match_pat]. replace (j =? i) with false by lia. reflexivity. Qed.
Lemma struct_loop_sim ns s fs depth self p : Forall (fun f => deser_stmt (snd f)) fs -> Forall (fun f => linked u prog ns s (sf_type (fst f)) (snd f)) fs ->
  Forall (fun f => (dd (snd f) <= depth)%nat) fs -> NoDup (map (local_name u) (map fst fs)) -> NoDup (map sf_index (map fst fs)) ->
  forall k slots r st, reader_at p (st_reader st) = Some r -> (amount r < rounds)%nat ->
  agrees (cstruct_loop rounds k (decoders fs) slots r) st (fun slots' st' o => o = OVal tt (locals_env fs slots' ++ [(txt "reader", RvReader p)]) st')
    (run_loop (fun E x => obind (eb depth ns self (struct_loop_block u ns s (length ns) (map fst fs)) E x) (fun _ E x => OVal tt E x)) k
       (locals_env fs slots ++ [(txt "reader", RvReader p)]) st).
Proof.
  intros IH Hl Hd Hnl Hni. rewrite Forall_forall in IH, Hl, Hd. induction k as [|k IHk]; intros slots r st Hr Ha; [reflexivity|].
  cbn [cstruct_loop run_loop]. unfold struct_loop_block at 1. set (E0 := locals_env fs slots ++ [(txt "reader", RvReader p)]).
  assert (lookup (txt "reader") E0 = Some (RvReader p)) as HE by (unfold E0; rewrite locals_other by reflexivity; apply lookup_here).
  rewrite eb_eq, run_cons, ex_let.
  rewrite (eof_sim ns self depth _ (fun h => RvPair (RvInt (fst h)) (RvInt (snd h))) (cdeserialize_field_header rounds r)) by (apply (header_read ns self depth E0 st r p); assumption).
  pose proof (keeps_header rounds r) as Hk. pose proof (fun h r1 => header_amount rounds r h r1) as Hs1. pose proof (at_chain _ _ _ Hr) as Hp.
  destruct (cdeserialize_field_header rounds r) as [[i sz] r1|x r1| |]; cbn [eof_result obind scoped agrees]; auto.
  2:{ destruct x; cbn [obind scoped agrees]; [rewrite leave_self|]; reflexivity. }
  cbn [keeps fst snd] in *. unfold vr at 1. rewrite (ev_var _ _ _ _ _ _ _ _ _ (RvPair (RvInt i) (RvInt sz))) by apply lookup_here. cbn [scoped]. rewrite leave1. cbn [obind]. unfold index_and_size, pv. cbn [match_pat]. cbn [obind]. change ([(txt "payload_size", RvInt sz)] ++ [(txt "index", RvInt i)]) with [(txt "payload_size", RvInt sz); (txt "index", RvInt i)]. cbn [obind].
  change ([(txt "payload_size", RvInt sz); (txt "index", RvInt i)] ++ E0) with ((txt "payload_size", RvInt sz) :: (txt "index", RvInt i) :: E0). rewrite run_cons, ex_blank. cbn [obind]. rewrite run_cons.
  rewrite (take_sim ns self depth _ (set_reader st r1) r1 sz p); [|cbn [set_reader st_reader]; rewrite <- Hp, <- Hk; apply at_self|lk|lk].
  cbn [obind]. rewrite set_reader_twice. rewrite run_cons, ex_blank. cbn [obind]. rewrite run_cons, ex_expr, ev_match. unfold vr at 1. rewrite (ev_var _ _ _ _ _ _ _ _ _ (RvInt i)) by lk. cbn [obind].
  change (decoders fs) with (map (fun f => (sf_index (fst f), cdecode rounds lim (erase (snd f)) true)) fs) at 1. rewrite decoder_of.
  set (E1 := (txt "sub_reader", RvReader (S p)) :: (txt "payload_size", RvInt sz) :: (txt "index", RvInt i) :: E0).
  set (st1 := set_reader st (RTake sz r1)).
  assert (chain_length (RTake sz r1) = S p) as Hc1 by (cbn [chain_length]; congruence). specialize (Hs1 _ _ eq_refl).
  destruct (named_field i fs) as [f|] eqn:Ef.
  - destruct (named_in _ _ _ Ef) as [Hin Hidx].
    change (struct_deser_arm u ns s (length ns)) with (fun f => Arm (PInt (sf_index f) []) (EBlock (Blk false (gen_deser u ns s (length ns) (sf_type f) true ++ [SSemi (EMethod (EVar (local_name u f)) MGetOrInsert [vr "payload"])]) None))).
    rewrite (select_arm w rounds lim wraps prog (run depth) (mods u ns) self sf_index (fun f => PInt (sf_index f) [])
       (fun f => EBlock (Blk false (gen_deser u ns s (length ns) (sf_type f) true ++ [SSemi (EMethod (EVar (local_name u f)) MGetOrInsert [vr "payload"])]) None))
       (RvInt i) E1 st1 (map fst fs) _ (fst f) []); auto.
    2: now apply in_map.
    2: intros y _ Hne; apply int_arm; congruence.
    2: cbn [match_pat]; rewrite Hidx; now replace (i =? i) with true by lia.
    cbn [app]. rewrite ev_block, eb_eq, run_list_app.
    pose proof (IH f Hin ns s (sf_type (fst f)) true sz (RTake sz r1) depth E1 st1 self (Hl f Hin) (Hd f Hin) eq_refl) as K. rewrite Hc1 in K.
    specialize (K (lookup_here _ _ _) ltac:(intros _; unfold E1; lk) ltac:(cbn [amount]; lia)).
    pose proof (keeps_decode rounds lim (erase (snd f)) true sz (RTake sz r1)) as Hk2. pose proof (shrinks_decode rounds lim (erase (snd f)) true sz (RTake sz r1)) as Hs2.
    destruct (cdecode rounds lim (erase (snd f)) true sz (RTake sz r1)) as [v r2|x r2| |]; cbn [agrees cbind] in *; auto.
    2,3,4: rewrite K; cbn [obind scoped]; reflexivity.
    destruct K as (B & l & -> & HB). cbn [obind]. rewrite run_cons, ex_semi, ev_change by reflexivity. unfold vr.
    rewrite (ev_var _ _ _ _ _ _ _ _ _ (embed u DIn v (snd f))) by now apply lookup_payload. cbn [obind].
    assert (lookup (local_name u (fst f)) (B ++ E1) = Some (local_value slots f)) as Hlk.
    { rewrite lookup_app, local_leftover by apply HB. unfold E1, E0. rewrite !lookup_skip by (rewrite str_eqb_sym; now apply local_other).
      rewrite lookup_app, locals_lookup_one by assumption. reflexivity. }
    rewrite Hlk. unfold local_value. cbn [change].
    assert (update (local_name u (fst f)) (RvOpt (Some (match match assoc (sf_index (fst f)) slots with Some v0 => Some (embed u DIn v0 (snd f)) | None => None end with Some v0 => v0 | None => embed u DIn v (snd f) end))) (B ++ E1) =
       B ++ (txt "sub_reader", RvReader (S p)) :: (txt "payload_size", RvInt sz) :: (txt "index", RvInt i) :: locals_env fs (get_or_insert i v slots) ++ [(txt "reader", RvReader p)]) as Hup.
    { rewrite update_over by (apply local_leftover, HB). f_equal. unfold E1, E0. rewrite !update_skip by (rewrite str_eqb_sym; now apply local_other). do 3 f_equal.
      rewrite <- Hidx, <- locals_update by assumption.
      assert (forall (l1 l2 : env) x (a : rv), lookup x l1 <> None -> update x a (l1 ++ l2) = update x a l1 ++ l2) as Hua.
      { intros l1 l2 x a. induction l1 as [|[y z] l1 IHl]; [intros H; now elim H|]. cbn [lookup update app]. destruct (str_eqb x y); [reflexivity|]. intros H. now rewrite IHl. }
      rewrite Hua by (rewrite locals_lookup_one by assumption; discriminate). do 2 f_equal. destruct (assoc (sf_index (fst f)) slots); reflexivity. }
    rewrite Hup. cbn [obind]. rewrite run_nil. cbn [obind scoped].
    assert (forall a b c (L : env), length L = length E0 -> leave E1 (B ++ a :: b :: c :: L) = a :: b :: c :: L) as Hlv.
    { intros a b c L HL. apply leave_app. unfold E1. cbn [length]. congruence. }
    assert (length (locals_env fs (get_or_insert i v slots) ++ [(txt "reader", RvReader p)]) = length E0) as HL0.
    { unfold E0, locals_env. rewrite !app_length, !rev_length, !map_length. reflexivity. }
    rewrite Hlv by exact HL0. rewrite leave_same_length by (unfold E1; cbn [length]; now rewrite HL0). cbn [obind]. rewrite run_nil. cbn [obind].
    cbn [scoped obind].
    match goal with |- context [leave E0 (?a :: ?b :: ?c :: ?L)] => replace (leave E0 (a :: b :: c :: L)) with L by (symmetry; exact (leave_app [a; b; c] L E0 HL0)) end.
    cbn [keeps_ok] in Hk2. rewrite Hc1 in Hk2. exact (IHk (get_or_insert i v slots) (untake r2) (set_reader st1 r2) (at_under r2 p Hk2) ltac:(cbn [shrinks amount] in Hs2; rewrite untake_amount; lia)).
  - change (struct_deser_arm u ns s (length ns)) with (fun f => Arm (PInt (sf_index f) []) (EBlock (Blk false (gen_deser u ns s (length ns) (sf_type f) true ++ [SSemi (EMethod (EVar (local_name u f)) MGetOrInsert [vr "payload"])]) None))).
    rewrite (no_arm w rounds lim wraps prog (run depth) (mods u ns) self (fun f => PInt (sf_index f) [])).
    2:{ intros y Hy. apply in_map_iff in Hy as (f & <- & Hf). apply int_arm. now apply (named_none i fs f). }
    pose proof (skip_sim ns self depth E1 st1 i sz (RTake sz r1) (S p) eq_refl Hc1 (lookup_here _ _ _) ltac:(unfold E1; lk)) as K.
    pose proof (keeps_skip rounds sz (RTake sz r1)) as Hk2. pose proof (shrinks_skip rounds sz (RTake sz r1)) as Hs2.
    destruct (cskip rounds sz (RTake sz r1)) as [v r2|x r2| |]; cbn [agrees cbind] in *; auto.
    2,3,4: rewrite K; cbn [obind scoped]; reflexivity.
    rewrite K. cbn [obind]. rewrite run_nil. cbn [obind scoped].
    unfold E1. match goal with |- context [leave E0 (?a :: ?b :: ?c :: ?L)] => replace (leave E0 (a :: b :: c :: L)) with L by (symmetry; exact (leave_app [a; b; c] L E0 eq_refl)) end.
    cbn [keeps] in Hk2. rewrite Hc1 in Hk2. exact (IHk slots (untake r2) (set_reader st1 r2) (at_under r2 p Hk2) ltac:(cbn [shrinks amount] in Hs2; rewrite untake_amount; lia)).
Qed.

Lemma lets_none ns s depth self fs : forall E st, run_list (ex depth ns self) (map (struct_deser_let u ns s) (map fst fs)) E st =
  OVal (map (fun _ => tt) fs) (locals_env fs [] ++ E) st.
Proof.
  induction fs as [|f fs IH]; intros E st; cbn [map].
  - reflexivity.
  - rewrite run_cons. unfold struct_deser_let at 1. rewrite ex_let_var, ev_none. cbn [obind]. rewrite IH. cbn [obind]. f_equal. unfold locals_env. cbn [map rev]. rewrite <- app_assoc. reflexivity.
Qed.
Lemma ors_sim ns depth self slots E st : forall l : list (sfield * nty), (forall f, In f l -> lookup (local_name u (fst f)) E = Some (local_value slots f)) ->
  ev depth ns self (EOrs (map (fun f => EMethod (EVar (local_name u f)) MIsNone []) (filter required_field (map fst l)))) E st =
    OVal (RvBool (missing_required (map erase_field l) slots)) E st.
Proof.
  intros l. rewrite ev_ors. induction l as [|f l IH]; intros H; [reflexivity|]. cbn [map filter].
  assert (forall g, In g l -> lookup (local_name u (fst g)) E = Some (local_value slots g)) as H' by (intros g Hg; apply H; now right).
  specialize (IH H'). unfold missing_required in *. cbn [existsb]. unfold required_field at 1. unfold erase_field at 1 2. cbn [f_rule f_index].
  destruct (sf_rule (fst f)); cbn [is_required andb orb]; auto. cbn [map run_ors].
  rewrite ev_method by reflexivity. rewrite (ev_var _ _ _ _ _ _ _ _ _ (local_value slots f)) by (apply H; now left). cbn [obind]. rewrite run_nil. cbn [obind call_method]. unfold local_value. cbn [call_method of_fres obind].
  destruct (assoc (sf_index (fst f)) slots); cbn [orb]; auto.
Qed.
Lemma required_filter fs slots : existsb required_field (map fst fs) = false -> missing_required (map erase_field fs) slots = false.
Proof.
  unfold missing_required. induction fs as [|f fs IH]; [reflexivity|]. cbn [map existsb]. intros H. apply orb_false_iff in H as [H1 H2]. rewrite IH by exact H2.
  unfold required_field in H1. unfold erase_field at 1. cbn [f_rule]. destruct (sf_rule (fst f)); try discriminate; reflexivity.
Qed.
Lemma fields_read ns depth self slots E st : forall fs : list (sfield * nty), (forall f, In f fs -> lookup (local_name u (fst f)) E = Some (local_value slots f)) ->
  missing_required (map erase_field fs) slots = false ->
  run_list (fun f E s => obind (ev depth ns self (snd f) E s) (fun v E s => OVal (fst f, v) E s))
    (map (fun f => (field_name u f, match sf_rule f with Required => EMethod (EVar (local_name u f)) MUnwrap [] | _ => EVar (local_name u f) end)) (map fst fs)) E st =
  OVal (map2 (fun ov f => (field_name u (fst f), slot (always_present DIn (sf_rule (fst f))) (match ov with Some v => Some (embed u DIn v (snd f)) | None => None end)))
         (map (fun f => assoc (f_index f) slots) (map erase_field fs)) fs) E st.
Proof.
  induction fs as [|f fs IH]; intros H Hm; [reflexivity|]. cbn [map]. unfold missing_required in Hm. cbn [existsb map] in Hm. apply orb_false_iff in Hm as [Hm1 Hm2].
  rewrite run_cons. cbv zeta. cbn [fst snd]. 
  assert (ev depth ns self (match sf_rule (fst f) with Required => EMethod (EVar (local_name u (fst f))) MUnwrap [] | _ => EVar (local_name u (fst f)) end) E st =
    OVal (slot (always_present DIn (sf_rule (fst f))) (match assoc (sf_index (fst f)) slots with Some v => Some (embed u DIn v (snd f)) | None => None end)) E st) as ->.
  { pose proof (H f (or_introl eq_refl)) as Hf. unfold erase_field in Hm1. cbn [f_rule f_index] in Hm1. destruct (sf_rule (fst f)); cbn [always_present slot is_required andb] in *.
    - now rewrite (ev_var _ _ _ _ _ _ _ _ _ _ _ _ Hf).
    - now rewrite (ev_var _ _ _ _ _ _ _ _ _ _ _ _ Hf).
    - rewrite ev_method by reflexivity. rewrite (ev_var _ _ _ _ _ _ _ _ _ _ _ _ Hf). cbn [obind]. rewrite run_nil. cbn [obind]. unfold local_value. cbn [call_method of_fres].
      destruct (assoc (sf_index (fst f)) slots); [reflexivity|discriminate]. }
  cbn [obind]. rewrite IH; [|intros g Hg; apply H; now right|exact Hm2]. cbn [obind]. reflexivity.
Qed.
Lemma struct_deser_call ns s name fs : Forall (fun f => deser_stmt (snd f)) fs -> deser_call (NDecl ns s SkStruct name fs).
Proof.
  intros IH r p depth st Hi Hl Hd Hr is_field n Hx. cbn [dd] in Hd. destruct depth as [|depth]; [lia|]. apply allP_Forall in Hl.
  assert (Forall (fun f : sfield * nty => (dd (snd f) <= depth)%nat) fs) as Hd'.
  { apply le_S_n in Hd. apply max_bound in Hd. now rewrite Forall_map in Hd. }
  unfold struct_deser, deserialize_fn. rewrite run_one, eb_eq. set (E0 := [(txt "reader", RvReader p)]).
  cbn [erase decl_type cdecode] in *. fold erase_field in *.
  assert (map (fun f : field_of ty => (f_index f, cdecode rounds lim (f_type f) true)) (map erase_field fs) = decoders fs) as Hds by now rewrite map_map.
  change (map (fun f : sfield * nty => mkF (sf_index (fst f)) (sf_rule (fst f)) (erase (snd f))) fs) with (map erase_field fs) in *.
  rewrite Hds in *.
  rewrite run_list_app.
  assert (exists l, run_list (ex depth ns (type_name u name SIn)) (match map fst fs with [] => [] | _ => map (struct_deser_let u ns s) (map fst fs) ++ [SBlank] end) E0 st =
    OVal l (locals_env fs [] ++ E0) st) as [l Hlets].
  { destruct fs as [|f fs']; [exists []; reflexivity|]. change (match map fst (f :: fs') with [] => [] | _ => map (struct_deser_let u ns s) (map fst (f :: fs')) ++ [SBlank] end) with (map (struct_deser_let u ns s) (map fst (f :: fs')) ++ [SBlank]).
    rewrite run_list_app, lets_none. cbn [obind]. rewrite run_cons, ex_blank. cbn [obind]. rewrite run_nil. cbn [obind]. eauto. }
  rewrite Hlets. cbn [obind]. rewrite run_list_app, run_cons, ex_loop.
  pose proof (struct_loop_sim ns s fs depth (type_name u name SIn) p IH Hl Hd' (in_locals _ _ _ _ _ _ _ Hi) (in_indices _ _ _ _ _ _ _ Hi) rounds [] r st Hr Hx) as K.
  fold E0 in K.
  destruct (cstruct_loop rounds rounds (decoders fs) [] r) as [slots r'|x r'| |]; cbn [agrees cbind io_value] in *.
  2,3,4: rewrite K; reflexivity.
  rewrite K. cbn [obind]. rewrite run_cons, ex_blank. cbn [obind]. rewrite run_nil. cbn [obind].
  assert (forall f, In f fs -> lookup (local_name u (fst f)) (locals_env fs slots ++ E0) = Some (local_value slots f)) as Hlk.
  { intros f Hf. rewrite lookup_app, locals_lookup_one by (auto; exact (in_locals _ _ _ _ _ _ _ Hi)). reflexivity. }
  fold erase_field in *. 
  assert (run_list (ex depth ns (type_name u name SIn)) (missing_check u (length ns) (map fst fs)) (locals_env fs slots ++ E0) (set_reader st r') =
    if missing_required (map erase_field fs) slots then OReturn (RvErr (ReKind InvalidData)) (set_reader st r')
    else OVal (map (fun _ => tt) (missing_check u (length ns) (map fst fs))) (locals_env fs slots ++ E0) (set_reader st r')) as Hm.
  { unfold missing_check. destruct (existsb required_field (map fst fs)) eqn:Hq; [|rewrite (required_filter fs slots Hq); reflexivity].
    rewrite run_cons, ex_if, (ors_sim ns depth _ slots) by exact Hlk. cbn [obind]. destruct (missing_required (map erase_field fs) slots).
    - rewrite <- (mods_length u ns). evs. cbn [call_std of_fres obind]. evs. cbn [call_std of_fres obind scoped]. reflexivity.
    - cbn [obind]. evs. reflexivity. }
  rewrite Hm. destruct (missing_required (map erase_field fs) slots) eqn:Hq; cbn [obind].
  - reflexivity.
  - rewrite ev_std by reflexivity. rewrite run_cons, ev_struct. cbv zeta. rewrite (fields_read ns depth _ slots) by assumption. cbn [obind]. rewrite run_nil. cbn [obind call_std of_fres scoped fn_result io_value embed direction]. reflexivity.
Qed.

(** ** Choices *)
Definition choice_decoders (fs : list (sfield * nty)) : list (N * (rule * cdecoder)) :=
  map (fun f => (sf_index (fst f), (sf_rule (fst f), cdecode rounds lim (erase (snd f)) true))) fs.
Lemma choice_decoder_of i fs : assoc i (choice_decoders fs) = match named_field i fs with Some f => Some (sf_rule (fst f), cdecode rounds lim (erase (snd f)) true) | None => None end.
Proof. unfold choice_decoders. induction fs as [|f fs IH]; [reflexivity|]. cbn [map assoc named_field]. destruct (sf_index (fst f) =? i); auto. Qed.
Lemma con_sim depth ns self t v args vs E st : run_list (ev depth ns self) args E st = OVal vs E st -> ev depth ns self (con t v args) E st = OVal (RvEnum (mods u ns, t) v vs) E st.
Proof.
  intros H. unfold con. destruct args as [|a args].
  - cbn in H. injection H as <-. now rewrite ev_variant.
  - rewrite ev_con, H. reflexivity.
Qed.
(** What leaves a function. *)
Definition returned {A B} (f : A -> rv) (s : st W) (x : cres A) (o : out W B) : Prop :=
  match x with
  | COk a r => o = OReturn (RvOk (f a)) (set_reader s r)
  | CErr e r => o = OReturn (RvErr (ReKind e)) (set_reader s r)
  | CPanic => o = OPanic
  | COutOfFuel => o = OFuel
  end.
Lemma returned_bind {A B C} (f : A -> rv) s x (o : out W B) (k : B -> env -> st W -> out W C) : returned f s x o -> returned f s x (obind o k).
Proof. destruct x; cbn [returned]; auto; intros ->; reflexivity. Qed.
Lemma returned_scoped {A B} (f : A -> rv) s x (o : out W B) E : returned f s x o -> returned f s x (scoped E o).
Proof. destruct x; cbn [returned]; auto; intros ->; reflexivity. Qed.
Lemma returned_match {A} (f : A -> rv) s x (o : out W unit) g n : returned f s x o -> returned f s x
  (match o with
   | OVal _ E s => run_loop g n E s
   | OBreak E s => OVal tt E s
   | OReturn v s => OReturn v s
   | OPanic => OPanic | OFuel => OFuel | OStuck => OStuck
   end).
Proof. destruct x; cbn [returned]; auto; intros ->; reflexivity. Qed.
Lemma returned_fn {A} (f : A -> rv) s x o : returned f s x o -> fn_result o = io_value f s x.
Proof. destruct x; cbn [returned io_value]; intros H; rewrite H; reflexivity. Qed.
Lemma choice_loop_sim ns s name fs D p : Forall (fun f => deser_stmt (snd f)) fs ->
  installed u prog ns s SkChoice name (map fst fs) -> Forall (fun f => linked u prog ns s (sf_type (fst f)) (snd f)) fs -> Forall (fun f : sfield * nty => (dd (snd f) <= D)%nat) fs ->
  forall k K depth r st, (k <= K)%nat -> (k <= rounds)%nat -> (k + D <= depth)%nat -> reader_at p (st_reader st) = Some r -> (amount r < k)%nat ->
  returned (fun v => embed u DIn v (NDecl ns s SkChoice name fs)) st (cchoice_loop rounds k (choice_decoders fs) r)
    (run_loop (fun E x => obind (eb depth ns (type_name u name SIn) (choice_loop_block u ns s (length ns) name (map fst fs)) E x) (fun _ E x => OVal tt E x)) K
       [(txt "reader", RvReader p)] st).
Proof.
  intros IH Hi Hl Hd. rewrite Forall_forall in IH, Hl, Hd. induction k as [|k IHk]; intros K depth r st HK Hrounds Hdepth Hr Ha; [lia|].
  destruct K as [|K]; [lia|]. cbn [cchoice_loop]. cbn [run_loop]. unfold choice_loop_block at 1. set (E0 := [(txt "reader", RvReader p)]). set (self := type_name u name SIn) in *.
  assert (lookup (txt "reader") E0 = Some (RvReader p)) as HE by (apply lookup_here).
  rewrite eb_eq, run_cons, ex_let, ev_try. rewrite (header_read ns self depth E0 st r p Hr HE).
  pose proof (keeps_header rounds r) as Hk. pose proof (fun h r1 => header_amount rounds r h r1) as Hs1. pose proof (at_chain _ _ _ Hr) as Hp.
  destruct (cdeserialize_field_header rounds r) as [[i sz] r1|x r1| |]; cbn [io_value of_fres cbind obind scoped returned]; auto.
  cbn [keeps fst snd] in *. unfold index_and_size, pv. cbn [match_pat obind].
  change (([(txt "payload_size", RvInt sz)] ++ [(txt "index", RvInt i)]) ++ E0) with ((txt "payload_size", RvInt sz) :: (txt "index", RvInt i) :: E0). rewrite run_cons, ex_blank.
  cbn [obind]. rewrite run_cons.
  rewrite (take_sim ns self depth _ (set_reader st r1) r1 sz p); [|cbn [set_reader st_reader]; rewrite <- Hp, <- Hk; apply at_self|lk|lk].
  cbn [obind]. rewrite set_reader_twice. rewrite run_cons, ex_blank. cbn [obind]. rewrite run_cons, ex_expr, ev_match. unfold vr at 1. rewrite (ev_var _ _ _ _ _ _ _ _ _ (RvInt i)) by lk. cbn [obind].
  rewrite choice_decoder_of.
  set (E1 := (txt "sub_reader", RvReader (S p)) :: (txt "payload_size", RvInt sz) :: (txt "index", RvInt i) :: E0).
  set (st1 := set_reader st (RTake sz r1)).
  assert (chain_length (RTake sz r1) = S p) as Hc1 by (cbn [chain_length]; congruence). specialize (Hs1 _ _ eq_refl).
  set (arm_body := fun f => EBlock (Blk false
       (gen_deser u ns s (length ns) (sf_type f) true ++
        match sf_rule f with
        | Optional =>
            lets "fallback" (ECall (CStd FnBoxNew) [ETry (ECall (CDeserialize [type_name u name SIn]) [mut_reader])]) ::
            [SSemi (EReturn (ECall (CStd FnOk) [con (type_name u name SIn) (variant_name u f) ((if is_unit_sty (sf_type f) then [] else [vr "payload"]) ++ [vr "fallback"])]))]
        | _ => SSemi (ETry (ECall (CTop (length ns) FnFinish) [mut_reader])) ::
            [SSemi (EReturn (ECall (CStd FnOk) [con (type_name u name SIn) (variant_name u f) ((if is_unit_sty (sf_type f) then [] else [vr "payload"]) ++ [])]))]
        end) None)).
  change (choice_deser_arm u ns s (length ns) name) with (fun f => Arm (PInt (sf_index f) []) (arm_body f)).
  destruct (named_field i fs) as [f|] eqn:Ef.
  - destruct (named_in _ _ _ Ef) as [Hin Hidx].
    rewrite (select_arm w rounds lim wraps prog (run depth) (mods u ns) self sf_index (fun f => PInt (sf_index f) []) arm_body (RvInt i) E1 st1 (map fst fs) _ (fst f) []); auto.
    2: exact (in_indices _ _ _ _ _ _ _ Hi).
    2: now apply in_map.
    2: intros y _ Hne; apply int_arm; congruence.
    2: cbn [match_pat]; rewrite Hidx; now replace (i =? i) with true by lia.
    cbn [app]. unfold arm_body. rewrite ev_block, eb_eq, run_list_app.
    pose proof (IH f Hin ns s (sf_type (fst f)) true sz (RTake sz r1) depth E1 st1 self (Hl f Hin) ltac:(specialize (Hd f Hin); lia) eq_refl) as Kd. rewrite Hc1 in Kd.
    specialize (Kd (lookup_here _ _ _) ltac:(intros _; unfold E1; lk) ltac:(cbn [amount]; lia)).
    pose proof (keeps_decode rounds lim (erase (snd f)) true sz (RTake sz r1)) as Hk2. pose proof (shrinks_decode rounds lim (erase (snd f)) true sz (RTake sz r1)) as Hs2.
    destruct (cdecode rounds lim (erase (snd f)) true sz (RTake sz r1)) as [v r2|x r2| |]; cbn [agrees cbind] in *; auto.
    2,3,4: rewrite Kd; cbn [obind scoped returned]; reflexivity.
    destruct Kd as (B & l & -> & HB). cbn [obind]. cbn [keeps_ok] in Hk2. rewrite Hc1 in Hk2.
    assert (lookup (txt "reader") (B ++ E1) = Some (RvReader p)) as HR by (rewrite (lookup_over _ B E1 (proj2 HB)) by reflexivity; unfold E1; lk).
    pose proof (lookup_payload _ B E1 HB) as HP.
    assert (reader_at p (st_reader (set_reader st1 r2)) = Some (untake r2)) as Hat by exact (at_under r2 p Hk2).
    assert (embed u DIn (VChoice i v None) (NDecl ns s SkChoice name fs) = RvEnum (mods u ns, type_name u name SIn) (variant_name u (fst f)) ((if is_unit_sty (sf_type (fst f)) then [] else [embed u DIn v (snd f)]) ++ [])) as He1.
    { cbn [embed direction]. now rewrite Ef. }
    assert (forall fb, embed u DIn (VChoice i v (Some fb)) (NDecl ns s SkChoice name fs) = RvEnum (mods u ns, type_name u name SIn) (variant_name u (fst f)) ((if is_unit_sty (sf_type (fst f)) then [] else [embed u DIn v (snd f)]) ++ [embed u DIn fb (NDecl ns s SkChoice name fs)])) as He2.
    { intros fb. cbn [embed direction]. now rewrite Ef. }
    apply returned_match. repeat first [apply returned_bind|apply returned_scoped].
    assert (forall E2 st' args vs, run_list (ev depth ns self) args E2 st' = OVal vs E2 st' ->
      run_list (ex depth ns self) [SSemi (EReturn (ECall (CStd FnOk) [con (type_name u name SIn) (variant_name u (fst f)) args]))] E2 st' = OReturn (RvOk (RvEnum (mods u ns, type_name u name SIn) (variant_name u (fst f)) vs)) st') as Hret.
    { intros E2 st' args vs Hargs. rewrite run_cons, ex_semi, ev_return, ev_std by reflexivity. rewrite run_cons, (con_sim depth ns self _ _ _ vs) by exact Hargs.
      cbn [obind]. rewrite run_nil. cbn [obind call_std of_fres]. reflexivity. }
    assert (returned (fun v => embed u DIn v (NDecl ns s SkChoice name fs)) st (cbind (cfinish rounds (untake r2)) (fun _ r3 => COk (VChoice i v None) r3))
      (run_list (ex depth ns self) (SSemi (ETry (ECall (CTop (length ns) FnFinish) [mut_reader])) ::
            [SSemi (EReturn (ECall (CStd FnOk) [con (type_name u name SIn) (variant_name u (fst f)) ((if is_unit_sty (sf_type (fst f)) then [] else [vr "payload"]) ++ [])]))]) (B ++ E1) (set_reader st1 r2))) as Hfin.
    { rewrite run_cons, ex_semi, ev_try. unfold mut_reader. rewrite <- (mods_length u ns), ev_top. unfold vr at 1. rewrite run_cons, ev_ref, ev_deref, (ev_var _ _ _ _ _ _ _ _ _ _ _ _ HR). cbn [obind]. rewrite run_nil. cbn [obind call_top]. unfold read_with. rewrite Hat.
      destruct (cfinish rounds (untake r2)) as [x r3|x r3| |]; cbn [io_value of_fres obind cbind returned]; auto.
      rewrite (Hret _ _ _ ((if is_unit_sty (sf_type (fst f)) then [] else [embed u DIn v (snd f)]) ++ [])); [cbn [obind]; rewrite He1; reflexivity|].
      destruct (is_unit_sty (sf_type (fst f))); cbn [app]; [now rewrite run_nil|]. unfold vr. rewrite run_cons, (ev_var _ _ _ _ _ _ _ _ _ _ _ _ HP). cbn [obind]. rewrite run_nil. reflexivity. }
    destruct (sf_rule (fst f)); [exact Hfin| |exact Hfin]. clear Hfin.
    unfold lets, mut_reader. rewrite run_cons, ex_let_var, ev_std by reflexivity. rewrite run_cons, ev_try, ev_deser, run_cons, ev_ref, ev_deref. unfold vr at 1. rewrite (ev_var _ _ _ _ _ _ _ _ _ _ _ _ HR). cbn [obind]. rewrite run_nil. cbn [obind deserializer].
    replace (if str_eqb (type_name u name SIn) (txt "Self") then self else type_name u name SIn) with (type_name u name SIn) by (unfold self; destruct (str_eqb _ _); reflexivity).
    rewrite (in_deserialize _ _ _ _ _ _ _ Hi). cbn [fst snd].
    destruct depth as [|depth]; [lia|].
    pose proof (IHk rounds depth (untake r2) (set_reader st1 r2) ltac:(lia) ltac:(lia) ltac:(lia) Hat ltac:(cbn [shrinks amount] in Hs2; rewrite untake_amount; lia)) as Kfb. fold E0 in Kfb.
    assert (run (S depth) (mods u ns) (type_name u name SIn) (choice_deser u ns s (length ns) name (map fst fs)) [RvReader p] (set_reader st1 r2) =
      io_value (fun v => embed u DIn v (NDecl ns s SkChoice name fs)) (set_reader st1 r2) (cchoice_loop rounds k (choice_decoders fs) (untake r2))) as Hcall.
    { unfold choice_deser, deserialize_fn. rewrite run_one, eb_eq, run_cons, ex_loop. apply returned_fn. repeat first [apply returned_bind|apply returned_scoped]. exact Kfb. }
    destruct (cchoice_loop rounds k (choice_decoders fs) (untake r2)) as [fb r3|x r3| |]; rewrite Hcall; cbn [io_value of_fres obind cbind returned]; auto.
    rewrite run_nil. cbn [obind call_std of_fres].
    rewrite (Hret _ _ _ ((if is_unit_sty (sf_type (fst f)) then [] else [embed u DIn v (snd f)]) ++ [embed u DIn fb (NDecl ns s SkChoice name fs)])); [cbn [obind]; rewrite He2; reflexivity|].
    unfold vr. assert (ev (S depth) ns self (EVar (txt "payload")) ((txt "fallback", embed u DIn fb (NDecl ns s SkChoice name fs)) :: B ++ E1) (set_reader (set_reader st1 r2) r3) = OVal (embed u DIn v (snd f)) ((txt "fallback", embed u DIn fb (NDecl ns s SkChoice name fs)) :: B ++ E1) (set_reader (set_reader st1 r2) r3)) as Hpay.
    { apply ev_var. rewrite lookup_skip by reflexivity. exact HP. }
    destruct (is_unit_sty (sf_type (fst f))); cbn [app]; rewrite !run_cons; rewrite ?Hpay; cbn [obind]; rewrite ?run_cons; rewrite (ev_var _ _ _ _ _ _ _ _ _ _ _ _ (lookup_here _ _ _)); cbn [obind]; rewrite run_nil; reflexivity.
  - rewrite (no_arm w rounds lim wraps prog (run depth) (mods u ns) self (fun f => PInt (sf_index f) [])).
    2:{ intros y Hy. apply in_map_iff in Hy as (f & <- & Hf). apply int_arm. now apply (named_none i fs f). }
    pose proof (skip_sim ns self depth E1 st1 i sz (RTake sz r1) (S p) eq_refl Hc1 (lookup_here _ _ _) ltac:(unfold E1; lk)) as Ks.
    pose proof (keeps_skip rounds sz (RTake sz r1)) as Hk2. pose proof (shrinks_skip rounds sz (RTake sz r1)) as Hs2.
    destruct (cskip rounds sz (RTake sz r1)) as [v r2|x r2| |]; cbn [agrees cbind] in *; auto.
    2,3,4: rewrite Ks; cbn [obind scoped returned]; reflexivity.
    rewrite Ks. cbn [obind]. rewrite run_nil. cbn [obind scoped].
    unfold E1. match goal with |- context [leave E0 (?a :: ?b :: ?c :: ?L)] => replace (leave E0 (a :: b :: c :: L)) with L by (symmetry; exact (leave_app [a; b; c] L E0 eq_refl)) end.
    cbn [keeps] in Hk2. rewrite Hc1 in Hk2. exact (IHk K depth (untake r2) (set_reader st1 r2) ltac:(lia) ltac:(lia) ltac:(lia) (at_under r2 p Hk2) ltac:(cbn [shrinks amount] in Hs2; rewrite untake_amount; lia)).
Qed.
Lemma choice_deser_call ns s name fs : Forall (fun f => deser_stmt (snd f)) fs -> deser_call (NDecl ns s SkChoice name fs).
Proof.
  intros IH r p depth st Hi Hl Hd Hr is_field n Hx. cbn [dd] in Hd. destruct depth as [|depth]; [lia|]. apply allP_Forall in Hl.
  set (D := fold_right Nat.max O (map (fun f : sfield * nty => dd (snd f)) fs)) in *.
  assert (Forall (fun f : sfield * nty => (dd (snd f) <= D)%nat) fs) as Hd'.
  { pose proof (max_bound (map (fun f : sfield * nty => dd (snd f)) fs) D (le_n _)) as H. now rewrite Forall_map in H. }
  cbn [erase decl_type cdecode] in *.
  assert (map (fun f : field_of ty => (f_index f, (f_rule f, cdecode rounds lim (f_type f) true))) (map (fun f : sfield * nty => mkF (sf_index (fst f)) (sf_rule (fst f)) (erase (snd f))) fs) = choice_decoders fs) as Hds by now rewrite map_map.
  rewrite Hds in *. unfold choice_deser, deserialize_fn. rewrite run_one, eb_eq, run_cons, ex_loop. apply returned_fn. repeat first [apply returned_bind|apply returned_scoped].
  apply (choice_loop_sim ns s name fs D p); auto; lia.
Qed.

(** ** Everything *)
Fixpoint nty_ind' (P : nty -> Prop) (H1 : P NUnit) (H2 : P NF64) (H3 : P NU64) (H4 : P NS64) (H5 : P NBool) (H6 : P NBytes) (H7 : P NString)
  (Ha : forall t, P t -> P (NArray t)) (Hd : forall ns s k name fs, Forall (fun f => P (snd f)) fs -> P (NDecl ns s k name fs)) (t : nty) : P t :=
  match t with
  | NUnit => H1 | NF64 => H2 | NU64 => H3 | NS64 => H4 | NBool => H5 | NBytes => H6 | NString => H7
  | NArray t => Ha t (nty_ind' P H1 H2 H3 H4 H5 H6 H7 Ha Hd t)
  | NDecl ns s k name fs => Hd ns s k name fs
      ((fix all (l : list (sfield * nty)) : Forall (fun f => P (snd f)) l :=
          match l with [] => Forall_nil _ | f :: l' => Forall_cons f (nty_ind' P H1 H2 H3 H4 H5 H6 H7 Ha Hd (snd f)) (all l') end) fs)
  end.
Theorem deser_sim nt : deser_stmt nt /\ deser_call nt.
Proof.
  induction nt as [| | | | | | |e IH|ns s k name fs IH] using nty_ind'.
  1-7: split; [|exact I].
  - apply unit_deser. - apply f64_deser. - apply nu64_deser. - apply s64_deser. - apply bool_deser. - apply bytes_deser. - apply string_deser.
  - split; [|exact I]. apply array_deser, IH.
  - assert (Forall (fun f => deser_stmt (snd f)) fs) as IH' by (eapply Forall_impl; [|exact IH]; intros f H; apply H).
    assert (deser_call (NDecl ns s k name fs)) as Hc by (destruct k; [now apply struct_deser_call|now apply choice_deser_call]).
    split; [now apply custom_deser|exact Hc].
Qed.
End Deser.
