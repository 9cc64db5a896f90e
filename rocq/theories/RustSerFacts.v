(** The generated [serialize_with_atlas] functions write what the model's serializer writes. *)
From Verif Require Import TypesFacts IdentFacts RustPrimFacts2.
From Verif Require Export RustAtlasFacts.

Section Ser.
Context {W : Type} (w : writer W) (rounds : nat) (lim : N) (wraps : bool) (u : unicode) (prog : rmod).
Notation run := (run_fn w rounds lim wraps prog).
Notation ev d ns self := (eval w rounds lim wraps prog (run d) (mods u ns) self).
Notation ex d ns self := (exec w rounds lim wraps prog (run d) (mods u ns) self).
Ltac evs := repeat (ev_step; cbn [obind]).
Ltac drop := first [rewrite leave1 | rewrite leave2 | rewrite leave_self].

(** Calls of [write_all], each followed by [?]; then something else. *)
Definition wrote {A} (cs : list call) (k : st W -> out W A) (s : st W) : out W A :=
  match run_calls w rounds (st_writer s) (st_written s) cs with
  | (WOk, x, o) => k (mkSt (st_reader s) x o)
  | (WFailed, x, o) => OReturn (RvErr ReWrite) (mkSt (st_reader s) x o)
  | (WPanicked, _, _) => OPanic
  | (WRunning, _, _) => OFuel
  end.
Lemma run_calls_app cs : forall cs' x o, run_calls w rounds x o (cs ++ cs') =
  match run_calls w rounds x o cs with (WOk, x', o') => run_calls w rounds x' o' cs' | stop => stop end.
Proof.
  induction cs as [|[buf|] cs IH]; intros cs' x o; cbn [app run_calls]; auto.
  destruct (write_all w rounds x o buf) as [[[] x'] o']; auto.
Qed.
Lemma wrote_app {A} a b (k : st W -> out W A) s : wrote (a ++ b) k s = wrote a (wrote b k) s.
Proof. unfold wrote. rewrite run_calls_app. destruct (run_calls w rounds (st_writer s) (st_written s) a) as [[[] x] o]; reflexivity. Qed.
Lemma wrote_nil {A} (k : st W -> out W A) s : wrote [] k s = k s.
Proof. destruct s; reflexivity. Qed.
Lemma wrote_panic {A} cs (k : st W -> out W A) s : wrote (CPanicked :: cs) k s = OPanic.
Proof. reflexivity. Qed.
Lemma wrote_ext {A} cs (k k' : st W -> out W A) s : (forall s, k s = k' s) -> wrote cs k s = wrote cs k' s.
Proof. intros H. unfold wrote. destruct (run_calls w rounds (st_writer s) (st_written s) cs) as [[[] x] o]; auto. Qed.
Lemma wrote_bind {A B} cs (k : st W -> out W A) (f : A -> env -> st W -> out W B) s :
  obind (wrote cs k s) f = wrote cs (fun s => obind (k s) f) s.
Proof. unfold wrote. destruct (run_calls w rounds (st_writer s) (st_written s) cs) as [[[] x] o]; auto. Qed.
Lemma wrote_scoped {A} cs (k : st W -> out W A) E s : scoped E (wrote cs k s) = wrote cs (fun s => scoped E (k s)) s.
Proof. unfold wrote. destruct (run_calls w rounds (st_writer s) (st_written s) cs) as [[[] x] o]; auto. Qed.
Lemma wrote_result cs k s : (forall s, fn_result (k s) = FVal (RvOk RvUnit) s) -> fn_result (wrote cs k s) = write_calls w rounds cs s.
Proof. intros H. unfold wrote, write_calls. destruct (run_calls w rounds (st_writer s) (st_written s) cs) as [[[] x] o]; auto. Qed.
Lemma wrote_then a b E s : fn_result (wrote a (fun s => of_fres (write_calls w rounds b s) E) s) = write_calls w rounds (a ++ b) s.
Proof.
  unfold write_calls at 2. rewrite run_calls_app. unfold wrote. destruct (run_calls w rounds (st_writer s) (st_written s) a) as [[[] x] o]; try reflexivity.
  unfold write_calls. cbn [st_writer st_written st_reader]. destruct (run_calls w rounds x o b) as [[[] x'] o']; reflexivity.
Qed.
(** A call of a function that writes, and [?]. *)
Lemma try_calls {A} cs s E (f : rv -> env -> st W -> out W A) :
  obind (obind (of_fres (write_calls w rounds cs s) E)
    (fun v E s => match v with RvOk v => OVal v E s | RvErr x => OReturn (RvErr x) s | _ => OStuck end)) f =
  wrote cs (fun s => f RvUnit E s) s.
Proof. unfold wrote, write_calls. destruct (run_calls w rounds (st_writer s) (st_written s) cs) as [[[] x] o]; reflexivity. Qed.
Lemma for_wrote {A} (g : rv -> env -> st W -> out W unit) (f : A -> rv) (cs : A -> list call) l E : forall s,
  (forall a s, In a l -> g (f a) E s = wrote (cs a) (fun s => OVal tt E s) s) ->
  run_for g (map f l) E s = wrote (concat (map cs l)) (fun s => OVal tt E s) s.
Proof.
  induction l as [|a l IH]; intros s H; cbn [map run_for concat].
  - now rewrite wrote_nil.
  - rewrite (H a s) by now left. rewrite wrote_app. unfold wrote at 1 2. destruct (run_calls w rounds (st_writer s) (st_written s) (cs a)) as [[[] x] o]; auto.
    apply IH. intros b s' Hb. apply H. now right.
Qed.

Definition ser_stmt (v : val) : Prop := forall nt ns s t is_field a depth E st self,
  linked u prog ns s t nt -> wt DOut v (erase nt) -> awt a (erase nt) -> (vdepth v <= depth)%nat ->
  (is_unit (erase nt) = false -> lookup (txt "payload") E = Some (embed u DOut v nt)) ->
  lookup (txt "payload_atlas") E = Some (embed_atlas u a nt) -> lookup (txt "writer") E = Some RvWriter ->
  run_list (ex depth ns self) (gen_ser (length ns) t is_field) E st =
    wrote (ser_calls is_field v (erase nt) a) (fun st => OVal (map (fun _ => tt) (gen_ser (length ns) t is_field)) E st) st.
Definition ser_call (v : val) : Prop := forall ns s k name fs a depth st,
  installed u prog ns s k name (map fst fs) -> allP (fun f => linked u prog ns s (sf_type (fst f)) (snd f)) fs ->
  wt DOut v (erase (NDecl ns s k name fs)) -> awt a (erase (NDecl ns s k name fs)) -> (vdepth v <= depth)%nat ->
  call_own prog (run depth) MSerializeWithAtlas (embed u DOut v (NDecl ns s k name fs)) [RvWriter; embed_atlas u a (NDecl ns s k name fs)] st =
    write_calls w rounds (ser_calls true v (erase (NDecl ns s k name fs)) a) st.

(** Numbers. *)
Lemma u64_ser_sim ns self depth E st is_field n : lookup (txt "varint") E = Some (RvInt n) -> lookup (txt "writer") E = Some RvWriter -> n < two64 ->
  ex depth ns self (gen_u64_ser (length ns) is_field) E st = wrote (u64_calls is_field n) (fun st => OVal tt E st) st.
Proof.
  intros HE Hw Hn. unfold gen_u64_ser, u64_calls, gen_write_all, vr. rewrite <- (mods_length u ns). destruct is_field; evs.
  - destruct (n =? 0) eqn:E0; [|destruct (n <=? 567382630219903) eqn:E1].
    + rewrite (arms_take _ _ _ _ _ _ _ _ _ _ _ _ _ _ []) by (cbn [match_pat]; now rewrite E0). cbn [app]. evs. cbn [scoped obind]. rewrite wrote_nil. now rewrite !leave_self.
    + rewrite arms_skip by (cbn [match_pat]; now rewrite E0).
      rewrite (arms_take _ _ _ _ _ _ _ _ _ _ _ _ _ _ []).
      2:{ cbn [match_pat]. replace (1 <=? n) with true by lia. now rewrite E1. }
      cbn [app]. evs. cbn [call_top]. unfold write_calls, wrote. destruct (run_calls w rounds (st_writer st) (st_written st) (varint_calls n)) as [[[] x] o]; cbn [of_fres obind scoped]; now rewrite ?leave_self.
    + rewrite arms_skip by (cbn [match_pat]; now rewrite E0).
      rewrite arms_skip by (cbn [match_pat]; rewrite E1; now rewrite Bool.andb_false_r).
      rewrite (arms_take _ _ _ _ _ _ _ _ _ _ _ _ _ _ []).
      2:{ cbn [match_pat]. replace (567382630219904 <=? n) with true by lia. replace (n <=? 18446744073709551615) with true by (unfold two64 in Hn; lia). reflexivity. }
      cbn [app]. evs. cbn [call_method of_fres obind]. evs. cbn [call_method]. unfold write_calls, wrote. destruct (run_calls w rounds (st_writer st) (st_written st) [CWrite (le_bytes 8 n)]) as [[[] x] o]; cbn [of_fres obind scoped]; now rewrite ?leave_self.
  - cbn [call_top]. now rewrite try_calls.
Qed.
Lemma ser_block_sim ns self depth E st is_field n e :
  (forall s, ev depth ns self e E s = OVal (RvInt n) E s) -> lookup (txt "writer") E = Some RvWriter -> n < two64 ->
  run_list (ex depth ns self) (ser_block (length ns) is_field e) E st = wrote (u64_calls is_field n) (fun st => OVal [tt] E st) st.
Proof.
  intros He Hw Hn. unfold ser_block, lets. evs. rewrite He. cbn [obind]. evs. rewrite (u64_ser_sim ns self depth _ st is_field n); [|lk..|exact Hn].
  rewrite !wrote_bind. rewrite wrote_scoped, !wrote_bind. apply wrote_ext. intros s'. cbn [obind]. evs. cbn [scoped obind]. drop. evs. reflexivity.
Qed.
Lemma f64_ser_sim ns self depth E st b : lookup (txt "payload") E = Some (RvF64 b) -> lookup (txt "writer") E = Some RvWriter ->
  ex depth ns self (SSemi (gen_write_all (ERef false (EMethod (vr "payload") MToLeBytes [])))) E st = wrote [CWrite (le_bytes 8 b)] (fun st => OVal tt E st) st.
Proof. intros HE Hw. unfold gen_write_all, vr. evs. cbn [call_method of_fres obind]. evs. now rewrite try_calls. Qed.
Lemma header_sim ns s depth self f a E st : linked u prog ns s (sf_type (fst f)) (snd f) -> awt a (erase (snd f)) -> (custom_depth (snd f) <= depth)%nat ->
  lookup (txt "payload_atlas") E = Some (embed_atlas u a (snd f)) -> lookup (txt "writer") E = Some RvWriter ->
  ex depth ns self (serialize_header (length ns) (fst f)) E st =
    wrote (header_calls (sf_index (fst f)) (atlas_lookup a) (integer_encoded (erase (snd f)))) (fun st => OVal tt E st) st.
Proof.
  intros Hl Ha Hd HE Hw. unfold serialize_header, u64_lit, vr. rewrite <- (mods_length u ns). evs. rewrite (lookup_sim w rounds lim wraps u prog ns s _ (snd f) a); auto. cbn [obind]. evs.
  cbn [call_top]. rewrite try_calls. rewrite (linked_integer u prog ns s _ (snd f)) by exact Hl. reflexivity.
Qed.
(** The header and the payload of a field. *)
Lemma field_sim ns s depth self f v a E st : ser_stmt v -> linked u prog ns s (sf_type (fst f)) (snd f) -> wt DOut v (erase (snd f)) -> awt a (erase (snd f)) ->
  (vdepth v <= depth)%nat -> (is_unit (erase (snd f)) = false -> lookup (txt "payload") E = Some (embed u DOut v (snd f))) ->
  lookup (txt "payload_atlas") E = Some (embed_atlas u a (snd f)) -> lookup (txt "writer") E = Some RvWriter ->
  run_list (ex depth ns self) (serialize_header (length ns) (fst f) :: gen_ser (length ns) (sf_type (fst f)) true) E st =
    wrote (header_calls (sf_index (fst f)) (atlas_lookup a) (integer_encoded (erase (snd f))) ++ ser_calls true v (erase (snd f)) a)
      (fun st => OVal (map (fun _ => tt) (serialize_header (length ns) (fst f) :: gen_ser (length ns) (sf_type (fst f)) true)) E st) st.
Proof.
  intros IH Hl Hw Ha Hd Hp Hpa HE. rewrite run_cons, wrote_app. pose proof (wt_custom_depth v (snd f) Hw).
  rewrite (header_sim ns s depth self f a); auto; [|lia]. rewrite wrote_bind. apply wrote_ext. intros s'. cbn [obind].
  rewrite (IH (snd f) ns s _ true a); auto. rewrite wrote_bind. apply wrote_ext. intros s2. reflexivity.
Qed.

(** Arrays. *)
Lemma gen_ser_sized n t f : sized_sty t = true -> gen_ser n (SyArray t) f =
  [SFor (PPair (pv "payload") (pv "payload_atlas"))
     (EMethod (EMethod (vr "payload") MIter []) MZip [EMethod (EField (vr "payload_atlas") (txt "1")) MIter []])
     (Blk false
        (SSemi (ETry (ECall (CTop n FnSerializeVarint) [as_u64 (gen_atlas_lookup t); vr "writer"])) ::
         gen_ser n t false) None)].
Proof. destruct t; try discriminate; reflexivity. Qed.
Lemma gen_ser_small n t f : sized_sty t = false -> is_unit_sty t = false -> gen_ser n (SyArray t) f =
  [SFor (pv "payload") (vr "payload") (Blk false (gen_ser n t false) None)].
Proof. destruct t; try discriminate; reflexivity. Qed.
Lemma ser_calls_sized f vs e n l : sized_element e = true -> ser_calls f (VArr vs) (TArray e) (AArr n l) =
  concat (map2 (fun v pa => varint_calls (atlas_lookup pa) ++ ser_calls false v e pa) vs l).
Proof. destruct e; try discriminate; reflexivity. Qed.
Lemma ser_calls_small f vs e a : sized_element e = false -> is_unit e = false -> ser_calls f (VArr vs) (TArray e) a =
  concat (map (fun v => ser_calls false v e a) vs).
Proof. destruct e; try discriminate; reflexivity. Qed.
Lemma map2_combine {A B C} (g : A -> B -> C) l : forall l', map2 g l l' = map (fun p => g (fst p) (snd p)) (combine l l').
Proof. induction l as [|a l IH]; intros [|b l']; cbn [map2 combine map fst snd]; auto. now rewrite IH. Qed.
Lemma combine_maps {A B C D} (f : A -> C) (h : B -> D) l : forall l', combine (map f l) (map h l') = map (fun p => (f (fst p), h (snd p))) (combine l l').
Proof. induction l as [|a l IH]; intros [|b l']; cbn [map combine fst snd]; auto. now rewrite IH. Qed.

Lemma ser_array_sized vs : Forall ser_stmt vs -> forall e ns s t is_field n l depth E st self,
  sized_element (erase e) = true -> linked u prog ns s t e -> Forall (fun v => wt DOut v (erase e)) vs -> Forall (fun a => awt a (erase e)) l ->
  (vdepth (VArr vs) <= depth)%nat -> lookup (txt "payload") E = Some (embed u DOut (VArr vs) (NArray e)) ->
  lookup (txt "payload_atlas") E = Some (embed_atlas u (AArr n l) (NArray e)) -> lookup (txt "writer") E = Some RvWriter ->
  run_list (ex depth ns self) (gen_ser (length ns) (SyArray t) is_field) E st =
    wrote (ser_calls is_field (VArr vs) (TArray (erase e)) (AArr n l)) (fun st => OVal [tt] E st) st.
Proof.
  intros IH e ns s t is_field n l depth E st self Hs Hl Hw Ha Hd Hp Hpa HE.
  rewrite gen_ser_sized by (now rewrite (linked_sized u prog ns s t e)). rewrite ser_calls_sized by exact Hs.
  cbn [embed embed_atlas vdepth] in *. apply max_bound in Hd. rewrite Forall_forall in *.
  assert (forall v, In v vs -> (vdepth v <= depth)%nat) as Hd' by (intros v Hv; apply Hd; now apply in_map). clear Hd.
  unfold vr, pv. evs. cbn [call_method of_fres obind]. evs. cbn [field_of_value].
  change (str_eqb (txt "1") (txt "0")) with false. rewrite str_eqb_refl. cbn [obind]. evs. cbn [call_method of_fres obind]. evs. cbn [call_method of_fres obind].
  rewrite combine_maps, map_map. cbn [fst snd].
  rewrite (for_wrote _ (fun p => RvPair (embed u DOut (fst p) e) (embed_atlas u (snd p) e))
    (fun p => varint_calls (atlas_lookup (snd p)) ++ ser_calls false (fst p) (erase e) (snd p))).
  - rewrite wrote_bind. rewrite map2_combine. apply wrote_ext. intros s'. cbn [obind]. evs. reflexivity.
  - intros [v a] s' Hin. cbn [fst snd]. pose proof (in_combine_l _ _ _ _ Hin) as Hv. pose proof (in_combine_r _ _ _ _ Hin) as Hla.
    cbn [match_pat]. rewrite eb_eq. rewrite run_cons. unfold as_u64. rewrite <- (mods_length u ns). evs.
    rewrite (lookup_sim w rounds lim wraps u prog ns s t e a); auto; try lk.
    2: pose proof (wt_custom_depth v e (Hw v Hv)); specialize (Hd' v Hv); lia.
    cbn [obind app]. evs. cbn [call_top]. rewrite try_calls. rewrite wrote_bind, wrote_app. rewrite wrote_bind, wrote_scoped, wrote_bind, wrote_scoped.
    apply wrote_ext. intros s2. cbn [obind]. rewrite mods_length. rewrite (IH v Hv e ns s t false a); auto; try (intros _; lk); try lk.
    rewrite !wrote_bind, wrote_scoped, wrote_bind, wrote_scoped. apply wrote_ext. intros s3. cbn [obind scoped]. cbn [app]. rewrite leave_self. cbn [obind scoped]. now drop.
Qed.
Lemma ser_array_small vs : Forall ser_stmt vs -> forall e ns s t is_field n depth E st self,
  sized_element (erase e) = false -> is_unit (erase e) = false -> linked u prog ns s t e -> Forall (fun v => wt DOut v (erase e)) vs ->
  (vdepth (VArr vs) <= depth)%nat -> lookup (txt "payload") E = Some (embed u DOut (VArr vs) (NArray e)) ->
  lookup (txt "payload_atlas") E = Some (RvInt n) -> lookup (txt "writer") E = Some RvWriter ->
  run_list (ex depth ns self) (gen_ser (length ns) (SyArray t) is_field) E st =
    wrote (ser_calls is_field (VArr vs) (TArray (erase e)) (ASize n)) (fun st => OVal [tt] E st) st.
Proof.
  intros IH e ns s t is_field n depth E st self Hs Hu Hl Hw Hd Hp Hpa HE.
  rewrite gen_ser_small by (rewrite ?(linked_sized u prog ns s t e), ?(linked_unit u prog ns s t e); auto). rewrite ser_calls_small by auto.
  cbn [embed vdepth] in *. apply max_bound in Hd. rewrite Forall_forall in *.
  assert (forall v, In v vs -> (vdepth v <= depth)%nat) as Hd' by (intros v Hv; apply Hd; now apply in_map). clear Hd.
  unfold vr, pv. evs.
  rewrite (for_wrote _ (fun v => embed u DOut v e) (fun v => ser_calls false v (erase e) (ASize n))).
  - rewrite wrote_bind. apply wrote_ext. intros s'. cbn [obind]. evs. reflexivity.
  - intros v s' Hv. cbn [match_pat]. rewrite eb_eq.
    rewrite (IH v Hv e ns s t false (ASize n)); auto.
    + rewrite wrote_bind, wrote_scoped, wrote_bind, wrote_scoped. apply wrote_ext. intros s2. cbn [obind scoped app]. rewrite leave_self. cbn [obind scoped]. now drop.
    + destruct (erase e); try discriminate; exact I.
Qed.

(** Structs. *)
Definition ser_ok (ns : namespace) (s : sschema) (depth : nat) (ov : option val) (f : sfield * nty) : Prop :=
  linked u prog ns s (sf_type (fst f)) (snd f) /\
  match ov with
  | Some v => ser_stmt v /\ wt DOut v (erase (snd f)) /\ (vdepth v <= depth)%nat
  | None => always_present DOut (sf_rule (fst f)) = false
  end.
Definition atlas_ok (oa : option atlas) (f : sfield * nty) : Prop :=
  match oa with Some a => awt a (erase (snd f)) | None => always_present DOut (sf_rule (fst f)) = false end.
Definition field_calls (ov : option val) (f : field_of ty) (oa : option atlas) : list call :=
  match ov, oa with
  | Some v, Some pa => header_calls (f_index f) (atlas_lookup pa) (integer_encoded (f_type f)) ++ ser_calls true v (f_type f) pa
  | _, _ => []
  end.
Lemma struct_field_sim ns s depth self tid flds tid' aflds ov f oa E st : ser_ok ns s depth ov f -> atlas_ok oa f -> self_slot u flds ov f ->
  lookup (field_name u (fst f)) aflds = Some (rv_slot u oa f) ->
  lookup (txt "self") E = Some (RvStruct tid flds) -> lookup (txt "atlas") E = Some (RvStruct tid' aflds) -> lookup (txt "writer") E = Some RvWriter ->
  run_list (ex depth ns self) (struct_ser_field u (length ns) (fst f)) E st =
    wrote (field_calls ov (erase_field f) oa) (fun st => OVal [tt; tt] E st) st.
Proof.
  intros [Hl Hv] Ha Hs Hsa H1 H2 H3. unfold self_slot, rv_slot, atlas_ok in *. unfold struct_ser_field, self_field, lets, pv, vr.
  destruct (sf_rule (fst f)) eqn:Er; cbn [always_present slot] in *.
  - destruct ov as [v|]; [|discriminate]. destruct oa as [a|]; [|discriminate]. destruct Hv as (IH & Hw & Hd). cbn [field_calls erase_field f_index f_type].
    rewrite run_cons, ex_expr, ev_block, eb_eq, run_cons. evs. cbn [field_of_value]. rewrite Hs. cbn [obind]. rewrite run_cons. evs. cbn [field_of_value]. rewrite Hsa. cbn [obind].
    rewrite (field_sim ns s depth self f v a); auto; try (intros _; lk); try lk.
    rewrite !wrote_bind, wrote_scoped, !wrote_bind. apply wrote_ext. intros s'. cbn [obind scoped]. drop. cbn [obind]. evs. reflexivity.
  - rewrite run_cons, ex_if_let. evs. cbn [field_of_value]. rewrite Hs. cbn [obind]. evs. cbn [field_of_value]. rewrite Hsa. cbn [obind].
    destruct ov as [v|]; [destruct oa as [a|]|].
    + destruct Hv as (IH & Hw & Hd). cbn [field_calls erase_field f_index f_type].
      cbn [match_pat match_con]. rewrite str_eqb_refl. cbn [app]. rewrite eb_eq.
      rewrite (field_sim ns s depth self f v a); auto; try (intros _; lk); try lk.
      rewrite !wrote_bind, wrote_scoped, wrote_bind, wrote_scoped, wrote_bind. apply wrote_ext. intros s'. cbn [obind scoped]. rewrite leave_self. cbn [obind scoped]. drop. cbn [obind]. evs. reflexivity.
    + cbn [match_pat match_con]. rewrite str_eqb_refl. cbn [obind field_calls]. rewrite wrote_nil. evs. reflexivity.
    + cbn [match_pat match_con obind field_calls]. rewrite wrote_nil. evs. reflexivity.
  - destruct ov as [v|]; [|discriminate]. destruct oa as [a|]; [|discriminate]. destruct Hv as (IH & Hw & Hd). cbn [field_calls erase_field f_index f_type].
    rewrite run_cons, ex_expr, ev_block, eb_eq, run_cons. evs. cbn [field_of_value]. rewrite Hs. cbn [obind]. rewrite run_cons. evs. cbn [field_of_value]. rewrite Hsa. cbn [obind].
    rewrite (field_sim ns s depth self f v a); auto; try (intros _; lk); try lk.
    rewrite !wrote_bind, wrote_scoped, !wrote_bind. apply wrote_ext. intros s'. cbn [obind scoped]. drop. cbn [obind]. evs. reflexivity.
Qed.
Lemma struct_fields_sim ns s depth self tid flds tid' aflds ovs : forall fs oas E st,
  Forall2 (ser_ok ns s depth) ovs fs -> Forall2 atlas_ok oas fs -> Forall2 (self_slot u flds) ovs fs ->
  Forall2 (fun oa f => lookup (field_name u (fst f)) aflds = Some (rv_slot u oa f)) oas fs ->
  lookup (txt "self") E = Some (RvStruct tid flds) -> lookup (txt "atlas") E = Some (RvStruct tid' aflds) -> lookup (txt "writer") E = Some RvWriter ->
  run_list (ex depth ns self) (flat_map (struct_ser_field u (length ns)) (map fst fs)) E st =
    wrote (concat (map2 (fun ov fa => field_calls ov (fst fa) (snd fa)) ovs (combine (map erase_field fs) oas)))
      (fun st => OVal (map (fun _ => tt) (flat_map (struct_ser_field u (length ns)) (map fst fs))) E st) st.
Proof.
  induction ovs as [|ov ovs IH]; intros [|f fs] oas E st A1 A2 A3 A4 H1 H2 H3; inversion A1 as [|? ? ? ? B1 B2]; subst.
  - cbn [map flat_map]. rewrite run_nil. now rewrite wrote_nil.
  - inversion A2 as [|oa ? oas' ? C1 C2]; subst. inversion A3 as [|? ? ? ? D1 D2]; subst. inversion A4 as [|? ? ? ? F1 F2]; subst.
    cbn [map flat_map combine map2 concat fst snd]. rewrite run_list_app, wrote_app.
    rewrite (struct_field_sim ns s depth self tid flds tid' aflds ov f oa); auto. rewrite wrote_bind. apply wrote_ext. intros s'. cbn [obind].
    rewrite (IH fs oas'); auto. rewrite wrote_bind. apply wrote_ext. intros s2. cbn [obind]. rewrite map_app. f_equal. f_equal.
    unfold struct_ser_field. destruct (sf_rule (fst f)); reflexivity.
Qed.
Lemma struct_ser_call ns s name fs ovs n oas depth st : Forall (optP ser_stmt) ovs ->
  installed u prog ns s SkStruct name (map fst fs) -> allP (fun f => linked u prog ns s (sf_type (fst f)) (snd f)) fs ->
  wt DOut (VStruct ovs) (TStruct (map erase_field fs)) -> awt (AStruct n oas) (TStruct (map erase_field fs)) ->
  (vdepth (VStruct ovs) <= S depth)%nat ->
  call_own prog (run (S depth)) MSerializeWithAtlas (embed u DOut (VStruct ovs) (NDecl ns s SkStruct name fs))
      [RvWriter; embed_atlas u (AStruct n oas) (NDecl ns s SkStruct name fs)] st =
    write_calls w rounds (ser_calls true (VStruct ovs) (TStruct (map erase_field fs)) (AStruct n oas)) st.
Proof.
  intros IH Hi Hl Hw Ha Hd. cbn [wt awt] in *. apply all2P_Forall2 in Hw. apply all2P_Forall2 in Ha. apply allP_Forall in Hl.
  cbn [vdepth] in Hd. apply le_S_n, max_bound in Hd. rewrite Forall_map in Hd.
  assert (Forall2 (ser_ok ns s depth) ovs fs) as Hok.
  { clear Hi Ha. revert ovs Hw IH Hd. induction Hl as [|f fs Hf Hl IHl]; intros ovs Hw IH Hd; inversion Hw as [|ov ? ovs' ? A1 A2]; subst; [constructor|].
    inversion IH as [|? ? B1 B2]; subst. inversion Hd as [|? ? D1 D2]; subst. constructor; [|apply IHl; auto]. split; [exact Hf|].
    destruct ov as [v|]; [|exact A1]. auto. }
  pose proof (in_fields _ _ _ _ _ _ _ Hi) as Hnf. inversion Hnf as [|? ? Hns Hnf']; subst.
  unfold call_own. cbn [embed embed_atlas type_of direction]. change (meth_str MSerializeWithAtlas) with (txt "serialize_with_atlas"). rewrite (in_serialize _ _ _ _ _ _ _ Hi). cbn [fst snd].
  unfold struct_ser, serialize_with_atlas_fn. rewrite run_three, eb_eq. set (flds := map2 _ ovs fs). set (aflds := _ :: map2 _ oas fs).
  rewrite (struct_fields_sim ns s depth _ (mods u ns, type_name u name SOut) flds (mods u ns, type_name u name SAtlas) aflds ovs fs oas); try lk; auto.
  - rewrite wrote_bind, wrote_scoped. cbn [ser_calls].
    match goal with |- fn_result (wrote ?cs _ _) = write_calls _ _ ?cs' _ => change cs' with cs end.
    rewrite wrote_result; [reflexivity|]. intros s'. cbn [obind]. evs. cbn [call_std of_fres scoped fn_result]. reflexivity.
  - unfold self_slot, flds. apply (map2_lookup (fun f => field_name u (fst f)) (fun ov f => slot (always_present DOut (sf_rule (fst f))) (match ov with Some v => Some (embed u DOut v (snd f)) | None => None end))).
    + exact (Forall2_len _ _ _ Hw).
    + rewrite (map2_keys (fun f => field_name u (fst f))) by exact (Forall2_len _ _ _ Hw). now rewrite <- (map_map fst (field_name u)).
    + intros x Hx. exact Hx.
  - unfold aflds. apply (map2_lookup (fun f => field_name u (fst f)) (fun oa f => rv_slot u oa f)).
    + exact (Forall2_len _ _ _ Ha).
    + cbn [map fst]. rewrite (map2_keys (fun f => field_name u (fst f))) by exact (Forall2_len _ _ _ Ha). now rewrite <- (map_map fst (field_name u)).
    + intros x Hx. right. exact Hx.
Qed.

(** Choices. *)
Lemma nodup_key {A K} (key : A -> K) l x y : NoDup (map key l) -> In x l -> In y l -> key x = key y -> x = y.
Proof.
  induction l as [|a l IH]; [intros _ []|]. cbn [map]. intros Hn Hx Hy E. inversion Hn as [|? ? Hni Hn']; subst.
  destruct Hx as [->|Hx], Hy as [->|Hy]; auto.
  - exfalso. apply Hni. rewrite E. now apply in_map.
  - exfalso. apply Hni. rewrite <- E. now apply in_map.
Qed.
Definition atlas_args (n : N) (pa : rv) (fa : option rv) : list rv := [RvInt n; pa] ++ match fa with Some a => [a] | None => [] end.
Definition atlas_env (pa : rv) (fa : option rv) : env := match fa with Some a => [(txt "fallback_atlas", a)] | None => [] end ++ [(txt "payload_atlas", pa)].
Definition ser_pat (name : ident) (f : sfield) : pat :=
  PPair (case_out u name false f)
         (PCon [type_name u name SAtlas; variant_name u f]
            ([PWild; pv "payload_atlas"] ++ (if has_fallback_out f then [pv "fallback_atlas"] else []))).
Lemma choice_ser_call ns s name fs i p fb a depth st : ser_stmt p -> optP ser_call fb ->
  installed u prog ns s SkChoice name (map fst fs) -> allP (fun f => linked u prog ns s (sf_type (fst f)) (snd f)) fs ->
  wt DOut (VChoice i p fb) (TChoice (map erase_field fs)) -> awt a (TChoice (map erase_field fs)) ->
  (vdepth (VChoice i p fb) <= S depth)%nat ->
  call_own prog (run (S depth)) MSerializeWithAtlas (embed u DOut (VChoice i p fb) (NDecl ns s SkChoice name fs))
      [RvWriter; embed_atlas u a (NDecl ns s SkChoice name fs)] st =
    write_calls w rounds (ser_calls true (VChoice i p fb) (TChoice (map erase_field fs)) a) st.
Proof.
  intros IHp IHfb Hi Hl Hw Ha Hd. destruct a as [?|? ?|? ?|j n pa fa]; cbn [awt] in Ha; try contradiction. cbn [wt ser_calls vdepth] in *. rewrite find_erased in *.
  cbn [embed embed_atlas]. destruct (named_field i fs) as [f|] eqn:Ef; [|contradiction]. destruct (named_field j fs) as [g|] eqn:Eg; [|contradiction].
  destruct Hw as [Hw Hf]. destruct Ha as [Ha Hfa]. cbn [erase_field f_rule f_type f_index] in *.
  destruct (named_in _ _ _ Ef) as [Hin Hidx]. destruct (named_in _ _ _ Eg) as [Hing Hjdx].
  apply allP_Forall in Hl. pose proof Hl as Hl0. rewrite Forall_forall in Hl. pose proof (Hl f Hin) as Hlf.
  pose proof (fallback_present f fb _ Hf) as Hfp.
  set (efb := match fb with Some v' => Some (embed u DOut v' (NDecl ns s SkChoice name fs)) | None => None end).
  assert (RvEnum (mods u ns, type_name u name (direction DOut)) (variant_name u (fst f))
    ((if is_unit_sty (sf_type (fst f)) then [] else [embed u DOut p (snd f)]) ++ match fb with Some v' => [embed u DOut v' (NDecl ns s SkChoice name fs)] | None => [] end) =
    case_value u (mods u ns) (type_name u name SOut) f (embed u DOut p (snd f)) efb) as Ev.
  { unfold case_value, efb. destruct fb; reflexivity. }
  rewrite Ev.
  assert ((match efb with Some _ => true | None => false end) = has_fallback_out (fst f)) as Hfp' by (rewrite <- Hfp; unfold efb; destruct fb; reflexivity).
  set (efa := match fa with Some a' => Some (embed_atlas u a' (NDecl ns s SkChoice name fs)) | None => None end).
  assert ([RvInt n; embed_atlas u pa (snd g)] ++ match fa with Some a' => [embed_atlas u a' (NDecl ns s SkChoice name fs)] | None => [] end =
    atlas_args n (embed_atlas u pa (snd g)) efa) as Ea by (unfold atlas_args, efa; destruct fa; reflexivity).
  rewrite Ea.
  assert ((match efa with Some _ => true | None => false end) = has_fallback_out (fst g)) as Hfa'.
  { unfold efa, has_fallback_out. destruct (sf_rule (fst g)), fa; cbn [has_fallback] in Hfa; try discriminate; try (destruct Hfa; discriminate); reflexivity. }
  unfold call_own. unfold case_value at 1. cbn [type_of]. change (meth_str MSerializeWithAtlas) with (txt "serialize_with_atlas"). rewrite (in_serialize _ _ _ _ _ _ _ Hi). cbn [fst snd].
  unfold choice_ser, serialize_with_atlas_fn. rewrite run_three. unfold vr at 1 2. evs. set (v := case_value _ _ _ _ _ _). set (av := RvEnum _ _ (atlas_args _ _ _)). set (E0 := [_; _; _]).
  change (choice_ser_arm u (length ns) name) with (fun f0 => Arm (ser_pat name f0)
    (EBlock (Blk false (serialize_header (length ns) f0 :: gen_ser (length ns) (sf_type f0) true)
       (Some (if has_fallback_out f0 then EMethod (vr "fallback") MSerializeWithAtlas [vr "writer"; vr "fallback_atlas"] else ECall (CStd FnOk) [EUnit]))))).
  assert (forall y, variant_name u y <> variant_name u (fst f) \/ variant_name u y <> variant_name u (fst g) -> match_pat (mods u ns) (ser_pat name y) (RvPair v av) = None) as Hno.
  { intros y [Hy|Hy]; unfold ser_pat; cbn [match_pat].
    - unfold v. pose proof (case_other u (mods u ns) name false f y (type_name u name SOut) (embed u DOut p (snd f)) efb Hy) as K. rewrite K. reflexivity.
    - unfold av. cbn [match_con]. rewrite (str_eqb_neq (variant_name u (fst g))) by congruence. rewrite Bool.andb_false_r.
      destruct (match_pat _ (case_out _ _ _ _) _); reflexivity. }
  destruct (i =? j) eqn:Eij.
  - assert (g = f) as -> by (assert (i = j) as Eij' by lia; rewrite Eij' in Ef; congruence).
    rewrite (select_arm w rounds lim wraps prog (run depth) (mods u ns) (type_name u name SOut) (variant_name u) (ser_pat name) _ (RvPair v av) E0 st (map fst fs) _ (fst f)
       (atlas_env (embed_atlas u pa (snd f)) efa ++ case_env f (embed u DOut p (snd f)) efb)).
    2: exact (in_variants _ _ _ _ _ _ _ Hi).
    2: now apply in_map.
    2: intros y _ Hne; apply Hno; now left.
    2:{ unfold ser_pat. cbn [match_pat]. unfold v. pose proof (case_match u (mods u ns) name false f (embed u DOut p (snd f)) efb Hfp') as K. rewrite K.
        unfold av. cbn [match_con]. rewrite strs_eqb_refl, !str_eqb_refl. cbn [andb]. unfold atlas_args, atlas_env. rewrite <- Hfa'. destruct efa; reflexivity. }
    cbv beta. rewrite ev_block, eb_eq. set (E1 := (atlas_env _ _ ++ _) ++ E0).
    assert (lookup (txt "payload_atlas") E1 = Some (embed_atlas u pa (snd f))) as L1.
    { unfold E1, atlas_env. destruct efa; cbn [app]; lk. }
    assert (lookup (txt "writer") E1 = Some RvWriter) as L2.
    { unfold E1, atlas_env, case_env, E0. destruct efa, efb, (is_unit_sty (sf_type (fst f))); cbn [app]; lk. }
    rewrite (field_sim ns s depth _ f p pa); auto; [|lia|].
    2:{ intros Hu. rewrite <- (linked_unit u prog ns s (sf_type (fst f)) (snd f) Hlf) in Hu. unfold E1, atlas_env, case_env. rewrite Hu. destruct efa, efb; cbn [app]; lk. }
    rewrite wrote_bind, !wrote_scoped.
    destruct (has_fallback_out (fst f)) eqn:Hh.
    + destruct fb as [v'|]; [|discriminate]. destruct fa as [a'|]; [|discriminate]. unfold efb, efa in *. cbn [optP] in IHfb. destruct Hf as [_ Hf]. destruct Hfa as [_ Hfa].
      assert (match sf_rule (fst f) with Required => [] | _ => ser_calls true v' (TChoice (map erase_field fs)) a' end = ser_calls true v' (TChoice (map erase_field fs)) a') as Ec.
      { unfold has_fallback_out in Hh. destruct (sf_rule (fst f)); try discriminate; reflexivity. }
      change (map (fun f0 => mkF (sf_index (fst f0)) (sf_rule (fst f0)) (erase (snd f0))) fs) with (map erase_field fs) in *.
      rewrite Ec. 
      assert (lookup (txt "fallback") E1 = Some (embed u DOut v' (NDecl ns s SkChoice name fs))) as L3.
      { unfold E1, atlas_env, case_env. cbn [app]. lk. }
      assert (lookup (txt "fallback_atlas") E1 = Some (embed_atlas u a' (NDecl ns s SkChoice name fs))) as L4.
      { unfold E1, atlas_env. cbn [app]. lk. }
      transitivity (fn_result (wrote (header_calls (sf_index (fst f)) (atlas_lookup pa) (integer_encoded (erase (snd f))) ++ ser_calls true p (erase (snd f)) pa)
        (fun s0 => of_fres (write_calls w rounds (ser_calls true v' (TChoice (map erase_field fs)) a') s0) E0) st)).
      * f_equal. apply wrote_ext. intros s'. cbn [obind]. unfold vr. evs. rewrite (IHfb ns s SkChoice name fs a' depth); auto; try lia.
        2: apply allP_Forall; exact Hl0.
        cbn [erase decl_type]. fold erase_field. unfold write_calls. destruct (run_calls w rounds (st_writer s') (st_written s') _) as [[[] x] o]; try reflexivity; cbn [of_fres scoped]; do 2 f_equal;
          rewrite !leave_self; (try reflexivity); unfold E1; now rewrite leave_app.
      * apply wrote_then.
    + destruct (sf_rule (fst f)) eqn:Er; try (unfold has_fallback_out in Hh; rewrite Er in Hh; discriminate). rewrite app_nil_r.
      apply wrote_result. intros s'. cbn [obind]. evs. reflexivity.
  - rewrite (no_arm w rounds lim wraps prog (run depth) (mods u ns) (type_name u name SOut) (ser_pat name)).
    + rewrite (arms_take _ _ _ _ _ _ _ _ _ _ _ _ _ _ []) by reflexivity. evs. reflexivity.
    + intros y Hy. apply Hno. destruct (str_eqb (variant_name u y) (variant_name u (fst f))) eqn:E1; [|left; intros E2; rewrite E2, str_eqb_refl in E1; discriminate].
      right. intros E2. apply str_eqb_eq in E1. rewrite E1 in E2.
      assert (f = g) as ->; [|lia]. pose proof (in_variants _ _ _ _ _ _ _ Hi) as Hn. rewrite map_map in Hn. eapply (nodup_key (fun x => variant_name u (fst x))); eauto.
Qed.

Lemma calls_custom v k fs f a : ser_calls f v (decl_type k fs) a = ser_calls true v (decl_type k fs) a.
Proof. destruct k, v; reflexivity. Qed.
Lemma ser_custom v : ser_call v -> forall nt ns s t is_field a depth E st self,
  (exists ns2 s2 k name fs, nt = NDecl ns2 s2 k name fs) ->
  linked u prog ns s t nt -> wt DOut v (erase nt) -> awt a (erase nt) -> (vdepth v <= depth)%nat ->
  (is_unit (erase nt) = false -> lookup (txt "payload") E = Some (embed u DOut v nt)) ->
  lookup (txt "payload_atlas") E = Some (embed_atlas u a nt) -> lookup (txt "writer") E = Some RvWriter ->
  run_list (ex depth ns self) (gen_ser (length ns) t is_field) E st =
    wrote (ser_calls is_field v (erase nt) a) (fun st => OVal (map (fun _ => tt) (gen_ser (length ns) t is_field)) E st) st.
Proof.
  intros Hc nt ns s t is_field a depth E st self (ns2 & s2 & k & name & fs & ->) Hl Hw Ha Hd Hp Hpa HE.
  destruct Hl as ((i & n & -> & _) & Hi & Hl).
  assert (lookup (txt "payload") E = Some (embed u DOut v (NDecl ns2 s2 k name fs))) as Hp' by (apply Hp; destruct k; reflexivity).
  cbn [gen_ser]. unfold vr. evs. rewrite (Hc ns2 s2 k name fs a depth); auto. rewrite try_calls. cbn [erase]. rewrite (calls_custom v k _ is_field), wrote_bind. apply wrote_ext. intros s'. evs. reflexivity.
Qed.

Theorem ser_sim v : ser_stmt v /\ ser_call v.
Proof.
  induction v as [|b|n|z|b|bs|text|n|vs IH|ovs IH|i p fb IHp IHfb] using val_ind'.
  9: split; [|intros ns s k name fs a depth st _ _ Hw; cbn [erase] in Hw; destruct k; cbn [decl_type wt] in Hw; contradiction].
  1-8: split; [|intros ns s k name fs a depth st _ _ Hw; cbn [erase] in Hw; destruct k; cbn [decl_type wt] in Hw; contradiction].
  1-9: intros nt ns s t is_field a depth E st self Hl Hw Ha Hd Hp Hpa HE; destruct nt as [| | | | | | |e|? ? k]; cbn [erase] in *; try (destruct k); cbn [wt decl_type] in Hw; try contradiction.
  1-7: cbn [linked] in Hl; subst t; cbn [gen_ser ser_calls is_unit embed] in *; try specialize (Hp eq_refl).
  - rewrite run_nil. now rewrite wrote_nil.
  - destruct is_field.
    + set (body := Blk false _ None) at 1. unfold u64_lit, vr at 1. evs. cbn [call_method of_fres obind]. evs. cbn [bin_value obind]. destruct (b =? 0); cbn [negb].
      * cbn [obind]. evs. now rewrite wrote_nil.
      * unfold body. rewrite eb_eq, run_cons, f64_ser_sim with (b := b) by auto. rewrite !wrote_bind, wrote_scoped, !wrote_bind. apply wrote_ext. intros s'. cbn [obind]. evs. cbn [obind scoped]. drop. cbn [obind]. evs. reflexivity.
    + rewrite run_cons, f64_ser_sim with (b := b) by auto. rewrite wrote_bind. apply wrote_ext. intros s'. reflexivity.
  - apply (ser_block_sim ns self depth E st is_field n); auto. intros s'. unfold vr. evs. reflexivity.
  - apply (ser_block_sim ns self depth E st is_field (zigzag_encode z)); auto; [|now apply zigzag_encode_lt].
    intros s'. unfold vr. rewrite <- (mods_length u ns). evs. reflexivity.
  - apply (ser_block_sim ns self depth E st is_field (if b then 1 else 0)); auto; [|unfold two64; destruct b; lia].
    intros s'. unfold vr. evs. reflexivity.
  - unfold gen_write_all, vr. evs. cbn [call_method]. rewrite try_calls, wrote_bind. apply wrote_ext. intros s'. evs. reflexivity.
  - unfold gen_write_all, vr. evs. cbn [call_method of_fres obind]. evs. cbn [call_method]. rewrite try_calls, wrote_bind. apply wrote_ext. intros s'. evs. reflexivity.
  - specialize (Hp eq_refl). destruct e; cbn [erase] in *; try contradiction; try (destruct k; contradiction). destruct Hl as (t' & -> & Hl). cbn [linked] in Hl. subst t'.
    cbn [gen_ser ser_calls embed] in *. apply (ser_block_sim ns self depth E st is_field n); auto. intros s'. unfold as_u64, vr. evs. reflexivity.
  - specialize (Hp eq_refl). destruct Hl as (t' & -> & Hl). destruct Hw as [Hu Hw]. apply allP_Forall in Hw.
    assert (Forall ser_stmt vs) as IH' by (eapply Forall_impl; [|exact IH]; intros x Hx; apply Hx).
    destruct (sized_element (erase e)) eqn:Hs.
    + revert Ha Hpa. destruct a as [?|n l|? ?|? ? ? ?]; cbn [awt]; rewrite Hs; intros Ha Hpa; try contradiction. apply allP_Forall in Ha.
      rewrite (ser_array_sized vs IH' e ns s t' is_field n l); auto.
      apply wrote_ext. intros s'. rewrite gen_ser_sized; [reflexivity|]. now rewrite (linked_sized u prog ns s t' e).
    + revert Ha Hpa. destruct a as [n|? ?|? ?|? ? ? ?]; cbn [awt]; rewrite Hs; intros Ha Hpa; try contradiction.
      rewrite (ser_array_small vs IH' e ns s t' is_field n); auto.
      apply wrote_ext. intros s'. rewrite gen_ser_small; [reflexivity| |]; [now rewrite (linked_sized u prog ns s t' e)|now rewrite (linked_unit u prog ns s t' e)].
  - assert (ser_call (VStruct ovs)) as Hc.
    { intros ns s k name fs a depth st Hi Hl Hw Ha Hd. cbn [erase] in *. destruct k; cbn [decl_type] in *; [|contradiction].
      destruct depth as [|depth]; [cbn [vdepth] in Hd; lia|]. destruct a as [?|? ?|n oas|? ? ? ?]; try contradiction. apply struct_ser_call; auto.
      eapply Forall_impl; [|exact IH]. intros [v|] Hv; cbn [optP] in *; [apply Hv|exact I]. }
    split; [|exact Hc]. intros nt ns s t is_field a depth E st self Hl Hw Ha Hd Hp Hpa HE. apply (ser_custom _ Hc nt ns s); auto.
    destruct nt; cbn [erase wt] in Hw; try contradiction. eauto 6.
  - assert (ser_call (VChoice i p fb)) as Hc.
    { intros ns s k name fs a depth st Hi Hl Hw Ha Hd. cbn [erase] in *. destruct k; cbn [decl_type] in *; [contradiction|].
      destruct depth as [|depth]; [cbn [vdepth] in Hd; lia|]. apply choice_ser_call; auto; [apply IHp|].
      destruct fb as [v'|]; cbn [optP] in *; [apply IHfb|exact I]. }
    split; [|exact Hc]. intros nt ns s t is_field a depth E st self Hl Hw Ha Hd Hp Hpa HE. apply (ser_custom _ Hc nt ns s); auto.
    destruct nt; cbn [erase wt] in Hw; try contradiction. eauto 6.
Qed.
End Ser.
