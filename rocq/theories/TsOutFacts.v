(** Proofs: a value of an outgoing generated TypeScript type is a message. *)
From Verif Require Import Spec PrimExtra TypesFacts.
From Verif Require Import TsSpec TsApi TsTypes TsTypesFacts RustAtlasFacts RustTypesFacts TsLinkFacts IdentFacts.

Section Typed.
Context (u : unicode) (prog : tmod) (h : heap).
Notation has := (ts_has prog true h).
Notation ranged := (ts_ranged u h).
Definition clear_scope (sc : scope) : Prop := forall g, In g built_in -> find_type prog sc [g] = None.

Section Ind.
Context (P : nty -> jv -> Prop)
  (Hunit : forall m, P NUnit m) (Hbool : forall m, P NBool m)
  (Hf64 : forall b, b < 2 ^ 64 -> P NF64 (JvFlt b)) (Hu64 : forall n, n < 2 ^ 64 -> P NU64 (JvBig (Z.of_N n)))
  (Hs64 : forall z, (- 2 ^ 63 <= z < 2 ^ 63)%Z -> P NS64 (JvBig z)) (Hstr : forall s, str_ok s -> P NString (JvText s))
  (Hbytes : forall r bs, r <> O -> nth_error h r = Some (CellBuf bs) -> bytes_ok bs -> P NBytes (JvBuf r))
  (Harr : forall t r ms, r <> O -> nth_error h r = Some (CellArr ms) -> lenN ms < 2 ^ 32 -> Forall (P t) ms -> P (NArray t) (JvArr r))
  (Hstruct : forall ns s name fs ps, Forall (fun f => forall m, lookup (tfield_name u (fst f)) ps = Some m -> m = JvUndef \/ P (snd f) m) fs ->
     P (NDecl ns s SkStruct name fs) (JvObj ps))
  (Hchoice : forall ns s name fs ps, Forall (fun f => js_inherited (tfield_name u (fst f)) = false) fs ->
     Forall (fun f => forall m, lookup (tfield_name u (fst f)) ps = Some m -> P (snd f) m) fs ->
     (forall m, lookup (txt "$fallback") ps = Some m -> P (NDecl ns s SkChoice name fs) m) ->
     P (NDecl ns s SkChoice name fs) (JvObj ps)).
Fixpoint ranged_ind' nt m (H : ranged nt m) {struct H} : P nt m :=
  match H with
  | rg_unit _ _ m => Hunit m
  | rg_bool _ _ m => Hbool m
  | rg_f64 _ _ b x => Hf64 b x
  | rg_u64 _ _ n x => Hu64 n x
  | rg_s64 _ _ z x => Hs64 z x
  | rg_string _ _ s x => Hstr s x
  | rg_bytes _ _ r bs x y z => Hbytes r bs x y z
  | rg_array _ _ t r ms x y z f => Harr t r ms x y z
      ((fix go ms (f : Forall (ranged t) ms) : Forall (P t) ms :=
         match f with Forall_nil _ => Forall_nil _ | @Forall_cons _ _ m ms a b => @Forall_cons _ _ m ms (ranged_ind' t m a) (go ms b) end) ms f)
  | rg_struct _ _ ns s name fs ps f => Hstruct ns s name fs ps
      ((fix go fs (f : Forall (fun f => forall m, lookup (tfield_name u (fst f)) ps = Some m -> m = JvUndef \/ ranged (snd f) m) fs) : Forall (fun f => forall m, lookup (tfield_name u (fst f)) ps = Some m -> m = JvUndef \/ P (snd f) m) fs :=
         match f with
         | Forall_nil _ => Forall_nil _
         | @Forall_cons _ _ g fs a b => @Forall_cons _ _ g fs (fun m e => match a m e with or_introl x => or_introl x | or_intror y => or_intror (ranged_ind' _ m y) end) (go fs b)
         end) fs f)
  | rg_choice _ _ ns s name fs ps i f b => Hchoice ns s name fs ps i
      ((fix go fs (f : Forall (fun f => forall m, lookup (tfield_name u (fst f)) ps = Some m -> ranged (snd f) m) fs) : Forall (fun f => forall m, lookup (tfield_name u (fst f)) ps = Some m -> P (snd f) m) fs :=
         match f with
         | Forall_nil _ => Forall_nil _
         | @Forall_cons _ _ g fs a b => @Forall_cons _ _ g fs (fun m e => ranged_ind' _ m (a m e)) (go fs b)
         end) fs f)
      (fun m e => ranged_ind' _ m (b m e))
  end.
End Ind.

(** Inverting [ts_has]. *)
Lemma has_built sc g m : clear_scope sc -> In g built_in -> has sc (TtPath [g]) m ->
  (g = txt "number" /\ ((exists n, m = JvNum n) \/ exists b, m = JvFlt b)) \/ (g = txt "bigint" /\ exists z, m = JvBig z) \/ (g = txt "boolean" /\ exists b, m = JvBool b) \/
  (g = txt "string" /\ exists s, m = JvText s) \/ (g = txt "null" /\ m = JvNull) \/ (g = txt "undefined" /\ m = JvUndef) \/
  (g = txt "ArrayBuffer" /\ exists r, m = JvBuf r) \/ (g = txt "Error" /\ exists k, m = JvError k).
Proof.
  intros Hc Hin H. remember (TtPath [g]) as T eqn:ET. destruct H; unfold tt in ET; try discriminate ET; injection ET as ET; subst.
  - left. eauto.
  - left. eauto.
  - right. left. eauto.
  - do 2 right. left. eauto.
  - do 3 right. left. eauto.
  - do 4 right. left. auto.
  - do 5 right. left. auto.
  - do 6 right. left. eauto.
  - do 7 right. eauto.
  - match goal with K : find_type _ _ _ = _ |- _ => rewrite (Hc _ Hin) in K; discriminate K end.
  - match goal with K : find_type _ _ _ = _ |- _ => rewrite (Hc _ Hin) in K; discriminate K end.
Qed.
Ltac built H := apply has_built in H; [|assumption|cbn; tauto]; destruct H as [[E H]|[[E H]|[[E H]|[[E H]|[[E H]|[[E H]|[[E H]|[E H]]]]]]]]; try discriminate E; clear E.
Lemma has_path sc p m r : clear_scope sc -> find_type prog sc p = Some r -> has sc (TtPath p) m ->
  match snd r with
  | TdStruct _ fields => has (fst r) (TtObj fields) m
  | TdChoice _ cases => exists c, In c cases /\ has (fst r) (TtObj c) m
  end.
Proof.
  intros Hn Hf H. remember (TtPath p) as T eqn:ET. destruct H; unfold tt in ET; try discriminate ET; injection ET as ET; subst; try (rewrite Hn in Hf; [discriminate Hf|cbn; tauto]).
  - rewrite Hf in H. injection H as ->. exact H0.
  - rewrite Hf in H. injection H as ->. exists c. auto.
Qed.
Lemma has_object sc fields m : has sc (TtObj fields) m -> exists ps, m = JvObj ps /\
  Forall (fun f => exists v, lookup (fst f) ps = Some v /\ has sc (snd f) v) fields /\ forall x, In x (map fst ps) -> In x (map fst fields).
Proof. intros H. inversion H; subst. eauto. Qed.

Definition out_typed (nt : nty) (m : jv) : Prop := ty_wf (erase nt) ->
  (forall sc ns s t, tylinked u prog sc ns s t nt -> clear_scope sc -> has sc (tgen_type u ns s t SOut) m -> exists v, wt DOut v (erase nt) /\ js_value u DOut h 1 v nt m) /\
  (forall ns s k name fs, nt = NDecl ns s k name fs -> tyinstalled u prog ns s k name (map fst fs) ->
     allP (fun f => tylinked u prog (nspaces u ns) ns s (sf_type (fst f)) (snd f)) fs ->
     forall sc p, clear_scope sc -> find_type prog sc p = Some (nspaces u ns, tdef_of u ns s k name (map fst fs) SOut) -> has sc (TtPath p) m ->
     exists v, wt DOut v (erase nt) /\ js_value u DOut h 1 v nt m).
Lemma out_by_decl ns s k name fs m : (ty_wf (erase (NDecl ns s k name fs)) -> tyinstalled u prog ns s k name (map fst fs) ->
     allP (fun f => tylinked u prog (nspaces u ns) ns s (sf_type (fst f)) (snd f)) fs ->
     forall sc p, clear_scope sc -> find_type prog sc p = Some (nspaces u ns, tdef_of u ns s k name (map fst fs) SOut) -> has sc (TtPath p) m ->
     exists v, wt DOut v (erase (NDecl ns s k name fs)) /\ js_value u DOut h 1 v (NDecl ns s k name fs) m) -> out_typed (NDecl ns s k name fs) m.
Proof.
  intros K Hwf. specialize (K Hwf). split.
  - intros sc ns0 s0 t ((i & n & -> & Hp) & Hi & Hf) Hc. cbn [tgen_type]. now apply (K Hi Hf sc _ Hc (Hp SOut)).
  - intros ns' s' k' name' fs' [= <- <- <- <- <-]. exact K.
Qed.
Lemma undef_untyped sc ns s t nt : tylinked u prog sc ns s t nt -> clear_scope sc -> has sc (tgen_type u ns s t SOut) JvUndef -> False.
Proof.
  intros Hk Hc H. destruct nt; cbn [tylinked] in Hk; try (subst t; cbn [tgen_type] in H; built H; first [discriminate H|destruct H as [[? H]|[? H]]; discriminate H|destruct H as [? H]; discriminate H]).
  - destruct Hk as (t' & -> & _). cbn [tgen_type] in H. inversion H.
  - destruct Hk as ((i & n & -> & Hp) & _). cbn [tgen_type] in H. apply (has_path _ _ _ _ Hc (Hp SOut)) in H. cbn [fst snd] in H.
    destruct k; cbn [tdef_of tgen_struct tgen_choice] in H; [|destruct H as (c & _ & H)]; apply has_object in H as (ps & E & _); discriminate E.
Qed.
Lemma named_self fs f : NoDup (indices (map erase_field fs)) -> In f fs -> named_field (sf_index (fst f)) fs = Some f.
Proof.
  induction fs as [|g fs IH]; [intros _ []|]. cbn [map indices erase_field f_index named_field]. intros Hn [->|Hin].
  - now rewrite N.eqb_refl.
  - inversion Hn as [|? ? A B]; subst. destruct (sf_index (fst g) =? sf_index (fst f)) eqn:E; [|now apply IH]. exfalso. apply A.
    apply N.eqb_eq in E. rewrite E. unfold indices. rewrite map_map. apply in_map_iff. exists f. auto.
Qed.
Lemma typed_values nt m : ranged nt m -> out_typed nt m.
Proof.
  revert nt m. apply ranged_ind'.
  1-7: split; [intros sc ns s0 t Hk Hc Hm; cbn [tylinked] in Hk; subst t; cbn [tgen_type] in Hm|discriminate].
  - built Hm. subst. exists VUnit. now split.
  - built Hm. destruct Hm as [b' ->]. exists (VBool b'). now split.
  - exists (VF64 b). split; [exact H|]. now left.
  - exists (VU64 n). split; [exact H|reflexivity].
  - exists (VS64 z). split; [exact H|reflexivity].
  - exists (VString s). split; [exact H|reflexivity].
  - exists (VBytes bs). split; [exact H1|]. exists r. split; [reflexivity|]. split; [lia|exact H0].
  - intros t r ms Hr Hcell Hlen IH Hwf. split; [|discriminate]. intros sc ns s t0 (t' & -> & Hk) Hc Hm. cbn [tgen_type] in Hm.
    inversion Hm as [| | | | | | | | | | | |? ? ? ms' C1 C2| | |]; subst. rewrite Hcell in C1. injection C1 as <-.
    destruct (is_unit (erase t)) eqn:Eu.
    + destruct t; try discriminate Eu; [|destruct k; discriminate Eu]. cbn [tylinked] in Hk. subst t'. exists (VUnits (lenN ms)). split; [cbn [erase wt]; unfold two64; lia|].
      cbn [js_value]. exists r. split; [reflexivity|]. split; [lia|]. rewrite Hcell. do 2 f_equal. unfold lenN. rewrite Nat2N.id.
      clear - C2 Hc. induction C2 as [|m ms H _ IH]; [reflexivity|]. cbn [length repeat]. rewrite <- IH. f_equal. cbn [tgen_type] in H. built H. exact H.
    + assert (exists vs, allP (fun v => wt DOut v (erase t)) vs /\ all2P (fun v m => js_value u DOut h 1 v t m) vs ms) as (vs & V1 & V2).
      { clear Hcell Hlen Hm. induction ms as [|m ms IHm]; [exists []; now split|]. inversion IH as [|? ? I1 I2]; subst. inversion C2 as [|? ? D1 D2]; subst.
        destruct (IHm I2 D2) as (vs & V1 & V2). destruct (proj1 (I1 Hwf) sc ns s t' Hk Hc D1) as (v & W1 & W2). exists (v :: vs). cbn [allP all2P]. auto. }
      exists (VArr vs). cbn [erase wt js_value]. split; [auto|]. exists r, ms. repeat split; auto. lia.
  - intros ns s name fs ps IH. apply out_by_decl. intros Hwf Hi Hf sc p Hc Hp Hm. apply (has_path _ _ _ _ Hc Hp) in Hm. cbn [fst snd tdef_of tgen_struct] in Hm.
    apply has_object in Hm as (ps' & [= <-] & Hm & _). cbn [app] in Hm. rewrite map_map in Hm. cbn [fst snd] in Hm. cbn [erase decl_type ty_wf] in Hwf. destruct Hwf as [_ Hwf].
    assert (exists ovs, all2P (fun ov f => match ov with Some v => wt DOut v (f_type f) | None => always_present DOut (f_rule f) = false end) ovs (map erase_field fs) /\
      all2P (fun ov f => match ov with Some v => js_value u DOut h 1 v (snd f) (obj_get ps (tfield_name u (fst f))) | None => obj_get ps (tfield_name u (fst f)) = JvUndef end) ovs fs) as (ovs & V1 & V2).
    { pose proof (yi_built _ _ _ _ _ _ _ Hi) as Hb. clear Hp Hi Hc. induction fs as [|f fs IHfs]; [exists []; now split|].
      cbn [map allP] in *. inversion IH as [|? ? I1 I2]; subst. inversion Hm as [|? ? (w & D0 & D1) D2]; subst. cbn [fst snd] in D0, D1. destruct Hf as [F1 F2], Hwf as [[_ W1] W2].
      destruct (IHfs I2 W2 F2 D2) as (ovs & V1 & V2).
      assert (exists ov, match ov with Some v => wt DOut v (erase (snd f)) | None => always_present DOut (sf_rule (fst f)) = false end /\
        match ov with Some v => js_value u DOut h 1 v (snd f) (obj_get ps (tfield_name u (fst f))) | None => obj_get ps (tfield_name u (fst f)) = JvUndef end) as (ov & O1 & O2).
      2:{ exists (ov :: ovs). cbn [all2P]. auto. }
      unfold obj_get. rewrite D0. specialize (I1 w D0).
      assert (has (nspaces u ns) (tgen_type u ns s (sf_type (fst f)) SOut) w -> exists ov, match ov with Some v => wt DOut v (erase (snd f)) | None => always_present DOut (sf_rule (fst f)) = false end /\
        match ov with Some v => js_value u DOut h 1 v (snd f) w | None => w = JvUndef end) as K.
      { intros D. destruct I1 as [->|I1]; [destruct (undef_untyped _ _ _ _ _ F1 Hb D)|]. destruct (proj1 (I1 W1) _ _ _ _ F1 Hb D) as (v & U1 & U2). exists (Some v). auto. }
      destruct (sf_rule (fst f)) eqn:Er; try exact (K D1). inversion D1 as [| | | | | | | | | |? ? ? ? D|? ? ? ? D| | | |]; subst; [exact (K D)|].
      built D. subst w. exists None. now split. }
    exists (VStruct ovs). cbn [erase decl_type wt js_value]. split; [exact V1|]. exists ps. split; [reflexivity|]. split; [discriminate|exact V2].
  - intros ns s name fs ps Hinh IH IHfb. apply out_by_decl. intros Hwf Hi Hf sc p Hc Hp Hm. apply (has_path _ _ _ _ Hc Hp) in Hm. cbn [fst snd tdef_of tgen_choice] in Hm.
    destruct Hm as (c & Hin & Hm). rewrite app_nil_r, map_map in Hin. apply in_map_iff in Hin as (f & <- & Hin).
    apply has_object in Hm as (ps' & [= <-] & Hm & Hex). unfold tgen_case in Hm, Hex. cbn [app map fst] in Hm, Hex. inversion Hm as [|? ? (w & D0 & D1) D2]; subst. cbn [fst snd] in D0, D1.
    pose proof (yi_built _ _ _ _ _ _ _ Hi) as Hb. pose proof (yi_own _ _ _ _ _ _ _ Hi SOut) as Ho. pose proof (yi_fields _ _ _ _ _ _ _ Hi) as Hnd.
    pose proof Hwf as Hwf'. cbn [erase decl_type ty_wf] in Hwf'. destruct Hwf' as [Hni Hwf'].
    assert (tylinked u prog (nspaces u ns) ns s (sf_type (fst f)) (snd f)) as Hl by (apply allP_Forall in Hf; rewrite Forall_forall in Hf; auto).
    assert (ty_wf (erase (snd f))) as Hwff by (apply allP_Forall in Hwf'; rewrite Forall_forall in Hwf'; apply (Hwf' (erase_field f)), in_map, Hin).
    rewrite Forall_forall in IH. destruct (proj1 (IH f Hin w D0 Hwff) _ _ _ _ Hl Hb D1) as (v & V1 & V2).
    pose proof (named_self fs f Hni Hin) as Hnf.
    assert (exists fb, match fb with Some v' => has_fallback DOut (sf_rule (fst f)) = true /\ wt DOut v' (erase (NDecl ns s SkChoice name fs)) | None => has_fallback DOut (sf_rule (fst f)) = false end /\
      match fb with Some v' => js_value u DOut h 1 v' (NDecl ns s SkChoice name fs) (obj_get ps (txt "$fallback")) | None => True end) as (fb & B1 & B2).
    { destruct (sf_rule (fst f)) eqn:Er; [| |exists None; now split].
      all: inversion D2 as [|? ? (w' & E0 & E1) _]; subst; cbn [fst snd] in E0, E1; unfold obj_get; rewrite E0;
        destruct (proj2 (IHfb w' E0 Hwf) _ _ _ _ _ eq_refl Hi Hf _ _ Hb Ho E1) as (v' & U1 & U2); exists (Some v'); auto. }
    exists (VChoice (sf_index (fst f)) v fb). split.
    + cbn [erase decl_type wt]. change (map _ fs) with (map erase_field fs). rewrite find_erased, Hnf. cbn [erase_field f_type f_rule]. split; [exact V1|]. exact B1.
    + cbn [js_value]. rewrite Hnf. exists ps. split; [reflexivity|]. split; [|split; [exact B2|]].
      * unfold obj_get. now rewrite D0.
      * intros g Hg. rewrite Forall_forall in Hinh. unfold obj_has. rewrite (Hinh g Hg). destruct (lookup (tfield_name u (fst g)) ps) as [x|] eqn:E.
        -- apply lookup_in, Hex in E. symmetry. apply str_eqb_eq. destruct E as [E|E]; [now symmetry|]. exfalso.
           assert (In (tfield_name u (fst g)) [txt "$fallback"]) as E' by (destruct (sf_rule (fst f)); [exact E|exact E|destruct E]).
           destruct E' as [E'|[]]. cbn [map app] in Hnd. inversion Hnd as [|? ? A _]; subst. apply A. right. rewrite map_map. apply in_map_iff. exists g. split; [now symmetry|exact Hg].
        -- destruct (str_eqb _ _) eqn:E2; [|reflexivity]. apply str_eqb_eq in E2. rewrite E2, D0 in E. discriminate E.
Qed.
End Typed.
