(** The hypotheses of Properties12 to Properties14 are met. *)
From Coq Require Import String.
From Verif Require Import NamesFacts Spec PrimExtra TruncFacts2 RustTypes RustTop Examples5 Examples7 Examples10 Properties12 Properties13 Properties14 TsSpec TsApi TsTypes.
Open Scope N_scope. Open Scope list_scope.

(** ** The TypeScript program for the two files, run *)
Definition tprog2 : tmod := Eval vm_compute in ts_program au files2.
Example tprog2_is : ts_program au files2 = tprog2. Proof. vm_compute. reflexivity. Qed.
Definition bigs (l : list Z) : cell := CellArr (map JvBig l).
Definition heap2 : heap :=
  [CellBuf (repeat 0 8); CellArr []; bigs [1; 2; 1000000]%Z; CellArr [JvArr 1; JvArr 2]; bigs [9]%Z; CellArr [JvFlt 0; JvFlt 77];
   CellArr (repeat JvNull 300); bigs [5; 7; 1000]%Z; CellArr []; CellArr [JvText (txt "hello"); JvText []]; CellArr [JvArr 8; JvArr 9];
   CellArr [JvObj [(txt "a", JvObj [(txt "x", JvArr 7)])];
            JvObj [(txt "b", JvBig (-300)); (txt "$fallback",
              JvObj [(txt "c", JvNull); (txt "$fallback",
                JvObj [(txt "_type", JvArr 10); (txt "$fallback", JvObj [(txt "e", JvFlt 12345)])])])]]].
Definition foo2_js : jv := JvObj
  [(txt "x", JvArr 3); (txt "y", JvObj [(txt "x", JvArr 4)]); (txt "z", JvNull); (txt "w", JvArr 5); (txt "us", JvArr 6); (txt "chs", JvArr 11); (txt "bb", JvUndef)].
Example tprog2_size : match ts_call_size 1000 au tprog2 30 main_ns foo2_decl foo2_js heap2 with
  | ExVal m h => m = JvNum (lenN (spec_encode true foo2_value (erase foo2_tree))) /\ firstn 12 h = heap2
  | _ => False
  end.
Proof. vm_compute. split; reflexivity. Qed.
Example tprog2_round_trip :
  match ts_call_serialize 1000 au tprog2 30 main_ns foo2_decl foo2_js heap2 with
  | ExVal (JvBuf r) h => nth_error h r = Some (CellBuf (spec_encode true foo2_value (erase foo2_tree))) /\
      match ts_call_deserialize 1000 au tprog2 30 main_ns foo2_decl (JvBuf r) h with
      | ExVal (JvObj ps) h' => nth_error h' r = nth_error h r /\
          match obj_get ps (txt "chs"), obj_get ps (txt "us"), obj_get ps (txt "bb") with
          | JvArr c, JvArr us, JvUndef => nth_error h' us = Some (CellArr (repeat JvNull 300)) /\
              match nth_error h' c with Some (CellArr [_; JvObj ps']) => ps' = [(txt "$field", JvText (txt "b")); (txt "b", JvBig (-300))] | _ => False end
          | _, _, _ => False
          end
      | _ => False
      end
  | _ => False
  end.
Proof. vm_compute. repeat split. Qed.

(** ** The hypotheses *)
(** Checking [ts_distinct_names]. *)
Definition distinct_b (schemas : list (namespace * sschema)) : bool :=
  forallb (fun e : namespace * sschema => negb (Nat.eqb (length (fst e)) 0) &&
    forallb (fun i => negb (existsb (str_eqb (ts_name au i Pascal None)) ts_relied_on)) (fst e ++ map sd_name (ss_decls (snd e)))) schemas &&
  forallb (fun e : namespace * sschema => match fst e with i :: _ => forallb (fun e' : namespace * sschema =>
      forallb (fun j => negb (str_eqb (ts_name au j Pascal None) (ts_name au i Pascal None))) (tl (fst e') ++ map sd_name (ss_decls (snd e')))) schemas | [] => true end) schemas.
Lemma distinct_b_ok schemas : distinct_b schemas = true -> ts_distinct_names au schemas.
Proof.
  intros K. apply andb_prop in K as [K1 K2]. rewrite forallb_forall in K1, K2. constructor.
  - intros ns s H ->. specialize (K1 _ H). discriminate K1.
  - intros ns s i H Hi C. specialize (K1 _ H). apply andb_prop in K1 as [_ K1]. cbn [fst snd] in K1. rewrite forallb_forall in K1. specialize (K1 _ Hi). apply negb_true_iff in K1.
    apply existsb_In in C. rewrite C in K1. discriminate K1.
  - intros ns s i ns' s' j H Hi H' Hj C. specialize (K2 _ H). cbn [fst snd] in K2. destruct ns as [|k ns]; [discriminate Hi|]. injection Hi as ->.
    rewrite forallb_forall in K2. specialize (K2 _ H'). cbn [fst snd] in K2. rewrite forallb_forall in K2. specialize (K2 _ Hj). apply negb_true_iff in K2. rewrite C, str_eqb_refl in K2. discriminate K2.
Qed.
Lemma files2_distinct : ts_distinct_names au files2.
Proof. apply distinct_b_ok. vm_compute. reflexivity. Qed.
Example files2_clear : ts_clear_names au files2.
Proof. apply distinct_names_are_clear; [exact files2_accepted|exact files2_distinct]. Qed.
Example heap2_loaded : ts_loaded heap2. Proof. eexists. split; reflexivity. Qed.
Example foo2_faithful : ts_faithful foo2_value.
Proof. cbn. repeat split; discriminate. Qed.
(** Checking [js_value] for outgoing messages. *)
Definition all2b {A B} (f : A -> B -> bool) : list A -> list B -> bool := fix all2b l l' :=
  match l, l' with [], [] => true | a :: l, b :: l' => f a b && all2b l l' | _, _ => false end.
Lemma all2b_ok {A B} (f : A -> B -> bool) (P : A -> B -> Prop) l : Forall (fun a => forall b, f a b = true -> P a b) l -> forall l', all2b f l l' = true -> all2P P l l'.
Proof.
  induction 1 as [|a l H _ IH]; intros [|b l'] E; try discriminate E; [exact I|]. cbn [all2b] in E. apply andb_prop in E as [E1 E2]. cbn [all2P]. auto.
Qed.
Fixpoint bytes_eqb (a b : bytes) : bool := match a, b with [], [] => true | x :: a, y :: b => (x =? y) && bytes_eqb a b | _, _ => false end.
Lemma bytes_eqb_ok a : forall b, bytes_eqb a b = true -> a = b.
Proof. induction a as [|x a IH]; intros [|y b] E; try discriminate E; [reflexivity|]. cbn in E. apply andb_prop in E as [E1 E2]. apply N.eqb_eq in E1. f_equal; auto. Qed.
Fixpoint js_b (h : heap) (v : val) (t : nty) (m : jv) {struct v} : bool :=
  match v with
  | VUnit => match m with JvNull => true | _ => false end
  | VF64 b => match m with JvFlt c => b =? c | _ => false end
  | VU64 n => match m with JvBig z => Z.eqb z (Z.of_N n) | _ => false end
  | VS64 n => match m with JvBig z => Z.eqb z n | _ => false end
  | VBool b => match m with JvBool c => Bool.eqb b c | _ => false end
  | VBytes bs => match m with JvBuf (S r) => match nth_error h (S r) with Some (CellBuf cs) => bytes_eqb cs bs | _ => false end | _ => false end
  | VString s => match m with JvText s' => str_eqb s' s | _ => false end
  | VUnits n => match m with JvArr (S r) => match nth_error h (S r) with Some (CellArr ms) => forallb (fun m => match m with JvNull => true | _ => false end) ms && (lenN ms =? n) | _ => false end | _ => false end
  | VArr vs =>
      match t, m with
      | NArray e, JvArr (S r) => match nth_error h (S r) with Some (CellArr ms) => all2b (fun v m => js_b h v e m) vs ms | _ => false end
      | _, _ => false
      end
  | VStruct ovs =>
      match t, m with
      | NDecl _ _ _ _ fs, JvObj ps => all2b (fun ov f => match ov with
            | Some v => js_b h v (snd f) (obj_get ps (tfield_name au (fst f)))
            | None => match obj_get ps (tfield_name au (fst f)) with JvUndef => true | _ => false end end) ovs fs
      | _, _ => false
      end
  | VChoice i p fb =>
      match t, m with
      | NDecl _ _ _ _ fs, JvObj ps =>
          match named_field i fs with
          | Some f => js_b h p (snd f) (obj_get ps (tfield_name au (fst f))) &&
              match fb with Some v' => js_b h v' t (obj_get ps (txt "$fallback")) | None => true end &&
              forallb (fun g => Bool.eqb (obj_has ps (tfield_name au (fst g))) (str_eqb (tfield_name au (fst g)) (tfield_name au (fst f)))) fs
          | None => false
          end
      | _, _ => false
      end
  end.
Lemma js_b_ok h v : forall t m, js_b h v t m = true -> js_value au DOut h 1 v t m.
Proof.
  induction v as [|x|n|z|x|bs|s|n|vs IH|ovs IH|i p fb IHp IHfb] using val_ind'; intros t m E; cbn [js_b] in E; cbn [js_value].
  - now destruct m.
  - destruct m; try discriminate E. left. apply N.eqb_eq in E. now subst.
  - destruct m; try discriminate E. apply Z.eqb_eq in E. now subst.
  - destruct m; try discriminate E. apply Z.eqb_eq in E. now subst.
  - destruct m; try discriminate E. apply Bool.eqb_prop in E. now subst.
  - destruct m; try discriminate E; destruct r as [|r]; try discriminate E; destruct (nth_error h (S r)) as [[ |cs]|] eqn:Er; try discriminate E;
      apply bytes_eqb_ok in E; subst; exists (S r); (split; [reflexivity|]); (split; [lia|exact Er]).
  - destruct m; try discriminate E. apply str_eqb_eq in E. now subst.
  - destruct m; try discriminate E; destruct r as [|r]; try discriminate E; destruct (nth_error h (S r)) as [[ms| ]|] eqn:Er; try discriminate E.
    apply andb_prop in E as [E1 E2]. apply N.eqb_eq in E2. subst. exists (S r). split; [reflexivity|]. split; [lia|]. rewrite Er. do 2 f_equal. unfold lenN. rewrite Nat2N.id.
    clear Er. induction ms as [|m ms IH]; [reflexivity|]. cbn in E1. apply andb_prop in E1 as [E1 E2]. destruct m; try discriminate E1. cbn [length repeat]. f_equal. auto.
  - destruct t; try discriminate E. destruct m; try discriminate E; destruct r as [|r]; try discriminate E; destruct (nth_error h (S r)) as [[ms| ]|] eqn:Er; try discriminate E.
    exists (S r), ms. split; [reflexivity|]. split; [lia|]. split; [exact Er|]. revert E. apply all2b_ok. eapply Forall_impl; [|exact IH]. intros v Hv b Hb. auto.
  - destruct t; try discriminate E. destruct m; try discriminate E. eexists. split; [reflexivity|]. split; [discriminate|]. revert E. apply all2b_ok. eapply Forall_impl; [|exact IH].
    intros [v|] Hv b Hb; [auto|]. destruct (obj_get _ _); try discriminate Hb. reflexivity.
  - destruct t; try discriminate E. destruct m; try discriminate E. destruct (named_field i fs) as [f|]; [|discriminate E]. apply andb_prop in E as [E E3]. apply andb_prop in E as [E1 E2].
    eexists. split; [reflexivity|]. split; [auto|]. split; [destruct fb as [v'|]; [|exact I]; cbn in IHfb; auto|].
    intros g Hg. rewrite forallb_forall in E3. apply Bool.eqb_prop. auto.
Qed.
Example foo2_is_js : js_value au DOut heap2 1 foo2_value foo2_tree foo2_js.
Proof. apply js_b_ok. vm_compute. reflexivity. Qed.
Example foo2_small53 : lenN (spec_encode true foo2_value (erase foo2_tree)) < 2 ^ 53.
Proof. vm_compute. reflexivity. Qed.
Definition foo2_generated_round_trip :=
  generated_ts_round_trip au files2 main_ns m_file foo2_decl foo2_tree foo2_value files2_accepted files2_clear foo2_declared foo2_named foo2_typed foo2_faithful foo2_small53.
Ltac has := cbn [fst snd]; lazymatch goal with
  | |- ts_has _ _ _ _ (TtPath ?p) (JvObj _) =>
      first [eapply th_struct; [vm_compute; reflexivity|has]
            |solve [eapply th_choice; [vm_compute; reflexivity|left; reflexivity|has]]
            |solve [eapply th_choice; [vm_compute; reflexivity|right; left; reflexivity|has]]
            |solve [eapply th_choice; [vm_compute; reflexivity|do 2 right; left; reflexivity|has]]
            |solve [eapply th_choice; [vm_compute; reflexivity|do 3 right; left; reflexivity|has]]
            |solve [eapply th_choice; [vm_compute; reflexivity|do 4 right; left; reflexivity|has]]]
  | |- ts_has _ _ _ _ (TtPath _) (JvBuf _) => eapply th_buffer; [vm_compute; reflexivity|reflexivity]
  | |- ts_has _ _ _ _ (TtPath _) _ => constructor
  | |- ts_has _ _ _ _ (TtArray _) _ => eapply th_array; [vm_compute; reflexivity|repeat (constructor; [solve [has]|]); constructor]
  | |- ts_has _ _ _ _ (TtUnion _ _) _ => first [apply th_left; has|apply th_right; has]
  | |- ts_has _ _ _ _ (TtObj _) _ => apply th_object; [repeat (constructor; [eexists; split; [vm_compute; reflexivity|solve [has]]|]); constructor|
      let x := fresh in let H := fresh in intros _ x H; cbn [map fst] in *; intuition]
  end.
Example foo2_is_typed : ts_has (ts_program au files2) true heap2 [] (ts_type au main_ns foo2_decl SOut) foo2_js.
Proof. rewrite tprog2_is. unfold ts_type. let p := eval vm_compute in (map (fun c => ts_name au c Pascal None) main_ns ++ [ts_name au (sd_name foo2_decl) Pascal (Some SOut)]) in change (map (fun c => ts_name au c Pascal None) main_ns ++ [ts_name au (sd_name foo2_decl) Pascal (Some SOut)]) with p.
  unfold foo2_js. has.
Qed.
Lemma Some_inj {A} (a b : A) : Some a = Some b -> b = a. Proof. now intros [= ->]. Qed.
Ltac found := let m := fresh "m" in let E := fresh "E" in intros m E; vm_compute in E; first [discriminate E|apply Some_inj in E; subst m].
Ltac ranged := cbn [fst snd]; lazymatch goal with
  | |- ts_ranged _ _ (NDecl _ _ SkStruct _ _) _ => apply rg_struct; repeat (constructor; [found; first [left; reflexivity|right; ranged]|]); constructor
  | |- ts_ranged _ _ (NDecl _ _ SkChoice _ _) _ =>
      apply rg_choice; [repeat (constructor; [vm_compute; reflexivity|]); constructor|repeat (constructor; [found; ranged|]); constructor|found; ranged]
  | |- ts_ranged _ _ (NArray _) _ => eapply rg_array; [discriminate|vm_compute; reflexivity|vm_compute; reflexivity|repeat (constructor; [ranged|]); constructor]
  | |- ts_ranged _ _ NU64 (JvBig ?z) => change (JvBig z) with (JvBig (Z.of_N (Z.to_N z))); constructor; vm_compute; reflexivity
  | |- ts_ranged _ _ NS64 _ => constructor; split; [vm_compute; discriminate|vm_compute; reflexivity]
  | |- ts_ranged _ _ NF64 _ => constructor; vm_compute; reflexivity
  | |- ts_ranged _ _ NString _ => constructor; repeat constructor
  | |- ts_ranged _ _ NUnit _ => constructor
  | |- ts_ranged _ _ ?t _ => let t' := eval hnf in t in progress change t with t'; ranged
  end.
Example foo2_is_ranged : ts_ranged au heap2 foo2_tree foo2_js.
Proof. unfold foo2_js, foo2_tree. ranged. Qed.
Definition foo2_typed_serialize :=
  typed_ts_values_serialize au files2 main_ns m_file foo2_decl foo2_tree heap2 foo2_js files2_accepted files2_clear foo2_declared foo2_named foo2_is_typed foo2_is_ranged heap2_loaded.
