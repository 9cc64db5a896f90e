(** Property theorems that say where the types of generated TypeScript programs fall short: C72 and C73. See MANIFEST.json. *)
From Coq Require Import String.
From Verif Require Import NamesFacts Spec PrimExtra TruncFacts2 RustTypes RustTop Examples5 Examples7 Examples10 Examples12 Properties12 Properties13 Properties14 TsSpec TsApi TsTypes.
Open Scope N_scope. Open Scope list_scope.

(** ** A choice with two cases *)
Definition two_file : sschema := file ["choice Two { a: U64 = 0"; "b: U64 = 1"; "}"]%string.
Definition two_files : list (namespace * sschema) := [(main_ns, two_file)].
Definition two_decl : sdecl := nth 0 (ss_decls two_file) foo_decl.
Definition two_tree : nty := NDecl main_ns two_file SkChoice (id "Two") [(field_of_decl two_decl 0, NU64); (field_of_decl two_decl 1, NU64)].
Lemma one_loaded s : Forall (fun d => NoDup (sd_deleted d)) (ss_decls s) -> ss_imports s = [] -> loaded [(main_ns, s)].
Proof.
  intros H E. split; [repeat constructor; intros C; inversion C|]. split.
  - intros ns s0 [[= <- <-]|[]]. rewrite E. split; constructor.
  - intros ns s0 d [[[= <- <-]|[]] Hd]. rewrite Forall_forall in H. auto.
Qed.
Lemma two_accepted : accepted au two_files.
Proof.
  constructor; [exact au_agrees| |vm_compute; reflexivity|apply plain_b_ok; vm_compute; reflexivity].
  apply one_loaded; [vm_compute; repeat constructor|reflexivity].
Qed.
Lemma two_clear : ts_clear_names au two_files.
Proof. apply distinct_names_are_clear; [exact two_accepted|]. apply distinct_b_ok. vm_compute. reflexivity. Qed.
Lemma two_declared : declared two_files main_ns two_file two_decl.
Proof. split; [now left|vm_compute; now left]. Qed.
Lemma two_named : decl_named two_files main_ns two_file two_decl two_tree.
Proof. eexists. split; [|reflexivity]. vm_compute (sd_fields two_decl). repeat constructor. Qed.
Definition both_cases : jv := JvObj [(txt "a", JvBig 1); (txt "b", JvBig 2)].
Lemma both_typed : ts_has (ts_program au two_files) false [CellBuf (repeat 0 8)] [] (ts_type au main_ns two_decl SOut) both_cases.
Proof.
  eapply th_choice; [vm_compute; reflexivity|right; left; reflexivity|]. apply th_object; [|discriminate]. constructor; [|constructor].
  exists (JvBig 2). split; [vm_compute; reflexivity|constructor].
Qed.
Lemma both_ranged : ts_ranged au [CellBuf (repeat 0 8)] two_tree both_cases.
Proof. unfold both_cases, two_tree. ranged. Qed.
(** C73, without "no other properties": TypeScript lets a value of the type [FooOut] have other properties, even those of
    two cases. That is no message; [serialize] writes the case that is declared first. *)
Theorem ts_values_with_more_properties_refuted : exists u schemas ns s d nt h m,
  accepted u schemas /\ ts_clear_names u schemas /\ declared schemas ns s d /\ decl_named schemas ns s d nt /\ ts_loaded h /\
  ts_has (ts_program u schemas) false h [] (ts_type u ns d SOut) m /\ ts_ranged u h nt m /\
  (forall v, wt DOut v (erase nt) -> ~ js_value u DOut h 1 v nt m) /\
  exists r h', ts_call_serialize 100 u (ts_program u schemas) 10 ns d m h = ExVal (JvBuf r) h' /\ nth_error h' r = Some (CellBuf (spec_encode true (VChoice 0 (VU64 1) None) (erase nt))).
Proof.
  exists au, two_files, main_ns, two_file, two_decl, two_tree, [CellBuf (repeat 0 8)], both_cases.
  split; [exact two_accepted|]. split; [exact two_clear|]. split; [exact two_declared|]. split; [exact two_named|]. split; [eexists; split; reflexivity|].
  split; [exact both_typed|]. split; [exact both_ranged|]. split.
  - intros v Hv. destruct v; cbn [erase two_tree decl_type wt] in Hv; try contradiction. unfold two_tree. cbn [js_value]. clear Hv.
    destruct (named_field _ _) as [f|]; [|easy]. intros (ps & [= <-] & _ & _ & K).
    pose proof (K _ (or_introl eq_refl)) as K1. pose proof (K _ (or_intror (or_introl eq_refl))) as K2. cbn [fst] in K1, K2.
    change (tfield_name au (field_of_decl two_decl 0)) with (txt "a") in K1. change (tfield_name au (field_of_decl two_decl 1)) with (txt "b") in K2.
    vm_compute (obj_has _ _) in K1. vm_compute (obj_has _ _) in K2. symmetry in K1, K2. apply str_eqb_eq in K1, K2. rewrite <- K1 in K2. discriminate K2.
  - eexists _, _. split; vm_compute; reflexivity.
Qed.
Print Assumptions ts_values_with_more_properties_refuted.

(** ** A file and a declaration of the same name *)
Definition near_file : sschema := file ["struct Foo { x: U64 = 0 }"]%string.
Definition far_file : sschema := file ["struct Foo { y: Bool = 0 }"]%string.
Definition near_ns : namespace := [id "a"].
Definition far_ns : namespace := [id "a"; id "foo"].
Definition near_files : list (namespace * sschema) := [(near_ns, near_file); (far_ns, far_file)].
Definition near_decl : sdecl := nth 0 (ss_decls near_file) foo_decl.
Lemma near_accepted : accepted au near_files.
Proof.
  constructor; [exact au_agrees| |vm_compute; reflexivity|apply plain_b_ok; vm_compute; reflexivity]. split; [|split].
  - repeat constructor. intros C. inversion C as [|? ? ? ? _ C2]. inversion C2.
  - intros ns s [H|[H|[]]]; injection H as <- <-; split; constructor.
  - intros ns s d [[H|[H|[]]] Hd]; injection H as <- <-; vm_compute in Hd; destruct Hd as [<-|[]]; constructor.
Qed.
(** C72, for types as they are written in the generated code, in the namespace of the declaration: if the files [a.t] and
    [a/foo.t] both declare [Foo], then the type of the result of the [deserialize] of the first is that of the second. *)
Theorem ts_result_types_resolve_refuted : exists u schemas ns s d,
  accepted u schemas /\ ts_clear_names u schemas /\ declared schemas ns s d /\
  let prog := ts_program u schemas in let path := map (fun c => ts_name u c Pascal None) ns in let name := ts_name u (sd_name d) Pascal (Some SIn) in
  (exists sc fn, find_callee prelude_fns prog [] (CPath (path ++ [ts_name u (sd_name d) Pascal None]) (txt "deserialize")) = Some (sc, fn) /\
     jfn_ret fn = TtUnion (TtPath [name]) (tt "Error") /\ exists p t, find_type prog sc [name] = Some (p, t) /\ find_type prog [] (path ++ [name]) <> Some (p, t)).
Proof.
  exists au, near_files, near_ns, near_file, near_decl. split; [exact near_accepted|]. split; [apply distinct_names_are_clear; [exact near_accepted|apply distinct_b_ok; vm_compute; reflexivity]|].
  split; [split; [now left|vm_compute; now left]|]. cbv zeta. eexists _, _. split; [vm_compute; reflexivity|]. split; [vm_compute; reflexivity|].
  eexists _, _. split; [vm_compute; reflexivity|]. vm_compute. discriminate.
Qed.
Print Assumptions ts_result_types_resolve_refuted.
