(** The hypotheses of Properties7 are met. *)
From Coq Require Import String Relations.Operators_Properties.
From Verif Require Import TokenFacts2 ParserFacts2 TreeFacts DefectFacts Examples5.
Open Scope N_scope. Open Scope list_scope.

(** Two files, as the loader leaves them: one imports the other. *)
Definition file (text : list string) : sschema :=
  match tokenize ascii_unicode (List.concat (map (fun l => txt l ++ nl) text)) with
  | LexOk ts => match parse ascii_unicode sample_stem ts with ParseOk s => s | _ => mkSSchema [] [] [] end
  | _ => mkSSchema [] [] []
  end.
Definition set_namespaces (nss : list namespace) (s : sschema) : sschema :=
  mkSSchema (ss_comment s) (map (fun '((k, im), ns) => (k, mkSImport (si_path im) (Some ns))) (combine (ss_imports s) nss)) (ss_decls s).
Definition main_ns : namespace := [id "main"].
Definition other_ns : namespace := [id "dir"; id "other"].
Definition other_file := file ["struct Bar {"; "x: [U64] = 0"; "deleted 1"; "}"; "choice Baz { bar: bar = 0 }"]%string.
Definition main_file := set_namespaces [other_ns] (file ["import 'dir/other.t'"; "struct Foo {"; "x: [[U64]] = 0"; "optional y: other.Bar = 2"; "z = 1"; "deleted 4 3"; "}"; "choice Empty {}"]%string).
Definition good_schemas := [(other_ns, other_file); (main_ns, main_file)].
Example good_schemas_validate : validate good_schemas = VOk.
Proof. vm_compute. reflexivity. Qed.
Ltac all_in := repeat match goal with
  | H : In _ [] |- _ => destruct H
  | H : In _ (_ :: _) |- _ => destruct H as [H|H]
  | H : (_, _) = (_, _) |- _ => injection H; clear H; intros; subst
  end.
Example good_schemas_loaded : loaded good_schemas.
Proof.
  split.
  - repeat constructor. intros H. inversion H as [|? ? ? ? _ H2]. inversion H2.
  - split.
    + intros ns s [H|[H|[]]]; injection H as <- <-; (split; [|repeat constructor; discriminate]).
      all: repeat constructor.
    + intros ns s d [[H|[H|[]]] Hd]; injection H as <- <-; vm_compute in Hd; decompose [or] Hd; try contradiction; subst d; cbn [sd_deleted];
        repeat constructor; cbn; intuition discriminate.
Qed.
(** The tree of [Foo]. *)
Definition foo_type : ty :=
  TStruct [mkF 0 Required (TArray (TArray TU64)); mkF 2 Optional (TStruct [mkF 0 Required (TArray TU64)]); mkF 1 Required TUnit].
Definition foo_decl : sdecl := hd (mkSDecl [] SkStruct (id "") [] []) (ss_decls main_file).
Example foo_declared : declared good_schemas main_ns main_file foo_decl.
Proof. split; [right; now left|vm_compute; now left]. Qed.
Example foo_denotes : decl_denotes good_schemas main_ns main_file foo_decl foo_type.
Proof.
  eexists. split; [|reflexivity]. vm_compute (sd_fields foo_decl). repeat constructor.
  eapply (dn_custom _ _ _ _ _ other_ns other_ns other_file (hd foo_decl (ss_decls other_file))).
  - eapply leads_import; [vm_compute; left; reflexivity|reflexivity|reflexivity].
  - split; [now left|vm_compute; now left].
  - split; [repeat constructor|reflexivity].
  - vm_compute (sd_fields _). repeat constructor.
Qed.

(** A cycle through two files. *)
Definition loop_other := set_namespaces [main_ns] (file ["import 'third.t' as m"; "struct Bar { x: [m.foo] = 0 }"]%string).
Definition loop_main := set_namespaces [other_ns] (file ["import 'dir/other.t'"; "choice Foo { bar: other.bar = 0 }"]%string).
Definition loop_schemas := [(other_ns, loop_other); (main_ns, loop_main)].
Example loop_loaded : loaded loop_schemas.
Proof.
  split.
  - repeat constructor. intros H. inversion H as [|? ? ? ? _ H2]. inversion H2.
  - split.
    + intros ns s [H|[H|[]]]; injection H as <- <-; (split; [|repeat constructor; discriminate]).
      all: repeat constructor.
    + intros ns s d [[H|[H|[]]] Hd]; injection H as <- <-; vm_compute in Hd; decompose [or] Hd; try contradiction; subst d; constructor.
Qed.
Example loop_reported : validate loop_schemas = VErr [VCycle [(other_ns, id "Bar"); (main_ns, id "foo"); (other_ns, id "bar")]].
Proof. vm_compute. reflexivity. Qed.
Example loop_valid : valid loop_schemas.
Proof.
  destruct (validate_files_iff loop_schemas loop_loaded) as (es & E & H). apply H. vm_compute in E. now injection E as <-.
Qed.
Example loop_is_cyclic : exists q, cyclic loop_schemas q.
Proof.
  pose proof (validate_spec loop_schemas loop_loaded) as H. rewrite loop_reported in H. destruct H as [[H _]|(_ & _ & H)].
  - destruct (H loop_valid).
  - inversion H as [|? ? H1 _]; subst. destruct (shown_cycle loop_schemas _ H1) as (q & _ & Hq). now exists q.
Qed.

(** Every kind of error. *)
Definition bad_file := set_namespaces [other_ns] (file ["import 'dir/other.t'"; "struct Foo {"; "a = 0"; "a = 0"; "b: nope.T = 2"; "c: other.Nope = 3";
  "d = 4611686018427387904"; "deleted 3"; "}"; "choice foo {}"]%string).
Example bad_reported : validate [(other_ns, other_file); (main_ns, bad_file)] =
  VErr [VDupField (id "a"); VDupIndex 0; VNoImport (id "nope"); VDeleted 3; VNoType (id "Nope"); VTooLarge 4611686018427387904; VGap 1; VGap 4; VDupDecl (id "foo")].
Proof. vm_compute. reflexivity. Qed.
