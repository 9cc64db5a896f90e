(** The hypotheses of Properties17 are met: runs of the commands on projects with errors. *)
From Coq Require Import String.
From Verif Require Import IdentFacts TokenFacts PlainFiles CommandFacts Examples1 Examples5 Examples6 Examples9 ReportingFacts5 Properties17.
Open Scope N_scope. Open Scope list_scope.

Definition some_texts : texts := mkTexts (txt "main.t") (Some (txt "No such file")) (fun _ => txt "not UTF-8") (fun dir p => join [47] (dir ++ [p]))
  (fun _ _ => txt "No such file") (fun dir p => join [47] (dir ++ [p])) (txt "/base") (join [47]) (fun _ => txt "Permission denied").
Definition one_char (contents : str) (i : N) : str := match cut i contents with Some (_, c :: _) => [c] | _ => [] end.
Notation bar := [9474].
Notation over n := (repeat 8254 n).

(** ** Files that cannot be loaded *)
Definition unloadable : files := plain_files (txt "main.t")
  [([txt "main.t"], txt "import 'dir/other.t'" ++ nl ++ txt "import 'none.t' import '../up.t'" ++ nl ++ txt "struct Foo {}" ++ nl);
   ([txt "dir"; txt "other.t"], txt "struct Bar {" ++ nl ++ txt "  _x: @ = 0" ++ nl ++ txt "}" ++ nl ++ txt "}")].
Example unloadable_ok : files_ok au unloadable.
Proof. apply plain_files_ok; [|text_ns]. repeat (apply Forall_cons; [split; [discriminate|text_ns]|]). apply Forall_nil. Qed.
Definition unloadable_run : list event * outcome := Eval vm_compute in xformat_schema au None one_char plain_stem unloadable some_texts all_work (fun _ s => [s]) false.
Example unloadable_runs : xformat_schema au None one_char plain_stem unloadable some_texts all_work (fun _ s => [s]) false = unloadable_run.
Proof. vm_compute. reflexivity. Qed.
Definition unloadable_says : str :=
  txt "[Error] [`main.t`] Unable to load `none.t`." ++ nl ++ nl ++
  txt "2 " ++ bar ++ txt " import 'none.t' import '../up.t'" ++ nl ++ txt "    " ++ over 15 ++ nl ++ nl ++
  txt "Reason: No such file" ++ nl ++ nl ++
  txt "[Error] [`main.t`] `../up.t` is not a descendant of `/base`, which is the base directory for this run." ++ nl ++ nl ++
  txt "2 " ++ bar ++ txt " import 'none.t' import '../up.t'" ++ nl ++ txt "                    " ++ over 16 ++ nl ++
  txt "[Error] [`dir/other.t`] Identifiers cannot begin with `_`." ++ nl ++ nl ++
  txt "2 " ++ bar ++ txt "   _x: @ = 0" ++ nl ++ txt "      " ++ over 2 ++ nl ++
  txt "[Error] [`dir/other.t`] Unexpected symbol `@`." ++ nl ++ nl ++
  txt "2 " ++ bar ++ txt "   _x: @ = 0".
Example unloadable_texts : snd unloadable_run = Failed /\ map (fun e => match e with Say t => t | _ => [] end) (fst unloadable_run) =
  [txt "Loading schemas" ++ [8230]; unloadable_says].
Proof. vm_compute. auto. Qed.
Lemma unloadable_loads : exists es, xload_schemas au None one_char plain_stem unloadable some_texts = XLoadErr es /\ merged au None (pushed_errors es) unloadable_says /\
  length (pushed_errors es) = 4%nat.
Proof.
  destruct (xload_schemas au None one_char plain_stem unloadable some_texts) as [l|es| |] eqn:E; [vm_compute in E; discriminate| |vm_compute in E; discriminate|vm_compute in E; discriminate].
  exists es. split; [reflexivity|]. split.
  - destruct (unloadable_schemas_are_reported au None one_char plain_stem unloadable some_texts all_work (fun _ s => [s]) (fun _ => None) (fun _ => None) es) as (text & Hm & H & _);
      [apply ascii_tables_sane|apply ascii_tables_sane|exact unloadable_ok|exact E|].
    specialize (H false). rewrite unloadable_runs in H. assert (text = unloadable_says) as <-; [|exact Hm]. unfold unloadable_run in H. injection H as <-. vm_compute. reflexivity.
  - vm_compute in E. injection E as <-. reflexivity.
Qed.

(** ** Files that are not valid *)
Definition not_valid : files := plain_files (txt "main.t")
  [([txt "main.t"], txt "import 'other.t'" ++ nl ++ txt "struct Foo {" ++ nl ++ txt "  x: [other.Baz] = 0" ++ nl ++ txt "  X: Bar = 2" ++ nl ++ txt "}" ++ nl);
   ([txt "other.t"], txt "struct Bar {}")].
Example not_valid_ok : files_ok au not_valid.
Proof. apply plain_files_ok; [|text_ns]. repeat (apply Forall_cons; [split; [discriminate|text_ns]|]). apply Forall_nil. Qed.
Definition not_valid_says : str :=
  txt "[Error] [`main.t`] There is no type named `Baz` in import `other`." ++ nl ++ nl ++
  txt "3 " ++ bar ++ txt "   x: [other.Baz] = 0" ++ nl ++ txt "          " ++ over 9 ++ nl ++
  txt "[Error] [`main.t`] A field named `X` already exists in this declaration." ++ nl ++ nl ++
  txt "4 " ++ bar ++ txt "   X: Bar = 2" ++ nl ++ txt "      " ++ over 10 ++ nl ++
  txt "[Error] [`main.t`] There is no type named `Bar` in this file." ++ nl ++ nl ++
  txt "4 " ++ bar ++ txt "   X: Bar = 2" ++ nl ++ txt "         " ++ over 3 ++ nl ++
  txt "[Error] [`main.t`] Field index gap found. Unused index `1` is not marked as deleted." ++ nl ++ nl ++
  txt "2 " ++ bar ++ txt " struct Foo {" ++ nl ++ txt "  " ++ [9482] ++ txt " " ++ over 12 ++ nl ++
  txt "3 " ++ bar ++ txt "   x: [other.Baz] = 0" ++ nl ++ txt "  " ++ [9482] ++ txt "   " ++ over 18 ++ nl ++
  txt "4 " ++ bar ++ txt "   X: Bar = 2" ++ nl ++ txt "  " ++ [9482] ++ txt "   " ++ over 10 ++ nl ++
  txt "5 " ++ bar ++ txt " }" ++ nl ++ txt "    " ++ over 1.
Example not_valid_run : xgenerate_code au None one_char plain_stem not_valid some_texts all_work (fun _ => Some []) (fun _ => Some []) true (Some (mkTarget (txt "out.rs") None)) None =
  ([Say (txt "Loading schemas" ++ [8230]); Say (txt "2 schemas loaded."); Say (txt "Validating schemas" ++ [8230]); Say not_valid_says], Failed).
Proof. vm_compute. reflexivity. Qed.

(** ** A cycle, and an operation that fails *)
Definition looping : files := plain_files (txt "main.t") [([txt "main.t"], txt "struct foo { x: Bar = 0 } struct Bar { y: foo = 0 }")].
Example looping_run : xgenerate_code au None one_char plain_stem looping some_texts all_work (fun _ => Some []) (fun _ => Some []) true None None =
  ([Say (txt "Loading schemas" ++ [8230]); Say (txt "1 schema loaded."); Say (txt "Validating schemas" ++ [8230]);
    Say (txt "[Error] Cycle detected: `main.Foo` " ++ [8594] ++ txt " `main.Bar` " ++ [8594] ++ txt " `main.Foo`.")], Failed).
Proof. vm_compute. reflexivity. Qed.
Example failing_run : snd (xgenerate_code au None one_char plain_stem project some_texts second_fails (fun _ => Some (txt "code")) (fun _ => Some []) false
  (Some (mkTarget (txt "a/out.rs") (Some (txt "a")))) None) = Failed /\
  skipn 5 (fst (xgenerate_code au None one_char plain_stem project some_texts second_fails (fun _ => Some (txt "code")) (fun _ => Some []) false
  (Some (mkTarget (txt "a/out.rs") (Some (txt "a")))) None)) =
  [Say (txt "Writing `a/out.rs`" ++ [8230]); Do (Write (ToFile (txt "a/out.rs")) (txt "code"));
   Say (txt "[Error] Unable to write `a/out.rs`." ++ nl ++ nl ++ txt "Reason: Permission denied")].
Proof. vm_compute. auto. Qed.
Example succeeding_run : xgenerate_code au None one_char plain_stem project some_texts all_work (fun _ => Some (txt "code")) (fun _ => Some []) false
  (Some (mkTarget (txt "out.rs") None)) None =
  ([Say (txt "Loading schemas" ++ [8230]); Say (txt "3 schemas loaded."); Say (txt "Validating schemas" ++ [8230]); Say (txt "Generating Rust" ++ [8230]);
    Say (txt "Writing `out.rs`" ++ [8230]); Do (Write (ToFile (txt "out.rs")) (txt "code")); Say (txt "Done.")], Succeeded).
Proof. vm_compute. auto. Qed.
