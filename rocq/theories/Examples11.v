(** The hypotheses of Properties11 are met: the files of Examples9. *)
From Coq Require Import String.
From Verif Require Import NamesFacts PlainFiles PlainFacts RustTypes RustTop Examples9 Examples10 Properties9 Properties10 Properties11.
Open Scope N_scope. Open Scope list_scope.
Definition token_b (t : token) : bool := match tvar t with TkIdentifier i => good_b i | _ => true end.
Definition file_b (f : lfile) : bool :=
  forallb good_b (namespace_of au (lf_path f)) &&
  match fs_read project (lf_path f) with
  | Some c => match tokenize au c with LexOk ts => forallb token_b ts | _ => true end
  | None => true
  end.
Example project_plain : forall p, reachable au plain_stem project p -> plain_file au project p.
Proof.
  assert (forallb (fun e => file_b (snd e)) project_loaded = true) as H by (vm_compute; reflexivity). rewrite forallb_forall in H.
  intros p R. destruct (every_reached_file_is_loaded au plain_stem project project_loaded p au_agrees project_ok project_no_conflicts project_loads R) as (f & Hin & <-).
  specialize (H _ Hin). cbn [snd] in H. unfold file_b in H. apply andb_prop in H as [H1 H2]. rewrite forallb_forall in H1. split.
  - apply Forall_forall. intros i Hi. apply good_b_ok. now apply H1.
  - intros c ts t i Hc Ht Hin' Hi. rewrite Hc, Ht in H2. rewrite forallb_forall in H2. specialize (H2 t Hin'). unfold token_b in H2. rewrite Hi in H2. now apply good_b_ok.
Qed.
(** A successful run. *)
Definition out_rs : target := mkTarget (txt "out/a.rs") (Some (txt "out")).
Example project_generates_rust : exists es, generate_code all_work au plain_stem (rust_code au (txt "0.12.1")) nothing project false (Some out_rs) None = (es, Succeeded).
Proof.
  match goal with |- exists es, ?g = _ => assert (snd g = Succeeded) as H by (unfold generate_code; rewrite project_loads; vm_compute; reflexivity); exists (fst g); now rewrite (surjective_pairing g), H at 1 end.
Qed.
Example project_has_program : exists schemas code, accepted au schemas /\ rust_code au (txt "0.12.1") schemas = Some code.
Proof.
  destruct project_generates_rust as (es & G).
  destruct (generated_file_holds_the_program _ _ _ _ _ _ _ _ _ _ au_agrees project_ok project_no_conflicts project_plain G) as (schemas & code & H1 & H2 & _). exists schemas, code. split; [exact H1 | exact H2].
Qed.
(** The parser's panic on a trailing comment is the only crash. *)
Example trailing_comment_crashes : snd (generate_code all_work au plain_stem (rust_code au []) nothing
  (plain_files (txt "main.t") [([txt "main.t"], txt "struct A { } # x")]) false (Some out_rs) None) = Crashed.
Proof. vm_compute. reflexivity. Qed.
