(** The hypotheses of Properties13 are met: the files of Examples9. *)
From Coq Require Import String.
From Verif Require Import NamesFacts LoadFacts PlainFiles PlainFacts RustTypes RustTop Examples9 Examples10 Examples11 Examples12 Properties9 Properties10 Properties11 Properties12 Properties13 TsApi.
Open Scope N_scope. Open Scope list_scope.
Example project_distinct : ts_distinct_files au plain_stem project.
Proof.
  assert (distinct_b (schemas_of project_loaded) = true) as K by (vm_compute; reflexivity). apply distinct_b_ok in K.
  assert (forall p c s, reachable au plain_stem project p -> reads au plain_stem project p c s ->
    exists s', In (namespace_of au p, s') (schemas_of project_loaded) /\ ss_decls s' = ss_decls s) as L.
  { intros p c s R Hr. destruct (loaded_all au plain_stem project au_agrees project_ok project_loaded p project_loads project_no_conflicts R) as (f & Hin & Ep).
    destruct (loaded_in au plain_stem project au_agrees project_ok project_loaded _ f project_loads Hin) as (_ & _ & s0 & Hr0 & _ & Hf). rewrite Ep in Hr0.
    destruct (reads_unique _ _ _ _ _ _ _ _ Hr Hr0) as [_ <-]. exists (lf_schema f). split; [apply in_map_iff; exists (namespace_of au p, f); auto|]. now destruct Hf as (_ & -> & _). }
  constructor.
  - intros p c s i R Hr Hi. destruct (L p c s R Hr) as (s' & Hin & E). rewrite <- E in Hi. exact (dn_globals au _ K _ s' i Hin Hi).
  - intros p q c s i j Rp Rq Hr Hi Hj.
    destruct (loaded_all au plain_stem project au_agrees project_ok project_loaded p project_loads project_no_conflicts Rp) as (f & Hin & Ep).
    destruct (L q c s Rq Hr) as (s' & Hin' & E). rewrite <- E in Hj.
    apply (dn_types au _ K (namespace_of au p) (lf_schema f) i (namespace_of au q) s' j); auto. apply in_map_iff. exists (namespace_of au p, f). auto.
Qed.
Definition out_ts : target := mkTarget (txt "out/a.ts") None.
Example project_generates_ts : exists es, generate_code all_work au plain_stem (rust_code au (txt "0.12.1")) (ts_code au (txt "0.12.1")) project false (Some out_rs) (Some out_ts) = (es, Succeeded).
Proof.
  match goal with |- exists es, ?g = _ => assert (snd g = Succeeded) as H by (unfold generate_code; rewrite project_loads; vm_compute; reflexivity); exists (fst g); now rewrite (surjective_pairing g), H at 1 end.
Qed.
Example project_has_ts_program : exists schemas, accepted au schemas /\ ts_clear_names au schemas /\ exists code, ts_code au (txt "0.12.1") schemas = Some code.
Proof.
  destruct project_generates_ts as (es & G).
  destruct (generated_ts_file_holds_the_program _ _ _ _ _ _ _ _ _ _ au_agrees project_ok project_no_conflicts project_plain project_distinct G) as (schemas & code & H1 & H2 & H3 & _).
  exists schemas. split; [exact H1|]. split; [exact H2|]. exists code. exact H3.
Qed.
