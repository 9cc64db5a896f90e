(** Property theorem about the generated TypeScript code as a compiler checks it: C85. See MANIFEST.json. *)
From Verif Require Import Spec PrimExtra BaseFacts TypesFacts IdentFacts RustTop CodeFacts.
From Verif Require Import Properties1 Properties2 Properties7 Properties12.
From Verif Require Import TsApi TsLinkFacts TsScoping TsScopingFacts3.

(** C85: in the generated program, every variable that is used is declared, has been declared by then, and has been assigned on
    every path to there; nothing is declared twice; constants are not assigned; every function that is called exists and gets as
    many arguments as it has parameters; every [break] is in a loop or [switch]; no case falls through; all code can be reached
    and no function ends without a result. Types have no property twice, and no two types of a file have the same name. *)
Theorem generated_ts_declarations_have_no_early_errors : forall u schemas path d,
  accepted u schemas -> ts_clear_names u schemas -> decl_within (ts_program u schemas) path d ->
  fine_decl (find_callee prelude_fns (ts_program u schemas)) (reaches_top (ts_program u schemas)) path d.
Proof.
  intros u schemas path d [Hu Hload Hv Hg] Hc H. pose proof (proj1 (validation_is_sound _ Hload Hv)) as HV.
  exact (program_fine u Hu schemas Hload HV Hg Hc path d H).
Qed.
Print Assumptions generated_ts_declarations_have_no_early_errors.
(** Every declaration is in the program. *)
Theorem generated_ts_declarations_are_there : forall u schemas ns s d,
  accepted u schemas -> declared schemas ns s d ->
  decl_within (ts_program u schemas) (map (fun c => ts_name u c Pascal None) ns ++ [ts_name u (sd_name d) Pascal None]) (tgen_decl u ns s d).
Proof.
  intros u schemas ns s d [Hu Hload Hv Hg] [Hin Hd].
  pose proof (fun ns s H => proj1 (Hg ns s H)) as Hg'.
  destruct (tree_place u Hu schemas Hload Hg' ns s Hin) as (here & H1 & H2 & H3).
  assert (map (fun c => ts_name u c Pascal None) ns = map (fun c => ts_name u c Pascal None) here) as -> by exact (nspaces_same u Hu ns here (proj1 (Hg' ns s Hin)) H3 H1).
  rewrite (tgen_decl_same u Hu s ns here H1 (proj1 (Hg' ns s Hin)) H3).
  assert (forall m here0, holds m here0 s -> forall pre, decl_within (tgen_module u pre m) (map (fun c => ts_name u c Pascal None) here0 ++ [ts_name u (sd_name d) Pascal None]) (tgen_decl u (pre ++ here0) s d)) as K.
  { clear -Hd. induction 1 as [ch s|ch s0 k m ns s Hin H IH]; intros pre; cbn [tgen_module map app].
    - rewrite app_nil_r, <- (decl_name u pre s d). apply dw_here. now apply in_map.
    - eapply dw_below; [apply in_map_iff; exists (k, m); split; [reflexivity|exact Hin]|]. cbn [fst snd]. specialize (IH Hd (pre ++ [k])). now rewrite <- app_assoc in IH. }
  exact (K _ _ H2 []).
Qed.
Print Assumptions generated_ts_declarations_are_there.
Theorem generated_ts_type_names_differ : forall u schemas path m,
  accepted u schemas -> mod_within (ts_program u schemas) path m -> types_differ m.
Proof.
  intros u schemas path m [Hu Hload Hv Hg] H. pose proof (proj1 (validation_is_sound _ Hload Hv)) as HV.
  exact (types_fine u Hu schemas Hload HV Hg path m H).
Qed.
Print Assumptions generated_ts_type_names_differ.
(** The helper functions, in a program with a declaration. *)
Theorem generated_ts_prelude_has_no_early_errors : forall u schemas ns s d,
  accepted u schemas -> ts_clear_names u schemas -> declared schemas ns s d ->
  fine_top (find_callee prelude_fns (ts_program u schemas)) (reaches_top (ts_program u schemas)) prelude_consts prelude_fns.
Proof.
  intros u schemas ns s d [Hu Hload Hv Hg] Hc Hd. pose proof (proj1 (validation_is_sound _ Hload Hv)) as HV.
  pose proof (top_good_scope u Hu schemas Hload HV Hg Hc ns s d Hd) as Hs. split; [|split].
  - apply all_different_nodup. reflexivity.
  - unfold prelude_consts. slist none_other.
  - exact (prelude_fine _ _ _ Hs).
Qed.
Print Assumptions generated_ts_prelude_has_no_early_errors.
