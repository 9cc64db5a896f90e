(** Property theorems about the types of the functions at the top of the generated Rust file (C84). *)
From Verif Require Import RustPreludeTyping RustPreludeTypingFacts RustTyping.
From Coq Require Import Lia.
Local Open Scope string_scope.
Local Open Scope list_scope.
Local Open Scope N_scope.

(** C84: the functions at the top of the file follow the typing rules too (RustPreludeTyping.v): with every [match] complete, no
    literal, shift or index out of range, [transmute] between types of the same size and only in [unsafe], and no slice of a
    reader's buffer used after the reader has been used again. *)
Theorem helper_functions_are_well_typed : functions_typed prelude_fns.
Proof. exact prelude_typed. Qed.
Print Assumptions helper_functions_are_well_typed.
(** The functions that the code for the schemas calls are among them, and with the parameters that these calls are typed with. *)
Theorem called_helpers_are_declared : forall f, exists d, In d prelude_fns /\ txt (f_name d) = top_fn_str f /\
  forall ts r, top_signature f ts r <->
    exists t, instance (option_map txt (f_bound d)) t /\ Forall2 (fun p => top_type t (p_type p)) (f_params d) ts /\ top_type t (f_ret d) r.
Proof. intros f. exists (top_fn_def f). split; [|split; [now destruct f|intros ts r; reflexivity]]. destruct f; cbn; tauto. Qed.
Print Assumptions called_helpers_are_declared.
