(** The hypotheses of Properties24 are met, and the specification rejects programs. *)
From Coq Require Import String.
From Verif Require Import IdentFacts RustTop TsApi TsScoping TsEval TsScopingFacts Examples5 Examples7 Examples10 Examples12 Properties24.
Open Scope N_scope. Open Scope list_scope.

(** Two files with structs, choices, all rules and a name from another file. *)
Example files2_declarations : forall ns s d, declared files2 ns s d ->
  exists path, decl_within (ts_program au files2) path (tgen_decl au ns s d) /\
    fine_decl (find_callee prelude_fns (ts_program au files2)) (reaches_top (ts_program au files2)) path (tgen_decl au ns s d).
Proof.
  intros ns s d H. eexists. pose proof (generated_ts_declarations_are_there au files2 ns s d files2_accepted H) as K. split; [exact K|].
  exact (generated_ts_declarations_have_no_early_errors au files2 _ _ files2_accepted files2_clear K).
Qed.
Example files2_foo : exists ns s d, declared files2 ns s d /\ (2 < length (sd_fields d))%nat.
Proof. exists main_ns. eexists. exists foo2_decl. split; [split; [right; left; reflexivity|]|]; vm_compute; auto. Qed.

(** ** Programs with errors *)
Section Wrong.
Context (find : scope -> jcallee -> option (scope * jfn)) (reach : scope -> str -> bool) (here : scope).
Notation ffn := (fine_fn find reach here).
Definition body_of (b : list jstmt) : jfn := JFn true (txt "f") false [(txt "p", tt "number")] (tt "number") b.
Ltac open H :=
  inversion H as [? ? ? ? ? ? _ _ _ K]; subst; clear H; inversion K as [? ? ? ? ? ? Ef Hn Hb Er]; subst; clear K.
Ltac inv := repeat match goal with
  | H : Forall _ (_ :: _) |- _ => inversion H; subst; clear H
  | H : fine_list _ _ _ _ _ _ _ |- _ => inversion H; subst; clear H
  | H : fine_stmt _ _ _ _ _ _ _ |- _ => inversion H; subst; clear H
  | H : fine_expr _ _ _ _ _ |- _ => inversion H; subst; clear H
  | H : readable _ _ |- _ => destruct H as [H|H]; vm_compute in H; discriminate H
  | H : lookup _ _ = Some _ |- _ => progress (vm_compute in H); discriminate H
  | H : None = Some _ |- _ => discriminate H
  | H : Some _ = None |- _ => discriminate H
  end.
(** A variable that is not declared. *)
Example undeclared : ~ ffn (body_of [JReturn (jx "q")]).
Proof. intros H. open H. inv. Qed.
(** One that is used before its declaration. *)
Example too_early : ~ ffn (body_of [jconst "a" (jx "b"); jconst "b" (num 0); JReturn (jx "a")]).
Proof. intros H. open H. inv. Qed.
(** One that is not assigned on every path. *)
Lemma stays_unassigned x E E' : knows E E' -> lookup x E = Some (Let false) -> lookup x E' = Some (Let false).
Proof.
  induction 1 as [|[y a] [z b] E E' [H1 H2] H IH]; [discriminate|]. cbn [fst snd] in *. subst z. cbn [lookup]. destruct (str_eqb x y); [|exact IH].
  intros [= ->]. destruct H2 as [<-|[K _]]; [reflexivity|discriminate K].
Qed.
Example unassigned : ~ ffn (body_of [jdecl "a"; jif (jx "p") [jset "a" (num 0)]; JReturn (jx "a")]).
Proof.
  intros H. open H.
  repeat match goal with H : fine_list _ _ _ _ _ (_ :: _ :: _) _ |- _ => inversion H; subst; clear H end.
  match goal with H : fine_stmt _ _ _ _ _ (jif _ _) _ |- _ => inversion H; subst; clear H end.
  match goal with H : fine_stmt _ _ _ _ _ (jdecl _) _ |- _ => inversion H; subst; clear H end.
  match goal with H : meets (Some _) _ |- _ => inversion H as [|? ? K]; subst end.
  apply (stays_unassigned (txt "a")) in K; [|vm_compute; reflexivity].
  match goal with H : fine_list _ _ _ _ _ [_] _ |- _ => inversion H; subst; clear H end;
    match goal with H : fine_stmt _ _ _ _ _ (JReturn _) _ |- _ => inversion H; subst; clear H end.
  match goal with H : fine_expr _ _ _ _ _ |- _ => inversion H as [? R'| | | | | | | | | | | | | | | | | | | | |]; subst end.
  unfold jx in *. destruct R' as [R'|R']; rewrite K in R'; discriminate R'.
Qed.
(** An assignment to a constant. *)
Example constant_assigned : ~ ffn (body_of [jconst "a" (num 0); jset "a" (num 1); JReturn (jx "a")]).
Proof. intros H. open H. inv. Qed.
(** A variable that is declared twice. *)
Example declared_twice : ~ ffn (body_of [jconst "p" (num 0); JReturn (jx "p")]).
Proof. intros H. open H. vm_compute in Hn. inversion Hn as [|? ? N1 _]; subst. apply N1. now left. Qed.
(** A function without a result. *)
Example no_result : ~ ffn (body_of [jconst "a" (num 0)]).
Proof. intros H. open H. match goal with H : flow_map _ ?R = None |- _ => destruct R; [discriminate H|] end. inv. Qed.
(** Code that cannot be reached. *)
Example unreachable_code : ~ ffn (body_of [JReturn (num 0); JReturn (num 1)]).
Proof. intros H. open H. inv. Qed.
(** A [break] that leads nowhere. *)
Example break_outside : ~ ffn (body_of [jif (jx "p") [JBreak]; JReturn (num 1)]).
Proof.
  intros H. open H.
  repeat match goal with H : fine_list _ _ _ _ _ (_ :: _ :: _) _ |- _ => inversion H; subst; clear H end.
  match goal with H : fine_stmt _ _ _ _ _ (jif _ _) _ |- _ => inversion H; subst; clear H end.
  match goal with H : fine_branches _ _ _ _ _ (_ :: _) _ |- _ => inversion H; subst; clear H end.
  match goal with H : fine_block _ _ _ _ _ _ [JBreak] _ |- _ => inversion H; subst; clear H end.
  match goal with H : fine_list _ _ _ _ _ [JBreak] _ |- _ => inversion H; subst; clear H end;
    match goal with H : fine_stmt _ _ _ _ _ JBreak _ |- _ => inversion H; subst; congruence end.
Qed.
(** A property that is there twice. *)
Example property_twice : ~ ffn (body_of [JReturn (XObj false [(txt "a", Some (num 0)); (txt "a", Some (num 1))])]).
Proof. intros H. open H. inv. match goal with H : NoDup _ |- _ => vm_compute in H; inversion H as [|? ? _ N]; subst; inversion N as [|? ? N1 _]; subst; apply N1; now left end. Qed.
(** A call without an argument. *)
Example argument_missing sc fn : find here (CFn (txt "g")) = Some (sc, fn) -> length (jfn_params fn) = 1%nat -> ~ ffn (body_of [JReturn (XCall false (CFn (txt "g")) [])]).
Proof.
  intros F L H. open H. inv. match goal with H : fine_callee _ _ _ _ _ _ |- _ => inversion H as [? ? _ T| |]; subst end.
  destruct T as (sc' & fn' & T1 & T2). rewrite F in T1. injection T1 as <- <-. cbn [length] in T2. congruence.
Qed.
(** The same functions without the errors. *)
Example assigned : Forall (fun c => reach here (fst c) = true) constants ->
  ffn (body_of [jdecl "a"; jif_else (jx "p") [jset "a" (num 0)] [jset "a" (num 1)]; JReturn (jx "a")]).
Proof.
  intros H. apply ff_fn; [exact H|repeat constructor; discriminate|constructor; discriminate|]. cbn [map fst]. 
  eapply fb_never; [reflexivity|apply all_different_nodup; reflexivity|]. cbn [app]. slist none_other.
Qed.
End Wrong.
