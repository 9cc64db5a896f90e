(** The hypotheses of Properties8 are met. *)
From Coq Require Import String.
From Verif Require Import NamesFacts CodeFacts Examples5 Examples7 Properties8.
Open Scope N_scope. Open Scope list_scope.

(** The two files of Examples7. *)
Example good_schemas_distinct : ForallOrdPairs (fun a b => ~ same_ns (fst a) (fst b)) good_schemas.
Proof. exact (proj1 good_schemas_loaded). Qed.
Lemma good_name s : ident_chars (txt s) -> words_start_with_letters (txt s) -> good_ident ascii_unicode (id s).
Proof. intros H1 H2. repeat split; assumption. Qed.
Ltac good := apply good_name; [unfold ident_chars; repeat (apply Forall_cons; [first [left; reflexivity | right; left; reflexivity | right; right; reflexivity]|]); apply Forall_nil|reflexivity].
Example good_schemas_good : forall ns s, In (ns, s) good_schemas -> good_file ascii_unicode ns s.
Proof.
  assert (Forall (good_ident ascii_unicode) main_ns) as G1 by (repeat apply Forall_cons; try apply Forall_nil; good).
  assert (Forall (good_ident ascii_unicode) other_ns) as G2 by (repeat apply Forall_cons; try apply Forall_nil; good).
  intros ns s [[= <- <-]|[[= <- <-]|[]]].
  - split; [exact G2|]. split; [|split].
    + intros d Hd. vm_compute in Hd. destruct Hd as [<-|[<-|[]]]; cbn [sd_name]; [change (good_ident ascii_unicode (id "Bar"))|change (good_ident ascii_unicode (id "Baz"))]; good.
    + intros d f i n Hd Hf Hm. vm_compute in Hd. destruct Hd as [<-|[<-|[]]]; cbn [sd_fields] in Hf.
      * destruct Hf as [<-|[]]. cbn [sf_type] in Hm. inversion Hm as [? ? ? H|]; subst. inversion H.
      * destruct Hf as [<-|[]]. cbn [sf_type] in Hm. inversion Hm; subst. change (good_ident ascii_unicode (id "bar")). good.
    + intros k im ns' Hk. vm_compute in Hk. destruct Hk.
  - split; [exact G1|]. split; [|split].
    + intros d Hd. vm_compute in Hd. destruct Hd as [<-|[<-|[]]]; cbn [sd_name]; [change (good_ident ascii_unicode (id "Foo"))|change (good_ident ascii_unicode (id "Empty"))]; good.
    + intros d f i n Hd Hf Hm. vm_compute in Hd. destruct Hd as [<-|[<-|[]]]; cbn [sd_fields] in Hf; [|destruct Hf].
      destruct Hf as [<-|[<-|[<-|[]]]]; cbn [sf_type] in Hm.
      * inversion Hm as [? ? ? H|]; subst. inversion H as [? ? ? H'|]; subst. inversion H'.
      * inversion Hm; subst. change (good_ident ascii_unicode (id "Bar")). good.
      * inversion Hm.
    + intros k im ns' Hk Hn. vm_compute in Hk. destruct Hk as [Hk|[]]. injection Hk as <- <-. injection Hn as <-. exact G2.
Qed.
Example good_schemas_named : forall ns s, In (ns, s) good_schemas -> ns <> [].
Proof. intros ns s [[= <- <-]|[[= <- <-]|[]]]; discriminate. Qed.
Example good_schemas_text : Forall (fun e => text_namespace (fst e)) good_schemas.
Proof.
  apply Forall_forall. intros [ns s] H. apply (good_texts ascii_unicode ltac:(constructor; intros; reflexivity)).
  exact (proj1 (good_schemas_good ns s H)).
Qed.
(** A reference from one file to another, with the paths that are written. *)
Definition y_field : sfield := nth 1 (sd_fields foo_decl) (mkSField [] Required (id "") SyUnit 0).
Example y_mentions : In y_field (sd_fields foo_decl) /\ mentions (sf_type y_field) (Some (id "other")) (id "Bar").
Proof. split; [vm_compute; auto|constructor]. Qed.
Example y_rust_path : rust_path ascii_unicode main_file main_ns (Some (id "other")) (id "Bar") SIn =
  Some [txt "super"; txt "dir"; txt "other"; txt "BarIn"].
Proof. reflexivity. Qed.
Example y_ts_path : ts_path ascii_unicode main_file main_ns (Some (id "other")) (id "Bar") (Some SIn) =
  Some [txt "Dir"; txt "Other"; txt "BarIn"].
Proof. reflexivity. Qed.
Example y_not_shadowed : forall a b, main_ns = a ++ b -> a <> [] -> ~ ts_has_namespace ascii_unicode (module_tree good_schemas) a (txt "Dir").
Proof.
  intros [|k [|? a]] b E Ha; [congruence| |destruct a; discriminate E]. cbn [app] in E. injection E as <- <-.
  intros [(k & (s & H) & E)|(s & d & H & Hd & E)].
  - vm_compute in H. inversion H as [|? ? ? ? ? ? Hin Hh]; subst. destruct Hin as [Hin|[Hin|[]]]; [discriminate Hin|]. injection Hin as <-.
    inversion Hh as [|? ? ? ? ? ? Hin2 _]; subst. destruct Hin2.
  - vm_compute in H. inversion H as [|? ? ? ? ? ? Hin Hh]; subst. destruct Hin as [Hin|[Hin|[]]]; [discriminate Hin|]. injection Hin as <-.
    inversion Hh; subst. vm_compute in Hd. destruct Hd as [<-|[<-|[]]]; vm_compute in E; discriminate E.
Qed.
Example tree_shape : map fst (module_children (module_tree good_schemas)) = [id "dir"; id "main"].
Proof. reflexivity. Qed.
(** From [a.b.c] to [a.b.x]: one up, then down. *)
Example relative : relativize_namespace [id "a"; id "b"; id "x"] [id "A"; id "b"; id "c"] = ([id "x"], 1%nat).
Proof. reflexivity. Qed.
Example local_legal : rust_local ascii_unicode (id "fooBar") = txt "_foo_bar".
Proof. reflexivity. Qed.
