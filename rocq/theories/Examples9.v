(** The hypotheses of Properties9 are met. *)
From Coq Require Import String.
From Verif Require Import IdentFacts TsTop PrimExtra PlainFiles CommandFacts Examples1 Examples5 Examples6 Properties9.
Open Scope N_scope. Open Scope list_scope.
Notation au := ascii_unicode.

(** ** Finding the reachable files *)
Definition imports_of (fs : files) (p : path) : list path :=
  match fs_read fs p with
  | None => []
  | Some c => match tokenize au c with
              | LexOk ts => match parse au plain_stem ts with
                            | ParseOk s => flat_map (fun e => match fs_locate fs (removelast p) (si_path (snd e)) with At q => [q] | _ => [] end) (ss_imports s)
                            | _ => []
                            end
              | _ => []
              end
  end.
Lemma imports_of_all fs p q : imports_file au plain_stem fs p q -> In q (imports_of fs p).
Proof.
  intros (c & s & k & im & (Hr & ts & Ht & Hp) & Hin & Hq). unfold imports_of. rewrite Hr, Ht, Hp. apply in_flat_map.
  exists (k, im). split; [exact Hin|]. cbn [snd]. rewrite Hq. now left.
Qed.
Lemma reach_closed fs name S : fs_main fs = Some name -> existsb (path_eqb [name]) S = true ->
  forallb (fun p => forallb (fun q => existsb (path_eqb q) S) (imports_of fs p)) S = true ->
  forall p, reachable au plain_stem fs p -> In p S.
Proof.
  intros Hm H1 H2 p R. assert (forall q, existsb (path_eqb q) S = true -> In q S) as K.
  { intros q H. apply existsb_exists in H as (x & A & B). apply path_eqb_eq in B. now subst x. }
  induction R as [n Hn|p q R IH Hi]; apply K.
  - replace n with name by congruence. exact H1.
  - rewrite forallb_forall in H2. specialize (H2 p IH). rewrite forallb_forall in H2. apply H2. now apply imports_of_all.
Qed.

(** ** A project: three files, of which two import each other *)
Definition project : files := plain_files (txt "main.t")
  [([txt "main.t"], txt "# Main." ++ nl ++ nl ++ txt "import 'dir/other.t'" ++ nl ++ nl ++ txt "struct Foo {" ++ nl ++ txt "    x: other.Bar = 0" ++ nl ++ txt "    y: U64 = 1" ++ nl ++ txt "}" ++ nl);
   ([txt "dir"; txt "other.t"], txt "import '../main.t' import 'more.t' as m struct bar{ asymmetric z:[String]=0 }");
   ([txt "dir"; txt "more.t"], txt "choice baz { a = 0 b: Bool = 1 } ");
   ([txt "unused.t"], txt "struct {")].
Example project_ok : files_ok au project.
Proof. apply plain_files_ok; [|text_ns]. repeat (apply Forall_cons; [split; [discriminate|text_ns]|]). apply Forall_nil. Qed.
Lemma project_reach p : reachable au plain_stem project p ->
  In p [[txt "main.t"]; [txt "dir"; txt "other.t"]; [txt "dir"; txt "more.t"]].
Proof. apply (reach_closed _ (txt "main.t")); vm_compute; reflexivity. Qed.
Example project_no_conflicts : no_conflicts au plain_stem project.
Proof.
  assert (forall a b, same_ns a b -> ns_eqb a b = true) as K by (intros a b H; now apply ns_eqb_iff).
  intros p q Rp Rq Hs. apply project_reach in Rp. apply project_reach in Rq. apply K in Hs.
  destruct Rp as [<-|[<-|[<-|[]]]]; destruct Rq as [<-|[<-|[<-|[]]]]; first [reflexivity | vm_compute in Hs; discriminate Hs].
Qed.
Definition project_loaded : list (namespace * lfile) :=
  Eval vm_compute in match load_schemas au plain_stem project with LoadOk l => l | _ => [] end.
Example project_loads : load_schemas au plain_stem project = LoadOk project_loaded.
Proof. vm_compute. reflexivity. Qed.
Example project_paths : map (fun e => lf_path (snd e)) project_loaded = [[txt "dir"; txt "more.t"]; [txt "dir"; txt "other.t"]; [txt "main.t"]].
Proof. vm_compute. reflexivity. Qed.
(** A file system where every operation works, and one where the second write fails. *)
Definition all_work (before : list effect) (e : effect) : bool := true.
Definition second_fails (before : list effect) (e : effect) : bool := negb (Nat.eqb (List.length before) 1).
Example project_check_fails : format_schema all_work au plain_stem one_line project true = ([], Failed).
Proof. vm_compute. reflexivity. Qed.
Example project_formats : format_schema all_work au plain_stem one_line project false =
  ([Write (ToSchema [txt "dir"; txt "more.t"]) (txt "choice Baz {" ++ nl ++ txt "    a = 0" ++ nl ++ txt "    b: Bool = 1" ++ nl ++ txt "}" ++ nl);
    Write (ToSchema [txt "dir"; txt "other.t"]) (txt "import 'more.t' as m" ++ nl ++ txt "import '../main.t'" ++ nl ++ nl ++
      txt "struct Bar {" ++ nl ++ txt "    asymmetric z: [String] = 0" ++ nl ++ txt "}" ++ nl)], Succeeded).
Proof. vm_compute. reflexivity. Qed.
Example project_format_fails : exists e1 e2, format_schema second_fails au plain_stem one_line project false = ([e1; e2], Failed).
Proof. do 2 eexists. vm_compute. reflexivity. Qed.
(** ** Deciding what can be printed *)
Definition charsb (s : str) : bool := forallb (fun c => ascii_is_letter c || ascii_is_digit c || (c =? 95)) s.
Lemma charsb_ok s : charsb s = true -> ident_chars s.
Proof.
  intros H. apply Forall_forall. intros c Hin. unfold charsb in H. rewrite forallb_forall in H. specialize (H c Hin). unfold underscore.
  destruct (ascii_is_letter c); [now left|]. destruct (ascii_is_digit c); [right; now left|]. right. right. lia.
Qed.
Definition asciib (i : ident) : bool :=
  str_eqb (snake_case i) (snake_case (ident_from au (original i))) && charsb (original i) && is_nonempty (original i) && ascii_is_letter (hd 0 (original i)).
Lemma asciib_ok i : asciib i = true -> ascii_name au i.
Proof.
  unfold asciib. rewrite !andb_true_iff. intros [[[A B] C] D]. split; [|split; [now apply charsb_ok|]].
  - destruct i as [o sn]. cbn [original snake_case] in *. apply str_eqb_eq in A. unfold ident_from in *. cbn in *. now rewrite A.
  - destruct (original i) as [|c s]; [discriminate C|exact D].
Qed.
Definition snakeb (i : ident) : bool := asciib i && negb (existsb (str_eqb (snake_case i)) (map fst reserved)).
Definition pascalb (i : ident) : bool := asciib i && negb (digit_starts_word true (original i)) && negb (existsb (str_eqb (pascal_case au i)) (map fst reserved)).
Fixpoint typeb (t : sty) : bool :=
  match t with
  | SyArray t' => typeb t'
  | SyCustom i n => pascalb n && match i with Some i => snakeb i | None => true end
  | _ => true
  end.
Definition schemab (s : sschema) : bool :=
  forallb (fun e => snakeb (fst e)) (ss_imports s) &&
  forallb (fun d => pascalb (sd_name d) && forallb (fun f => snakeb (sf_name f) && typeb (sf_type f)) (sd_fields d)) (ss_decls s).
Lemma schemab_ok s : schemab s = true -> printable_schema au plain_stem s.
Proof.
  assert (forall s l, negb (existsb (str_eqb s) l) = true -> ~ In s l) as Hn.
  { intros x l H Hin. rewrite (proj2 (NamesFacts.existsb_In x l) Hin) in H. discriminate. }
  assert (forall i, snakeb i = true -> snake_printable au i) as Hs.
  { intros i H. apply andb_true_iff in H as [A B]. split; [now apply asciib_ok|now apply Hn]. }
  assert (forall i, pascalb i = true -> pascal_printable au i) as Hp.
  { intros i H. unfold pascalb in H. rewrite !andb_true_iff in H. destruct H as [[A B] C]. split; [now apply asciib_ok|]. split; [now apply negb_true_iff|now apply Hn]. }
  assert (forall t, typeb t = true -> printable_type au t) as Ht.
  { intros t. induction t; cbn; auto. intros H. apply andb_true_iff in H as [A B]. split; [now apply Hp|].
    match goal with |- match ?i with _ => _ end => destruct i end; [now apply Hs|exact I]. }
  unfold schemab. rewrite andb_true_iff, !forallb_forall. intros [A B]. split; apply Forall_forall.
  - intros e He. left. now apply Hs, A.
  - intros d Hd. specialize (B d Hd). rewrite andb_true_iff, forallb_forall in B. destruct B as [B1 B2]. split; [now apply Hp|].
    apply Forall_forall. intros f Hf. specialize (B2 f Hf). apply andb_true_iff in B2 as [C D]. split; [now apply Hs|now apply Ht].
Qed.
Definition ok (c : list str) : bool := forallb (fun p => str_eqb (separated 32 (one_line 0 p)) p &&
  forallb (fun x => is_nonempty x && negb (ascii_is_white (hd 0 x)) && negb (ascii_is_white (last x 0))) (one_line 0 p)) c.
Definition commentsb (s : sschema) : bool :=
  ok (ss_comment s) && forallb (fun d => ok (sd_comment d) && forallb (fun f => ok (sf_comment f)) (sd_fields d)) (ss_decls s).
Lemma commentsb_ok s : commentsb s = true -> comments_wrap_cleanly au one_line s.
Proof.
  unfold commentsb. assert (forall w c, ok c = true -> Forall (wraps_cleanly au one_line w) c) as K.
  { intros w c H. unfold ok in H. rewrite forallb_forall in H. apply Forall_forall. intros p Hp. specialize (H p Hp). apply andb_true_iff in H as [A B].
    apply wraps_by_computing; [exact B|]. apply str_eqb_eq. exact A. }
  rewrite andb_true_iff, forallb_forall. intros [A B]. split; [now apply K|]. apply Forall_forall. intros d Hd. specialize (B d Hd).
  rewrite andb_true_iff, forallb_forall in B. destruct B as [B1 B2]. split; [now apply K|]. apply Forall_forall. intros f Hf. now apply K, B2.
Qed.
Example project_printable : forall ns f, In (ns, f) project_loaded ->
  printable_schema au plain_stem (lf_schema f) /\ comments_wrap_cleanly au one_line (lf_schema f).
Proof.
  assert (forallb (fun e => schemab (lf_schema (snd e)) && commentsb (lf_schema (snd e))) project_loaded = true) as H by (vm_compute; reflexivity).
  rewrite forallb_forall in H. intros ns f Hin. specialize (H _ Hin). cbn [snd] in H. apply andb_true_iff in H as [A B].
  split; [now apply schemab_ok|now apply commentsb_ok].
Qed.
(** So formatting settles it. *)
Example project_formatted_once : exists es, format_schema all_work au plain_stem one_line project false = (es, Succeeded) /\ List.length es = 2%nat /\
  format_schema second_fails au plain_stem one_line (after project es) true = ([], Succeeded).
Proof.
  eexists. split; [exact project_formats|]. split; [reflexivity|].
  apply (format_then_check_succeeds all_work second_fails au plain_stem one_line project project_loaded).
  - apply ascii_tables_sane.
  - apply ascii_tables_sane.
  - apply one_line_makes_lines.
  - apply project_ok.
  - apply project_no_conflicts.
  - apply project_loads.
  - apply project_printable.
  - exact project_formats.
Qed.
(** Its files import each other, but no type contains itself. *)
Definition nothing (l : list (namespace * sschema)) : option str := Some [].
Example project_generates : generate_code all_work au plain_stem nothing nothing project true (Some (mkTarget (txt "out/a.rs") (Some (txt "out")))) None =
  ([ListSchema [txt "dir"; txt "more.t"]; ListSchema [txt "dir"; txt "other.t"]; ListSchema [txt "main.t"];
    MakeDir (txt "out"); Write (ToFile (txt "out/a.rs")) []], Succeeded).
Proof. vm_compute. reflexivity. Qed.
Example project_main_read : exists c s d, reads au plain_stem project [txt "main.t"] c s /\ In d (ss_decls s) /\ sd_name d = id "Foo".
Proof. do 3 eexists. split; [split; [reflexivity|eexists; split; [vm_compute; reflexivity|vm_compute; reflexivity]]|]. split; [now left|reflexivity]. Qed.
Example project_main_reached : reachable au plain_stem project [txt "main.t"].
Proof. now constructor. Qed.
(** A message of the type declared as Foo. *)
Definition foo_type : ty := TStruct [mkF 0 Required (TStruct [mkF 0 Asymmetric (TArray TString)]); mkF 1 Required TU64].
Example foo_denoted : exists s d, declared (schemas_of project_loaded) (namespace_of au [txt "main.t"]) s d /\ sd_name d = id "Foo" /\
  decl_denotes (schemas_of project_loaded) (namespace_of au [txt "main.t"]) s d foo_type.
Proof.
  do 2 eexists. split; [split; [right; right; now left|now left]|]. split; [reflexivity|]. eexists. split; [|reflexivity].
  apply dnf_cons; [|apply dnf_cons; [constructor|constructor]]. cbn [sf_type].
  eapply (dn_custom _ _ _ _ _ _ _ _ (mkSDecl [] SkStruct (id "bar") [mkSField [] Asymmetric (id "z") (SyArray SyString) 0] [])).
  - eapply leads_import; [now left|reflexivity|reflexivity].
  - split; [right; now left|now left].
  - split; [|reflexivity]. repeat constructor.
  - apply dnf_cons; [repeat constructor|constructor].
Qed.
Definition foo_message : val := VStruct [Some (VStruct [Some (VArr [VString (txt "hi"); VString []])]); Some (VU64 300)].
Example foo_message_fits : wt DOut foo_message foo_type /\ size foo_message foo_type < 2 ^ 53 /\ js_exact foo_message /\ ts_faithful foo_message /\
  exists bs, serialize foo_message foo_type = Some bs /\ deserialize isize_max foo_type bs = Ok (to_in foo_message foo_type) [].
Proof.
  split; [wtt|]. split; [vm_compute; reflexivity|]. split; [apply TsTop.same_js_exact; vm_compute; reflexivity|]. split; [cbn; repeat split; discriminate|].
  eexists. split; [vm_compute; reflexivity|vm_compute; reflexivity].
Qed.
(** Defects: an import that does not exist and one that leaves the directory; all are reported. *)
Example broken_project : load_schemas au plain_stem (plain_files (txt "main.t")
  [([txt "main.t"], txt "import 'a.t' import '../b.t' import 'c.t'"); ([txt "c.t"], txt "struct {")]) =
  LoadErr [LNoFile [txt "main.t"] (txt "a.t"); LOutside [txt "main.t"] (txt "../b.t"); LParse [txt "c.t"] [PeUnexpected]].
Proof. vm_compute. reflexivity. Qed.
(** A trailing comment makes the parser panic, and loading too (C34). *)
Example panicking_project : load_schemas au plain_stem (plain_files (txt "main.t") [([txt "main.t"], txt "struct A { } # x")]) = LoadPanic.
Proof. vm_compute. reflexivity. Qed.

(** A file in a directory. *)
Example namespace_example : namespace_of au [txt "dir"; txt "my_types.v2.t"] = map (ident_from au) [txt "dir"; txt "my_types.v2"].
Proof.
  destruct (namespace_of_a_file au [txt "dir"] (txt "my_types.v2") (txt "t")) as [H|[H _]]; [discriminate| |exact H|discriminate].
  intros [H|[]]. discriminate.
Qed.
