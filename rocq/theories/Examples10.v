(** The hypotheses of Properties10 are met. *)
From Coq Require Import String.
From Verif Require Import NamesFacts Spec PrimExtra TruncFacts2 RustTypes RustTop Examples5 Examples7 Properties10.
Open Scope N_scope. Open Scope list_scope.
Notation au := ascii_unicode.
Example au_agrees : ascii_agrees au. Proof. constructor; intros; reflexivity. Qed.

(** ** Checking that names are plain *)
Definition good_b (i : ident) : bool :=
  str_eqb (snake_case i) (snake_case (ident_from au (original i))) &&
  forallb (fun c => ascii_is_letter c || ascii_is_digit c || (c =? underscore)) (original i) &&
  negb (digit_starts_word true (original i)).
Lemma good_b_ok i : good_b i = true -> good_ident au i.
Proof.
  unfold good_b. intros H. apply andb_prop in H as [H H3]. apply andb_prop in H as [H1 H2]. split; [|split].
  - destruct i as [o sc]. cbn [original snake_case] in *. apply str_eqb_eq in H1. unfold ident_from in *. cbn [snake_case] in H1. now rewrite <- H1.
  - apply Forall_forall. intros c Hc. rewrite forallb_forall in H2. specialize (H2 c Hc). apply orb_prop in H2 as [H2|H2]; [apply orb_prop in H2 as [H2|H2]; auto|].
    right. right. now apply N.eqb_eq.
  - unfold words_start_with_letters. now destruct (digit_starts_word true (original i)).
Qed.
Fixpoint names_in (t : sty) : list ident := match t with SyArray t => names_in t | SyCustom _ n => [n] | _ => [] end.
Lemma names_in_ok t i n : mentions t i n -> In n (names_in t).
Proof. induction 1; [assumption|now left]. Qed.
Definition plain_b (e : namespace * sschema) : bool :=
  forallb good_b (fst e) &&
  forallb (fun d => good_b (sd_name d) && forallb (fun f => good_b (sf_name f) && forallb good_b (names_in (sf_type f))) (sd_fields d)) (ss_decls (snd e)) &&
  forallb (fun im => match si_namespace (snd im) with Some ns => forallb good_b ns | None => true end) (ss_imports (snd e)).
Lemma plain_b_ok schemas : forallb plain_b schemas = true -> plain_names schemas au.
Proof.
  intros H ns s Hin. rewrite forallb_forall in H. specialize (H _ Hin). unfold plain_b in H. cbn [fst snd] in H.
  apply andb_prop in H as [H H3]. apply andb_prop in H as [H1 H2]. rewrite forallb_forall in H1, H2, H3.
  assert (forall d, In d (ss_decls s) -> good_ident au (sd_name d)) as A.
  { intros d Hd. specialize (H2 _ Hd). apply andb_prop in H2 as [H2 _]. now apply good_b_ok. }
  assert (forall d f, In d (ss_decls s) -> In f (sd_fields d) -> good_ident au (sf_name f) /\ forall i n, mentions (sf_type f) i n -> good_ident au n) as B.
  { intros d f Hd Hf. specialize (H2 _ Hd). apply andb_prop in H2 as [_ H2]. rewrite forallb_forall in H2. specialize (H2 _ Hf).
    apply andb_prop in H2 as [H2 H4]. split; [now apply good_b_ok|]. intros i n Hm. rewrite forallb_forall in H4. apply good_b_ok, H4. now apply (names_in_ok _ i). }
  split.
  - split; [apply Forall_forall; intros i Hi; now apply good_b_ok, H1|]. split; [exact A|]. split.
    + intros d f i n Hd Hf. exact (proj2 (B d f Hd Hf) i n).
    + intros k im ns' Hk E. specialize (H3 _ Hk). cbn [snd] in H3. rewrite E in H3. apply Forall_forall. intros i Hi. rewrite forallb_forall in H3. now apply good_b_ok, H3.
  - intros d f Hd Hf. exact (proj1 (B d f Hd Hf)).
Qed.

(** ** Two files *)
Definition m_file := set_namespaces [other_ns] (file
  ["import 'dir/other.t'";
   "choice Ch { a: other.Bar = 0"; "asymmetric b: S64 = 1"; "optional c = 2"; "optional type: [[String]] = 5"; "e: F64 = 7"; "deleted 3 4 6"; "}";
   "struct Foo { x: [[U64]] = 0"; "optional y: other.Bar = 2"; "z = 1"; "asymmetric w: [F64] = 3"; "us: [Unit] = 4"; "chs: [Ch] = 5"; "optional bb: Bytes = 6"; "}";
   "choice Empty {}"]%string).
Definition files2 : list (namespace * sschema) := [(other_ns, other_file); (main_ns, m_file)].
Example files2_loaded : loaded files2.
Proof.
  split.
  - repeat constructor. intros H. inversion H as [|? ? ? ? _ H2]. inversion H2.
  - split.
    + intros ns s [H|[H|[]]]; injection H as <- <-; (split; [|repeat constructor; discriminate]). all: repeat constructor.
    + intros ns s d [[H|[H|[]]] Hd]; injection H as <- <-; vm_compute in Hd; decompose [or] Hd; try contradiction; subst d; cbn [sd_deleted];
        repeat constructor; cbn; intuition discriminate.
Qed.
Example files2_accepted : accepted au files2.
Proof.
  constructor; [exact au_agrees|exact files2_loaded|vm_compute; reflexivity|]. apply plain_b_ok. vm_compute. reflexivity.
Qed.
Definition ch_decl : sdecl := nth 0 (ss_decls m_file) foo_decl.
Definition foo2_decl : sdecl := nth 1 (ss_decls m_file) foo_decl.
Definition bar_decl : sdecl := nth 0 (ss_decls other_file) foo_decl.
Example foo2_declared : declared files2 main_ns m_file foo2_decl.
Proof. split; [right; now left|vm_compute; auto]. Qed.
Definition field_of_decl (d : sdecl) (i : nat) : sfield := nth i (sd_fields d) (mkSField [] Required (id "") SyUnit 0).
Definition bar_tree : nty := NDecl other_ns other_file SkStruct (id "Bar") [(field_of_decl bar_decl 0, NArray NU64)].
Definition ch_tree : nty := NDecl main_ns m_file SkChoice (id "Ch")
  [(field_of_decl ch_decl 0, bar_tree); (field_of_decl ch_decl 1, NS64); (field_of_decl ch_decl 2, NUnit);
   (field_of_decl ch_decl 3, NArray (NArray NString)); (field_of_decl ch_decl 4, NF64)].
Definition foo2_tree : nty := NDecl main_ns m_file SkStruct (id "Foo")
  [(field_of_decl foo2_decl 0, NArray (NArray NU64)); (field_of_decl foo2_decl 1, bar_tree); (field_of_decl foo2_decl 2, NUnit);
   (field_of_decl foo2_decl 3, NArray NF64); (field_of_decl foo2_decl 4, NArray NUnit); (field_of_decl foo2_decl 5, NArray ch_tree);
   (field_of_decl foo2_decl 6, NBytes)].
Lemma bar_named : named files2 main_ns m_file (SyCustom (Some (id "other")) (id "Bar")) bar_tree.
Proof.
  change bar_tree with (NDecl other_ns other_file (sd_kind bar_decl) (sd_name bar_decl) [(field_of_decl bar_decl 0, NArray NU64)]).
  apply (nm_custom _ _ _ _ _ other_ns).
  - eapply leads_import; [vm_compute; left; reflexivity|reflexivity|reflexivity].
  - split; [now left|vm_compute; now left].
  - split; [repeat constructor|reflexivity].
  - vm_compute (sd_fields bar_decl). repeat constructor.
Qed.
Lemma ch_fields_named : named_fields files2 main_ns m_file (sd_fields ch_decl) (match ch_tree with NDecl _ _ _ _ fs => fs | _ => [] end).
Proof. vm_compute (sd_fields ch_decl). repeat constructor. exact bar_named. Qed.
Example foo2_named : decl_named files2 main_ns m_file foo2_decl foo2_tree.
Proof.
  eexists. split; [|reflexivity]. vm_compute (sd_fields foo2_decl). repeat constructor.
  - exact bar_named.
  - change ch_tree with (NDecl main_ns m_file (sd_kind ch_decl) (sd_name ch_decl) (match ch_tree with NDecl _ _ _ _ fs => fs | _ => [] end)).
    apply (nm_custom _ _ _ _ _ main_ns); [constructor|split; [right; now left|vm_compute; now left]|split; [repeat constructor|reflexivity]|exact ch_fields_named].
Qed.

(** ** A message *)
Definition bar_value (l : list N) : val := VStruct [Some (VArr (map VU64 l))].
Definition ch_values : val := VArr
  [VChoice 0 (bar_value [5; 7; 1000]) None;
   VChoice 1 (VS64 (-300)) (Some (VChoice 2 VUnit (Some (VChoice 5 (VArr [VArr []; VArr [VString (txt "hello"); VString []]]) (Some (VChoice 7 (VF64 12345) None))))))].
Definition foo2_value : val := VStruct
  [Some (VArr [VArr []; VArr (map VU64 [1; 2; 1000000])]); Some (bar_value [9]); Some VUnit; Some (VArr [VF64 0; VF64 77]); Some (VUnits 300); Some ch_values; None].
Definition foo2_type : ty := Eval vm_compute in erase foo2_tree.
Example foo2_erases : erase foo2_tree = foo2_type. Proof. vm_compute. reflexivity. Qed.
Example foo2_typed : wt DOut foo2_value (erase foo2_tree).
Proof.
  rewrite foo2_erases. unfold foo2_type, foo2_value, ch_values, bar_value. cbn [map].
  assert (str_ok (txt "hello")) as Hs by (repeat constructor). 
  cbn -[two64 i64_ok str_ok txt N.lt]. repeat split; try reflexivity; try exact Hs; try constructor; unfold i64_ok; try lia; vm_compute; discriminate.
Qed.
Example foo2_small : lenN (spec_encode true foo2_value (erase foo2_tree)) < 2 ^ 60 /\ (vdepth foo2_value < 20)%nat.
Proof. vm_compute. split; [reflexivity|repeat constructor]. Qed.

(** ** The program that is generated for it, run *)
Definition prog2 : rmod := Eval vm_compute in rust_program au files2.
Example prog2_is : rust_program au files2 = prog2. Proof. vm_compute. reflexivity. Qed.
Example prog2_size : call_size capacity_writer 1000 1000000 false au prog2 20 main_ns foo2_decl (embed au DOut foo2_value foo2_tree) (mkSt (RBase []) 0 [])
  = FVal (RvInt (lenN (spec_encode true foo2_value (erase foo2_tree)))) (mkSt (RBase []) 0 []).
Proof. vm_compute. reflexivity. Qed.
Example prog2_round_trip :
  match call_serialize capacity_writer 1000 1000000 false au prog2 20 main_ns foo2_decl (embed au DOut foo2_value foo2_tree) (mkSt (RBase []) 10000 []) with
  | FVal y s' => y = RvOk RvUnit /\ st_written s' = spec_encode true foo2_value (erase foo2_tree) /\
      match call_deserialize capacity_writer 1000 1000000 false au prog2 20 main_ns foo2_decl [firstn 20 (st_written s'); skipn 20 (st_written s')] 0,
            call_from capacity_writer 1000 1000000 false au prog2 20 main_ns foo2_decl (embed au DOut foo2_value foo2_tree) (mkSt (RBase []) 0 []) with
      | FVal (RvOk a) _, FVal b _ => a = b /\ b <> embed au DIn (VStruct []) foo2_tree
      | _, _ => False
      end
  | _ => False
  end.
Proof. vm_compute. repeat split. discriminate. Qed.
(** It fails if there is no room, and on input that is cut. *)
Example prog2_no_room :
  match call_serialize capacity_writer 1000 1000000 false au prog2 20 main_ns foo2_decl (embed au DOut foo2_value foo2_tree) (mkSt (RBase []) 10 []) with
  | FVal y s' => y = RvErr ReWrite /\ length (st_written s') = 10%nat
  | _ => False
  end.
Proof. vm_compute. repeat split. Qed.
Example prog2_cut :
  match call_deserialize capacity_writer 1000 1000000 false au prog2 20 main_ns foo2_decl [firstn 30 (spec_encode true foo2_value (erase foo2_tree))] 0 with
  | FVal (RvErr _) _ => True
  | _ => False
  end.
Proof. vm_compute. exact I. Qed.
Example chunks2_ok : chunks_ok [firstn 20 (spec_encode true foo2_value (erase foo2_tree)); skipn 20 (spec_encode true foo2_value (erase foo2_tree))].
Proof. vm_compute. split; repeat constructor; discriminate. Qed.
(** A value of the type [FooOut], and one that is not. *)
Example foo2_has_type : has_type (rust_program au files2) (mods au main_ns) (TyPath [type_name au (sd_name foo2_decl) SOut]) (embed au DOut foo2_value foo2_tree).
Proof. apply (generated_types_have_the_messages au files2 main_ns m_file foo2_decl foo2_tree DOut); [exact files2_accepted|exact foo2_declared|exact foo2_named|]. exists foo2_value. split; [exact foo2_typed|reflexivity]. Qed.
Example unit_lacks_type : ~ has_type (rust_program au files2) (mods au main_ns) (TyPath [type_name au (sd_name foo2_decl) SOut]) RvUnit.
Proof. cbn [has_type]. discriminate. Qed.
