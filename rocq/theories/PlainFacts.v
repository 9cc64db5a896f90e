(** The names in what is loaded come from the texts of the files and from their paths. *)
From Verif Require Import ParserFacts2 LoadFacts RustTypesFacts.
From Verif Require Export CommandSpec RustSpec RustTop.

Lemma type_names_tokens t ts i n : type_tokens t ts -> mentions t i n -> In (TkIdentifier n) ts.
Proof.
  intros H. induction H; intros Hm; inversion Hm; subst; cbn [In]; auto.
  right. apply in_app_iff. left. auto.
Qed.
Lemma many_in {A} (P : A -> list tvariant -> Prop) l ts x : many P l ts -> In x l -> exists t, P x t /\ incl t ts.
Proof.
  intros H. induction H as [|y l t ts H1 H2 IH]; intros Hin; [destruct Hin|]. destruct Hin as [->|Hin].
  - exists t. split; [exact H1|]. apply incl_appl, incl_refl.
  - destruct (IH Hin) as (t' & A1 & A2). exists t'. split; [exact A1|]. now apply incl_appr.
Qed.
Lemma field_names_tokens f ts : field_tokens f ts ->
  In (TkIdentifier (sf_name f)) ts /\ forall i n, mentions (sf_type f) i n -> In (TkIdentifier n) ts.
Proof.
  intros [c r n t i cs rs ts' H1 H2 H3]. cbn [sf_name sf_type]. split.
  - apply in_app_iff. right. apply in_app_iff. right. cbn [app In]. auto.
  - intros i' n' Hm. apply in_app_iff. right. apply in_app_iff. right. cbn [app In]. right. apply in_app_iff. left. destruct H3 as [|t ts' H3]; [inversion Hm|].
    right. now apply (type_names_tokens t ts' i').
Qed.
Lemma decl_names_tokens d ts : decl_tokens d ts ->
  In (TkIdentifier (sd_name d)) ts /\ forall f, In f (sd_fields d) ->
    In (TkIdentifier (sf_name f)) ts /\ forall i n, mentions (sf_type f) i n -> In (TkIdentifier n) ts.
Proof.
  intros [c k n fs d' cs fts ds H1 H2 H3]. cbn [sd_name sd_fields]. split.
  - apply in_app_iff. right. cbn [app In]. auto.
  - intros f Hf. destruct (many_in _ _ _ _ H2 Hf) as (t & A & B). apply field_names_tokens in A as [A1 A2].
    assert (incl t (cs ++ [kind_token k; TkIdentifier n; TkLeftCurly] ++ fts ++ ds ++ [TkRightCurly])) as C.
    { apply incl_appr, incl_appr, incl_appl. exact B. }
    split; [now apply C|]. intros i n' Hm. apply C. now apply (A2 i).
Qed.
Lemma parsed_names u stem tokens s : parse u stem tokens = ParseOk s -> forall d, In d (ss_decls s) ->
  (exists t, In t tokens /\ tvar t = TkIdentifier (sd_name d)) /\ forall f, In f (sd_fields d) ->
  (exists t, In t tokens /\ tvar t = TkIdentifier (sf_name f)) /\
  forall i n, mentions (sf_type f) i n -> exists t, In t tokens /\ tvar t = TkIdentifier n.
Proof.
  intros H d Hd. apply parse_iff in H. destruct H as [c listed stored ds ct it dt _ _ _ H]. cbn [ss_decls] in Hd.
  destruct (many_in _ _ _ _ H Hd) as (ts & A & B). apply decl_names_tokens in A as [A1 A2].
  assert (forall v, In v ts -> exists t, In t (ct ++ it ++ dt) /\ tvar t = v) as K.
  { intros v Hv. apply B in Hv. apply in_map_iff in Hv as (t & <- & Ht). exists t. split; [|reflexivity].
    apply in_app_iff. right. apply in_app_iff. now right. }
  split; [now apply K|]. intros f Hf. destruct (A2 f Hf) as [A3 A4]. split; [now apply K|]. intros i n Hm. apply K. now apply (A4 i).
Qed.

Section Loaded.
Context (u : unicode) (stem : str -> option str) (fs : files) (Hu : ascii_agrees u) (Hfs : files_ok u fs).
Context (l : list (namespace * lfile)) (E : load_schemas u stem fs = LoadOk l).

Lemma loaded_text : Forall (fun e => text_namespace (fst e)) (schemas_of l).
Proof.
  apply Forall_forall. intros [ns s] Hin. apply in_map_iff in Hin as ([ns' f] & [= <- <-] & Hin). cbn [fst].
  destruct (loaded_in u stem fs Hu Hfs l ns' f E Hin) as (-> & R & _). inversion R as [name Hm|p q R' (c & s & k & im & _ & _ & Hl)]; subst.
  - now apply (fo_main u fs Hfs).
  - apply (fo_text u fs Hfs). exact (fo_exist u fs Hfs _ _ _ Hl).
Qed.
Lemma loaded_plain : (forall p, reachable u stem fs p -> plain_file u fs p) -> plain_names (schemas_of l) u.
Proof.
  intros Hp ns s Hin. apply in_map_iff in Hin as ([ns' f] & [= <- <-] & Hin). cbn [snd].
  destruct (loaded_in u stem fs Hu Hfs l ns' f E Hin) as (-> & R & s0 & Hr & _ & (_ & Ed & Hi)).
  destruct Hr as (Hc & tokens & Ht & Hpar). pose proof (parsed_names u stem tokens s0 Hpar) as K. rewrite <- Ed in K.
  destruct (Hp _ R) as [P1 P2].
  assert (forall v, (exists t, In t tokens /\ tvar t = TkIdentifier v) -> good_ident u v) as G.
  { intros v (t & Hin' & Hv). now apply (P2 _ _ t v Hc Ht). }
  split; [split; [exact P1|split; [|split]]|].
  - intros d Hd. apply G. now apply K.
  - intros d f0 i n Hd Hf Hm. apply G. exact (proj2 (proj2 (K d Hd) f0 Hf) i n Hm).
  - intros k im ns' Him Hn.
    assert (exists a, In a (ss_imports s0) /\ import_filled u fs (lf_path f) a (k, im)) as ([k0 im0] & Hin0 & _ & _ & q & Hq & Hqn).
    { clear -Hi Him. induction Hi as [|a b la lb H1 H2 IH]; [destruct Him|]. destruct Him as [->|Him].
      - exists a. split; [now left|exact H1].
      - destruct (IH Him) as (a' & A & B). exists a'. split; [now right|exact B]. }
    cbn [snd] in *. rewrite Hn in Hqn. injection Hqn as ->. apply Hp. apply (reach_import u stem fs (lf_path f) q R).
    exists (lf_contents f), s0, k0, im0. split; [split; [exact Hc|now exists tokens]|]. now split.
  - intros d f0 Hd Hf. apply G. exact (proj1 (proj2 (K d Hd) f0 Hf)).
Qed.
Lemma loaded_accepted : validate (schemas_of l) = VOk -> (forall p, reachable u stem fs p -> plain_file u fs p) -> accepted u (schemas_of l).
Proof. intros V Hp. constructor; [exact Hu|exact (loaded_loaded u stem fs Hu Hfs l E)|exact V|now apply loaded_plain]. Qed.
End Loaded.
