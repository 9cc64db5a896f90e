(** The generated [atlas] functions of structs and choices. *)
From Verif Require Import TypesFacts IdentFacts BaseFacts TsPrimFacts RustAtlasFacts.
From Verif Require Export TsAtlasFacts.

Lemma js_defined u d h lo v t m : js_value u d h lo v t m -> strict_eq m JvUndef = Some false.
Proof.
  destruct v; cbn [js_value]; try (intros ->; reflexivity).
  - intros [-> | [_ ->]]; reflexivity.
  - intros (r & -> & _). reflexivity.
  - intros (r & -> & _). reflexivity.
  - destruct t; try contradiction. intros (r & ms & -> & _). reflexivity.
  - destruct t; try contradiction. intros (ps & -> & _). reflexivity.
  - destruct t; try contradiction. destruct (named_field _ _); try contradiction. intros (ps & -> & _). reflexivity.
Qed.

Lemma Forall2_in {A B} (P Q : A -> B -> Prop) l l' : Forall2 P l l' -> (forall a b, In b l' -> P a b -> Q a b) -> Forall2 Q l l'.
Proof. induction 1 as [|a b l l' H1 H2 IH]; intros H; constructor; [apply H; [now left|exact H1]|]. apply IH. intros x y Hy. apply H. now right. Qed.
(** ** Local variables for fields *)
Lemma clear_names E E' : map fst E' = map fst E -> clear E -> clear E'.
Proof.
  intros H Hc. unfold clear in *. rewrite forallb_forall in *. intros b Hb. apply (in_map fst) in Hb. rewrite H in Hb.
  apply in_map_iff in Hb as (b' & <- & Hb'). now apply Hc.
Qed.
Lemma str_eqb_neq (x y : str) : x <> y -> str_eqb x y = false.
Proof. intros H. destruct (str_eqb x y) eqn:E; [|reflexivity]. now apply str_eqb_eq in E. Qed.
Lemma lets_sim xs : NoDup xs -> forall E, (forall x, In x xs -> lookup x E = Some (SDead false)) ->
  exists E', each_with define xs (map (fun _ => JvUndef) xs) E = Some E' /\ map fst E' = map fst E /\
    (forall x, In x xs -> lookup x E' = Some (SVar JvUndef)) /\ (forall y, ~ In y xs -> lookup y E' = lookup y E).
Proof.
  induction 1 as [|x xs Hx Hn IH]; intros E HE; cbn [each_with map]; [exists E; repeat split; auto; intros ? []|].
  rewrite (define_dead x _ false) by (apply HE; now left). destruct (IH (update x (SVar JvUndef) E)) as (E' & R & H1 & H2 & H3).
  { intros y Hy. rewrite lookup_other; [apply HE; now right|]. apply str_eqb_neq. intros ->. contradiction. }
  exists E'. split; [exact R|]. split; [now rewrite H1, update_names|]. split.
  - intros y [<-|Hy]; [|now apply H2]. rewrite H3 by exact Hx. eapply lookup_updated, HE. now left.
  - intros y Hy. rewrite H3 by (intros K; apply Hy; now right). apply lookup_other, str_eqb_neq. intros ->. apply Hy. now left.
Qed.
Lemma locals_nodup u fs : NoDup (map (tfield_name u) fs) -> NoDup (map (tlocal_name u) fs).
Proof.
  induction fs as [|f fs IH]; cbn [map]; intros H; [constructor|]. inversion H as [|? ? H1 H2]; subst. constructor; [|now apply IH].
  intros Hin. apply in_map_iff in Hin as (g & E & Hg). unfold tlocal_name in E. cbn in E. injection E as E. apply H1. rewrite <- E. now apply in_map.
Qed.

Section Atlas.
Context (rounds : nat) (find : scope -> jcallee -> option (scope * jfn)) (reach : scope -> str -> bool) (u : unicode).
Context (Hg0 : good_scope find reach []).
Notation run := (run_jfn rounds find reach).
Notation ev d here := (jeval find reach (run d) here).
Notation ex d here := (jexec rounds find reach (run d) here).
Notation rs d here := (run_stmts (jexec rounds find reach (run d) here)).
Notation tlinked := (tlinked u find reach).
Notation atlas_stmt := (atlas_stmt rounds find reach u).
Ltac jfn_call := erewrite callee_fn; [|jlocal|jprelude].

Lemma header_size_sim here d f nt ns s n E h : good_scope find reach here -> clear E -> tlinked here ns s (sf_type f) nt ->
  var (txt "payloadSize") E = Some (JvNum n) ->
  ev (S (S d)) here (theader_size f) E h = ExVal (JvNum (ts_header_size (sf_index f) n (integer_encoded (erase nt)) + n)) h.
Proof.
  intros Hg Hc Hk HE. unfold theader_size. tsu. jop. jfn_call. rewrite call_header_size by exact Hg0. jop.
  now rewrite (tlinked_integer _ _ _ _ _ _ _ _ Hk).
Qed.

(** ** Structs *)
Definition size_of_field (f : sfield * nty) (oa : option jatlas) : N :=
  match oa with
  | Some a => ts_header_size (sf_index (fst f)) (jlookup a) (integer_encoded (erase (snd f))) + jlookup a
  | None => 0
  end.
Lemma field_present here ns s f v d E h ps n x : good_scope find reach here -> tlinked here ns s (sf_type (fst f)) (snd f) -> atlas_stmt v ->
  wt DOut v (erase (snd f)) -> js_value u DOut h 1 v (snd f) (obj_get ps (tfield_name u (fst f))) -> (0 < length h)%nat -> clear E ->
  var (txt "message") E = Some (JvObj ps) -> lookup (txt "size") E = Some (SVar (JvNum n)) -> lookup (tlocal_name u (fst f)) E = Some (SVar x) ->
  var (txt "textEncoder") E = Some JvEncoder -> (vdepth v + 2 <= d)%nat -> (vwidth v < rounds)%nat ->
  exists a h', rs d here (tstruct_atlas_field u ns s (fst f)) E h =
    SoNext (update (txt "size") (SVar (JvNum (n + size_of_field f (Some (ts_atlas true v (erase (snd f))))))) (update (tlocal_name u (fst f)) (SVar a) E)) h' /\
    grows h h' /\ js_atlas u h' (length h) (ts_atlas true v (erase (snd f))) (snd f) a.
Proof.
  intros Hg Hk IH Hw Hv Hh Hc Hm Hs Hl Ht Hd Hr. destruct d as [|[|d]]; [lia|lia|].
  unfold tstruct_atlas_field, guarded, get_payload, payload_size, not_undefined. tsu. destruct (is_optional (fst f)) eqn:Eo.
  - rewrite run_stmts_cons, jx_blank. cbn [snext]. rewrite run_stmts_cons, jx_block.
    jblock_as [(txt "payloadAtlas", SDead false); (txt "payload", SDead true)]. js. cbn [get_prop]. jop. rewrite (js_defined _ _ _ _ _ _ _ Hv). jop.
    jblock_as [(txt "payloadSize", SDead true)]. rewrite run_stmts_app.
    edestruct (IH here ns s (sf_type (fst f)) (snd f) true (S (S d))) with (E := (txt "payloadSize", SDead true) :: (txt "payloadAtlas", SVar JvUndef) :: (txt "payload", SConst (obj_get ps (tfield_name u (fst f)))) :: E) (h := h)
      as (a & h' & R & G & A); [exact Hg|exact Hk|exact Hw|exact Hv|exact Hh|jclear|jvar|jlk|jvar|lia|exact Hr|].
    rewrite R. jop. erewrite (lookup_sim rounds find reach u ns s here here); [|exact Hk|exact Hw|exact A|jvar]. jop.
    erewrite header_size_sim; [|exact Hg|jclear|exact Hk|jvar]. jop. exists a, h'. split; [|split; [exact G|exact A]]. reflexivity.
  - rewrite run_stmts_cons, jx_blank. cbn [snext]. rewrite run_stmts_cons, jx_block.
    jblock_as [(txt "payloadAtlas", SDead false); (txt "payload", SDead true); (txt "payloadSize", SDead true)]. js. cbn [get_prop]. jop. rewrite run_stmts_app.
    edestruct (IH here ns s (sf_type (fst f)) (snd f) true (S (S d))) with (E := (txt "payloadAtlas", SVar JvUndef) :: (txt "payload", SConst (obj_get ps (tfield_name u (fst f)))) :: (txt "payloadSize", SDead true) :: E) (h := h)
      as (a & h' & R & G & A); [exact Hg|exact Hk|exact Hw|exact Hv|exact Hh|jclear|jvar|jlk|jvar|lia|exact Hr|].
    rewrite R. jop. erewrite (lookup_sim rounds find reach u ns s here here); [|exact Hk|exact Hw|exact A|jvar]. jop.
    erewrite header_size_sim; [|exact Hg|jclear|exact Hk|jvar]. jop. exists a, h'. split; [|split; [exact G|exact A]]. reflexivity.
Qed.
Lemma field_absent here ns s (f : sfield * nty) d E h ps : is_optional (fst f) = true -> obj_get ps (tfield_name u (fst f)) = JvUndef ->
  var (txt "message") E = Some (JvObj ps) -> rs d here (tstruct_atlas_field u ns s (fst f)) E h = SoNext E h.
Proof.
  intros Ho Hv Hm. unfold tstruct_atlas_field, guarded, get_payload, payload_size, not_undefined. tsu. rewrite Ho.
  rewrite run_stmts_cons, jx_blank. cbn [snext]. rewrite run_stmts_cons, jx_block.
  jblock_as [(txt "payloadAtlas", SDead false); (txt "payload", SDead true)]. js. cbn [get_prop]. rewrite Hv. jop. reflexivity.
Qed.

Definition field_ok here ns s d (ov : option val) (f : sfield * nty) : Prop :=
  tlinked here ns s (sf_type (fst f)) (snd f) /\
  match ov with
  | Some v => atlas_stmt v /\ wt DOut v (erase (snd f)) /\ (vdepth v + 2 <= d)%nat /\ (vwidth v < rounds)%nat
  | None => is_optional (fst f) = true
  end.
Definition field_value h ps (ov : option val) (f : sfield * nty) : Prop :=
  match ov with Some v => js_value u DOut h 1 v (snd f) (obj_get ps (tfield_name u (fst f))) | None => obj_get ps (tfield_name u (fst f)) = JvUndef end.
Definition field_atlas h lo (ov : option val) (f : sfield * nty) (a : jv) : Prop :=
  match ov with Some v => js_atlas u h lo (ts_atlas true v (erase (snd f))) (snd f) a | None => a = JvUndef end.
Definition slot_atlas (ov : option val) (f : sfield * nty) : option jatlas :=
  match ov with Some v => Some (ts_atlas true v (erase (snd f))) | None => None end.
Lemma fields_sim here ns s d ps : good_scope find reach here -> forall ovs fs, Forall2 (field_ok here ns s d) ovs fs ->
  NoDup (map (fun f => tlocal_name u (fst f)) fs) -> forall E h n,
  Forall2 (field_value h ps) ovs fs -> (0 < length h)%nat -> clear E -> var (txt "message") E = Some (JvObj ps) ->
  lookup (txt "size") E = Some (SVar (JvNum n)) -> var (txt "textEncoder") E = Some JvEncoder ->
  Forall (fun f => lookup (tlocal_name u (fst f)) E = Some (SVar JvUndef)) fs ->
  exists E' h', rs d here (flat_map (tstruct_atlas_field u ns s) (map fst fs)) E h = SoNext E' h' /\ grows h h' /\
    lookup (txt "size") E' = Some (SVar (JvNum (n + sumN (map2 size_of_field fs (map2 slot_atlas ovs fs))))) /\
    (forall y, str_eqb y (txt "size") = false -> ~ In y (map (fun f => tlocal_name u (fst f)) fs) -> lookup y E' = lookup y E) /\
    Forall2 (fun ov f => exists a, lookup (tlocal_name u (fst f)) E' = Some (SVar a) /\ field_atlas h' (length h) ov f a) ovs fs.
Proof.
  intros Hg ovs fs HF. induction HF as [|ov f ovs fs [Hk Ho] HF IH]; intros Hn E h n HV Hh Hc Hm Hs Ht Hu.
  - exists E, h. cbn [map flat_map map2 sumN]. rewrite N.add_0_r. repeat split; auto; apply grows_refl.
  - inversion HV as [|? ? ? ? V1 V2]; subst. inversion Hu as [|? ? U1 U2]; subst. cbn [map] in Hn. inversion Hn as [|? ? N1 N2]; subst.
    cbn [map flat_map]. rewrite run_stmts_app. unfold field_value in V1.
    assert (forall f', In f' fs -> str_eqb (tlocal_name u (fst f')) (tlocal_name u (fst f)) = false) as Hneq.
    { intros f' Hf'. apply str_eqb_neq. intros Eq. apply N1. rewrite <- Eq. now apply (in_map (fun f => tlocal_name u (fst f))). }
    assert (exists a h1 E1 k, rs d here (tstruct_atlas_field u ns s (fst f)) E h = SoNext E1 h1 /\ grows h h1 /\ clear E1 /\ k = size_of_field f (slot_atlas ov f) /\
      lookup (txt "size") E1 = Some (SVar (JvNum (n + k))) /\ lookup (tlocal_name u (fst f)) E1 = Some (SVar a) /\ field_atlas h1 (length h) ov f a /\
      (forall y, str_eqb y (txt "size") = false -> str_eqb y (tlocal_name u (fst f)) = false -> lookup y E1 = lookup y E)) as (a & h1 & E1 & k & R & G & C1 & -> & S1 & L1 & A1 & O1).
    { destruct ov as [v|].
      - destruct Ho as (H1 & H2 & H3 & H4). edestruct (field_present here ns s f v d E h) as (a & h1 & R & G & A); eauto. exists a, h1. eexists _, _. split; [exact R|]. split; [exact G|].
        split; [jclear|]. split; [reflexivity|]. split; [jlk|]. split; [jlk|]. split; [exact A|]. intros y Y1 Y2. rewrite !lookup_other by assumption. reflexivity.
      - exists JvUndef, h, E, 0. split; [eapply field_absent; eauto|]. rewrite N.add_0_r. repeat split; auto; apply grows_refl. }
    rewrite R. cbn [snext].
    destruct (IH N2 E1 h1 (n + size_of_field f (slot_atlas ov f))) as (E' & h' & R' & G' & S' & O' & A').
    + eapply Forall2_imp; [|exact V2]. intros [v|] f0 H; [|exact H]. cbn [field_value] in *. eapply js_value_grows; [exact G|lia|exact H].
    + destruct G. lia.
    + exact C1.
    + unfold var. rewrite O1 by reflexivity. exact Hm.
    + exact S1.
    + unfold var. rewrite O1 by reflexivity. exact Ht.
    + rewrite Forall_forall in *. intros f' Hf'. rewrite O1; [now apply U2|reflexivity|now apply Hneq].
    + exists E', h'. split; [exact R'|]. split; [eapply grows_trans; eassumption|]. split; [|split].
      * cbn [map2 sumN]. rewrite S'. do 3 f_equal. lia.
      * intros y Y1 Y2. rewrite O' by (auto; intros K; apply Y2; now right). apply O1; [exact Y1|]. apply str_eqb_neq. intros ->. apply Y2. now left.
      * constructor.
        { exists a. split; [rewrite O'; [exact L1|reflexivity|exact N1]|]. destruct ov as [v|]; [|exact A1]. cbn [field_atlas] in *.
          eapply js_atlas_grows; [exact G'|lia|apply Nat.le_refl|exact A1]. }
        { eapply Forall2_imp; [|exact A']. intros [v|] f0 (a' & L & A); exists a'; (split; [exact L|]); [|exact A]. cbn [field_atlas] in *.
          eapply js_atlas_mono; [| |exact A]; [destruct G; lia|auto]. }
Qed.
Lemma props_sim here d E h (P : option val -> sfield * nty -> jv -> Prop) : forall ovs fs,
  Forall2 (fun ov f => exists a, var (tlocal_name u (fst f)) E = Some a /\ P ov f a) ovs fs -> NoDup (map (fun f => tfield_name u (fst f)) fs) ->
  exists ps, eval_list (eval_property find reach (run d) here E) (tstruct_props u (map fst fs)) h = ExVal ps h /\ map fst ps = map (fun f => tfield_name u (fst f)) fs /\
    Forall2 (fun ov f => P ov f (obj_get ps (tfield_name u (fst f)))) ovs fs.
Proof.
  induction 1 as [|ov f ovs fs (a & Ha & HP) _ IH]; cbn [map tstruct_props]; intros Hn.
  - exists []. auto.
  - inversion Hn as [|? ? N1 N2]; subst. destruct (IH N2) as (ps & R & Hp & HF). rewrite jev_list_cons. unfold eval_property at 1. cbn [snd fst]. erewrite jev_var by exact Ha.
    cbn [ebind]. unfold tstruct_props in R. rewrite R. cbn [ebind]. eexists. split; [reflexivity|]. cbn [map fst]. split; [now rewrite Hp|]. constructor.
    + unfold obj_get. rewrite lookup_here. exact HP.
    + apply Forall2_in with (P := fun ov f => P ov f (obj_get ps (tfield_name u (fst f)))); [exact HF|].
      intros ov' f' Hf' H. unfold obj_get in *. rewrite lookup_skip; [exact H|]. apply str_eqb_neq. intros Eq. apply N1. rewrite <- Eq. now apply (in_map (fun f => tfield_name u (fst f))).
Qed.
End Atlas.
