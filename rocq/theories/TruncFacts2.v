(** Cutting a struct message inside a [Bytes] payload or inside the payload of an unknown field; the
    final forms of the theorems on arbitrary input (C18, C19, C23). *)
From Verif Require Export TruncFacts ChunksFacts VisitsFacts PrimExtra WriterFacts.

Lemma spec_header_pos i n ie : (1 <= length (spec_header i n ie))%nat.
Proof.
  assert (forall m, (1 <= length (spec_varint m))%nat) as H.
  { intros m. pose proof (spec_varint_length' m). pose proof (varint_size_range m). unfold lenN in *. lia. }
  unfold spec_header. destruct (n =? 0), (n =? 8), ie; auto; rewrite app_length; specialize (H (4 * i + 3)); lia.
Qed.

Lemma struct_cut_bytes lim gs its f g p q : ty_wf (TStruct gs) -> Forall (item_ok gs) its ->
  item_ok gs (IField f (VBytes (p ++ q))) -> find_field (f_index f) gs = Some g -> f_type f = TBytes ->
  lenN (items_bytes its ++ item_bytes (IField f (VBytes (p ++ q)))) < two64 ->
  8 * lenN (items_bytes its ++ item_bytes (IField f (VBytes (p ++ q)))) <= lim ->
  deserialize lim (TStruct gs) (items_bytes its ++ spec_header (f_index f) (lenN (p ++ q)) false ++ p)
  = deserialize lim (TStruct gs) (items_bytes its ++ item_bytes (IField f (VBytes p))).
Proof.
  intros [Hnd Hwf] Hits Hit Eg Eft Hl Hlim. apply allP_Forall in Hwf. rewrite lenN_app in Hl, Hlim.
  pose proof Hit as [Hi (Hw & Ht & Hc)]. cbn [item_index] in *. rewrite Eg in Hc.
  assert (f_type f = f_type g) as Egt by (rewrite Eft in Hc |- *; destruct (f_type g); easy).
  rewrite Eft in Hw, Egt. cbn [wt] in Hw. apply bytes_ok_app in Hw as [Hokp Hokq].
  cbn [item_bytes] in *. cbv zeta in *. rewrite Eft in *. cbn [spec_encode integer_encoded] in *.
  rewrite !lenN_app in Hl, Hlim.
  assert (forall n, n < two64 -> bytes_ok (spec_header (f_index f) n false ++ p)) as Hokh.
  { intros n Hn. apply bytes_ok_app; split; [apply spec_header_ok; [exact Hi|lia]|exact Hokp]. }
  assert (forall n, n < two64 -> deserialize_field_header (spec_header (f_index f) n false ++ p)
             = Ok (f_index f, n) p) as Hh.
  { intros n Hn. rewrite <- serialize_header_spec by auto. apply header_roundtrip; auto. discriminate. }
  unfold deserialize. cbn [decode]. fold (sds lim gs). rewrite lenN_app.
  rewrite !(struct_loop_items lim gs Hwf its) by (auto; try apply Hokh; lia).
  cbn [struct_loop]. rewrite !Hh by lia. rewrite assoc_sds, Eg. cbn [omap].
  rewrite <- Egt. cbn [decode]. unfold reserve.
  rewrite !takeN_all, !dropN_all by (rewrite ?lenN_app; lia).
  replace (lim <? lenN p + lenN q) with false by lia. replace (lim <? lenN p) with false by lia.
  cbn [bindr app]. f_equal.
  apply struct_loop_fuel; [now apply sds_ok|constructor| |]; cbn [length];
    rewrite app_length;
    pose proof (spec_header_pos (f_index f) (lenN p) false);
    pose proof (spec_header_pos (f_index f) (lenN p + lenN q) false); lia.
Qed.

Lemma struct_cut_unknown lim gs its i ie p q : ty_wf (TStruct gs) -> Forall (item_ok gs) its ->
  item_ok gs (IRaw i ie (p ++ q)) -> q <> [] -> (ie = true -> p <> []) ->
  lenN (items_bytes its ++ item_bytes (IRaw i ie (p ++ q))) < two64 ->
  8 * lenN (items_bytes its ++ item_bytes (IRaw i ie (p ++ q))) <= lim ->
  deserialize lim (TStruct gs) (items_bytes its ++ spec_header i (lenN (p ++ q)) ie ++ p) = Diverge.
Proof.
  intros [Hnd Hwf] Hits Hit Hq Hp Hl Hlim. apply allP_Forall in Hwf. rewrite lenN_app in Hl, Hlim.
  pose proof Hit as [Hi (En & Hok & Hie)]. cbn [item_index item_bytes] in *. rewrite lenN_app in Hl, Hlim.
  apply bytes_ok_app in Hok as [Hokp Hokq].
  assert (deserialize_field_header (spec_header i (lenN (p ++ q)) ie ++ p) = Ok (i, lenN (p ++ q)) p) as Hh.
  { rewrite <- serialize_header_spec by (auto; lia). apply header_roundtrip; auto; [lia|].
    intros H1 H2 H3. destruct (Hie H1 H2 H3) as (b & tl & E & Hb). destruct p as [|b' p]; [now destruct Hp|].
    cbn in E. injection E as <- <-. eauto. }
  unfold deserialize. cbn [decode]. fold (sds lim gs).
  assert (bytes_ok (spec_header i (lenN (p ++ q)) ie ++ p)) as Ho
    by (apply bytes_ok_app; split; [apply spec_header_ok; [exact Hi|lia]|exact Hokp]).
  rewrite (struct_loop_items lim gs Hwf its) by (auto; lia).
  cbn [struct_loop]. rewrite Hh, assoc_sds, En. cbn [omap].
  assert (0 < lenN q) by (destruct q; [congruence|rewrite lenN_cons; lia]).
  rewrite takeN_all by (rewrite lenN_app; lia). unfold skip.
  replace (lenN (p ++ q) <=? lenN p) with false by (rewrite lenN_app; lia). reflexivity.
Qed.

(** ** Arbitrary input *)
Lemma deserialized_typed lim t bs v rest : ty_wf t -> bytes_ok bs -> deserialize lim t bs = Ok v rest ->
  wt DIn v t.
Proof.
  intros Ht Hb E. pose proof (decode_post lim t Ht true (lenN bs) bs Hb) as P. unfold deserialize in E.
  rewrite E in P. apply P.
Qed.
Lemma decoded_suffix lim t isf psz bs v rest : ty_wf t -> bytes_ok bs ->
  decode lim t isf psz bs = Ok v rest -> exists used, bs = used ++ rest.
Proof.
  intros Ht Hb E. pose proof (decode_post lim t Ht isf psz bs Hb) as P. rewrite E in P. apply P.
Qed.

(** The outcome of a run without the position of the reader. *)
Inductive outcome := Success (v : val) | Failure (e : ekind) | Panicked | Unfinished.
Definition outcome_of (x : cres val) : outcome :=
  match x with
  | COk v _ => Success v | CErr e _ => Failure e | CPanic => Panicked | COutOfFuel => Unfinished
  end.
Definition outcome_of_res (x : res val) : outcome :=
  match x with
  | Ok v _ => Success v | Err e => Failure e | Panic => Panicked | Diverge | OutOfFuel => Unfinished
  end.
Definition chunks_ok (chunks : list bytes) : Prop :=
  Forall (fun c => c <> []) chunks /\ bytes_ok (concat chunks).

Lemma cweak_outcome r x y : cweak r x y -> outcome_of y = outcome_of_res x.
Proof. destruct x as [|[]| | |], y as [|[]| |]; cbn; try tauto; try congruence. intros (-> & _). reflexivity. Qed.

Lemma chunked_outcome lim t chunks fuel : ty_wf t -> chunks_ok chunks ->
  (length (concat chunks) < fuel)%nat ->
  outcome_of (cdeserialize fuel lim t chunks) = outcome_of_res (deserialize lim t (concat chunks)).
Proof.
  intros Ht Hc Hf. eapply cweak_outcome.
  apply (cdecode_weak fuel lim t Ht true (lenN (concat chunks)) (RBase chunks)); auto.
Qed.
Lemma no_fuel lim t bs : ty_wf t -> bytes_ok bs -> deserialize lim t bs <> OutOfFuel.
Proof.
  intros Ht Hb E. pose proof (decode_post lim t Ht true (lenN bs) bs Hb) as P. unfold deserialize in E.
  now rewrite E in P.
Qed.
Lemma chunked_diverges lim t chunks : ty_wf t -> chunks_ok chunks ->
  deserialize lim t (concat chunks) = Diverge <->
  forall fuel, (length (concat chunks) < fuel)%nat -> cdeserialize fuel lim t chunks = COutOfFuel.
Proof.
  intros Ht Hc. pose proof (fun fuel => chunked_outcome lim t chunks fuel Ht Hc) as H.
  pose proof (no_fuel lim t (concat chunks) Ht (proj2 Hc)) as Hno. split.
  - intros E fuel Hf. specialize (H fuel Hf). rewrite E in H. destruct (cdeserialize fuel lim t chunks); easy.
  - intros Hall. specialize (H _ (Nat.lt_succ_diag_r _)). rewrite Hall in H by lia.
    destruct (deserialize lim t (concat chunks)); easy.
Qed.
Lemma chunking_irrelevant lim t c1 c2 fuel : ty_wf t -> chunks_ok c1 -> chunks_ok c2 ->
  concat c1 = concat c2 -> (length (concat c1) < fuel)%nat ->
  outcome_of (cdeserialize fuel lim t c1) = outcome_of (cdeserialize fuel lim t c2).
Proof. intros Ht H1 H2 E Hf. rewrite !chunked_outcome by (auto; congruence). now rewrite E. Qed.

(** A value with declared size [sz], decoded from the middle of a source. *)
Lemma confined_position lim t isf sz chunks fuel v r : ty_wf t -> chunks_ok chunks ->
  (length (concat chunks) < fuel)%nat ->
  cdecode fuel lim t isf sz (RTake sz (RBase chunks)) = COk v r ->
  exists k chunks', k <= sz /\ r = RTake (sz - k) (RBase chunks') /\
    concat chunks' = dropN k (concat chunks).
Proof.
  intros Ht Hc Hf E. pose proof (take_length sz (RBase chunks)) as Hl.
  change (flat (RBase chunks)) with (concat chunks) in Hl.
  pose proof (cdecode_weak fuel lim t Ht isf sz (RTake sz (RBase chunks)) Hc ltac:(lia)) as H.
  rewrite E in H. unfold cweak in H. destruct (decode lim t isf sz _) as [v' rest| | | |]; try contradiction.
  destruct H as (_ & [_ [k Ha]] & _). destruct r as [cs|l [cs|l2 i2]]; cbn in Ha; try contradiction; try tauto.
  destruct Ha as (Hk & -> & Ha). exists k, cs. auto.
Qed.
Lemma confined_value lim t isf sz c1 c2 fuel : ty_wf t -> chunks_ok c1 -> chunks_ok c2 ->
  takeN sz (concat c1) = takeN sz (concat c2) ->
  (length (concat c1) < fuel)%nat -> (length (concat c2) < fuel)%nat ->
  outcome_of (cdecode fuel lim t isf sz (RTake sz (RBase c1)))
  = outcome_of (cdecode fuel lim t isf sz (RTake sz (RBase c2))).
Proof.
  intros Ht H1 H2 E F1 F2.
  pose proof (take_length sz (RBase c1)) as L1. pose proof (take_length sz (RBase c2)) as L2.
  change (flat (RBase c1)) with (concat c1) in L1. change (flat (RBase c2)) with (concat c2) in L2.
  pose proof (cdecode_weak fuel lim t Ht isf sz (RTake sz (RBase c1)) H1 ltac:(lia)) as A.
  pose proof (cdecode_weak fuel lim t Ht isf sz (RTake sz (RBase c2)) H2 ltac:(lia)) as B.
  apply cweak_outcome in A, B. rewrite A, B. cbn [flat]. now rewrite E.
Qed.

(** ** With the 2^60 bound *)
Lemma unknown_ignored60 gs its1 u rest : ty_wf (TStruct gs) ->
  Forall (item_ok gs) its1 -> item_ok gs u -> find_field (item_index u) gs = None ->
  bytes_ok rest -> lenN (flat_map item_bytes its1 ++ item_bytes u) < 2 ^ 60 ->
  deserialize isize_max (TStruct gs) (flat_map item_bytes its1 ++ item_bytes u ++ rest)
    = deserialize isize_max (TStruct gs) (flat_map item_bytes its1 ++ rest).
Proof.
  intros [_ Hwf] H1 H2 H3 H4 Hl. apply b60 in Hl as [A B]. apply allP_Forall in Hwf. now apply unknown_ignored.
Qed.
Lemma struct_items60 gs its : ty_wf (TStruct gs) -> Forall (item_ok gs) its ->
  lenN (flat_map item_bytes its) < 2 ^ 60 ->
  ((exists g, In g gs /\ f_rule g = Required /\ forall it, In it its -> item_index it <> f_index g) /\
   deserialize isize_max (TStruct gs) (flat_map item_bytes its) = Err InvalidData) \/
  (~ (exists g, In g gs /\ f_rule g = Required /\ forall it, In it its -> item_index it <> f_index g) /\
   deserialize isize_max (TStruct gs) (flat_map item_bytes its)
     = Ok (VStruct (map (fun g => first_value gs its (f_index g)) gs)) []).
Proof. intros H1 H2 Hl. apply b60 in Hl as [A B]. exact (struct_items isize_max gs its H1 H2 A B). Qed.
Lemma choice_reads60 gs its f v g rest : ty_wf (TChoice gs) -> 
  (forall it, In it its -> item_ok gs it /\ find_field (item_index it) gs = None) ->
  item_ok gs (IField f v) -> find_field (f_index f) gs = Some g -> bytes_ok rest ->
  lenN (flat_map item_bytes its ++ item_bytes (IField f v)) < 2 ^ 60 ->
  deserialize isize_max (TChoice gs) (flat_map item_bytes its ++ item_bytes (IField f v) ++ rest) =
    match f_rule g with
    | Optional => bindr (deserialize isize_max (TChoice gs) rest)
                    (fun fb rest2 => Ok (VChoice (f_index f) (migrate v (f_type f) (f_type g)) (Some fb)) rest2)
    | _ => Ok (VChoice (f_index f) (migrate v (f_type f) (f_type g)) None) []
    end.
Proof.
  intros H1 H2 H3 H4 H5 Hl. rewrite lenN_app in Hl. apply b60 in Hl as [A B].
  fold (items_bytes its) in *. rewrite choice_unknown_ignored; auto.
  - apply choice_known; auto; lia.
  - apply Forall_forall. exact H2.
  - apply bytes_ok_app. split; [|exact H5].
    pose proof (items_ok_bytes gs [IField f v]) as Hk. cbn [items_bytes flat_map] in Hk.
    rewrite app_nil_r in Hk. apply Hk; auto. lia.
  - lia.
Qed.
Lemma choice_none60 gs its : ty_wf (TChoice gs) -> 
  (forall it, In it its -> item_ok gs it /\ find_field (item_index it) gs = None) ->
  lenN (flat_map item_bytes its) < two64 ->
  deserialize isize_max (TChoice gs) (flat_map item_bytes its) = Err EOF.
Proof.
  intros H1 H2 Hl. fold (items_bytes its) in *. rewrite <- (app_nil_r (items_bytes its)).
  rewrite (choice_unknown_ignored isize_max gs its []);
    [reflexivity|exact H1|apply Forall_forall; exact H2|constructor|exact Hl].
Qed.
Lemma struct_cut_header60 gs its i sz ie p : ty_wf (TStruct gs) -> Forall (item_ok gs) its ->
  i <= max_index -> sz < two64 -> cut_header i sz ie p -> lenN (flat_map item_bytes its) < 2 ^ 60 ->
  deserialize isize_max (TStruct gs) (flat_map item_bytes its ++ p)
    = deserialize isize_max (TStruct gs) (flat_map item_bytes its).
Proof. intros H1 H2 H3 H4 H5 Hl. apply b60 in Hl as [A B]. now apply (struct_cut_header isize_max gs its i sz ie p). Qed.
Lemma struct_cut_number60 gs its f v g p q : ty_wf (TStruct gs) -> Forall (item_ok gs) its ->
  item_ok gs (IField f v) -> find_field (f_index f) gs = Some g ->
  (f_type f = TF64 \/ f_type f = TU64 \/ f_type f = TS64 \/ f_type f = TBool) ->
  p <> [] -> q <> [] -> spec_encode true v (f_type f) = p ++ q ->
  lenN (flat_map item_bytes its ++ item_bytes (IField f v)) < 2 ^ 60 ->
  deserialize isize_max (TStruct gs) (flat_map item_bytes its ++
     spec_header (f_index f) (lenN (p ++ q)) (integer_encoded (f_type f)) ++ p) = Err EOF.
Proof.
  intros H1 H2 H3 H4 H5 H6 H7 H8 Hl. apply b60 in Hl as [A B].
  apply (struct_cut_number isize_max gs its f v g p q); auto.
  destruct H5 as [->|[->|[->| ->]]]; reflexivity.
Qed.
Lemma struct_cut_bytes60 gs its f g p q : ty_wf (TStruct gs) -> Forall (item_ok gs) its ->
  item_ok gs (IField f (VBytes (p ++ q))) -> find_field (f_index f) gs = Some g -> f_type f = TBytes ->
  lenN (flat_map item_bytes its ++ item_bytes (IField f (VBytes (p ++ q)))) < 2 ^ 60 ->
  deserialize isize_max (TStruct gs)
    (flat_map item_bytes its ++ spec_header (f_index f) (lenN (p ++ q)) false ++ p)
  = deserialize isize_max (TStruct gs) (flat_map item_bytes its ++ item_bytes (IField f (VBytes p))).
Proof. intros H1 H2 H3 H4 H5 Hl. apply b60 in Hl as [A B]. now apply (struct_cut_bytes isize_max gs its f g p q). Qed.
Lemma struct_cut_unknown60 gs its i ie p q : ty_wf (TStruct gs) -> Forall (item_ok gs) its ->
  item_ok gs (IRaw i ie (p ++ q)) -> q <> [] -> (ie = true -> p <> []) ->
  lenN (flat_map item_bytes its ++ item_bytes (IRaw i ie (p ++ q))) < 2 ^ 60 ->
  deserialize isize_max (TStruct gs)
    (flat_map item_bytes its ++ spec_header i (lenN (p ++ q)) ie ++ p) = Diverge.
Proof. intros H1 H2 H3 H4 H5 Hl. apply b60 in Hl as [A B]. now apply (struct_cut_unknown isize_max gs its i ie p q). Qed.
Lemma choice_cut_header60 gs its i sz ie p : ty_wf (TChoice gs) ->
  (forall it, In it its -> item_ok gs it /\ find_field (item_index it) gs = None) ->
  i <= max_index -> sz < two64 -> cut_header i sz ie p -> lenN (flat_map item_bytes its) < two64 ->
  deserialize isize_max (TChoice gs) (flat_map item_bytes its ++ p) = Err EOF.
Proof.
  intros H1 H2 H3 H4 H5 Hl. apply (choice_cut_header isize_max gs its i sz ie p); auto.
  now apply Forall_forall.
Qed.
