From Verif Require Export BaseFacts Types Utf8Facts.

Section TyInd.
  Context (P : ty -> Prop).
  Context (HUnit : P TUnit) (HF : P TF64) (HU : P TU64) (HS : P TS64) (HB : P TBool)
          (HBy : P TBytes) (HStr : P TString)
          (HA : forall t, P t -> P (TArray t))
          (HSt : forall fs, Forall (fun f => P (f_type f)) fs -> P (TStruct fs))
          (HCh : forall fs, Forall (fun f => P (f_type f)) fs -> P (TChoice fs)).
  Fixpoint ty_ind' (t : ty) : P t :=
    let go := fix go (fs : list (field_of ty)) : Forall (fun f => P (f_type f)) fs :=
      match fs with
      | [] => Forall_nil _
      | f :: fs' => Forall_cons _ (ty_ind' (f_type f)) (go fs')
      end in
    match t with
    | TUnit => HUnit | TF64 => HF | TU64 => HU | TS64 => HS | TBool => HB
    | TBytes => HBy | TString => HStr
    | TArray e => HA e (ty_ind' e)
    | TStruct fs => HSt fs (go fs)
    | TChoice fs => HCh fs (go fs)
    end.
End TyInd.

Definition optP {A} (P : A -> Prop) (o : option A) : Prop :=
  match o with Some a => P a | None => True end.

Section ValInd.
  Context (P : val -> Prop).
  Context (H1 : P VUnit) (H2 : forall b, P (VF64 b)) (H3 : forall n, P (VU64 n))
          (H4 : forall z, P (VS64 z)) (H5 : forall b, P (VBool b)) (H6 : forall bs, P (VBytes bs))
          (H7 : forall s, P (VString s)) (H8 : forall n, P (VUnits n))
          (HA : forall vs, Forall P vs -> P (VArr vs))
          (HSt : forall ovs, Forall (optP P) ovs -> P (VStruct ovs))
          (HCh : forall i p fb, P p -> optP P fb -> P (VChoice i p fb)).
  Fixpoint val_ind' (v : val) : P v :=
    match v with
    | VUnit => H1 | VF64 b => H2 b | VU64 n => H3 n | VS64 z => H4 z | VBool b => H5 b
    | VBytes bs => H6 bs | VString s => H7 s | VUnits n => H8 n
    | VArr vs => HA vs ((fix go vs : Forall P vs :=
        match vs with [] => Forall_nil _ | v :: vs' => Forall_cons _ (val_ind' v) (go vs') end) vs)
    | VStruct ovs => HSt ovs ((fix go ovs : Forall (optP P) ovs :=
        match ovs with
        | [] => Forall_nil _
        | ov :: ovs' =>
            @Forall_cons _ (optP P) ov _
              (match ov return optP P ov with Some v => val_ind' v | None => I end) (go ovs')
        end) ovs)
    | VChoice i p fb => HCh i p fb (val_ind' p)
        (match fb return optP P fb with Some v => val_ind' v | None => I end)
    end.
End ValInd.

Lemma allP_Forall {A} (P : A -> Prop) l : allP P l <-> Forall P l.
Proof.
  induction l as [|x l IH]; simpl; split; intros H; auto.
  - destruct H; constructor; [assumption|now apply IH].
  - inversion H; subst. split; [assumption|now apply IH].
Qed.

Lemma find_field_in {T} i (fs : list (field_of T)) f :
  find_field i fs = Some f -> In f fs /\ f_index f = i.
Proof.
  induction fs as [|g fs IH]; simpl; intros H; [discriminate|].
  destruct (f_index g =? i) eqn:E.
  - injection H as <-. split; [now left|lia].
  - destruct (IH H). split; [now right|assumption].
Qed.
Lemma find_field_none {T} i (fs : list (field_of T)) :
  find_field i fs = None <-> ~ In i (indices fs).
Proof.
  unfold indices. induction fs as [|g fs IH]; simpl; [tauto|].
  destruct (f_index g =? i) eqn:E.
  - split; [discriminate|]. intros H. exfalso. apply H. left. lia.
  - rewrite IH. split; intros H; [intros [H1|H1]; [lia|now apply H]|tauto].
Qed.
Lemma find_field_nodup {T} (fs : list (field_of T)) f :
  NoDup (indices fs) -> In f fs -> find_field (f_index f) fs = Some f.
Proof.
  unfold indices. induction fs as [|g fs IH]; simpl; intros Hn Hin; [contradiction|].
  inversion Hn as [|? ? Hni Hnd]; subst.
  destruct Hin as [->|Hin].
  - now rewrite N.eqb_refl.
  - destruct (f_index g =? f_index f) eqn:E.
    + exfalso. apply Hni. apply in_map_iff. exists f. split; [lia|assumption].
    + now apply IH.
Qed.

(** Suffixes (what is left of the input). *)
Definition suffix {A} (l1 l2 : list A) : Prop := exists pre, l2 = pre ++ l1.
Lemma suffix_refl {A} (l : list A) : suffix l l. Proof. now exists []. Qed.
Lemma suffix_nil {A} (l : list A) : suffix [] l. Proof. exists l. symmetry. apply app_nil_r. Qed.
Lemma suffix_trans {A} (a b c : list A) : suffix a b -> suffix b c -> suffix a c.
Proof. intros [p ->] [q ->]. exists (q ++ p). apply app_assoc. Qed.
Lemma suffix_dropN {A} n (l : list A) : suffix (dropN n l) l.
Proof. exists (takeN n l). symmetry. apply take_drop. Qed.
Lemma suffix_length {A} (a b : list A) : suffix a b -> (length a <= length b)%nat.
Proof. intros [p ->]. rewrite app_length. lia. Qed.
Lemma suffix_ok a b : suffix a b -> bytes_ok b -> bytes_ok a.
Proof. intros [p ->] H. now apply bytes_ok_app in H. Qed.
Lemma suffix_take_drop {A} n (left l : list A) :
  suffix left (takeN n l) -> suffix (left ++ dropN n l) l.
Proof.
  intros [p H]. exists p. rewrite app_assoc, <- H. symmetry. apply take_drop.
Qed.
Lemma suffix_cons {A} (x : A) l : suffix l (x :: l).
Proof. now exists [x]. Qed.
