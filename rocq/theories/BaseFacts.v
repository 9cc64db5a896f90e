From Verif Require Export Base.

Lemma lenN_nil {A} : lenN (@nil A) = 0. Proof. reflexivity. Qed.
Lemma lenN_cons {A} (x : A) l : lenN (x :: l) = 1 + lenN l.
Proof. unfold lenN; simpl; lia. Qed.
Lemma lenN_app {A} (l1 l2 : list A) : lenN (l1 ++ l2) = lenN l1 + lenN l2.
Proof. unfold lenN; rewrite app_length; lia. Qed.

Lemma takeN_firstn {A} (l : list A) n : takeN n l = firstn (N.to_nat n) l.
Proof.
  revert n; induction l as [|x l IH]; intros n; simpl.
  - destruct (N.to_nat n); reflexivity.
  - destruct (n =? 0) eqn:E.
    + assert (n = 0) by lia; subst; reflexivity.
    + replace (N.to_nat n) with (S (N.to_nat (n - 1))) by lia. simpl. now rewrite IH.
Qed.
Lemma dropN_skipn {A} (l : list A) n : dropN n l = skipn (N.to_nat n) l.
Proof.
  revert n; induction l as [|x l IH]; intros n; simpl.
  - destruct (N.to_nat n); reflexivity.
  - destruct (n =? 0) eqn:E.
    + assert (n = 0) by lia; subst; reflexivity.
    + replace (N.to_nat n) with (S (N.to_nat (n - 1))) by lia. simpl. now rewrite IH.
Qed.
Lemma take_drop {A} n (l : list A) : takeN n l ++ dropN n l = l.
Proof. rewrite takeN_firstn, dropN_skipn; apply firstn_skipn. Qed.
Lemma takeN_app {A} (l1 l2 : list A) : takeN (lenN l1) (l1 ++ l2) = l1.
Proof.
  rewrite takeN_firstn; unfold lenN; rewrite Nat2N.id.
  rewrite firstn_app, Nat.sub_diag, firstn_all. simpl. apply app_nil_r.
Qed.
Lemma dropN_app {A} (l1 l2 : list A) : dropN (lenN l1) (l1 ++ l2) = l2.
Proof.
  rewrite dropN_skipn; unfold lenN; rewrite Nat2N.id.
  rewrite skipn_app, Nat.sub_diag, skipn_all. reflexivity.
Qed.
Lemma takeN_app_eq {A} n (l1 l2 : list A) : n = lenN l1 -> takeN n (l1 ++ l2) = l1.
Proof. intros ->; apply takeN_app. Qed.
Lemma dropN_app_eq {A} n (l1 l2 : list A) : n = lenN l1 -> dropN n (l1 ++ l2) = l2.
Proof. intros ->; apply dropN_app. Qed.
Lemma takeN_0 {A} (l : list A) : takeN 0 l = [].
Proof. destruct l; reflexivity. Qed.
Lemma dropN_0 {A} (l : list A) : dropN 0 l = l.
Proof. destruct l; reflexivity. Qed.
Lemma takeN_all {A} n (l : list A) : lenN l <= n -> takeN n l = l.
Proof. intros H. rewrite takeN_firstn. apply firstn_all2. unfold lenN in H. lia. Qed.
Lemma dropN_all {A} n (l : list A) : lenN l <= n -> dropN n l = [].
Proof. intros H. rewrite dropN_skipn. apply skipn_all2. unfold lenN in H. lia. Qed.
Lemma lenN_takeN {A} n (l : list A) : lenN (takeN n l) = N.min n (lenN l).
Proof. rewrite takeN_firstn. unfold lenN. rewrite firstn_length. lia. Qed.
Lemma lenN_dropN {A} n (l : list A) : lenN (dropN n l) = lenN l - n.
Proof. rewrite dropN_skipn. unfold lenN. rewrite skipn_length. lia. Qed.
Lemma length_takeN {A} n (l : list A) : (length (takeN n l) <= length l)%nat.
Proof. pose proof (lenN_takeN n l). unfold lenN in *. lia. Qed.
Lemma length_dropN {A} n (l : list A) : (length (dropN n l) <= length l)%nat.
Proof. pose proof (lenN_dropN n l). unfold lenN in *. lia. Qed.

Lemma bytes_ok_app l1 l2 : bytes_ok (l1 ++ l2) <-> bytes_ok l1 /\ bytes_ok l2.
Proof. apply Forall_app. Qed.
Lemma bytes_ok_takeN n l : bytes_ok l -> bytes_ok (takeN n l).
Proof. intros H. rewrite <- (take_drop n l) in H. now apply bytes_ok_app in H. Qed.
Lemma bytes_ok_dropN n l : bytes_ok l -> bytes_ok (dropN n l).
Proof. intros H. rewrite <- (take_drop n l) in H. now apply bytes_ok_app in H. Qed.

Lemma le_bytes_length k v : length (le_bytes k v) = k.
Proof. revert v; induction k; intros; simpl; auto. Qed.
Lemma lenN_le_bytes k v : lenN (le_bytes k v) = N.of_nat k.
Proof. unfold lenN; now rewrite le_bytes_length. Qed.
Lemma le_bytes_ok k v : bytes_ok (le_bytes k v).
Proof.
  revert v; induction k as [|k IH]; intros; simpl; constructor.
  - unfold byte_ok; apply N.mod_lt; discriminate.
  - apply IH.
Qed.
Lemma pow_S k : 2 ^ (8 * N.of_nat (S k)) = 256 * 2 ^ (8 * N.of_nat k).
Proof.
  replace (8 * N.of_nat (S k)) with (8 + 8 * N.of_nat k) by lia.
  rewrite N.pow_add_r. reflexivity.
Qed.
Lemma le_val_bytes k v : v < 2 ^ (8 * N.of_nat k) -> le_val (le_bytes k v) = v.
Proof.
  revert v; induction k as [|k IH]; intros v H.
  - change (2 ^ (8 * N.of_nat 0)) with 1 in H. simpl. lia.
  - rewrite pow_S in H. cbn [le_bytes le_val]. rewrite IH; lia.
Qed.
Lemma le_val_bound bs : bytes_ok bs -> le_val bs < 2 ^ (8 * lenN bs).
Proof.
  induction bs as [|b bs IH]; intros H.
  - reflexivity.
  - inversion H as [|? ? Hb Hbs]; subst. unfold lenN. cbn [length le_val].
    rewrite pow_S. specialize (IH Hbs). unfold lenN in IH. unfold byte_ok in Hb. lia.
Qed.
Lemma le_bytes_val bs : bytes_ok bs -> le_bytes (length bs) (le_val bs) = bs.
Proof.
  induction bs as [|b bs IH]; intros H; [reflexivity|].
  inversion H as [|? ? Hb Hbs]; subst. unfold byte_ok in Hb. cbn [length le_bytes le_val].
  replace ((b + 256 * le_val bs) mod 256) with b by lia.
  replace ((b + 256 * le_val bs) / 256) with (le_val bs) by lia.
  now rewrite IH.
Qed.
Lemma le_val_inj a b : bytes_ok a -> bytes_ok b -> length a = length b ->
  le_val a = le_val b -> a = b.
Proof.
  intros Ha Hb Hl He. rewrite <- (le_bytes_val a Ha), <- (le_bytes_val b Hb), Hl, He. reflexivity.
Qed.

Lemma bindr_ok {A B} (r : res A) (k : A -> bytes -> res B) b rest :
  bindr r k = Ok b rest -> exists a r1, r = Ok a r1 /\ k a r1 = Ok b rest.
Proof. destruct r; simpl; intros H; try discriminate; eauto. Qed.
