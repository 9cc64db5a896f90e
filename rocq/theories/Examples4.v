(** The hypotheses of Properties4 are met. *)
From Verif Require Import NamesFacts.

Example ascii_tables_agree : ascii_agrees ascii_unicode.
Proof. constructor; intros; reflexivity. Qed.

Definition ws_http2 : list str := map txt ["http2"; "server"; "name"]%string.
Example ws_http2_words : Forall word ws_http2.
Proof.
  assert (forall s, match s with [] => false | c :: r => ascii_is_lower c && forallb (fun c => ascii_is_lower c || ascii_is_digit c) r end = true -> word s) as H.
  { intros [|c r]; [discriminate|]. intros H. apply andb_true_iff in H as [H1 H2]. split; [exact H1|].
    apply Forall_forall. intros d Hd. rewrite forallb_forall in H2. apply H2, orb_true_iff in Hd. exact Hd. }
  repeat constructor; apply H; reflexivity.
Qed.
Example spellings_of_http2 :
  spelling InSnake ws_http2 = txt "http2_server_name" /\ spelling InKebab ws_http2 = txt "http2-server-name" /\
  spelling InCamel ws_http2 = txt "http2ServerName" /\ spelling InPascal ws_http2 = txt "Http2ServerName".
Proof. repeat split; reflexivity. Qed.

Lemma ident_chars_b s :
  forallb (fun c => ascii_is_letter c || ascii_is_digit c || (c =? underscore)) s = true -> ident_chars s.
Proof.
  intros H. apply Forall_forall. intros c Hc. rewrite forallb_forall in H. apply H in Hc.
  destruct (ascii_is_letter c); [now left|]. destruct (ascii_is_digit c); [right; now left|]. right; right. lia.
Qed.
Example names_ok : ident_chars (txt "fooBar_baz2") /\ words_start_with_letters (txt "fooBar_baz2") /\
  starts_with_letter (txt "fooBar_baz2").
Proof. split; [now apply ident_chars_b|split; reflexivity]. Qed.
Example rust_names_example :
  let n s := ident_from ascii_unicode (txt s) in
  rust_name ascii_unicode (n "fooBar_baz2"%string) Pascal (Some SOut) = txt "FooBarBaz2Out" /\
  rust_name ascii_unicode (n "Type"%string) Snake None = txt "r#type" /\
  ts_name ascii_unicode (n "Type"%string) Camel None = txt "_type".
Proof. repeat split; reflexivity. Qed.

(** Fields of a choice. *)
Definition ex_fields : list ident := map (fun s => ident_from ascii_unicode (txt s)) ["success"; "notFound"; "errorCode2"]%string.
Example ex_fields_good :
  Forall (fun i => ident_chars (original i) /\ words_start_with_letters (original i) /\
                   i = ident_from ascii_unicode (original i)) ex_fields /\
  ForallOrdPairs (fun i j => ident_eqb i j = false) ex_fields /\
  (forall j, In j ex_fields -> ~ In (ts_name ascii_unicode j Camel None) object_prototype).
Proof.
  split; [|split].
  - repeat (constructor; [split; [now apply ident_chars_b|split; reflexivity]|]). constructor.
  - repeat constructor.
  - intros j Hj H. repeat (destruct Hj as [<-|Hj]; [apply existsb_In in H; vm_compute in H; discriminate H|]). destruct Hj.
Qed.
Example ex_choice :
  ts_choice_case ascii_unicode (choice_object ascii_unicode (ident_from ascii_unicode (txt "not_found")) 5 None (Some 6)) ex_fields =
  Some (ident_from ascii_unicode (txt "notFound"), RdOwn 5).
Proof. reflexivity. Qed.
