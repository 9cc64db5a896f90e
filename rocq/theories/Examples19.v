(** The hypotheses of Properties21 are met: a library that reads command lines as expected, command lines, shells. *)
From Coq Require Import String.
From Verif Require Import CliSpec CliFacts IdentFacts TokenFacts2 Examples5 Properties21.
Open Scope N_scope. Open Scope list_scope.

(** ** A library *)
Definition wordb (w : str) : bool := match w with [] => false | c :: _ => negb (c =? 45) end.
Lemma wordb_spec w : wordb w = true <-> plain_word w.
Proof.
  unfold plain_word. destruct w as [|c w]; cbn [wordb hd]; [intuition congruence|]. rewrite negb_true_iff, N.eqb_neq. intuition congruence.
Qed.
Definition long_is (l : str) (a : arg) : bool := match a_long a with Some l' => str_eqb l' l | None => false end.
Definition alone (a : arg) : bool := match a_long a with Some _ => false | None => true end.
Fixpoint split_eq (s : str) : option (str * str) :=
  match s with
  | [] => None
  | c :: s' => if c =? 61 then Some ([], s') else match split_eq s' with Some (l, v) => Some (c :: l, v) | None => None end
  end.
Definition push (n : str) (v : option str) (m : option matches) : option matches := match m with Some m => Some ((n, v) :: m) | None => None end.
Fixpoint read (args : list arg) (ws : list str) : option matches :=
  match ws with
  | [] => Some []
  | w :: ws' =>
      match w with
      | 45 :: 45 :: rest =>
          match find (long_is rest) args with
          | Some a =>
              match a_value_name a with
              | None => push (a_name a) None (read args ws')
              | Some _ => match ws' with
                          | v :: ws'' => if wordb v then push (a_name a) (Some v) (read args ws'') else None
                          | [] => None
                          end
              end
          | None =>
              match split_eq rest with
              | Some (l, v) =>
                  match find (long_is l) args, v with
                  | Some a, _ :: _ => match a_value_name a with Some _ => push (a_name a) (Some v) (read args ws') | None => None end
                  | _, _ => None
                  end
              | None => None
              end
          end
      | _ => if wordb w then match find alone args with Some a => push (a_name a) (Some w) (read args ws') | None => None end else None
      end
  end.
Definition completeb (args : list arg) (m : matches) : bool :=
  nodupb (map fst m) && forallb (fun a => negb (a_required a) || existsb (fun e => str_eqb (fst e) (a_name a)) m) args.
Definition library (ap : clap_app) (words : list str) : reading :=
  match words with
  | n :: ws =>
      match find (fun k => str_eqb (k_name k) n) (ap_commands ap) with
      | Some k => match read (k_args k) ws with
                  | Some m => if completeb (k_args k) m then Matches (Some (n, m)) else Exits 1
                  | None => Exits 1
                  end
      | None => Exits 1
      end
  | [] => if ap_required ap then Exits 1 else Matches None
  end.

Lemma nodupb_complete l : NoDup l -> nodupb l = true.
Proof.
  induction 1 as [|x l Hx _ IH]; [reflexivity|]. cbn [nodupb]. rewrite IH, andb_true_r. apply negb_true_iff.
  destruct (existsb _ l) eqn:E; [|reflexivity]. apply existsb_exists in E as (y & Hy & E). apply str_eqb_eq in E. now subst.
Qed.
Lemma completeb_spec args m : completeb args m = true <-> complete args m.
Proof.
  unfold completeb, complete. rewrite andb_true_iff, forallb_forall. split; intros [H1 H2]; (split; [now (apply nodupb_spec || apply nodupb_complete)|]).
  - intros a Ha Hr. specialize (H2 a Ha). rewrite Hr in H2. cbn [negb orb] in H2. apply existsb_exists in H2 as (e & He & E). apply str_eqb_eq in E.
    apply in_map_iff. now exists e.
  - intros a Ha. destruct (a_required a) eqn:Hr; [|reflexivity]. cbn [negb orb]. specialize (H2 a Ha Hr). apply in_map_iff in H2 as (e & E & He).
    apply existsb_exists. exists e. split; [exact He|]. rewrite E. apply str_eqb_refl.
Qed.
Lemma find_long args a long : distinct_args args -> In a args -> a_long a = Some long -> find (long_is long) args = Some a.
Proof.
  intros (_ & Hd & _) Ha El. destruct (find (long_is long) args) as [b|] eqn:E.
  - apply find_some in E as [Hb E]. unfold long_is in E. destruct (a_long b) as [l|] eqn:Eb; [|discriminate]. apply str_eqb_eq in E. subst l.
    f_equal. apply Hd; [exact Hb|exact Ha|congruence].
  - exfalso. pose proof (find_none _ _ E a Ha) as H. unfold long_is in H. rewrite El, str_eqb_refl in H. discriminate H.
Qed.
Lemma find_long_none args long v : distinct_args args -> find (long_is (long ++ 61 :: v)) args = None.
Proof.
  intros (_ & _ & H3). destruct (find _ args) as [b|] eqn:E; [|reflexivity]. exfalso. apply find_some in E as [Hb E]. unfold long_is in E.
  destruct (a_long b) as [l|] eqn:Eb; [|discriminate]. apply str_eqb_eq in E. subst l. apply (H3 b _ Hb Eb). apply in_app_iff. right. now left.
Qed.
Lemma find_alone args a : distinct_args args -> In a args -> positional a -> find alone args = Some a.
Proof.
  intros (_ & Hd & _) Ha Hp. unfold positional in Hp. destruct (find alone args) as [b|] eqn:E.
  - apply find_some in E as [Hb E]. unfold alone in E. destruct (a_long b) as [l|] eqn:Eb; [discriminate|]. f_equal. apply Hd; [exact Hb|exact Ha|congruence].
  - exfalso. pose proof (find_none _ _ E a Ha) as H. unfold alone in H. rewrite Hp in H. discriminate H.
Qed.
Lemma split_eq_spec long v : ~ In 61 long -> split_eq (long ++ 61 :: v) = Some (long, v).
Proof.
  induction long as [|c l IH]; intros H; [reflexivity|]. cbn [app split_eq]. destruct (N.eqb_spec c 61) as [->|_]; [destruct H; now left|].
  rewrite IH; [reflexivity|]. intros Hin. apply H. now right.
Qed.
Lemma read_words args ws m : distinct_args args -> words_of args ws m -> read args ws = Some m.
Proof.
  intros Hd. induction 1 as [|a w ws m Ha Hp Hw _ IH|a long v ws m Ha (El & Ev) Hv _ IH|a long v ws m Ha (El & Ev) Hv _ IH|a long ws m Ha (El & Ev) _ IH].
  - reflexivity.
  - pose proof (find_alone args a Hd Ha Hp) as Ef. pose proof Hw as Hw'. apply wordb_spec in Hw'.
    assert (read args (w :: ws) = if wordb w then match find alone args with Some a => push (a_name a) (Some w) (read args ws) | None => None end else None) as ->.
    { destruct w as [|c w]; [reflexivity|]. destruct Hw as [_ Hw]. cbn [hd] in Hw. cbn [read].
      destruct c as [|p]; [reflexivity|]. repeat (destruct p as [p|p|]; try reflexivity; try congruence). }
    now rewrite Hw', Ef, IH.
  - change (txt "--" ++ long) with (45 :: 45 :: long). cbn [read]. rewrite (find_long args a long Hd Ha El). destruct (a_value_name a); [|congruence].
    rewrite (proj2 (wordb_spec v) Hv), IH. reflexivity.
  - change (txt "--" ++ long ++ txt "=" ++ v) with (45 :: 45 :: long ++ 61 :: v). cbn [read]. rewrite (find_long_none args long v Hd).
    rewrite split_eq_spec by (destruct Hd as (_ & _ & H3); now apply (H3 a)). rewrite (find_long args a long Hd Ha El). destruct v as [|c v]; [congruence|].
    destruct (a_value_name a); [|congruence]. rewrite IH. reflexivity.
  - change (txt "--" ++ long) with (45 :: 45 :: long). cbn [read]. rewrite (find_long args a long Hd Ha El), Ev, IH. reflexivity.
Qed.
Lemma read_declared args : forall n ws m, (length ws <= n)%nat -> read args ws = Some m -> declared_args args m.
Proof.
  assert (forall k v m a, push k v (Some m) = Some a -> a = (k, v) :: m) as Hpush by (intros; cbn in *; congruence).
  assert (forall a v m, In a args -> (v = None <-> exists long, flag_arg a long) -> declared_args args m -> declared_args args ((a_name a, v) :: m)) as Hcons.
  { intros a v m Ha Hv Hm k x [E|Hin]; [|now apply Hm]. injection E as <- <-. now exists a. }
  induction n as [|n IH]; intros [|w ws] m Hn E; try (cbn [length] in Hn; lia); try (cbn in E; injection E as <-; intros k v []).
  cbn [length] in Hn.
  assert (forall k v ws' , (length ws' <= n)%nat -> push k v (read args ws') = Some m -> exists m', m = (k, v) :: m' /\ declared_args args m') as Hr.
  { intros k v ws' Hl Hp. destruct (read args ws') as [m'|] eqn:Er; [|discriminate Hp]. exists m'. split; [now apply Hpush|now apply (IH ws')]. }
  assert (forall a l, find (long_is l) args = Some a -> In a args /\ a_long a = Some l) as Hf.
  { intros a l Ef. apply find_some in Ef as [Ha Ef]. split; [exact Ha|]. unfold long_is in Ef. destruct (a_long a) as [l'|]; [|discriminate Ef]. apply str_eqb_eq in Ef. now subst. }
  assert ((if wordb w then match find alone args with Some a => push (a_name a) (Some w) (read args ws) | None => None end else None) = Some m -> declared_args args m) as K1.
  { destruct (wordb w); [|discriminate]. destruct (find alone args) as [a|] eqn:Ef; [|discriminate]. intros H. apply Hr in H as (m' & -> & Hm); [|lia].
    apply find_some in Ef as [Ha Ef]. apply Hcons; [exact Ha| |exact Hm]. split; [discriminate|]. intros (long & El & _). unfold alone in Ef. rewrite El in Ef. discriminate Ef. }
  destruct w as [|c w]; [now apply K1|]. destruct (N.eqb_spec c 45) as [->|Hc].
  2:{ apply K1. rewrite <- E. cbn [read]. destruct c as [|p]; [reflexivity|]. repeat (destruct p as [p|p|]; try reflexivity; try congruence). }
  destruct w as [|c w]; [now apply K1|]. destruct (N.eqb_spec c 45) as [->|Hc].
  2:{ apply K1. rewrite <- E. cbn [read]. destruct c as [|p]; [reflexivity|]. repeat (destruct p as [p|p|]; try reflexivity; try congruence). }
  cbn [read] in E. destruct (find (long_is w) args) as [a|] eqn:Ef.
  - apply Hf in Ef as [Ha El]. destruct (a_value_name a) eqn:Ev.
    + destruct ws as [|v ws]; [discriminate E|]. destruct (wordb v); [|discriminate E]. cbn [length] in Hn. apply Hr in E as (m' & -> & Hm); [|lia].
      apply Hcons; [exact Ha| |exact Hm]. split; [discriminate|]. intros (long & _ & H). congruence.
    + apply Hr in E as (m' & -> & Hm); [|lia]. apply Hcons; [exact Ha| |exact Hm]. split; [|reflexivity]. intros _. now exists w.
  - destruct (split_eq w) as [[l v]|]; [|discriminate E]. destruct (find (long_is l) args) as [a|] eqn:Ef'; [|discriminate E]. destruct v as [|d v]; [discriminate E|].
    apply Hf in Ef' as [Ha El]. destruct (a_value_name a) eqn:Ev; [|discriminate E]. apply Hr in E as (m' & -> & Hm); [|lia].
    apply Hcons; [exact Ha| |exact Hm]. split; [discriminate|]. intros (long & _ & H). congruence.
Qed.
Example library_reads : reads_command_lines library.
Proof.
  constructor.
  - intros ap k words m Hn Hk Hd Hw Hc. exists m. split; [|reflexivity]. cbn [library].
    assert (find (fun x => str_eqb (k_name x) (k_name k)) (ap_commands ap) = Some k) as ->.
    { induction (ap_commands ap) as [|c cs IH]; [destruct Hk|]. cbn [map] in Hn. inversion_clear Hn as [|x y Hx Hy]. cbn [find]. destruct Hk as [->|Hk].
      - now rewrite str_eqb_refl.
      - destruct (str_eqb (k_name c) (k_name k)) eqn:E; [|now apply IH]. exfalso. apply str_eqb_eq in E. apply Hx. rewrite E. now apply in_map. }
    rewrite (read_words _ _ _ Hd Hw). now rewrite (proj2 (completeb_spec _ _) Hc).
  - intros ap [|n ws] m E Hr; cbn [library] in E.
    + rewrite Hr in E. discriminate E.
    + destruct (find _ _); [|discriminate E]. destruct (read _ _); [|discriminate E]. destruct (completeb _ _); [|discriminate E]. congruence.
  - intros ap [|n' ws] n m E; cbn [library] in E; [destruct (ap_required ap); discriminate E|].
    destruct (find _ _) as [k|] eqn:Ef; [|discriminate E]. destruct (read (k_args k) ws) as [m'|] eqn:Er; [|discriminate E].
    destruct (completeb (k_args k) m') eqn:Ec; [|discriminate E]. injection E as <- <-. apply find_some in Ef as [Hk Ef]. apply str_eqb_eq in Ef.
    exists k. split; [exact Hk|]. split; [exact Ef|]. split; [now apply completeb_spec|now apply (read_declared _ (length ws) ws)].
Qed.

(** ** Command lines *)
(** [typical generate --rust=out/types.rs types.t --list-schemas --typescript types.ts] *)
Definition a_line : list str :=
  [txt "generate"; txt "--rust=out/types.rs"; txt "types.t"; txt "--list-schemas"; txt "--typescript"; txt "types.ts"].
Example a_line_means : command_line a_line (Generate (txt "types.t") true (Some (txt "out/types.rs")) (Some (txt "types.ts"))).
Proof.
  constructor. apply (gw_rust_eq (txt "out/types.rs")); [discriminate|]. apply gw_schema; [split; discriminate|]. apply gw_list. apply gw_ts; [split; discriminate|]. apply gw_end.
Qed.
Example a_line_is_read : library cli a_line =
  Matches (Some (txt "generate", [(txt "rust", Some (txt "out/types.rs")); (txt "generate-path", Some (txt "types.t")); (txt "list-schemas", None); (txt "typescript", Some (txt "types.ts"))])).
Proof. vm_compute. reflexivity. Qed.
Example check_line_means : command_line [txt "format"; txt "--check"; txt "types.t"] (Format (txt "types.t") true).
Proof. constructor. apply fw_check. apply fw_schema; [split; discriminate|apply fw_end]. Qed.
Example no_schema_exits : library cli [txt "generate"; txt "--list-schemas"] = Exits 1.
Proof. reflexivity. Qed.
Example no_command_exits : library cli [] = Exits 1.
Proof. reflexivity. Qed.

(** ** Shells *)
Example ascii_no_lookalikes : no_lookalikes ascii_unicode.
Proof.
  intros t s Ht H. assert (forallb is_ascii (str_lower ascii_unicode t) = true) as K by (apply (letters_ascii _ _ H), shell_ascii).
  clear H. change (str_lower ascii_unicode t) with (map ascii_lower t) in K. induction t as [|c t IH]; [discriminate Ht|].
  cbn [map forallb] in *. apply andb_prop in K as [K1 K2]. destruct (is_ascii c) eqn:E; [cbn [andb] in Ht; auto|].
  unfold is_ascii, ascii_lower, ascii_is_upper in *. apply N.ltb_ge in E. apply N.ltb_lt in K1.
  destruct (N.leb_spec 65 c), (N.leb_spec c 90); cbn [andb] in K1; lia.
Qed.
Example spaces_and_case : names_shell ascii_unicode (txt "  powerSHELL ") PowerShell.
Proof. apply (variant_iff ascii_unicode (proj1 ascii_tables_sane) ascii_no_lookalikes). vm_compute. reflexivity. Qed.
Example no_shell : forall s, ~ names_shell ascii_unicode (txt "tcsh") s.
Proof. intros s H. apply (variant_iff ascii_unicode (proj1 ascii_tables_sane) ascii_no_lookalikes) in H. vm_compute in H. discriminate H. Qed.
Example completion_runs : forall pal grapheme stem works wrap version files_at texts_at parent,
  let run w := main ascii_unicode pal grapheme stem works wrap version files_at texts_at parent library [txt "shell-completion"; w] in
  run (txt "ZSH") = ([Script Zsh], 0) /\ run (txt "tcsh") = ([Deed (Say (txt "Unknown shell " ++ code_str pal (txt "tcsh") ++
    txt ". Must be one of Bash, Fish, Zsh, PowerShell, or Elvish."))], 1).
Proof.
  intros pal g stem works wrap version fa ta par run. split.
  - apply completion_command_line with (txt "ZSH"); [apply ascii_tables_sane|apply ascii_no_lookalikes|apply library_reads|constructor; split; discriminate|].
    apply (variant_iff ascii_unicode (proj1 ascii_tables_sane) ascii_no_lookalikes). vm_compute. reflexivity.
  - apply completion_command_line; [apply ascii_tables_sane|apply ascii_no_lookalikes|apply library_reads|constructor; split; discriminate|apply no_shell].
Qed.
