(** A simple file system, as an instance of the one in Loader: files given by their paths and contents, without symbolic
    links. Only used for examples. *)
From Verif Require Import IdentFacts.
From Verif Require Export LoadSpec CommandSpec.

(** The components of a path, without those that mean nothing. *)
Definition components (p : str) : list str :=
  filter (fun c => negb (str_eqb c [] || str_eqb c (txt "."))) (split_on 47 p).
(** [Path::file_stem]. *)
Definition plain_stem (p : str) : option str :=
  match rev (components p) with
  | [] => None
  | c :: _ => if str_eqb c (txt "..") then None else Some (without_extension c)
  end.
(** Following a path from a directory. *)
Fixpoint follow (dir : path) (cs : list str) : option path :=
  match cs with
  | [] => Some dir
  | c :: cs' => if str_eqb c (txt "..") then match dir with [] => None | _ => follow (removelast dir) cs' end else follow (dir ++ [c]) cs'
  end.
Fixpoint lookup_file (p : path) (l : list (path * str)) : option str :=
  match l with
  | [] => None
  | (q, c) :: l' => if path_eqb p q then Some c else lookup_file p l'
  end.
Definition plain_files (main : str) (l : list (path * str)) : files :=
  mkFiles (Some main) (fun p => lookup_file p l)
    (fun dir import =>
       if hd 0 import =? 47 then Outside
       else match follow dir (components import) with
            | None => Outside
            | Some p => match lookup_file p l with Some _ => At p | None => Missing end
            end)
    (map fst l).
Lemma lookup_file_in p l c : lookup_file p l = Some c -> exists q, In (q, c) l /\ path_eqb p q = true.
Proof.
  induction l as [|[q c'] l IH]; [discriminate|]. cbn [lookup_file]. destruct (path_eqb p q) eqn:E.
  - intros [= ->]. exists q. split; [now left|exact E].
  - intros H. destruct (IH H) as (q' & A & B). exists q'. split; [now right|exact B].
Qed.
Lemma path_eqb_true a : forall b, path_eqb a b = true -> a = b.
Proof.
  induction a as [|x a IH]; intros [|y b]; cbn [path_eqb]; intros H; try discriminate H; auto.
  apply andb_true_iff in H as [H1 H2]. apply str_eqb_eq in H1. apply IH in H2. congruence.
Qed.
Lemma plain_files_ok u main l : Forall (fun e => fst e <> [] /\ text_namespace (namespace_of u (fst e))) l ->
  text_namespace (namespace_of u [main]) -> files_ok u (plain_files main l).
Proof.
  intros H Hm. rewrite Forall_forall in H. constructor; cbn [plain_files fs_read fs_locate fs_entries fs_main].
  - destruct (lookup_file [] l) as [c|] eqn:E; [|reflexivity]. exfalso. apply lookup_file_in in E as (q & A & B). apply path_eqb_true in B. subst q.
    now destruct (H _ A) as [K _].
  - intros dir import q E. assert (exists p, lookup_file p l <> None /\ q = p) as (p & A & ->).
    { destruct (hd 0 import =? 47); [discriminate E|]. destruct (follow dir (components import)) as [p|]; [|discriminate E].
      destruct (lookup_file p l) as [c|] eqn:F; [|discriminate E]. injection E as <-. exists p. split; [congruence|reflexivity]. }
    destruct (lookup_file p l) as [c|] eqn:E2; [|congruence]. apply lookup_file_in in E2 as (q & B & C). apply path_eqb_true in C. subst q.
    apply in_map_iff. now exists (p, c).
  - intros q Hin. apply in_map_iff in Hin as (e & <- & Hin). now apply H.
  - now intros name [= <-].
Qed.
Lemma text_namespace_check ns : forallb (fun i => forallb (fun c => c <? 55296) (snake_case i)) ns = true -> text_namespace ns.
Proof.
  intros H. rewrite forallb_forall in H. apply Forall_forall. intros i Hi. specialize (H i Hi). rewrite forallb_forall in H.
  apply Forall_forall. intros c Hc. left. apply N.ltb_lt. now apply H.
Qed.
Ltac text_ns := apply text_namespace_check; vm_compute; reflexivity.
