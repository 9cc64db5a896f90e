(** What the commands should do. A specification. *)
From Verif Require Export Commands LoadSpec PrintSpec.

(** Trying effects one after the other, after those in [before]: all are tried and work, or the last one tried fails. *)
Inductive performs (works : list effect -> effect -> bool) : list effect -> list effect -> list effect -> bool -> Prop :=
| performs_done before : performs works before [] before true
| performs_works before e todo tried ok : works before e = true -> performs works (before ++ [e]) todo tried ok ->
    performs works before (e :: todo) tried ok
| performs_fails before e todo : works before e = false -> performs works before (e :: todo) (before ++ [e]) false.

(** The effects of writing one output file. *)
Definition output_effects (t : option target) (code : str) : list effect :=
  match t with
  | None => []
  | Some t => match t_parent t with Some dir => [MakeDir dir] | None => [] end ++ [Write (ToFile (t_file t)) code]
  end.
(** A file is formatted if printing its schema gives its contents. *)
Definition formatted (u : unicode) (stem : str -> option str) (wrap : N -> str -> list str) (f : lfile) : Prop :=
  lf_contents f = print_schema u stem wrap (lf_schema f).
(** The files that are not, in order, with what they should contain. *)
Inductive to_format (u : unicode) (stem : str -> option str) (wrap : N -> str -> list str) : list (namespace * lfile) -> list effect -> Prop :=
| tf_nil : to_format u stem wrap [] []
| tf_skip ns f l es : formatted u stem wrap f -> to_format u stem wrap l es -> to_format u stem wrap ((ns, f) :: l) es
| tf_write ns f l es : ~ formatted u stem wrap f -> to_format u stem wrap l es ->
    to_format u stem wrap ((ns, f) :: l) (Write (ToSchema (lf_path f)) (print_schema u stem wrap (lf_schema f)) :: es).

(** The files after effects that worked. *)
Fixpoint path_eqb (a b : path) : bool :=
  match a, b with
  | [], [] => true
  | x :: a', y :: b' => str_eqb x y && path_eqb a' b'
  | _, _ => false
  end.
Definition after_effect (fs : files) (e : effect) : files :=
  match e with
  | Write (ToSchema p) contents =>
      mkFiles (fs_main fs) (fun q => if path_eqb q p then Some contents else fs_read fs q) (fs_locate fs) (fs_entries fs)
  | _ => fs
  end.
Definition after (fs : files) (es : list effect) : files := fold_left after_effect es fs.
