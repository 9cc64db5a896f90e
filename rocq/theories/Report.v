(** Model of the reporting of errors: /repo/src/error.rs, error_merger.rs, count.rs, format.rs. Definitions only.

    Colours: [paint] is what the crate [colored] does when the output is colourized ([None]: it is not, as in a pipe; then
    the text is left alone). A source range is a pair of byte offsets. [None] as a result is a panic (a slice that does not
    begin and end at characters of the string, or that ends before it begins). *)
From Verif Require Export Tokenizer Printer.

Inductive colour := Blue | BlueBold | Red | RedBold | Magenta.
Definition palette := option (colour -> str -> str).
Definition paint (p : palette) (c : colour) (s : str) : str := match p with None => s | Some f => f c s end.

(** format.rs 10-20: [code_str]. *)
Definition code_str (p : palette) (s : str) : str :=
  match p with Some f => f Magenta s | None => 96 :: s ++ [96] end.

(** count.rs 3-9. *)
Definition count (n : N) (noun : str) : str :=
  if n =? 1 then print_number n ++ [32] ++ noun else print_number n ++ [32] ++ noun ++ txt "s".

(** error.rs 93-96: [SourceRange]. *)
Record srange := mkRange { r_start : N; r_end : N }.

(** [str::trim_end], and [str::find] of the first character that is not white space. *)
Definition trim_end (u : unicode) (s : str) : str := rev (trim_start u (rev s)).
Fixpoint find_text (u : unicode) (s : str) : option N :=
  match s with
  | [] => None
  | c :: s' =>
      if is_whitespace u c then match find_text u s' with Some o => Some (clen c + o) | None => None end
      else Some 0
  end.
(** The two parts of a string at a byte offset; [None] if there is no character boundary. *)
Fixpoint cut (b : N) (s : str) : option (str * str) :=
  if b =? 0 then Some ([], s)
  else match s with
       | [] => None
       | c :: s' => if clen c <=? b then match cut (b - clen c) s' with Some (x, y) => Some (c :: x, y) | None => None end
                    else None
       end.

(** What the loop at error.rs 107-150 pushes: line number, trimmed line, section. *)
Record lline := mkLine { ll_number : str; ll_text : str; ll_from : N; ll_to : N }.
(** error.rs 107-150: the loop; [i] is the index of the first line and [pos] its offset. *)
Fixpoint relevant (u : unicode) (r : srange) (i pos : N) (ls : list str) : list lline :=
  match ls with
  | [] => []
  | line :: ls' =>
      let line_start := pos in
      let pos' := pos + blen line + 1 in
      if r_end r <=? line_start then []
      else if pos' <=? r_start r then relevant u r (i + 1) pos' ls'
      else
        let t := trim_end u line in
        let section :=
          if line_start <? r_start r
          then (N.min (r_start r - line_start) (blen t), N.min (r_end r - line_start) (blen t))
          else
            let e := N.min (r_end r - line_start) (blen t) in
            (match find_text u t with Some o => o | None => e end, e) in
        mkLine (print_number (i + 1)) t (fst section) (snd section) :: relevant u r (i + 1) pos' ls'
  end.
(** error.rs 153-155: [gutter_width]; the numbers are ASCII. *)
Definition gutter_width (ls : list lline) : N := fold_left (fun acc l => N.max acc (lenN (ll_number l))) ls 0.
(** [" ".repeat(n)]. *)
Definition copies (c n : N) : str := repeat c (N.to_nat n).
(** error.rs 164-204: a line of the listing; [last]: [i == lines.len() - 1]. [PadStr::pad] puts spaces on the left; 9474
    is the vertical bar, 9482 the dotted one, 8254 the overline. *)
Definition render (p : palette) (width : N) (last : bool) (l : lline) : option str :=
  match cut (ll_to l) (ll_text l) with
  | None => None
  | Some (before, post) =>
      match cut (ll_from l) before with
      | None => None
      | Some (pre, mid) =>
          Some (paint p BlueBold (copies 32 (width - lenN (ll_number l)) ++ ll_number l ++ [32; 9474; 32]) ++
                pre ++ paint p Red mid ++ post ++
                match p with
                | Some _ => []
                | None =>
                    if ll_from l =? ll_to l
                    then [10] ++ copies 32 width ++ [32] ++ (if last then [32] else [9482])
                    else [10] ++ copies 32 width ++ [32] ++ (if last then [32] else [9482]) ++ [32] ++
                         copies 32 (ll_from l) ++ copies 8254 (ll_to l - ll_from l)
                end)
      end
  end.
Fixpoint render_all (p : palette) (width : N) (ls : list lline) : option (list str) :=
  match ls with
  | [] => Some []
  | l :: ls' =>
      match render p width (negb (is_nonempty ls')) l, render_all p width ls' with
      | Some t, Some ts => Some (t :: ts)
      | _, _ => None
      end
  end.
(** error.rs 101-207: [listing]. *)
Definition listing (u : unicode) (p : palette) (contents : str) (r : srange) : option str :=
  let ls := relevant u r 0 0 (split_on 10 contents) in
  match render_all p (gutter_width ls) ls with
  | Some ts => Some (join [10] ts)
  | None => None
  end.

(** error.rs 14-18: [Error]; the reason is its text. *)
Record error := mkError { e_message : str; e_reason : option str }.
(** error.rs 20-34: [Display for Error]. *)
Definition display (p : palette) (e : error) : str :=
  match e_reason e with
  | Some reason => e_message e ++ [10; 10] ++ paint p BlueBold (txt "Reason:") ++ [32] ++ reason
  | None => e_message e
  end.
(** error.rs 43-87: [throw]; [path] is the text of the path. *)
Definition throw (p : palette) (message : str) (path : option str) (listing : option str) (reason : option str) : error :=
  mkError (paint p RedBold (txt "[Error]") ++ [32] ++
           match path with
           | Some path => paint p Magenta (txt "[" ++ code_str p path ++ txt "]") ++ [32] ++ message
           | None => message
           end ++
           match listing with
           | Some (c :: l) => [10; 10] ++ c :: l
           | _ => []
           end) reason.

(** error_merger.rs 4-32: [merge_errors]; 8254 is the overline. *)
Definition looks_empty (acc : str) : bool := forallb (fun c => (c =? 32) || (c =? 8254)) (last (split_on 10 acc) []).
Definition merge_errors (u : unicode) (p : palette) (es : list error) : error :=
  mkError (trim u (fold_left (fun acc e => acc ++ [10] ++ (if looks_empty acc then [] else [10]) ++ display p e) es [])) None.
