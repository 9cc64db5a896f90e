(** What the listing of a source range shows. A specification, independent of how error.rs computes it. *)
From Coq Require Export Sorting.Sorted.
From Verif Require Export Report TokenSpec.

(** A line of a file: its number (from 1), the byte offset of its start, and its text without the line break. *)
Record row := mkRow { w_number : N; w_offset : N; w_line : str }.
Definition newlines (s : str) : N := N.of_nat (count_occ N.eq_dec s 10).
Definition line_of (contents : str) (w : row) : Prop :=
  exists before after, contents = before ++ w_line w ++ after /\ no_newline (w_line w) /\
    (before = [] \/ exists b, before = b ++ [10]) /\ (after = [] \/ exists a, after = 10 :: a) /\
    w_offset w = lenN (utf8_encode before) /\ w_number w = 1 + newlines before.

(** A range of text: [a], then the text [b] at the range, then [c]. *)
Definition spans (contents : str) (r : srange) (a b c : str) : Prop :=
  contents = a ++ b ++ c /\ r_start r = lenN (utf8_encode a) /\ r_end r = lenN (utf8_encode a) + lenN (utf8_encode b).
(** A range at a piece of text that starts with a visible character and whose last line has one; or an empty range. *)
Definition good_range (u : unicode) (contents : str) (r : srange) : Prop :=
  exists a b c, spans contents r a b c /\
    (b = [] \/ (is_whitespace u (hd 0 b) = false /\
                exists x v y, b = x ++ v :: y /\ is_whitespace u v = false /\ no_newline y)).

(** The lines shown: those that the range touches. *)
Definition touches (r : srange) (w : row) : Prop :=
  w_offset w < r_end r /\ r_start r <= w_offset w + lenN (utf8_encode (w_line w)).
Definition rows_of (contents : str) (r : srange) (ws : list row) : Prop :=
  StronglySorted (fun v w => w_number v < w_number w) ws /\
  forall w, In w ws <-> line_of contents w /\ touches r w.

(** A byte of the line is marked if the character it belongs to lies in the range, and not in the white space at one of
    the ends of the line. *)
Definition marked (u : unicode) (r : srange) (w : row) (j : N) : Prop :=
  exists x c y, w_line w = x ++ c :: y /\
    lenN (utf8_encode x) <= j < lenN (utf8_encode (x ++ [c])) /\
    r_start r <= w_offset w + lenN (utf8_encode x) < r_end r /\
    ~ whites u (x ++ [c]) /\ ~ whites u (c :: y).
(** The row of overlines (U+203E) below a line. *)
Definition marks (u : unicode) (r : srange) (w : row) (m : str) : Prop :=
  (forall j, nth_error m (N.to_nat j) = Some 8254 <-> marked u r w j) /\
  Forall (fun c => c = 32 \/ c = 8254) m /\ (m = [] \/ last m 0 = 8254).

(** A line is shown without the white space at its end, after its number, which is aligned to the right in [width]
    columns, and a bar; the marks are below it. *)
Definition shows (u : unicode) (r : srange) (width : nat) (last_row : bool) (w : row) (text : str) : Prop :=
  exists number t ws m,
    decimal number (w_number w) /\ (forall s, number <> 48 :: s) /\
    w_line w = t ++ ws /\ whites u ws /\ (t = [] \/ is_whitespace u (last t 0) = false) /\
    marks u r w m /\
    text = repeat 32 (width - length number) ++ number ++ [32; 9474; 32] ++ t ++
           [10] ++ repeat 32 width ++ [32; if last_row then 32 else 9482] ++ match m with [] => [] | _ => 32 :: m end.
Inductive all_shown (u : unicode) (r : srange) (width : nat) : list row -> list str -> Prop :=
| shown_none : all_shown u r width [] []
| shown_more w ws t ts : shows u r width (match ws with [] => true | _ => false end) w t -> all_shown u r width ws ts ->
    all_shown u r width (w :: ws) (t :: ts).
(** The number of columns that the largest line number takes. *)
Definition widest (ws : list row) (width : nat) : Prop :=
  (forall w number, In w ws -> decimal number (w_number w) -> (forall s, number <> 48 :: s) -> (length number <= width)%nat) /\
  (ws = [] \/ exists w number, In w ws /\ decimal number (w_number w) /\ (forall s, number <> 48 :: s) /\ length number = width).

(** The listing of a range, without colours. *)
Definition lists (u : unicode) (contents : str) (r : srange) (text : str) : Prop :=
  exists ws width ts, rows_of contents r ws /\ widest ws width /\ all_shown u r width ws ts /\ text = separated 10 ts.
