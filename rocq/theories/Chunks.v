(** The generated deserializer over a [BufRead] that delivers its bytes in arbitrary pieces, with the
    nested [Take] readers and the loops of [skip], [finish] and [read_exact] spelled out. Definitions
    only. RustCodec.v is the same code over a plain byte string; the two are proved equivalent (C23). *)
From Verif Require Export RustCodec.

(** A source with the given buffers still to come ([fill_buf] shows the first one), or
    [reader.take(limit)]. *)
Inductive reader :=
| RBase (chunks : list bytes)
| RTake (limit : N) (inner : reader).

(** [BufRead::fill_buf]; [Take::fill_buf] does not look at the inner reader once the limit is 0. *)
Fixpoint fill_buf (r : reader) : bytes :=
  match r with
  | RBase [] => []
  | RBase (c :: _) => c
  | RTake limit inner => if limit =? 0 then [] else takeN limit (fill_buf inner)
  end.

(** [BufRead::consume]; [Take::consume] clamps to the limit. *)
Fixpoint consume (n : N) (r : reader) : reader :=
  match r with
  | RBase [] => RBase []
  | RBase (c :: cs) => if lenN c <=? n then RBase cs else RBase (dropN n c :: cs)
  | RTake limit inner => let n := N.min n limit in RTake (limit - n) (consume n inner)
  end.

(** [Read::read] into a buffer of [n] bytes; [Take::read] clamps to the limit. *)
Fixpoint read (n : N) (r : reader) : bytes * reader :=
  match r with
  | RBase [] => ([], RBase [])
  | RBase (c :: cs) =>
      if lenN c <=? n then (c, RBase cs) else (takeN n c, RBase (dropN n c :: cs))
  | RTake limit inner =>
      if limit =? 0 then ([], r)
      else let (b, inner') := read (N.min n limit) inner in (b, RTake (limit - lenN b) inner')
  end.

(** Results; an error keeps the reader because the loops of the generated code go on after an
    [UnexpectedEof]. [COutOfFuel] means that a loop did not end within the given number of rounds. *)
Inductive cres (A : Type) :=
| COk (a : A) (r : reader)
| CErr (e : ekind) (r : reader)
| CPanic
| COutOfFuel.
Arguments COk {A}. Arguments CErr {A}. Arguments CPanic {A}. Arguments COutOfFuel {A}.

Definition cbind {A B} (x : cres A) (k : A -> reader -> cres B) : cres B :=
  match x with
  | COk a r => k a r
  | CErr e r => CErr e r
  | CPanic => CPanic
  | COutOfFuel => COutOfFuel
  end.
Definition cmap {A B} (f : A -> B) (x : cres A) : cres B := cbind x (fun a r => COk (f a) r).

(** [reader.take(sz)] borrows the reader; afterwards the borrowed reader goes on where the
    sub-reader stopped. *)
Definition untake (r : reader) : reader := match r with RTake _ inner => inner | RBase _ => r end.

(** std [default_read_exact]: read until the buffer is full; 0 bytes mean end of input. *)
Fixpoint cread_exact (fuel : nat) (n : N) (acc : bytes) (r : reader) : cres bytes :=
  match fuel with
  | O => COutOfFuel
  | S fuel' =>
      if n =? 0 then COk acc r
      else
        let (b, r') := read n r in
        match b with
        | [] => CErr EOF r'
        | _ => cread_exact fuel' (n - lenN b) (acc ++ b) r'
        end
  end.

(** [read_to_end] (also behind [read_to_string]): read until 0 bytes come. std asks for a varying
    number of bytes, at least 32 at a time. *)
Fixpoint cread_to_end (fuel : nat) (acc : bytes) (r : reader) : cres bytes :=
  match fuel with
  | O => COutOfFuel
  | S fuel' =>
      let (b, r') := read 32 r in
      match b with
      | [] => COk acc r'
      | _ => cread_to_end fuel' (acc ++ b) r'
      end
  end.

(** generate_rust.rs 364-373: [skip]. *)
Fixpoint cskip (fuel : nat) (amount : N) (r : reader) : cres unit :=
  match fuel with
  | O => COutOfFuel
  | S fuel' =>
      if amount =? 0 then COk tt r
      else
        let buffer := fill_buf r in
        let num_bytes_to_consume := N.min (lenN buffer) amount in
        cskip fuel' (amount - num_bytes_to_consume) (consume num_bytes_to_consume r)
  end.

(** generate_rust.rs 375-386: [finish]. *)
Fixpoint cfinish (fuel : nat) (r : reader) : cres unit :=
  match fuel with
  | O => COutOfFuel
  | S fuel' =>
      let buffer := fill_buf r in
      match buffer with
      | [] => COk tt r
      | _ => cfinish fuel' (consume (lenN buffer) r)
      end
  end.

Section WithFuel.
  (** Every loop below gets [F] rounds. *)
  Context (F : nat).

  (** generate_rust.rs 274-301: the arithmetic of [deserialize_varint] (as in RustPrim.v). *)
  Definition varint_of_parts (first_byte : N) (buf rest : bytes) : res N :=
    let size_minus_one := trailing_zeros first_byte in
    let rem := le_val buf in
    if size_minus_one =? 0 then Ok (shr first_byte 1) rest
    else if size_minus_one =? 1 then checked_add64 (128 + shr first_byte 2) (shl64 rem 6) rest
    else if size_minus_one =? 2 then checked_add64 (16512 + shr first_byte 3) (shl64 rem 5) rest
    else if size_minus_one =? 3 then
      checked_add64 (2113664 + shr first_byte 4) (shl64 rem 4) rest
    else if size_minus_one =? 4 then
      checked_add64 (270549120 + shr first_byte 5) (shl64 rem 3) rest
    else if size_minus_one =? 5 then
      checked_add64 (34630287488 + shr first_byte 6) (shl64 rem 2) rest
    else if size_minus_one =? 6 then
      checked_add64 (4432676798592 + shr first_byte 7) (shl64 rem 1) rest
    else if size_minus_one =? 7 then checked_add64 567382630219904 rem rest
    else Ok ((72624976668147840 + rem) mod two64) rest.

  Definition cret {A} (x : res A) (r : reader) : cres A :=
    match x with
    | Ok a _ => COk a r
    | Err e => CErr e r
    | Panic => CPanic
    | Diverge | OutOfFuel => COutOfFuel
    end.

  Definition cdeserialize_varint (r : reader) : cres N :=
    cbind (cread_exact F 1 [] r) (fun fb r1 =>
      let first_byte := nth 0 fb 0 in
      cbind (cread_exact F (trailing_zeros first_byte) [] r1) (fun buf r2 =>
        cret (varint_of_parts first_byte buf []) r2)).

  (** generate_rust.rs 338-362. *)
  Definition cdeserialize_field_header (r : reader) : cres (N * N) :=
    cbind (cdeserialize_varint r) (fun tag r1 =>
      let index := shr tag 2 in
      let mode := N.land tag 3 in
      if mode =? 0 then COk (index, 0) r1
      else if mode =? 1 then COk (index, 8) r1
      else if mode =? 2 then
        match fill_buf r1 with
        | [] => CErr EOF r1
        | b :: _ => COk (index, varint_size_from_first_byte b) r1
        end
      else cbind (cdeserialize_varint r1) (fun size r2 => COk (index, size) r2)).

  Definition cdec_u64 (is_field : bool) (payload_size : N) (r : reader) : cres N :=
    if is_field then
      if payload_size =? 0 then COk 0 r
      else if payload_size =? 8 then
        cbind (cread_exact F 8 [] r) (fun buf r' => COk (le_val buf) r')
      else cdeserialize_varint r
    else cdeserialize_varint r.

  Definition cdec_f64 (is_field : bool) (payload_size : N) (r : reader) : cres N :=
    if is_field && (payload_size =? 0) then COk 0 r
    else cbind (cread_exact F 8 [] r) (fun buf r' => COk (le_val buf) r').

  Definition creserve (lim bytes_needed : N) {A} (k : cres A) : cres A :=
    if lim <? bytes_needed then CPanic else k.

  (** generate_rust.rs 2173-2241. *)
  Fixpoint csmall_loop (fuel : nat) (element : reader -> cres val) (r : reader) : cres (list val) :=
    match fuel with
    | O => COutOfFuel
    | S fuel' =>
        match element r with
        | COk v r' => cmap (cons v) (csmall_loop fuel' element r')
        | CErr EOF r' => COk [] r'
        | CErr e r' => CErr e r'
        | CPanic => CPanic
        | COutOfFuel => COutOfFuel
        end
    end.

  (** generate_rust.rs 2125-2171. *)
  Fixpoint csized_loop (fuel : nat) (element : N -> reader -> cres val) (r : reader)
    : cres (list val) :=
    match fuel with
    | O => COutOfFuel
    | S fuel' =>
        match cdeserialize_varint r with
        | COk sz r1 =>
            cbind (element sz (RTake sz r1)) (fun v r2 =>
              cmap (cons v) (csized_loop fuel' element (untake r2)))
        | CErr EOF r' => COk [] r'
        | CErr e r' => CErr e r'
        | CPanic => CPanic
        | COutOfFuel => COutOfFuel
        end
    end.

  Definition cdecoder := N -> reader -> cres val.

  (** generate_rust.rs 839-903. *)
  Fixpoint cstruct_loop (fuel : nat) (ds : list (N * cdecoder)) (slots : list (N * val))
    (r : reader) : cres (list (N * val)) :=
    match fuel with
    | O => COutOfFuel
    | S fuel' =>
        match cdeserialize_field_header r with
        | COk (i, sz) r1 =>
            match assoc i ds with
            | Some d =>
                cbind (d sz (RTake sz r1)) (fun v r2 =>
                  cstruct_loop fuel' ds (get_or_insert i v slots) (untake r2))
            | None =>
                cbind (cskip F sz (RTake sz r1)) (fun _ r2 =>
                  cstruct_loop fuel' ds slots (untake r2))
            end
        | CErr EOF r' => COk slots r'
        | CErr e r' => CErr e r'
        | CPanic => CPanic
        | COutOfFuel => COutOfFuel
        end
    end.

  (** generate_rust.rs 1297-1376. *)
  Fixpoint cchoice_loop (fuel : nat) (ds : list (N * (rule * cdecoder))) (r : reader) : cres val :=
    match fuel with
    | O => COutOfFuel
    | S fuel' =>
        cbind (cdeserialize_field_header r) (fun hdr r1 =>
          let (i, sz) := hdr in
          match assoc i ds with
          | Some (ru, d) =>
              cbind (d sz (RTake sz r1)) (fun v r2 =>
                match ru with
                | Optional =>
                    cbind (cchoice_loop fuel' ds (untake r2)) (fun fb r3 =>
                      COk (VChoice i v (Some fb)) r3)
                | _ => cbind (cfinish F (untake r2)) (fun _ r3 => COk (VChoice i v None) r3)
                end)
          | None =>
              cbind (cskip F sz (RTake sz r1)) (fun _ r2 => cchoice_loop fuel' ds (untake r2))
          end)
    end.

  (** generate_rust.rs 2112-2395, 905-960. *)
  Fixpoint cdecode (lim : N) (t : ty) (is_field : bool) (payload_size : N) (r : reader) {struct t}
    : cres val :=
    match t with
    | TArray e =>
        match e with
        | TUnit => cmap VUnits (cdec_u64 is_field payload_size r)
        | TBool | TS64 | TU64 =>
            cmap VArr (csmall_loop F (fun r => cdecode lim e false 0 r) r)
        | TF64 =>
            creserve lim (8 * payload_size)
              (cmap VArr (csmall_loop F (fun r => cdecode lim e false 0 r) r))
        | _ => cmap VArr (csized_loop F (cdecode lim e false) r)
        end
    | TBool => cmap (fun n => VBool (negb (n =? 0))) (cdec_u64 is_field payload_size r)
    | TBytes => creserve lim payload_size (cmap VBytes (cread_to_end F [] r))
    | TF64 => cmap VF64 (cdec_f64 is_field payload_size r)
    | TS64 => cmap (fun n => VS64 (zigzag_decode n)) (cdec_u64 is_field payload_size r)
    | TString =>
        creserve lim payload_size
          (cbind (cread_to_end F [] r) (fun bs r' =>
             match utf8_decode bs with
             | Some s => COk (VString s) r'
             | None => CErr InvalidData r'
             end))
    | TU64 => cmap VU64 (cdec_u64 is_field payload_size r)
    | TUnit => COk VUnit r
    | TStruct fs =>
        cbind (cstruct_loop F (map (fun f => (f_index f, cdecode lim (f_type f) true)) fs) [] r)
          (fun slots r' =>
             if missing_required fs slots then CErr InvalidData r'
             else COk (VStruct (map (fun f => assoc (f_index f) slots) fs)) r')
    | TChoice fs =>
        cchoice_loop F (map (fun f => (f_index f, (f_rule f, cdecode lim (f_type f) true))) fs) r
    end.
End WithFuel.

(** The public [deserialize] on a source that delivers [chunks]. *)
Definition cdeserialize (fuel : nat) (lim : N) (t : ty) (chunks : list bytes) : cres val :=
  cdecode fuel lim t true (lenN (concat chunks)) (RBase chunks).
