(** Model of the code that [write_schema] in /repo/src/generate_rust.rs emits for a declaration,
    as an interpreter over the type. Definitions only. *)
From Verif Require Export RustPrim Types.

(** The generated [...Atlas] types (generate_rust.rs 1608-1718 [write_type] in direction [Atlas]):
    a size, or a size with the atlases of the parts. *)
Inductive atlas :=
| ASize (n : N)
| AArr (n : N) (elements : list atlas)
| AStruct (n : N) (fields : list (option atlas))
| AChoice (i : N) (n : N) (payload : atlas) (fallback : option atlas).

(** generate_rust.rs 1919-1949: [write_atlas_lookup] ([.0], [*payload_atlas] or [.size()]). *)
Definition atlas_lookup (a : atlas) : N :=
  match a with ASize n => n | AArr n _ => n | AStruct n _ => n | AChoice _ n _ _ => n end.

(** generate_rust.rs 1886-1905: the [U64] case of [write_atlas_calculation]. *)
Definition atlas_u64 (is_field : bool) (n : N) : N :=
  if is_field then
    if n =? 0 then 0
    else if n <=? 567382630219903 then varint_size_from_value n
    else 8
  else varint_size_from_value n.

Definition omap {A B} (f : A -> B) (o : option A) : option B :=
  match o with Some a => Some (f a) | None => None end.

(** generate_rust.rs 1815-1911 [write_atlas_calculation], 676-735 (struct [atlas]) and 1104-1186
    (choice [atlas]). The sums are over unbounded [N]: a [usize] overflow would need a message of
    2^64 bytes. The cases where value and type disagree cannot occur in Rust. *)
Fixpoint calc_atlas (is_field : bool) (v : val) (t : ty) {struct v} : atlas :=
  match v, t with
  | VUnits n, TArray TUnit => ASize (atlas_u64 is_field n)
  | VArr vs, TArray e =>
      match e with
      | TBool | TS64 | TU64 =>
          ASize (fold_left (fun x v => x + atlas_lookup (calc_atlas false v e)) vs 0)
      | TF64 => ASize (8 * lenN vs)
      | _ =>
          let atlases := map (fun v => calc_atlas false v e) vs in
          AArr (fold_left (fun x a => x + varint_size_from_value (atlas_lookup a) + atlas_lookup a)
                  atlases 0) atlases
      end
  | VBool b, TBool => ASize (if is_field then (if b then 1 else 0) else 1)
  | VBytes bs, TBytes => ASize (lenN bs)
  | VString s, TString => ASize (lenN (utf8_encode s))
  | VF64 b, TF64 => ASize (if is_field then (if b =? 0 then 0 else 8) else 8)
  | VS64 z, TS64 => ASize (atlas_u64 is_field (zigzag_encode z))
  | VU64 n, TU64 => ASize (atlas_u64 is_field n)
  | VStruct ovs, TStruct fs =>
      let atlases := map2 (fun ov f => match ov with
                             | Some v => Some (calc_atlas true v (f_type f))
                             | None => None
                             end) ovs fs in
      AStruct (fold_left N.add
        (map2 (fun f oa => match oa with
           | Some a => field_header_size (f_index f) (atlas_lookup a) (integer_encoded (f_type f))
                       + atlas_lookup a
           | None => 0
           end) fs atlases) 0) atlases
  | VChoice i p fb, TChoice fs =>
      match find_field i fs with
      | None => ASize 0
      | Some f =>
          let pa := calc_atlas true p (f_type f) in
          let sz := field_header_size (f_index f) (atlas_lookup pa) (integer_encoded (f_type f))
                    + atlas_lookup pa in
          match f_rule f, fb with
          | Required, _ => AChoice i sz pa None
          | _, Some v' => let fa := calc_atlas true v' t in
                          AChoice i (sz + atlas_lookup fa) pa (Some fa)
          | _, None => ASize 0
          end
      end
  | _, _ => ASize 0
  end.

(** generate_rust.rs 2076-2110: [write_u64_serialization_invocation]. *)
Definition ser_u64 (is_field : bool) (varint : N) : bytes :=
  if is_field then
    if varint =? 0 then []
    else if varint <=? 567382630219903 then serialize_varint varint
    else le_bytes 8 varint
  else serialize_varint varint.

(** Sequencing of writes; [None] is a panic. *)
Fixpoint cat_opt (l : list (option bytes)) : option bytes :=
  match l with
  | [] => Some []
  | Some b :: l' => match cat_opt l' with Some b' => Some (b ++ b') | None => None end
  | None :: _ => None
  end.
Definition app_opt (a b : option bytes) : option bytes := cat_opt [a; b].

(** generate_rust.rs 1951-2074 [write_serialization_invocation], 736-807 (struct
    [serialize_with_atlas]) and 1187-1275 (choice [serialize_with_atlas], whose last arm is
    [(_, _) => panic!()]). The result is the sequence of bytes written, or [None] for the panic
    (and for disagreements of value, type and atlas shape that Rust's typing excludes). *)
Fixpoint ser (is_field : bool) (v : val) (t : ty) (a : atlas) {struct v} : option bytes :=
  match v, t with
  | VUnits n, TArray TUnit => Some (ser_u64 is_field n)
  | VArr vs, TArray e =>
      match e with
      | TBool | TS64 | TU64 | TF64 => cat_opt (map (fun v => ser false v e a) vs)
      | _ =>
          match a with
          | AArr _ atlases =>
              cat_opt (map2 (fun v pa =>
                app_opt (Some (serialize_varint (atlas_lookup pa))) (ser false v e pa)) vs atlases)
          | _ => None
          end
      end
  | VBool b, TBool => Some (ser_u64 is_field (if b then 1 else 0))
  | VBytes bs, TBytes => Some bs
  | VString s, TString => Some (utf8_encode s)
  | VF64 b, TF64 => Some (if is_field then (if negb (b =? 0) then le_bytes 8 b else [])
                          else le_bytes 8 b)
  | VS64 z, TS64 => Some (ser_u64 is_field (zigzag_encode z))
  | VU64 n, TU64 => Some (ser_u64 is_field n)
  | VUnit, TUnit => Some []
  | VStruct ovs, TStruct fs =>
      match a with
      | AStruct _ atlases =>
          cat_opt (map2 (fun ov fa => match ov, snd fa with
            | Some v, Some pa =>
                app_opt (Some (serialize_field_header (f_index (fst fa)) (atlas_lookup pa)
                                 (integer_encoded (f_type (fst fa)))))
                        (ser true v (f_type (fst fa)) pa)
            | _, _ => Some []
            end) ovs (combine fs atlases))
      | _ => None
      end
  | VChoice i p fb, TChoice fs =>
      match find_field i fs, a with
      | Some f, AChoice j _ pa fa =>
          if i =? j then
            app_opt
              (app_opt (Some (serialize_field_header (f_index f) (atlas_lookup pa)
                                (integer_encoded (f_type f))))
                       (ser true p (f_type f) pa))
              (match f_rule f, fb, fa with
               | Required, _, _ => Some []
               | _, Some v', Some a' => ser true v' t a'
               | _, _, _ => None
               end)
          else None
      | _, _ => None
      end
  | _, _ => None
  end.

(** generate_rust.rs 1564-1590 [write_size_function] and [write_serialize_function]. *)
Definition size (v : val) (t : ty) : N := atlas_lookup (calc_atlas true v t).
Definition serialize (v : val) (t : ty) : option bytes := ser true v t (calc_atlas true v t).

(** ** Deserialization (generate_rust.rs 2112-2395 [write_deserialization_invocation]). *)

(** The [U64] case. *)
Definition dec_u64 (is_field : bool) (payload_size : N) (bs : bytes) : res N :=
  if is_field then
    if payload_size =? 0 then Ok 0 bs
    else if payload_size =? 8 then bindr (read_exact 8 bs) (fun buf rest => Ok (le_val buf) rest)
    else deserialize_varint bs
  else deserialize_varint bs.

(** The [F64] case. *)
Definition dec_f64 (is_field : bool) (payload_size : N) (bs : bytes) : res N :=
  if is_field && (payload_size =? 0) then Ok 0 bs
  else bindr (read_exact 8 bs) (fun buf rest => Ok (le_val buf) rest).

(** [reserve_exact] panics with "capacity overflow" (or the allocator aborts) when more than [lim]
    bytes are requested; on a 64-bit target [lim] is at most [isize::MAX] = 2^63-1. *)
Definition isize_max : N := 9223372036854775807.
Definition reserve (lim bytes_needed : N) {A} (k : res A) : res A :=
  if lim <? bytes_needed then Panic else k.

(** 2173-2241: arrays of [Bool]/[F64]/[S64]/[U64]: [loop] until an element read hits end of
    input. *)
Fixpoint small_loop (fuel : nat) (element : bytes -> res val) (bs : bytes) : res (list val) :=
  match fuel with
  | O => OutOfFuel
  | S fuel' =>
      match element bs with
      | Ok v rest => mapr (cons v) (small_loop fuel' element rest)
      | Err EOF => Ok [] []
      | Err e => Err e
      | Panic => Panic
      | Diverge => Diverge
      | OutOfFuel => OutOfFuel
      end
  end.

(** 2125-2171: arrays of sized elements. The element is decoded from a reader limited to its
    declared size; what it leaves unread stays in the array's own reader. *)
Fixpoint sized_loop (fuel : nat) (element : N -> bytes -> res val) (bs : bytes)
  : res (list val) :=
  match fuel with
  | O => OutOfFuel
  | S fuel' =>
      match deserialize_varint bs with
      | Ok sz rest =>
          bindr (element sz (takeN sz rest)) (fun v left =>
            mapr (cons v) (sized_loop fuel' element (left ++ dropN sz rest)))
      | Err EOF => Ok [] []
      | Err e => Err e
      | Panic => Panic
      | Diverge => Diverge
      | OutOfFuel => OutOfFuel
      end
  end.

Definition decoder := N -> bytes -> res val.

Fixpoint assoc {A} (i : N) (l : list (N * A)) : option A :=
  match l with
  | [] => None
  | (j, a) :: l' => if j =? i then Some a else assoc i l'
  end.

(** [get_or_insert]: the first occurrence of a field wins (generate_rust.rs 888). *)
Definition get_or_insert (i : N) (v : val) (slots : list (N * val)) : list (N * val) :=
  match assoc i slots with Some _ => slots | None => slots ++ [(i, v)] end.

(** 839-903: the loop of a struct's [deserialize_from_reader_ref]. [slots] are the local variables
    [_field: Option<...>], keyed by field index. *)
Fixpoint struct_loop (fuel : nat) (ds : list (N * decoder)) (slots : list (N * val)) (bs : bytes)
  : res (list (N * val)) :=
  match fuel with
  | O => OutOfFuel
  | S fuel' =>
      match deserialize_field_header bs with
      | Ok (i, sz) rest =>
          match assoc i ds with
          | Some d =>
              bindr (d sz (takeN sz rest)) (fun v left =>
                struct_loop fuel' ds (get_or_insert i v slots) (left ++ dropN sz rest))
          | None =>
              bindr (skip sz (takeN sz rest)) (fun _ left =>
                struct_loop fuel' ds slots (left ++ dropN sz rest))
          end
      | Err EOF => Ok slots []
      | Err e => Err e
      | Panic => Panic
      | Diverge => Diverge
      | OutOfFuel => OutOfFuel
      end
  end.

(** 1297-1376: the loop of a choice's [deserialize_from_reader_ref]; the fallback of an optional
    case is read by a recursive call on the same reader. *)
Fixpoint choice_loop (fuel : nat) (ds : list (N * (rule * decoder))) (bs : bytes) : res val :=
  match fuel with
  | O => OutOfFuel
  | S fuel' =>
      bindr (deserialize_field_header bs) (fun hdr rest =>
        let (i, sz) := hdr in
        match assoc i ds with
        | Some (r, d) =>
            bindr (d sz (takeN sz rest)) (fun v left =>
              let rest' := left ++ dropN sz rest in
              match r with
              | Optional =>
                  bindr (choice_loop fuel' ds rest') (fun fb rest2 =>
                    Ok (VChoice i v (Some fb)) rest2)
              | _ => bindr (finish rest') (fun _ rest2 => Ok (VChoice i v None) rest2)
              end)
        | None =>
            bindr (skip sz (takeN sz rest)) (fun _ left =>
              choice_loop fuel' ds (left ++ dropN sz rest))
        end)
  end.

(** 905-960: the required-fields check and the assembly of the message. *)
Definition is_required (r : rule) : bool := match r with Required => true | _ => false end.
Definition missing_required (fs : list (field_of ty)) (slots : list (N * val)) : bool :=
  existsb (fun f => is_required (f_rule f) &&
                    match assoc (f_index f) slots with Some _ => false | None => true end) fs.

Fixpoint decode (lim : N) (t : ty) (is_field : bool) (payload_size : N) (bs : bytes) {struct t}
  : res val :=
  match t with
  | TArray e =>
      match e with
      | TUnit => mapr VUnits (dec_u64 is_field payload_size bs)
      | TBool | TS64 | TU64 =>
          mapr VArr (small_loop (S (length bs)) (fun bs => decode lim e false 0 bs) bs)
      | TF64 =>
          reserve lim (8 * payload_size)
            (mapr VArr (small_loop (S (length bs)) (fun bs => decode lim e false 0 bs) bs))
      | _ => mapr VArr (sized_loop (S (length bs)) (decode lim e false) bs)
      end
  | TBool => mapr (fun n => VBool (negb (n =? 0))) (dec_u64 is_field payload_size bs)
  | TBytes => reserve lim payload_size (Ok (VBytes bs) [])
  | TF64 => mapr VF64 (dec_f64 is_field payload_size bs)
  | TS64 => mapr (fun n => VS64 (zigzag_decode n)) (dec_u64 is_field payload_size bs)
  | TString =>
      reserve lim payload_size
        (match utf8_decode bs with
         | Some s => Ok (VString s) []
         | None => Err InvalidData
         end)
  | TU64 => mapr VU64 (dec_u64 is_field payload_size bs)
  | TUnit => Ok VUnit bs
  | TStruct fs =>
      bindr (struct_loop (S (length bs))
               (map (fun f => (f_index f, decode lim (f_type f) true)) fs) [] bs)
        (fun slots rest =>
           if missing_required fs slots then Err InvalidData
           else Ok (VStruct (map (fun f => assoc (f_index f) slots) fs)) rest)
  | TChoice fs =>
      choice_loop (S (length bs))
        (map (fun f => (f_index f, (f_rule f, decode lim (f_type f) true))) fs) bs
  end.

(** generate_rust.rs 1592-1606 [write_deserialize_function]: the public entry point; for a message
    type [is_field] and [payload_size] are irrelevant. *)
Definition deserialize (lim : N) (t : ty) (bs : bytes) : res val := decode lim t true (lenN bs) bs.
