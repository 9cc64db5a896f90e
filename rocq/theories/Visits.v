(** Which parts of the input the generated deserializer gets to. Used to state when it panics (C20) and
    when it does not terminate (C21). *)
From Verif Require Export RustCodec.

(** [visits lim t isf psz bs t' isf' psz' bs']: while decoding a [t] of declared size [psz] from the
    bytes [bs], the decoder starts (or resumes) decoding a [t'] of declared size [psz'] from [bs'].
    For structs, choices and arrays there is one step per field or element: skip an unknown field,
    enter a known one, or go on after it. *)
Inductive visits (lim : N) :
  ty -> bool -> N -> bytes -> ty -> bool -> N -> bytes -> Prop :=
| visit_here t isf psz bs : visits lim t isf psz bs t isf psz bs
| visit_struct_skip fs isf psz bs i sz rest t' isf' psz' bs' :
    deserialize_field_header bs = Ok (i, sz) rest -> find_field i fs = None -> sz <= lenN rest ->
    visits lim (TStruct fs) isf psz (dropN sz rest) t' isf' psz' bs' ->
    visits lim (TStruct fs) isf psz bs t' isf' psz' bs'
| visit_struct_field fs isf psz bs i sz rest f t' isf' psz' bs' :
    deserialize_field_header bs = Ok (i, sz) rest -> find_field i fs = Some f ->
    visits lim (f_type f) true sz (takeN sz rest) t' isf' psz' bs' ->
    visits lim (TStruct fs) isf psz bs t' isf' psz' bs'
| visit_struct_next fs isf psz bs i sz rest f v left t' isf' psz' bs' :
    deserialize_field_header bs = Ok (i, sz) rest -> find_field i fs = Some f ->
    decode lim (f_type f) true sz (takeN sz rest) = Ok v left ->
    visits lim (TStruct fs) isf psz (left ++ dropN sz rest) t' isf' psz' bs' ->
    visits lim (TStruct fs) isf psz bs t' isf' psz' bs'
| visit_choice_skip fs isf psz bs i sz rest t' isf' psz' bs' :
    deserialize_field_header bs = Ok (i, sz) rest -> find_field i fs = None -> sz <= lenN rest ->
    visits lim (TChoice fs) isf psz (dropN sz rest) t' isf' psz' bs' ->
    visits lim (TChoice fs) isf psz bs t' isf' psz' bs'
| visit_choice_case fs isf psz bs i sz rest f t' isf' psz' bs' :
    deserialize_field_header bs = Ok (i, sz) rest -> find_field i fs = Some f ->
    visits lim (f_type f) true sz (takeN sz rest) t' isf' psz' bs' ->
    visits lim (TChoice fs) isf psz bs t' isf' psz' bs'
| visit_choice_fallback fs isf psz bs i sz rest f v left t' isf' psz' bs' :
    deserialize_field_header bs = Ok (i, sz) rest -> find_field i fs = Some f ->
    f_rule f = Optional ->
    decode lim (f_type f) true sz (takeN sz rest) = Ok v left ->
    visits lim (TChoice fs) isf psz (left ++ dropN sz rest) t' isf' psz' bs' ->
    visits lim (TChoice fs) isf psz bs t' isf' psz' bs'
| visit_element e isf psz bs sz rest t' isf' psz' bs' :
    sized_element e = true -> deserialize_varint bs = Ok sz rest ->
    visits lim e false sz (takeN sz rest) t' isf' psz' bs' ->
    visits lim (TArray e) isf psz bs t' isf' psz' bs'
| visit_next_element e isf psz bs sz rest v left t' isf' psz' bs' :
    sized_element e = true -> deserialize_varint bs = Ok sz rest ->
    decode lim e false sz (takeN sz rest) = Ok v left ->
    visits lim (TArray e) isf psz (left ++ dropN sz rest) t' isf' psz' bs' ->
    visits lim (TArray e) isf psz bs t' isf' psz' bs'.

(** An allocation request that cannot be met: [Vec::reserve_exact] / [String::reserve_exact] with the
    declared size (an [[F64]] reserves 8 bytes per declared byte). *)
Definition oversized (lim : N) (t : ty) (psz : N) : Prop :=
  match t with
  | TBytes | TString => lim < psz
  | TArray TF64 => lim < 8 * psz
  | _ => False
  end.

(** The next field is unknown and its declared payload is longer than what is left. *)
Definition truncated_unknown (t : ty) (bs : bytes) : Prop :=
  match t with
  | TStruct fs | TChoice fs =>
      exists i sz rest, deserialize_field_header bs = Ok (i, sz) rest /\
        find_field i fs = None /\ lenN rest < sz
  | _ => False
  end.
