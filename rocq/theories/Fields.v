(** A message seen as a sequence of complete fields, some of which a given reader does not know
    (README 591-616). A specification: it uses the documented wire format only. *)
From Verif Require Export Spec Evolution.

(** [IField f v]: the value [v] written as field [f] of some writer's schema. [IRaw i ie payload]: an
    arbitrary payload under index [i]; [ie] tells whether the writer used size mode 2 (in which case
    the payload is one variable-width integer). *)
Inductive item :=
| IField (f : field_of ty) (v : val)
| IRaw (i : N) (ie : bool) (payload : bytes).

Definition item_index (it : item) : N :=
  match it with IField f _ => f_index f | IRaw i _ _ => i end.

Definition item_bytes (it : item) : bytes :=
  match it with
  | IField f v =>
      let b := spec_encode true v (f_type f) in
      spec_header (f_index f) (lenN b) (integer_encoded (f_type f)) ++ b
  | IRaw i ie payload => spec_header i (lenN payload) ie ++ payload
  end.

(** Complete fields, as far as a reader with the fields [gs] is concerned: a field the reader knows was
    written with a type compatible with the reader's; a raw payload is only allowed under an index the
    reader does not know. *)
Definition item_ok (gs : list (field_of ty)) (it : item) : Prop :=
  item_index it <= max_index /\
  match it with
  | IField f v =>
      wt DOut v (f_type f) /\ ty_wf (f_type f) /\
      match find_field (f_index f) gs with
      | Some g => compat (f_type f) (f_type g)
      | None => True
      end
  | IRaw i ie payload =>
      find_field i gs = None /\ bytes_ok payload /\
      (ie = true -> lenN payload <> 0 -> lenN payload <> 8 ->
         exists b tl, payload = b :: tl /\ spec_varint_len b = lenN payload)
  end.

(** The reader's value for index [i]: that of the first field with this index. *)
Fixpoint first_value (gs : list (field_of ty)) (its : list item) (i : N) : option val :=
  match its with
  | [] => None
  | IField f v :: its' =>
      if f_index f =? i then
        match find_field i gs with
        | Some g => Some (migrate v (f_type f) (f_type g))
        | None => None
        end
      else first_value gs its' i
  | IRaw _ _ _ :: its' => first_value gs its' i
  end.
