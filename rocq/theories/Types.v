(** Types, values and typing, shared by the specification and by the models of the generated code.

    A schema type after name resolution is a finite tree ([validator.rs] rejects cyclic types; see
    Resolve.v / C33). Field names play no role in messages: fields are identified by their index
    and kept in declaration order. *)
From Verif Require Export Base Utf8.

(** schema.rs 60-65: [Rule]. *)
Inductive rule := Asymmetric | Optional | Required.

(** schema.rs 50-58: [Field] (index, rule, type; the name and comment do not matter here). *)
Record field_of (T : Type) := mkF { f_index : N; f_rule : rule; f_type : T }.
Arguments mkF {T}. Arguments f_index {T}. Arguments f_rule {T}. Arguments f_type {T}.

(** schema.rs 73-84: [TypeVariant]; [Custom] is replaced by the declaration it resolves to
    (schema.rs 44-48: [DeclarationVariant]). *)
Inductive ty :=
| TUnit | TF64 | TU64 | TS64 | TBool | TBytes | TString
| TArray (t : ty)
| TStruct (fs : list (field_of ty))
| TChoice (fs : list (field_of ty)).

(** Values, for both the outgoing ([...Out]) and the incoming ([...In]) flavour of a type.
    - [VF64] carries the bit pattern; [VString] the sequence of Unicode scalar values;
    - [VUnits n] is the [Vec<()>] of length [n] (type [[Unit]]);
    - [VStruct] has one slot per field, in declaration order; a field whose Rust type is not an
      [Option] is always [Some];
    - [VChoice i payload fallback] is the enum variant for the field with index [i]. *)
Inductive val :=
| VUnit
| VF64 (bits : N)
| VU64 (n : N)
| VS64 (z : Z)
| VBool (b : bool)
| VBytes (bs : bytes)
| VString (s : list N)
| VUnits (n : N)
| VArr (vs : list val)
| VStruct (ovs : list (option val))
| VChoice (i : N) (payload : val) (fallback : option val).

(** List helpers (the function argument is fixed outside the recursion, as in [List.map], so that
    they can be used in nested recursive definitions). *)
Section ListHelpers.
  Context {A B C : Type} (P1 : A -> Prop) (P2 : A -> B -> Prop) (f : A -> B -> C).
  Fixpoint allP (l : list A) : Prop :=
    match l with [] => True | x :: l' => P1 x /\ allP l' end.

  Fixpoint all2P (l1 : list A) (l2 : list B) : Prop :=
    match l1, l2 with
    | [], [] => True
    | x :: l1', y :: l2' => P2 x y /\ all2P l1' l2'
    | _, _ => False
    end.

  Fixpoint map2 (l1 : list A) (l2 : list B) : list C :=
    match l1, l2 with
    | x :: l1', y :: l2' => f x y :: map2 l1' l2'
    | _, _ => []
    end.
End ListHelpers.

Fixpoint find_field {T} (i : N) (fs : list (field_of T)) : option (field_of T) :=
  match fs with
  | [] => None
  | f :: fs' => if f_index f =? i then Some f else find_field i fs'
  end.

Definition i64_ok (z : Z) : Prop := (- Z.of_N two63 <= z < Z.of_N two63)%Z.

(** Which flavour of the generated types. *)
Inductive dir := DOut | DIn.

(** README 105-290: is the struct field always there / does the choice case carry a fallback? *)
Definition always_present (d : dir) (r : rule) : bool :=
  match d, r with
  | DOut, Optional => false | DOut, _ => true
  | DIn, Required => true | DIn, _ => false
  end.
Definition has_fallback (d : dir) (r : rule) : bool :=
  match d, r with
  | DOut, Required => false | DOut, _ => true
  | DIn, Optional => true | DIn, _ => false
  end.

Definition is_unit (t : ty) : bool := match t with TUnit => true | _ => false end.

(** [wt d v t]: [v] is a value of the Rust type generated for [t] in direction [d]. *)
Fixpoint wt (d : dir) (v : val) (t : ty) {struct v} : Prop :=
  match v, t with
  | VUnit, TUnit => True
  | VF64 b, TF64 => b < two64
  | VU64 n, TU64 => n < two64
  | VS64 z, TS64 => i64_ok z
  | VBool _, TBool => True
  | VBytes bs, TBytes => bytes_ok bs
  | VString s, TString => str_ok s
  | VUnits n, TArray TUnit => n < two64
  | VArr vs, TArray e => is_unit e = false /\ allP (fun v => wt d v e) vs
  | VStruct ovs, TStruct fs =>
      all2P (fun ov f => match ov with
                         | Some v => wt d v (f_type f)
                         | None => always_present d (f_rule f) = false
                         end) ovs fs
  | VChoice i p fb, TChoice fs =>
      match find_field i fs with
      | None => False
      | Some f =>
          wt d p (f_type f) /\
          match fb with
          | Some v' => has_fallback d (f_rule f) = true /\ wt d v' t
          | None => has_fallback d (f_rule f) = false
          end
      end
  | _, _ => False
  end.

(** The outgoing message seen as an incoming one ([From<Out> for In],
    generate_rust.rs 617-662 and 1037-1102): only the fallback of an asymmetric choice case is
    forgotten. *)
Fixpoint to_in (v : val) (t : ty) {struct v} : val :=
  match v, t with
  | VArr vs, TArray e => VArr (map (fun v => to_in v e) vs)
  | VStruct ovs, TStruct fs =>
      VStruct (map2 (fun ov f => match ov with
                                 | Some v => Some (to_in v (f_type f))
                                 | None => None
                                 end) ovs fs)
  | VChoice i p fb, TChoice fs =>
      match find_field i fs with
      | None => v
      | Some f => VChoice i (to_in p (f_type f))
                    (match f_rule f, fb with
                     | Optional, Some v' => Some (to_in v' t)
                     | _, _ => None
                     end)
      end
  | _, _ => v
  end.

(** validator.rs 16: [MAX_FIELD_INDEX]. *)
Definition max_index : N := 4611686018427387903.

Definition indices {T} (fs : list (field_of T)) : list N := map f_index fs.

(** Well-formed type trees: what a validated schema gives (C30, C33). *)
Fixpoint ty_wf (t : ty) : Prop :=
  match t with
  | TArray e => ty_wf e
  | TStruct fs | TChoice fs =>
      NoDup (indices fs) /\ allP (fun f => f_index f <= max_index /\ ty_wf (f_type f)) fs
  | _ => True
  end.

(** generate_rust.rs 2389-2399: [integer_encoded] (same in generate_typescript.rs). *)
Definition integer_encoded (t : ty) : bool :=
  match t with TBool | TS64 | TU64 => true | _ => false end.

(** Element types whose array elements are preceded by their size. *)
Definition sized_element (t : ty) : bool :=
  match t with TArray _ | TBytes | TString | TStruct _ | TChoice _ => true | _ => false end.
