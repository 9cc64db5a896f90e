(** Schema evolution: the README's rules for safe schema changes (README 292-304) and what a reader
    with another schema is supposed to see. A specification; no definition of the model of the
    generated code is used. *)
From Verif Require Export Types.
From Coq Require Import Relations.

(** README 298: "You can safely convert asymmetric fields to optional or required and vice versa"
    (and leaving the rule alone is no change). *)
Definition rule_change_safe (r s : rule) : bool :=
  match r, s with
  | Optional, Required | Required, Optional => false
  | _, _ => true
  end.

Definition required (r : rule) : bool := match r with Required => true | _ => false end.

(** README 295-301, applied simultaneously to any number of fields at any depth. Field names are not
    part of [ty] and fields are looked up by index, so renaming and reordering are covered.
    - fields in both versions: the rule change is safe and so is the change of the field's type;
    - fields in only one version (added or removed) are not required;
    - a struct with exactly one field, which is required, against a choice with just that field. *)
Fixpoint safe (a b : ty) {struct a} : Prop :=
  match a, b with
  | TUnit, TUnit | TF64, TF64 | TU64, TU64 | TS64, TS64 | TBool, TBool
  | TBytes, TBytes | TString, TString => True
  | TArray x, TArray y => safe x y
  | TStruct fs, TStruct gs | TChoice fs, TChoice gs =>
      allP (fun f => match find_field (f_index f) gs with
                     | Some g => rule_change_safe (f_rule f) (f_rule g) = true /\
                                 safe (f_type f) (f_type g)
                     | None => required (f_rule f) = false
                     end) fs /\
      allP (fun g => match find_field (f_index g) fs with
                     | Some _ => True
                     | None => required (f_rule g) = false
                     end) gs
  | TStruct fs, TChoice gs | TChoice fs, TStruct gs =>
      match fs, gs with
      | [f], [g] => f_index f = f_index g /\ f_rule f = Required /\ f_rule g = Required /\
                    safe (f_type f) (f_type g)
      | _, _ => False
      end
  | _, _ => False
  end.

(** The directional relation behind it: can everything written with type [a] be read with type [b]?
    - struct: common fields have compatible types, and whatever the reader requires the writer
      always sends;
    - choice: whatever the writer can send as the last resort (no fallback) the reader knows, and the
      reader offers a fallback to its user only if the writer always sends one. *)
Fixpoint compat (a b : ty) {struct a} : Prop :=
  match a, b with
  | TUnit, TUnit | TF64, TF64 | TU64, TU64 | TS64, TS64 | TBool, TBool
  | TBytes, TBytes | TString, TString => True
  | TArray x, TArray y => compat x y
  | TStruct fs, TStruct gs =>
      allP (fun f => match find_field (f_index f) gs with
                     | Some g => compat (f_type f) (f_type g)
                     | None => True
                     end) fs /\
      allP (fun g => f_rule g = Required ->
                     match find_field (f_index g) fs with
                     | Some f => always_present DOut (f_rule f) = true
                     | None => False
                     end) gs
  | TChoice fs, TChoice gs =>
      allP (fun f => match find_field (f_index f) gs with
                     | Some g => compat (f_type f) (f_type g) /\
                                 (f_rule g = Optional -> has_fallback DOut (f_rule f) = true)
                     | None => has_fallback DOut (f_rule f) = true
                     end) fs
  | TStruct fs, TChoice gs | TChoice fs, TStruct gs =>
      match fs, gs with
      | [f], [g] => f_index f = f_index g /\ f_rule f = Required /\ f_rule g = Required /\
                    compat (f_type f) (f_type g)
      | _, _ => False
      end
  | _, _ => False
  end.

(** The slot of the first entry with the given index. *)
Fixpoint slot_of {A} (i : N) (l : list (N * option A)) : option A :=
  match l with
  | [] => None
  | (j, o) :: l' => if j =? i then o else slot_of i l'
  end.

(** What a reader with type [b] is supposed to get from a message [v] written with type [a]: fields
    in both types keep their (migrated) value, the others are dropped, fields only the reader knows
    are absent, and a choice becomes the first case in its fallback chain that the reader knows
    (keeping the rest of the chain as the fallback if the reader's case is optional). *)
Fixpoint migrate (v : val) (a b : ty) {struct v} : val :=
  match v, a, b with
  | VArr vs, TArray x, TArray y => VArr (map (fun v => migrate v x y) vs)
  | VStruct ovs, TStruct fs, TStruct gs =>
      let slots := map2 (fun ov f =>
        (f_index f, match ov, find_field (f_index f) gs with
                    | Some v, Some g => Some (migrate v (f_type f) (f_type g))
                    | _, _ => None
                    end)) ovs fs in
      VStruct (map (fun g => slot_of (f_index g) slots) gs)
  | VChoice i p fb, TChoice fs, TChoice gs =>
      match find_field i fs, find_field i gs with
      | Some f, Some g =>
          VChoice i (migrate p (f_type f) (f_type g))
            (match f_rule g, fb with
             | Optional, Some v' => Some (migrate v' a b)
             | _, _ => None
             end)
      | _, _ => match fb with Some v' => migrate v' a b | None => v end
      end
  | VStruct ovs, TStruct fs, TChoice gs =>
      match ovs, fs, gs with
      | [Some v1], [f], [g] => VChoice (f_index g) (migrate v1 (f_type f) (f_type g)) None
      | _, _, _ => v
      end
  | VChoice _ p _, TChoice fs, TStruct gs =>
      match fs, gs with
      | [f], [g] => VStruct [Some (migrate p (f_type f) (f_type g))]
      | _, _ => v
      end
  | _, _, _ => v
  end.

(** README 293: "any user-defined type can safely be migrated to any other user-defined type through
    a series of backward and forward compatible changes". Every version in the series must be usable:
    well-formed, and such that at least one message can be written. *)
Definition user_defined (t : ty) : Prop :=
  match t with TStruct _ | TChoice _ => True | _ => False end.
Definition usable (t : ty) : Prop := user_defined t /\ ty_wf t /\ exists v, wt DOut v t.
Definition safe_step (a b : ty) : Prop := usable a /\ usable b /\ safe a b.
Definition migratable : ty -> ty -> Prop := clos_refl_trans ty safe_step.
Definition fields_of (t : ty) : list (field_of ty) :=
  match t with TStruct fs | TChoice fs => fs | _ => [] end.
