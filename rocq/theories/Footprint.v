(** How large a message is, and how large one message of a type may be. A specification (C86). *)
From Verif Require Export Types Utf8.

Fixpoint sumN (l : list N) : N := match l with [] => 0 | n :: l' => n + sumN l' end.

(** The number of things a message consists of: every value, every place for a field, every byte of [Bytes] and of (the
    UTF-8 of) [String]. [unit_weight] is what an element of [[Unit]] counts: 0 in Rust, where the elements of a [Vec<()>] take
    no space, 1 in JavaScript, where they are so many [null]s in an array. *)
Fixpoint weight (unit_weight : N) (v : val) : N :=
  match v with
  | VBytes bs => 1 + lenN bs
  | VString s => 1 + lenN (utf8_encode s)
  | VUnits n => 1 + unit_weight * n
  | VArr vs => 1 + sumN (map (weight unit_weight) vs)
  | VStruct ovs => 1 + sumN (map (fun ov => 1 + match ov with Some v => weight unit_weight v | None => 0 end) ovs)
  | VChoice _ p fb => 1 + weight unit_weight p + match fb with Some v' => weight unit_weight v' | None => 0 end
  | _ => 1
  end.

(** The number of nodes and fields of the type, seen as a tree: it does not depend on any message. *)
Fixpoint breadth (t : ty) : N :=
  match t with
  | TArray e => 1 + breadth e
  | TStruct fs | TChoice fs => 1 + sumN (map (fun f => 1 + breadth (f_type f)) fs)
  | _ => 1
  end.

(** The type has no [[Unit]] in it. *)
Fixpoint no_unit_arrays (t : ty) : Prop :=
  match t with
  | TArray e => is_unit e = false /\ no_unit_arrays e
  | TStruct fs | TChoice fs => allP (fun f => no_unit_arrays (f_type f)) fs
  | _ => True
  end.

(** The most a message of type [t] can weigh when TypeScript reads it from a buffer of [len] bytes: a polynomial in [len] whose
    degree is the greatest number of [Bytes], [String]s, arrays and choices nested in each other. A string has at most three
    bytes for each byte of the message (U+FFFD takes three), an array of at most [2^32 - 1] units may come from one integer. *)
Fixpoint ts_bound (len : N) (t : ty) : N :=
  match t with
  | TBytes => 1 + len
  | TString => 1 + 3 * len
  | TArray e => if is_unit e then 1 + (2 ^ 32 - 1) else 1 + len * ts_bound len e
  | TStruct fs => 1 + sumN (map (fun f => 1 + ts_bound len (f_type f)) fs)
  | TChoice fs => len * (1 + sumN (map (fun f => ts_bound len (f_type f)) fs))
  | _ => 1
  end.
