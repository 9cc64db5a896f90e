(** Common definitions: bytes, 64-bit words, lists measured in [N], results. *)
From Coq Require Export List NArith ZArith Lia Bool.
From Coq Require Export ZifyBool ZifyNat ZifyN.
Export ListNotations.
#[global] Ltac Zify.zify_post_hook ::= Z.div_mod_to_equations.
Global Open Scope N_scope.
Global Arguments N.add : simpl never.
Global Arguments N.sub : simpl never.
Global Arguments N.mul : simpl never.
Global Arguments N.pow : simpl never.
Global Arguments N.div : simpl never.
Global Arguments N.modulo : simpl never.
Global Arguments N.shiftl : simpl never.
Global Arguments N.shiftr : simpl never.
Global Arguments N.lor : simpl never.
Global Arguments N.land : simpl never.
Global Arguments N.eqb : simpl never.
Global Arguments N.ltb : simpl never.
Global Arguments N.leb : simpl never.
Global Arguments N.of_nat : simpl never.
Global Arguments N.to_nat : simpl never.

(** A byte is an [N] below 256; a byte string a list of them. *)
Definition byte_ok (b : N) : Prop := b < 256.
Definition bytes := list N.
Definition bytes_ok (bs : bytes) : Prop := Forall byte_ok bs.

Definition two64 : N := 18446744073709551616.
Definition two63 : N := 9223372036854775808.

(** Length as an [N] (payload sizes are machine words, so they are never turned into [nat]). *)
Definition lenN {A} (l : list A) : N := N.of_nat (length l).

(** The first [n] elements / what is left after them, recursing on the list. *)
Fixpoint takeN {A} (n : N) (l : list A) : list A :=
  match l with
  | [] => []
  | x :: l' => if n =? 0 then [] else x :: takeN (n - 1) l'
  end.

Fixpoint dropN {A} (n : N) (l : list A) : list A :=
  match l with
  | [] => []
  | x :: l' => if n =? 0 then l else dropN (n - 1) l'
  end.

(** Little-endian conversions ([to_le_bytes] / [from_le_bytes]). *)
Fixpoint le_bytes (k : nat) (v : N) : bytes :=
  match k with
  | O => []
  | S k' => v mod 256 :: le_bytes k' (v / 256)
  end.

Fixpoint le_val (bs : bytes) : N :=
  match bs with
  | [] => 0
  | b :: bs' => b + 256 * le_val bs'
  end.

(** Outcome of running a piece of the generated Rust code on a reader that will still deliver a
    given byte string.
    - [Ok a rest]: it returned [a] and left [rest] unread;
    - [Err e]: it returned an [io::Error] of that kind ([EOF] is [ErrorKind::UnexpectedEof],
      and then the reader is exhausted);
    - [Panic]: it panicked; [Diverge]: it loops forever;
    - [OutOfFuel]: an artefact of the model (the fuel of a loop ran out); it is proved never to
      occur. *)
Inductive ekind := EOF | InvalidData.
Inductive res (A : Type) :=
| Ok (a : A) (rest : bytes)
| Err (e : ekind)
| Panic
| Diverge
| OutOfFuel.
Arguments Ok {A}. Arguments Err {A}. Arguments Panic {A}. Arguments Diverge {A}.
Arguments OutOfFuel {A}.

(** [?] in Rust. *)
Definition bindr {A B} (r : res A) (k : A -> bytes -> res B) : res B :=
  match r with
  | Ok a rest => k a rest
  | Err e => Err e
  | Panic => Panic
  | Diverge => Diverge
  | OutOfFuel => OutOfFuel
  end.

Definition mapr {A B} (f : A -> B) (r : res A) : res B := bindr r (fun a rest => Ok (f a) rest).
