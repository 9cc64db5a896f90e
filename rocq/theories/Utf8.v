(** UTF-8 (RFC 3629 / Unicode table 3-7), as used by Rust's [String] ([as_bytes],
    [read_to_string]) in the generated code (/repo/src/generate_rust.rs 1934-1936 and 2339-2349).
    A string is a list of Unicode scalar values. *)
From Verif Require Export Base.

Definition scalar_ok (c : N) : Prop := c < 55296 \/ (57344 <= c /\ c < 1114112).
Definition scalarb (c : N) : bool := (c <? 55296) || ((57344 <=? c) && (c <? 1114112)).
Definition str_ok (s : list N) : Prop := Forall scalar_ok s.

Definition utf8_char (c : N) : bytes :=
  if c <? 128 then [c]
  else if c <? 2048 then [192 + c / 64; 128 + c mod 64]
  else if c <? 65536 then [224 + c / 4096; 128 + (c / 64) mod 64; 128 + c mod 64]
  else [240 + c / 262144; 128 + (c / 4096) mod 64; 128 + (c / 64) mod 64; 128 + c mod 64].

Definition utf8_encode (s : list N) : bytes := flat_map utf8_char s.

Definition inr (lo hi b : N) : bool := (lo <=? b) && (b <=? hi).

(** Strict validation: exactly the well-formed byte sequences of Unicode table 3-7 (this is what
    [core::str::from_utf8], called by [read_to_string], accepts). *)
Fixpoint utf8_decode (bs : bytes) : option (list N) :=
  match bs with
  | [] => Some []
  | b0 :: r0 =>
    if b0 <? 128 then option_map (cons b0) (utf8_decode r0)
    else match r0 with
    | [] => None
    | b1 :: r1 =>
      if inr 194 223 b0 then
        if inr 128 191 b1
        then option_map (cons ((b0 - 192) * 64 + (b1 - 128))) (utf8_decode r1) else None
      else match r1 with
      | [] => None
      | b2 :: r2 =>
        if ((b0 =? 224) && inr 160 191 b1) || (inr 225 236 b0 && inr 128 191 b1)
           || ((b0 =? 237) && inr 128 159 b1) || (inr 238 239 b0 && inr 128 191 b1) then
          if inr 128 191 b2
          then option_map (cons ((b0 - 224) * 4096 + (b1 - 128) * 64 + (b2 - 128))) (utf8_decode r2)
          else None
        else match r2 with
        | [] => None
        | b3 :: r3 =>
          if ((b0 =? 240) && inr 144 191 b1) || (inr 241 243 b0 && inr 128 191 b1)
             || ((b0 =? 244) && inr 128 143 b1) then
            if inr 128 191 b2 && inr 128 191 b3
            then option_map (cons ((b0 - 240) * 262144 + (b1 - 128) * 4096 + (b2 - 128) * 64
                                   + (b3 - 128))) (utf8_decode r3)
            else None
          else None
        end
      end
    end
  end.
