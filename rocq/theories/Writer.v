(** The generated serializer as a sequence of [write_all] calls on an arbitrary [std::io::Write], with
    the early exits of [?]. Definitions only. RustCodec.v gives the bytes written when nothing fails;
    the two are proved to agree (C24). *)
From Verif Require Export RustCodec.

(** What the serializer does: calls of [writer.write_all], or a panic. *)
Inductive call := CWrite (buf : bytes) | CPanicked.

(** generate_rust.rs 184-272: every branch of [serialize_varint] is one [write_all]. *)
Definition varint_calls (n : N) : list call := [CWrite (serialize_varint n)].

(** generate_rust.rs 318-336. *)
Definition header_calls (index payload_size : N) (integer_encoded : bool) : list call :=
  if payload_size =? 0 then varint_calls (N.lor (shl64 index 2) 0)
  else if payload_size =? 8 then varint_calls (N.lor (shl64 index 2) 1)
  else if integer_encoded then varint_calls (N.lor (shl64 index 2) 2)
  else varint_calls (N.lor (shl64 index 2) 3) ++ varint_calls payload_size.

(** generate_rust.rs 2076-2110. *)
Definition u64_calls (is_field : bool) (varint : N) : list call :=
  if is_field then
    if varint =? 0 then []
    else if varint <=? 567382630219903 then varint_calls varint
    else [CWrite (le_bytes 8 varint)]
  else varint_calls varint.

(** generate_rust.rs 1951-2074, 736-807, 1187-1275 (compare [ser] in RustCodec.v). *)
Fixpoint ser_calls (is_field : bool) (v : val) (t : ty) (a : atlas) {struct v} : list call :=
  match v, t with
  | VUnits n, TArray TUnit => u64_calls is_field n
  | VArr vs, TArray e =>
      match e with
      | TBool | TS64 | TU64 | TF64 => concat (map (fun v => ser_calls false v e a) vs)
      | _ =>
          match a with
          | AArr _ atlases =>
              concat (map2 (fun v pa =>
                varint_calls (atlas_lookup pa) ++ ser_calls false v e pa) vs atlases)
          | _ => [CPanicked]
          end
      end
  | VBool b, TBool => u64_calls is_field (if b then 1 else 0)
  | VBytes bs, TBytes => [CWrite bs]
  | VString s, TString => [CWrite (utf8_encode s)]
  | VF64 b, TF64 => if is_field then (if negb (b =? 0) then [CWrite (le_bytes 8 b)] else [])
                    else [CWrite (le_bytes 8 b)]
  | VS64 z, TS64 => u64_calls is_field (zigzag_encode z)
  | VU64 n, TU64 => u64_calls is_field n
  | VUnit, TUnit => []
  | VStruct ovs, TStruct fs =>
      match a with
      | AStruct _ atlases =>
          concat (map2 (fun ov fa => match ov, snd fa with
            | Some v, Some pa =>
                header_calls (f_index (fst fa)) (atlas_lookup pa) (integer_encoded (f_type (fst fa)))
                ++ ser_calls true v (f_type (fst fa)) pa
            | _, _ => []
            end) ovs (combine fs atlases))
      | _ => [CPanicked]
      end
  | VChoice i p fb, TChoice fs =>
      match find_field i fs, a with
      | Some f, AChoice j _ pa fa =>
          if i =? j then
            (header_calls (f_index f) (atlas_lookup pa) (integer_encoded (f_type f))
             ++ ser_calls true p (f_type f) pa)
            ++ (match f_rule f, fb, fa with
                | Required, _, _ => []
                | _, Some v', Some a' => ser_calls true v' t a'
                | _, _, _ => [CPanicked]
                end)
          else [CPanicked]
      | _, _ => [CPanicked]
      end
  | _, _ => [CPanicked]
  end.

(** An arbitrary writer: what one call of [write] with a (non-empty) buffer does, depending on any
    state of its own: accept some of the buffer (at most all of it), be interrupted, or fail. *)
Inductive response := Accept (n : N) | Interrupted | Fail.
Definition writer (W : Type) := W -> bytes -> response * W.

(** How a call ended. [WRunning]: the loop of [write_all] did not end within the given number of
    rounds. *)
Inductive wstatus := WOk | WFailed | WPanicked | WRunning.

(** std [Write::write_all]: retry when interrupted, [WriteZero] error when nothing is accepted. [out]
    records the bytes the writer has accepted. *)
Fixpoint write_all {W} (w : writer W) (fuel : nat) (st : W) (out : bytes) (buf : bytes)
  : wstatus * W * bytes :=
  match buf with
  | [] => (WOk, st, out)
  | _ :: _ =>
      match fuel with
      | O => (WRunning, st, out)
      | S fuel' =>
          match w st buf with
          | (Accept n, st') =>
              if n =? 0 then (WFailed, st', out)
              else write_all w fuel' st' (out ++ takeN n buf) (dropN n buf)
          | (Interrupted, st') => write_all w fuel' st' out buf
          | (Fail, st') => (WFailed, st', out)
          end
      end
  end.

(** The calls in sequence; [?] stops at the first failure. *)
Fixpoint run_calls {W} (w : writer W) (fuel : nat) (st : W) (out : bytes) (cs : list call)
  : wstatus * W * bytes :=
  match cs with
  | [] => (WOk, st, out)
  | CPanicked :: _ => (WPanicked, st, out)
  | CWrite buf :: cs' =>
      match write_all w fuel st out buf with
      | (WOk, st', out') => run_calls w fuel st' out' cs'
      | stop => stop
      end
  end.

(** generate_rust.rs 1572-1590 [write_serialize_function]: the public [serialize]. *)
Definition serialize_to {W} (w : writer W) (fuel : nat) (st : W) (v : val) (t : ty)
  : wstatus * W * bytes := run_calls w fuel st [] (ser_calls true v t (calc_atlas true v t)).

(** A writer that accepts [capacity] bytes in all and then fails, like [&mut [u8]] (which answers 0). *)
Definition capacity_writer : writer N := fun capacity buf =>
  let n := N.min capacity (lenN buf) in (Accept n, capacity - n).

(** A writer that accepts at most [n] bytes per call, is interrupted, or fails, as the schedule says,
    and fails when the schedule is exhausted. *)
Definition scheduled_writer : writer (list response) := fun sched buf =>
  match sched with
  | [] => (Fail, [])
  | Accept n :: sched' => (Accept (N.min n (lenN buf)), sched')
  | r :: sched' => (r, sched')
  end.
