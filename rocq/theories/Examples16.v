(** Runs of the functions at the top of the generated Rust file, interpreted (C80). *)
From Verif Require Import RustPreludeFacts2.
Local Open Scope string_scope.
Local Open Scope list_scope.
Local Open Scope N_scope.

(** A writer with room for three bytes, a reader that delivers two pieces. *)
Definition start : st N := mkSt (RBase [[230]; [1; 9]; [7]]) 3 [].
Example start_bytes : rbytes (st_reader start).
Proof. repeat constructor. Qed.
Notation go f args := (run_top capacity_writer 20 false 2 f args start).

Example encode_minus_five : go FnZigzagEncode [RvI64 (-5)] = FVal (RvInt 9) start. Proof. vm_compute. reflexivity. Qed.
Example encode_least : go FnZigzagEncode [RvI64 (-9223372036854775808)] = FVal (RvInt 18446744073709551615) start.
Proof. vm_compute. reflexivity. Qed.
Example decode_greatest : go FnZigzagDecode [RvInt 18446744073709551615] = FVal (RvI64 (-9223372036854775808)) start.
Proof. vm_compute. reflexivity. Qed.
Example size_of_16511 : go FnVarintSize [RvInt 16511] = FVal (RvInt 2) start. Proof. vm_compute. reflexivity. Qed.
Example write_300 : go FnSerializeVarint [RvInt 300; RvWriter] =
  FVal (RvOk RvUnit) (mkSt (st_reader start) 1 [178; 2]).
Proof. vm_compute. reflexivity. Qed.
(** Four bytes do not fit. *)
Example write_too_much : go FnSerializeVarint [RvInt 2113664; RvWriter] = FVal (RvErr ReWrite) (mkSt (st_reader start) 0 [8; 0; 0]).
Proof. vm_compute. reflexivity. Qed.
Example read_one : go FnDeserializeVarint [RvReader 0] = FVal (RvOk (RvInt 249)) (mkSt (RBase [[9]; [7]]) 3 []).
Proof. vm_compute. reflexivity. Qed.
(** The tag 249 is index 62, size mode 1: eight bytes. *)
Example read_header : go FnDeserializeFieldHeader [RvReader 0] = FVal (RvOk (RvPair (RvInt 62) (RvInt 8))) (mkSt (RBase [[9]; [7]]) 3 []).
Proof. vm_compute. reflexivity. Qed.
Example write_header : go FnSerializeFieldHeader [RvWriter; RvInt 5; RvInt 300; RvBool false] = FVal (RvOk RvUnit) (mkSt (st_reader start) 0 [47; 178; 2]).
Proof. vm_compute. reflexivity. Qed.
Example header_size : go FnFieldHeaderSize [RvInt 5; RvInt 300; RvBool false] = FVal (RvInt 3) start. Proof. vm_compute. reflexivity. Qed.
Example skip_two : go FnSkip [RvReader 0; RvInt 2] = FVal (RvOk RvUnit) (mkSt (RBase [[9]; [7]]) 3 []). Proof. vm_compute. reflexivity. Qed.
Example skip_too_many : go FnSkip [RvReader 0; RvInt 5] = FFuel. Proof. vm_compute. reflexivity. Qed.
Example finish_all : go FnFinish [RvReader 0] = FVal (RvOk RvUnit) (mkSt (RBase []) 3 []). Proof. vm_compute. reflexivity. Qed.
(** Through a [Take]: only one of the bytes is there. *)
Example read_limited : run_top capacity_writer 20 false 2 FnDeserializeFieldHeader [RvReader 1] (mkSt (RTake 1 (RBase [[4; 200]])) 3 []) =
  FVal (RvErr (ReKind EOF)) (mkSt (RTake 0 (RBase [[200]])) 3 []).
Proof. vm_compute. reflexivity. Qed.
(** Nine bytes whose value wraps around (see C04). *)
Example read_alias : run_top capacity_writer 20 false 2 FnDeserializeVarint [RvReader 0] (mkSt (RBase [[0]; [0; 0; 0; 0; 0; 0; 0; 255]]) 3 []) =
  FVal (RvOk (RvInt 567382630219904)) (mkSt (RBase []) 3 []).
Proof. vm_compute. reflexivity. Qed.
(** The text of one of the trees. *)
Example text_of_skip : pfn_str fn_skip = txt
"fn skip<T: BufRead>(reader: &mut T, mut amount: usize) -> io::Result<()> {
    while amount > 0 {
        let buffer = reader.fill_buf()?;
        let num_bytes_to_consume = min(buffer.len(), amount);
        reader.consume(num_bytes_to_consume);
        amount -= num_bytes_to_consume;
    }

    Ok(())
}
".
Proof. vm_compute. reflexivity. Qed.
