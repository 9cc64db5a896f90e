(** Which tree of names a declaration stands for. A specification: [denotes] of ValidSpec.v, keeping the names. *)
From Verif Require Export ModuleSpec RustValue RustText.

Section Schemas.
Context (schemas : list (namespace * sschema)).
Inductive named : namespace -> sschema -> sty -> nty -> Prop :=
| nm_array ns s t T : named ns s t T -> named ns s (SyArray t) (NArray T)
| nm_bool ns s : named ns s SyBool NBool
| nm_bytes ns s : named ns s SyBytes NBytes
| nm_f64 ns s : named ns s SyF64 NF64
| nm_s64 ns s : named ns s SyS64 NS64
| nm_string ns s : named ns s SyString NString
| nm_u64 ns s : named ns s SyU64 NU64
| nm_unit ns s : named ns s SyUnit NUnit
| nm_custom ns s i n ns' ns2 s2 d2 fs : leads_to ns s i ns' -> declared schemas ns2 s2 d2 -> same_q (ns2, sd_name d2) (ns', n) ->
    named_fields ns2 s2 (sd_fields d2) fs ->
    named ns s (SyCustom i n) (NDecl ns2 s2 (sd_kind d2) (sd_name d2) fs)
with named_fields : namespace -> sschema -> list sfield -> list (sfield * nty) -> Prop :=
| nmf_nil ns s : named_fields ns s [] []
| nmf_cons ns s f fs T Ts : named ns s (sf_type f) T -> named_fields ns s fs Ts ->
    named_fields ns s (f :: fs) ((f, T) :: Ts).
(** The tree of a declaration. *)
Definition decl_named (ns : namespace) (s : sschema) (d : sdecl) (nt : nty) : Prop :=
  exists fs, named_fields ns s (sd_fields d) fs /\ nt = NDecl ns s (sd_kind d) (sd_name d) fs.

(** All names are good ([good_ident]), those of fields too. *)
Definition plain_names (u : unicode) : Prop :=
  forall ns s, In (ns, s) schemas ->
    good_file u ns s /\ forall d f, In d (ss_decls s) -> In f (sd_fields d) -> good_ident u (sf_name f).
End Schemas.

(** Schemas that typical accepts, with plain names. The generated program depends on nothing else. *)
Record accepted (u : unicode) (schemas : list (namespace * sschema)) : Prop := mkAccepted {
  ac_unicode : ascii_agrees u;
  ac_loaded : loaded schemas;
  ac_validated : validate schemas = VOk;
  ac_names : plain_names schemas u }.

(** ** Calling the public functions of a generated program

    [w]: how the writer behaves. [rounds] and [depth]: how often loops are run and how deep calls are nested before the
    interpreter gives up ([FFuel]). [lim]: the largest allocation. [wraps]: whether overflows wrap around. A message is
    what [embed] makes of a value. *)
Section Api.
Context {W : Type} (w : writer W) (rounds : nat) (lim : N) (wraps : bool) (u : unicode) (prog : rmod) (depth : nat).
Context (ns : namespace) (d : sdecl).
(** [message.size()] *)
Definition call_size (message : rv) (s : st W) : fres W :=
  run_method w rounds lim wraps prog depth (mods u ns, type_name u (sd_name d) SOut) (txt "size") [message] s.
(** [message.serialize(writer)] *)
Definition call_serialize (message : rv) (s : st W) : fres W :=
  run_method w rounds lim wraps prog depth (mods u ns, type_name u (sd_name d) SOut) (txt "serialize") [message; RvWriter] s.
(** [deserialize(reader)], where the reader delivers these chunks. *)
Definition call_deserialize (chunks : list bytes) (x : W) : fres W :=
  run_method w rounds lim wraps prog depth (mods u ns, type_name u (sd_name d) SIn) (txt "deserialize") [RvReader 0]
    (mkSt (RBase chunks) x []).
(** [from(message)], of the type for incoming messages. *)
Definition call_from (message : rv) (s : st W) : fres W :=
  match conversion prog (mods u ns, type_name u (sd_name d) SOut) with
  | Some (target, f) => run_fn w rounds lim wraps prog depth (mods u ns) target f [message] s
  | None => FStuck
  end.
End Api.
(** What [serialize] returns when the calls of [write_all] end this way. *)
Definition serialize_outcome {W} (r : reader) (x : wstatus * W * bytes) : fres W :=
  match x with
  | (WOk, x, written) => FVal (RvOk RvUnit) (mkSt r x written)
  | (WFailed, x, written) => FVal (RvErr ReWrite) (mkSt r x written)
  | (WPanicked, _, _) => FPanic
  | (WRunning, _, _) => FFuel
  end.
(** What [deserialize] returns for a decoder's result. *)
Definition deserialize_outcome {W} (f : val -> rv) (x : res val) (y : fres W) : Prop :=
  match x with
  | Ok v _ => exists s, y = FVal (RvOk (f v)) s
  | Err e => exists s, y = FVal (RvErr (ReKind e)) s
  | Panic => y = FPanic
  | Diverge | OutOfFuel => y = FFuel
  end.
