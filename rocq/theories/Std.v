(** Model of the implementations for types of the standard library that are not types of
    [Types.v]: crates/musli-core/src/impls/net.rs, range.rs, mod.rs:699-856 and alloc.rs:614-680, 790-1028. They
    are written as one of these, read as one of these, not always the same, and converted.

    Simplifications: only the mode Binary (in Text addresses are written as strings by the
    standard library); [Path] and [PathBuf] are [OsStr] and [OsString]; [CString] is [CStr]; one value stands for
    borrowed and owned forms. *)
From Verif Require Import Base Options Int Utf8 Types.
Local Open Scope N_scope.

Inductive std :=
| SIpv4               (* impls/net.rs:26-121: [VBytes] of 4 octets *)
| SIpv6               (* impls/net.rs:123-186: [VBytes] of 16 octets *)
| SIp                 (* impls/net.rs:188-249: [VVar 0] of an [SIpv4] or [VVar 1] of an [SIpv6] *)
| SSocketV4           (* impls/net.rs:251-320: [VList] of ip and port *)
| SSocketV6           (* impls/net.rs:322-393: [VList] of ip, port, flow information, scope *)
| SSocket             (* impls/net.rs:395-464 *)
| SRange (t : ty)     (* Range, RangeInclusive: impls/range.rs, [VList] of start and end *)
| SRangeOne (t : ty)  (* RangeFrom, RangeTo, RangeToInclusive: [VList] of one bound *)
| SRangeFull          (* impls/range.rs:99, [VUnit] *)
| SResult (t u : ty)  (* impls/mod.rs:699-756: [VVar 0] of the value or [VVar 1] of the error *)
| SCStr               (* impls/mod.rs:796-856, alloc.rs:616-681: [VBytes] with the final nul *)
| SOsUnix             (* OsStr on Unix, impls/alloc.rs:790-969: [VBytes] *)
| SOsWindows.         (* OsStr on Windows: [VList] of the u16 of its wide form *)

Definition ip4 := TArr 4.
Definition ip6 := TArr 16.
Definition socket4 := TPack false [(None, ip4); (None, TU W16)].
Definition socket6 := TPack false [(None, ip6); (None, TU W16); (None, TU W32); (None, TU W32)].
(** The tag enums are named by index, impls/net.rs:9-23, impls/mod.rs:24-31, 699-704. *)
Definition either (t u : ty) : ty := TEnum true TUsize [(VN 0, t); (VN 1, u)].

(** The calls that [encode] makes. *)
Definition std_written (s : std) : ty :=
  match s with
  | SIpv4 => ip4
  | SIpv6 => ip6
  | SIp => either ip4 ip6
  | SSocketV4 => socket4
  | SSocketV6 => socket6
  | SSocket => either socket4 socket6
  | SRange t => TTup [t; t]
  | SRangeOne t => TTup [t]
  | SRangeFull => TTup []
  | SResult t u => either t u
  | SCStr => TBytes
  | SOsUnix | SOsWindows => either TBytes TBytes
  end.

(** The calls that [decode] makes. [RangeFull] decodes a [()]; an [OsString] on Unix a [Vec<u8>]
    (alloc.rs:917-921), not bytes. Tags of the other system are errors. *)
Definition std_reads (s : std) : ty :=
  match s with
  | SRangeFull => TUnit
  | SOsUnix => TEnum true TUsize [(VN 0, TVec (TU W8))]
  | SOsWindows => TEnum true TUsize [(VN 1, TBytes)]
  | _ => std_written s
  end.

(** [encode_wide], [to_le_bytes], alloc.rs:822-868; [chunks_exact(2)], alloc.rs:946-957. *)
Fixpoint wide_out (ws : list val) : bytes :=
  match ws with
  | VN w :: r => w mod 256 :: w / 256 :: wide_out r
  | _ => []
  end.
Fixpoint wide_in (bs : bytes) : list val :=
  match bs with
  | a :: b :: r => VN (a + 256 * b) :: wide_in r
  | _ => []
  end.

Definition std_put (s : std) (v : val) : val :=
  match s, v with
  | SRangeFull, VUnit => VList []
  | SOsUnix, VBytes b => VVar 0 (VBytes b)
  | SOsWindows, VList ws => VVar 1 (VBytes (wide_out ws))
  | _, _ => v
  end.

Fixpoint octets (l : list val) : bytes :=
  match l with VN n :: r => n :: octets r | _ => [] end.

(** [CStr::from_bytes_with_nul] *)
Definition cstr_ok (b : bytes) : bool :=
  match rev b with
  | 0 :: r => forallb (fun c => negb (c =? 0)) r
  | _ => false
  end.

Definition std_get (s : std) (w : val) : res val :=
  match s, w with
  | SCStr, VBytes b => if cstr_ok b then Ok w else Err
  | SOsUnix, VVar _ (VList l) => Ok (VBytes (octets l))
  | SOsWindows, VVar _ (VBytes b) => Ok (VList (wide_in b))
  | _, _ => Ok w
  end.

Definition std_encode (encode : ty -> val -> res bytes) (s : std) (v : val) : res bytes := encode (std_written s) (std_put s v).
Definition std_decode (decode : ty -> dec val) (s : std) : dec val :=
  fun bs => let* (w, r) := decode (std_reads s) bs in let* v := std_get s w in Ok (v, r).
