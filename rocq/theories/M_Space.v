(** Address spaces: c++/nda/mem/address_space.hpp, and how assignments, products, BLAS and LAPACK wrappers choose between host code, calls of device
    libraries and copies.  What the C++ compiler refuses is [Reject]; element types, layouts and sizes enter only through the tests the code makes.
    Everything here is for a build with a device (NDA_HAVE_DEVICE); without one, device branches do not compile. *)
From Coq Require Import List Bool Arith.
Import ListNotations.

(** mem/address_space.hpp:44 *)
Inductive space := SNone | SHost | SDevice | SUnified.
Definition space_eqb (a b : space) : bool := match a, b with SNone, SNone | SHost, SHost | SDevice, SDevice | SUnified, SUnified => true | _, _ => false end.
(** the enumerators in order, as std::max on the enum compares them *)
Definition space_num (a : space) : nat := match a with SNone => 0 | SHost => 1 | SDevice => 2 | SUnified => 3 end.
Definition space_max (a b : space) : space := if Nat.ltb (space_num a) (space_num b) then b else a.
(** mem/address_space.hpp:59-65 [combine]; None: static_assert *)
Definition combine2 (a b : space) : option space :=
  if (space_eqb a SHost && space_eqb b SDevice) || (space_eqb a SDevice && space_eqb b SHost) then None else Some (space_max a b).
Fixpoint combine_from (a : space) (l : list space) : option space :=
  match l with [] => Some a | b :: l' => match combine2 a b with Some c => combine_from c l' | None => None end end.
Definition combine (l : list space) : option space := match l with [] => None | [a] => combine2 a SNone | a :: l' => combine_from a l' end.

(** array expressions, by the address spaces of their leaves: an array in memory, a scalar, something without memory (array_adapter, a lambda:
    mem/address_space.hpp:51-52), arithmetic.hpp's binary and unary nodes, map.hpp's expr_call *)
Inductive sexpr := XMem (s : space) | XScalar | XFun | XBin (l r : sexpr) | XUn (e : sexpr) | XCall (l : list sexpr).
(** mem/address_space.hpp:51-86 [get_addr_space] *)
Fixpoint expr_space (e : sexpr) : option space :=
  match e with
  | XMem s => Some s
  | XScalar | XFun => Some SNone
  | XBin l r => match expr_space l, expr_space r with Some a, Some b => combine [a; b] | _, _ => None end
  | XUn e => expr_space e
  | XCall l => match (fix all (l : list sexpr) : option (list space) :=
                        match l with [] => Some [] | e :: l' => match expr_space e, all l' with Some s, Some r => Some (s :: r) | _, _ => None end end) l with
               | Some ss => combine ss
               | None => None
               end
  end.
(** the arrays in memory that evaluating an element of the expression reads *)
Fixpoint leaves (e : sexpr) : list space :=
  match e with
  | XMem s => [s]
  | XScalar | XFun => []
  | XBin l r => leaves l ++ leaves r
  | XUn e => leaves e
  | XCall l => (fix all (l : list sexpr) : list space := match l with [] => [] | e :: l' => leaves e ++ all l' end) l
  end.
Definition is_mem (e : sexpr) : bool := match e with XMem _ => true | _ => false end.

(** mem/address_space.hpp:98-133 *)
Definition on_host (l : list space) : bool := forallb (fun s => space_eqb s SHost) l.
Definition on_device (l : list space) : bool := forallb (fun s => space_eqb s SDevice) l.
Definition on_unified (l : list space) : bool := forallb (fun s => space_eqb s SUnified) l.
Definition have_host_compatible (l : list space) : bool := forallb (fun s => on_host [s] || on_unified [s]) l.
Definition have_device_compatible (l : list space) : bool := forallb (fun s => on_device [s] || on_unified [s]) l.
Definition have_compatible (l : list space) : bool := have_host_compatible l || have_device_compatible l.
(** mem/address_space.hpp:91-95 [check_adr_sp_valid] (with a device) *)
Definition check_valid (l : list space) : bool := forallb (fun s => negb (space_eqb s SNone)) l.

(** what an operation does: host code that reads or writes elements in these spaces, a call of a device library with pointers into these spaces, a
    copy by cudaMemcpy2D (cudaMemcpyDefault: any spaces), an exception, nothing *)
Inductive action := Reject | Throws | Nothing | HostLoop (l : list space) | DeviceCall (l : list space) | Copy (dst src : space).

(** what [get_block_layout] of both sides gives (C16): blocks that agree, none, or blocks of different total size *)
Inductive blocks := BlAgree | BlNone | BlError.
(** _impl_basic_array_view_common.hpp:331-388 [assign_from_ndarray]; the conditions are those tested there.  [both_1d] implies host copy by a loop over
    linear indices. *)
Definition assign_action (self : space) (rhs : sexpr) (same_order empty both_1d same_value : bool) (bl : blocks) : action :=
  match expr_space rhs with
  | None => Reject
  | Some rs =>
      let fallback := if on_device [self] || on_device [rs] then Throws else HostLoop (self :: leaves rhs) in
      if is_mem rhs && same_order then
        if empty then Nothing else
        if on_host [self; rs] && both_1d then HostLoop (self :: leaves rhs)
        else if negb (on_host [self; rs]) && same_value then
          match bl with
          | BlAgree => if check_valid [self; rs] then Copy self rs else Reject
          | BlError => Throws
          | BlNone => fallback
          end
        else fallback
      else fallback
  end.
(** _impl_basic_array_view_common.hpp:393-431 [fill_with_scalar], [assign_from_scalar] *)
Definition fill_action (self : space) : action := HostLoop [self].
(** blas/gemm.hpp:80-108, blas/gemv.hpp:74-95, blas/ger.hpp:41-62, blas/dot.hpp:33-48, 59-75, blas/gemm_batch.hpp:65-160, 196-232, lapack/getrf.hpp:53-79,
    lapack/getri.hpp:47-80, lapack/getrs.hpp:46-68, lapack/gesvd.hpp:61-101: static_assert or requires, then the choice.  [work] are the spaces of the
    buffers the wrapper allocates itself. *)
Definition library_action (args work : list space) : action :=
  if have_compatible args then if have_device_compatible args then DeviceCall (args ++ work) else HostLoop (args ++ work) else Reject.
(** blas/scal.hpp:28-39 *)
Definition scal_action (x : space) : action := if on_host [x] then HostLoop [x] else DeviceCall [x].
(** lapack/gtsv.hpp:63, lapack/gelss.hpp:72: requires on_host *)
Definition host_library_action (args : list space) : action := if on_host args then HostLoop args else Reject.
(** lapack/gesvd.hpp:67, 97: rwork and work in the space of [a] *)
Definition gesvd_action (a s u vt : space) : action := library_action [a; s; u; vt] [a; a].
(** blas/gemm_batch.hpp:82: the arrays of pointers, filled by host code and then handed to the library *)
Definition batch_pointers (c : space) : space := if on_host [c] then SHost else SUnified.
Definition gemm_batch_action (a b c : space) : action := library_action [a; b; c] [batch_pointers c; batch_pointers c; batch_pointers c].
(** lapack/getri.hpp:69-77: the buffer is an array in host memory, used in the host branch only *)
Definition getri_action (a ipiv : space) : action :=
  match library_action [a; ipiv] [] with HostLoop l => HostLoop (l ++ [SHost]) | x => x end.
(** linalg/det_and_inverse.hpp:156-189 [inverse_in_place], [small]: extent 1, 2 or 3; the pivots are a host array *)
Definition inverse_actions (a : space) (small : bool) : list action :=
  if on_host [a] && small then [HostLoop [a]] else [library_action [a; SHost] []; getri_action a SHost].
(** linalg/matmul.hpp:52-95 [matmul] for arguments in memory with the element type of the result: the library for types BLAS knows, loops otherwise
    (blas/gemm.hpp:35-49; the result is set to zero first, then read and written) *)
Definition matmul_actions (l r : space) (blas_type : bool) : list action :=
  if check_valid [l; r] then
    match combine [l; r] with
    | None => [Reject]
    | Some res => if blas_type then [library_action [l; r; res] []] else [fill_action res; HostLoop [l; r; res]]
    end
  else [Reject].
(** linalg/matmul.hpp:108-148 [matvecmul]: equal spaces demanded *)
Definition matvecmul_actions (l r : space) (blas_type : bool) : list action :=
  if space_eqb l r && negb (space_eqb l SNone) then if blas_type then [library_action [l; r; l] []] else [fill_action l; HostLoop [l; r; l]] else [Reject].
(** linalg/dot.hpp:32-56 [dot] for arguments in memory with the element type of the result (blas/dot.hpp:79-106 without BLAS); the type of the vector
    the arguments would be copied to is formed in any case *)
Definition dot_actions (l r : space) (blas_type : bool) : list action :=
  if negb (space_eqb l SNone) && negb (space_eqb r SNone) then
    match combine [l; r] with
    | None => [Reject]
    | Some _ => if blas_type then [library_action [l; r] []] else [HostLoop [l; r]]
    end
  else [Reject].
(** basic_functions.hpp:166-206 [to_host], [to_device], [to_unified]: the argument itself, or a new array in the space [target] (basic_array.hpp:437-453)
    assigned from it *)
Definition to_space_action (target x : space) (empty both_1d : bool) (bl : blocks) : option action :=
  if space_eqb x target then None else Some (assign_action target (XMem x) true empty both_1d true bl).
