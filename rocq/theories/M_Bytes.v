(** Model of the functions on raw memory, c++/nda/mem/memset.hpp and c++/nda/mem/memcpy.hpp, for host memory; memory is a function from addresses to
    bytes (0..255).  The calls of the CUDA library are not modelled. *)
From Verif Require Import Base M_Loops M_Assign.

(** std::memset(p, value, count) of the C library: [count] bytes become (unsigned char)value; used by memset.hpp:34 *)
Definition std_memset (p value count : Z) (m : mem Z) : mem Z := fun x => if (p <=? x) && (x <? p + count) then value mod 256 else m x.
(** std::memcpy(dest, src, count): None (undefined behaviour) if the regions overlap; used by memcpy.hpp:33 *)
Definition apart (a na b nb : Z) : bool := (na <=? 0) || (nb <=? 0) || (a + na <=? b) || (b + nb <=? a).
Definition std_memcpy (dest src count : Z) (m : mem Z) : option (mem Z) :=
  if apart dest count src count then Some (fun x => if (dest <=? x) && (x <? dest + count) then m (src + (x - dest)) else m x) else None.
(** memset.hpp:28-38 *)
Definition nda_memset (p value count : Z) (m : mem Z) : mem Z := std_memset p value count m.
(** memset.hpp:40-51: [height] rows of [width] bytes *)
Fixpoint memset2D_loop (height : nat) (ptri pitch value width : Z) (m : mem Z) : mem Z :=
  match height with O => m | S h => memset2D_loop h (ptri + pitch) pitch value width (std_memset ptri value width m) end.
Definition nda_memset2D (ptr pitch value width height : Z) (m : mem Z) : mem Z := memset2D_loop (Z.to_nat height) ptr pitch value width m.
(** memcpy.hpp:27-37 *)
Definition nda_memcpy (dest src count : Z) (m : mem Z) : option (mem Z) := std_memcpy dest src count m.
(** memcpy.hpp:39-52.  [checks]: EXPECTS is evaluated; None is a failed EXPECTS or undefined behaviour *)
Fixpoint memcpy2D_loop (height : nat) (desti dpitch srci spitch width : Z) (m : mem Z) : option (mem Z) :=
  match height with
  | O => Some m
  | S h => match std_memcpy desti srci width m with Some m1 => memcpy2D_loop h (desti + dpitch) dpitch (srci + spitch) spitch width m1 | None => None end
  end.
Definition nda_memcpy2D (checks : bool) (dest dpitch src spitch width height : Z) (m : mem Z) : option (mem Z) :=
  if checks && negb ((width <=? dpitch) && (width <=? spitch)) then None else memcpy2D_loop (Z.to_nat height) dest dpitch src spitch width m.
