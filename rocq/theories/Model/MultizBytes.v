(** Byte encodings of multizes (arith/multiz.c:450-513): the functions of the
    ring Z are installed for them (562-565), so the structure of a multiz is
    read as an mpz.

    The layout is that of a 64-bit little-endian machine, in words of 32 bits:
    struct multiz_s (multiz.c:22-29) is the tag with three bytes of padding, a
    word of padding, and the union; an mpz is the allocation, the signed count
    of limbs and the address of the limbs; a darray (include/pbc_darray.h) is
    the address of the items, their number and the capacity. *)
From Coq Require Import ZArith List Bool.
From Verif.Base Require Import Outcome Gmp.
From Verif.Model Require Import Multiz ZRing.
Import ListNotations.
Open Scope Z_scope.

(** What the value does not determine: padding, capacity and address. *)
Record place := { pad_tag : Z; pad_word : Z; room : Z; addr : Z }.
Definition limb_count (z : Z) : Z := if z =? 0 then 0 else (sizeinbase2 z + 63) / 64.
(** multiz.c:22-34: T_MPZ = 0, T_ARR = 1. *)
Definition layout (w : place) (m : mz) : list Z :=
  match m with
  | MZ z => [0 + 256 * pad_tag w; pad_word w; room w; Z.sgn z * limb_count z; addr w mod 2 ^ 32; addr w / 2 ^ 32]
  | MA l => [1 + 256 * pad_tag w; pad_word w; addr w mod 2 ^ 32; addr w / 2 ^ 32; Z.of_nat (length l); room w]
  end.
(** gmp.h, __mpz_struct: the value of the mpz whose structure starts at the
    first of the words.  [limbs d n]: reading [n] limbs at address [d]. *)
Definition as_mpz (limbs : Z -> Z -> res Z) (ws : list Z) : res Z :=
  match ws with
  | _ :: size :: d0 :: d1 :: _ =>
      if size =? 0 then Ok 0 else v <- limbs (d0 + 2 ^ 32 * d1) (Z.abs size) ;; Ok (Z.sgn size * v)
  | _ => UB
  end.
(** multiz.c:455-478 and 511-513 (the text of z.c:143-166, 203-205). *)
Definition multiz_to_bytes (limbs : Z -> Z -> res Z) (w : place) (buf : list Z) (m : mz) : res (list Z * Z) :=
  z <- as_mpz limbs (layout w m) ;; z_to_bytes buf z.
Definition multiz_length_in_bytes (limbs : Z -> Z -> res Z) (w : place) (m : mz) : res Z :=
  z <- as_mpz limbs (layout w m) ;; Ok (z_length_in_bytes z).
