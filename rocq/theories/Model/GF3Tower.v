(** The extension fields built on GF(3^m) for type I pairings
    (arith/ternary_extension_field.c:520-948).

    gf32m and gf33m work on any base field through the element interface, which
    is the record [gfops]: the operations of the base field that these
    functions call.  gf33m is used on top of GF(3^m) and on top of gf32m.
    An operation that field_init leaves unset (arith/field.c:569-618) is [UB].
    Every function below writes its destination after all reads of its
    operands, or component by component from the same component of its
    operands, so a destination that is also an operand makes no difference. *)
From Coq Require Import ZArith List Bool.
From Verif.Base Require Import Outcome.
From Verif.Model Require Import GF3m.
Open Scope Z_scope.

(** The element interface, include/pbc_field.h:133-300.  [o_neg true] negates
    in place. *)
Record gfops := GFOps {
  car : Type;
  o_set0 : res car;
  o_set1 : res car;
  o_add : car -> car -> res car;
  o_sub : car -> car -> res car;
  o_mul : car -> car -> res car;
  o_neg : bool -> car -> res car;
  o_cubic : car -> res car;
  o_invert : car -> res car;
  o_cmp : car -> car -> res Z }.
Arguments o_set0 {_}. Arguments o_set1 {_}. Arguments o_add {_}. Arguments o_sub {_}. Arguments o_mul {_}.
Arguments o_neg {_}. Arguments o_cubic {_}. Arguments o_invert {_}. Arguments o_cmp {_}.

(** field_init_gf3m: 475-518. *)
Definition gf3m_ops (p : params) : gfops :=
  {| car := elt; o_set0 := Ok (zero (p_len p)); o_set1 := gf3m_one (p_len p);
     o_add := gf3m_add; o_sub := gf3m_sub; o_mul := gf3m_mult p; o_neg := gf3m_neg;
     o_cubic := gf3m_cubic p; o_invert := gf3m_invert p; o_cmp := gf3m_cmp |}.

Section T.
Variable F : gfops.

(** * gf32m: 520-681.  The pair (_0, _1). *)
Definition gf2 : Type := (car F * car F)%type.
(** gf32m_set0: 544-548. *)
Definition gf32m_set0 : res gf2 := e0 <- o_set0 ;; e1 <- o_set0 ;; Ok (e0, e1).
(** gf32m_set1: 550-554. *)
Definition gf32m_set1 : res gf2 := e0 <- o_set1 ;; e1 <- o_set0 ;; Ok (e0, e1).
(** gf32m_cmp: 580-584. *)
Definition gf32m_cmp (a b : gf2) : res Z :=
  c <- o_cmp (fst a) (fst b) ;;
  if negb (c =? 0) then Ok 1 else
  c <- o_cmp (snd a) (snd b) ;;
  Ok (if negb (c =? 0) then 1 else 0).
(** gf32m_add: 587-592. *)
Definition gf32m_add (a b : gf2) : res gf2 := c0 <- o_add (fst a) (fst b) ;; c1 <- o_add (snd a) (snd b) ;; Ok (c0, c1).
(** gf32m_sub: 595-600. *)
Definition gf32m_sub (a b : gf2) : res gf2 := c0 <- o_sub (fst a) (fst b) ;; c1 <- o_sub (snd a) (snd b) ;; Ok (c0, c1).
(** gf32m_neg: 603-608. *)
Definition gf32m_neg (inplace : bool) (a : gf2) : res gf2 := c0 <- o_neg inplace (fst a) ;; c1 <- o_neg inplace (snd a) ;; Ok (c0, c1).
(** gf32m_mult: 611-637. *)
Definition gf32m_mult (a b : gf2) : res gf2 :=
  let (a0, a1) := a in let (b0, b1) := b in
  a0b0 <- o_mul a0 b0 ;;
  a1b1 <- o_mul a1 b1 ;;
  t0 <- o_add a1 a0 ;;
  t1 <- o_add b1 b0 ;;
  c1 <- o_mul t0 t1 ;;
  c1 <- o_sub c1 a1b1 ;;
  c1 <- o_sub c1 a0b0 ;;
  c0 <- o_sub a0b0 a1b1 ;;
  Ok (c0, c1).
(** gf32m_cubic: 640-654. *)
Definition gf32m_cubic (a : gf2) : res gf2 :=
  c0 <- o_cubic (fst a) ;;
  c1 <- o_cubic (snd a) ;;
  c1 <- o_neg true c1 ;;
  Ok (c0, c1).

(** * gf33m: 684-948.  The triple (_0, _1, _2). *)
Record gf3 := G3 { g_0 : car F; g_1 : car F; g_2 : car F }.
(** gf33m_set0: 711-716. *)
Definition gf33m_set0 : res gf3 := e0 <- o_set0 ;; e1 <- o_set0 ;; e2 <- o_set0 ;; Ok (G3 e0 e1 e2).
(** gf33m_set1: 718-723. *)
Definition gf33m_set1 : res gf3 := e0 <- o_set1 ;; e1 <- o_set0 ;; e2 <- o_set0 ;; Ok (G3 e0 e1 e2).
(** gf33m_cmp: 751-755. *)
Definition gf33m_cmp (a b : gf3) : res Z :=
  c <- o_cmp (g_0 a) (g_0 b) ;;
  if negb (c =? 0) then Ok 1 else
  c <- o_cmp (g_1 a) (g_1 b) ;;
  if negb (c =? 0) then Ok 1 else
  c <- o_cmp (g_2 a) (g_2 b) ;;
  Ok (if negb (c =? 0) then 1 else 0).
(** gf33m_add: 758-765. *)
Definition gf33m_add (a b : gf3) : res gf3 :=
  c0 <- o_add (g_0 a) (g_0 b) ;; c1 <- o_add (g_1 a) (g_1 b) ;; c2 <- o_add (g_2 a) (g_2 b) ;; Ok (G3 c0 c1 c2).
(** gf33m_sub: 768-775. *)
Definition gf33m_sub (a b : gf3) : res gf3 :=
  c0 <- o_sub (g_0 a) (g_0 b) ;; c1 <- o_sub (g_1 a) (g_1 b) ;; c2 <- o_sub (g_2 a) (g_2 b) ;; Ok (G3 c0 c1 c2).
(** gf33m_mult: 778-835. *)
Definition gf33m_mult (a b : gf3) : res gf3 :=
  let (a0, a1, a2) := a in let (b0, b1, b2) := b in
  a0b0 <- o_mul a0 b0 ;;
  a1b1 <- o_mul a1 b1 ;;
  a2b2 <- o_mul a2 b2 ;;
  t0 <- o_add a1 a0 ;;
  t1 <- o_add b1 b0 ;;
  d1 <- o_mul t0 t1 ;;
  d1 <- o_sub d1 a1b1 ;;
  d1 <- o_sub d1 a0b0 ;;
  t0 <- o_add a2 a0 ;;
  t1 <- o_add b2 b0 ;;
  d2 <- o_mul t0 t1 ;;
  d2 <- o_add d2 a1b1 ;;
  d2 <- o_sub d2 a2b2 ;;
  d2 <- o_sub d2 a0b0 ;;
  t0 <- o_add a2 a1 ;;
  t1 <- o_add b2 b1 ;;
  d3 <- o_mul t0 t1 ;;
  d3 <- o_sub d3 a2b2 ;;
  d3 <- o_sub d3 a1b1 ;;
  c0 <- o_add a0b0 d3 ;;
  c1 <- o_add d1 d3 ;;
  c1 <- o_add c1 a2b2 ;;
  c2 <- o_add d2 a2b2 ;;
  Ok (G3 c0 c1 c2).
(** gf33m_cubic: 838-861. *)
Definition gf33m_cubic (a : gf3) : res gf3 :=
  a03 <- o_cubic (g_0 a) ;;
  a13 <- o_cubic (g_1 a) ;;
  a23 <- o_cubic (g_2 a) ;;
  a03 <- o_add a03 a13 ;;
  a03 <- o_add a03 a23 ;;
  a13 <- o_sub a13 a23 ;;
  Ok (G3 a03 a13 a23).
(** gf33m_invert: 864-921. *)
Definition gf33m_invert (a : gf3) : res gf3 :=
  let (a0, a1, a2) := a in
  a02 <- o_mul a0 a0 ;;
  a12 <- o_mul a1 a1 ;;
  a22 <- o_mul a2 a2 ;;
  v0 <- o_sub a0 a2 ;;
  delta <- o_mul v0 a02 ;;
  v0 <- o_sub a1 a0 ;;
  c0 <- o_mul v0 a12 ;;
  delta <- o_add delta c0 ;;
  v0 <- o_sub a2 v0 ;;
  c1 <- o_mul v0 a22 ;;
  delta <- o_add delta c1 ;;
  delta <- o_invert delta ;;
  v0 <- o_add a02 a22 ;;
  c2 <- o_mul a0 a2 ;;
  c0 <- o_sub v0 c2 ;;
  v0 <- o_add a1 a2 ;;
  c3 <- o_mul a1 v0 ;;
  c0 <- o_sub c0 c3 ;;
  c0 <- o_mul c0 delta ;;
  c1 <- o_mul a0 a1 ;;
  c1 <- o_sub a22 c1 ;;
  c1 <- o_mul c1 delta ;;
  c2 <- o_sub a12 c2 ;;
  c2 <- o_sub c2 a22 ;;
  c2 <- o_mul c2 delta ;;
  Ok (G3 c0 c1 c2).
End T.
Arguments G3 {F}. Arguments g_0 {F}. Arguments g_1 {F}. Arguments g_2 {F}.

(** field_init_gf32m: 661-682.  There is no invert. *)
Definition gf32m_ops (F : gfops) : gfops :=
  {| car := gf2 F; o_set0 := gf32m_set0 F; o_set1 := gf32m_set1 F; o_add := gf32m_add F; o_sub := gf32m_sub F;
     o_mul := gf32m_mult F; o_neg := gf32m_neg F; o_cubic := gf32m_cubic F; o_invert _ := UB; o_cmp := gf32m_cmp F |}.
(** field_init_gf33m: 928-948.  There is no neg. *)
Definition gf33m_ops (F : gfops) : gfops :=
  {| car := gf3 F; o_set0 := gf33m_set0 F; o_set1 := gf33m_set1 F; o_add := gf33m_add F; o_sub := gf33m_sub F;
     o_mul := gf33m_mult F; o_neg _ _ := UB; o_cubic := gf33m_cubic F; o_invert := gf33m_invert F; o_cmp := gf33m_cmp F |}.
(** GT of type I, ecc/eta_T_3.c:722-724: gf33m on top of gf32m on top of GF(3^m). *)
Definition gf36m_ops (F : gfops) : gfops := gf33m_ops (gf32m_ops F).
