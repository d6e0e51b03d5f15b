(** The cryptosystems of example/: one honest run of each program, from its
    random choices to the verdict it prints.  What element_random and
    element_from_hash return are arguments: points of G1 and G2, and residues
    modulo r for Zr.  Element initialisation, printing and timing are left
    out. *)
From Coq Require Import ZArith List Bool.
From Verif.Base Require Import Outcome Gmp Algebra Slots.
From Verif.Spec Require Import Curve.     (* only for the type of points *)
From Verif.Model Require Import GenericPow Curve CurveCodec GT.
Local Open Scope Z_scope.

(** Zr, the integers modulo r; its elements are canonical residues (C01).
    element_invert of a non-invertible element leaves an unspecified value
    (mpz_invert, arith/montfp.c:401-423, arith/naivefp.c:170-172). *)
Section Zr.
Variable r : Z.
Definition zr_add (x y : Z) : Z := (x + y) mod r.
Definition zr_sub (x y : Z) : Z := (x - y) mod r.
Definition zr_neg (x : Z) : Z := (- x) mod r.
Definition zr_mul_mpz (x z : Z) : Z := (x * z) mod r.
Definition zr_invert (x : Z) : res Z := match mpz_invert x r with Some y => Ok y | None => UB end.
End Zr.

(** element_mul_zn and element_pow_zn of points: the same function, given the
    canonical residue (include/pbc_field.h:311-319, 374-381, ecc/curve.c:713) *)
Definition pt_mul_zn (K : fld) (a : K) (P : point K) (n : Z) : res (point K) :=
  join (generic_pow_mpz (point_monoid K a) (Ok P) n).

(** example/bls.c.  G1 is a curve over K with its encodings, G2 one over M;
    [st0] is what the memory of [sig] (register 0) holds at the beginning.
    The result: whether the signature verifies (:78), whether the one read
    back from its x-coordinate does, on one of the two guesses (:101-109), and
    whether the random signature does (:118). *)
Section Bls.
Variables K M T : fld.
Variables (a b : K) (a2 : M).
Variables (blen : nat) (enc : K -> list Z) (dec : list Z -> K) (sign : K -> Z) (sqrt : K -> res K).
Variable pair : point K -> point M -> res T.
Notation sig := (Reg 0).
Definition bls (st0 : cst K) (g : point M) (secret_key : Z) (h random_sig : point K) : res (bool * bool * bool) :=
  public_key <- pt_mul_zn M a2 g secret_key ;;                             (* :37 *)
  s <- pt_mul_zn K a h secret_key ;;                                       (* :47 *)
  st <- store_value K sig s st0 ;;
  let data := to_bytes_compressed K enc sign st sig in                     (* :56 *)
  st <- from_bytes_compressed K a b blen dec sign sqrt sig data st ;;      (* :63 *)
  temp1 <- pair (cval st sig) g ;;                                         (* :70 *)
  temp2 <- pair h public_key ;;                                            (* :75 *)
  let verdict1 := mulg_cmp T temp1 temp2 in                                (* :78 *)
  let data := to_bytes_x_only K enc st sig in                              (* :90 *)
  st <- from_bytes_x_only K a b blen dec sqrt sig data st ;;               (* :97 *)
  temp1 <- pair (cval st sig) g ;;                                         (* :100 *)
  verdict2 <- (if mulg_cmp T temp1 temp2 then Ok true                      (* :101-109 *)
               else (temp1 <- gt_invert T temp1 ;; Ok (mulg_cmp T temp1 temp2))) ;;
  temp1 <- pair random_sig g ;;                                            (* :116-117 *)
  Ok (verdict1, verdict2, mulg_cmp T temp1 temp2).
End Bls.

(** The other programs need G1 = G2 (pairing_is_symmetric). *)
Section Symmetric.
Variables K T : fld.
Variable a : K.
Variable r : Z.
Variable pair : point K -> point K -> res T.
Variable to_mpz : T -> Z.                 (* element_to_mpz in GT *)
Notation mul_zn := (pt_mul_zn K a).
Notation add := (mul_value K a).

(** example/hess.c:44-85; [hm] is the hash of the message.  The result is the
    signature, the value recomputed by the verifier and the verdict. *)
Definition hess (P Qid P1 : point K) (s k hm : Z) : res (Z * point K * Z * bool) :=
  Ppub <- mul_zn P s ;;
  Did <- mul_zn Qid s ;;
  t1 <- pair P1 P ;;
  rr <- gt_pow_zn T t1 k ;;
  let v := zr_mul_mpz r hm (to_mpz rr) in
  t4 <- mul_zn Did v ;;
  t5 <- mul_zn P1 k ;;
  u <- add t4 t5 ;;
  t6 <- pair u P ;;
  let Ppub := pneg Ppub in
  t7 <- pair Qid Ppub ;;
  t7 <- gt_pow_zn T t7 v ;;
  let rr := mulg_mul T t6 t7 in
  let t8 := zr_mul_mpz r hm (to_mpz rr) in
  Ok (v, u, t8, t8 =? v).

(** example/joux.c:35-57; the three keys *)
Definition joux (P : point K) (x y z : Z) : res (T * T * T) :=
  t1 <- mul_zn P x ;;
  t2 <- mul_zn P y ;;
  t3 <- mul_zn P z ;;
  t4 <- pair t2 t3 ;;
  Ka <- gt_pow_zn T t4 x ;;
  t5 <- pair t1 t3 ;;
  Kb <- gt_pow_zn T t5 y ;;
  t6 <- pair t1 t2 ;;
  Kc <- gt_pow_zn T t6 z ;;
  Ok (Ka, Kb, Kc).

(** example/paterson.c:43-88; [h2] is the hash of the message and [h3] hashes
    the encoding of a point *)
Definition paterson (P Qid : point K) (s k h2 : Z) (h3 : point K -> Z) : res (point K * point K * bool) :=
  Ppub <- mul_zn P s ;;
  Did <- mul_zn Qid s ;;
  R <- mul_zn P k ;;
  t2 <- mul_zn P h2 ;;
  let t3 := h3 R in
  t4 <- mul_zn Did t3 ;;
  t5 <- add t4 t2 ;;
  k1 <- zr_invert r k ;;
  S <- mul_zn t5 k1 ;;
  t7 <- mul_zn P h2 ;;
  t6 <- pair P t7 ;;
  t8 <- pair Ppub Qid ;;
  t9 <- gt_pow_zn T t8 t3 ;;
  let t10 := mulg_mul T t6 t9 in
  t11 <- pair R S ;;
  Ok (R, S, mulg_cmp T t10 t11).

(** example/yuanli.c:72-136; the two keys and the verdict *)
Definition yuanli (P Qa Qb : point K) (s x y : Z) : res (T * T * bool) :=
  Ppub <- mul_zn P s ;;
  Sa <- mul_zn Qa s ;;
  Sb <- mul_zn Qb s ;;
  Ta <- mul_zn P x ;;
  Tb <- mul_zn P y ;;
  h <- mul_zn Tb x ;;
  temp1 <- mul_zn Ppub x ;;
  temp1 <- add temp1 Sa ;;
  temp2 <- add Tb Qb ;;
  Kab <- pair temp1 temp2 ;;
  h <- mul_zn Ta y ;;
  temp1 <- add Ta Qa ;;
  temp2 <- mul_zn Ppub y ;;
  temp2 <- add temp2 Sb ;;
  Kba <- pair temp1 temp2 ;;
  temp3 <- add Qa Qb ;;
  temp4 <- pair h temp3 ;;
  let temp5 := gt_add T temp4 Kab in
  let Kb := gt_add T temp4 Kba in
  Ok (temp5, Kb, mulg_cmp T temp5 Kb).

(** example/zhangkim.c:50-108; [hm] is the hash of the message.  The result is
    the unblinded signature, the value recomputed and the verdict. *)
Definition zhangkim (P Qid : point K) (s rr x y hm : Z) : res (point K * Z * Z * bool) :=
  Ppub <- mul_zn P s ;;
  Sid <- mul_zn Qid s ;;
  R <- mul_zn P rr ;;
  t1 <- mul_zn P x ;;
  t1 <- add R t1 ;;
  t2 <- mul_zn Qid y ;;
  t2 <- add t2 t1 ;;
  t3 <- pair t2 Ppub ;;
  let t6 := zr_mul_mpz r hm (to_mpz t3) in
  let c := zr_add r t6 y in
  t7 <- mul_zn Ppub rr ;;
  t8 <- mul_zn Sid c ;;
  S <- add t8 t7 ;;
  t9 <- mul_zn Ppub x ;;
  S <- add S t9 ;;
  let c := zr_sub r c y in
  t10 <- pair Qid Ppub ;;
  let negc := zr_neg r c in
  t10 <- gt_pow_zn T t10 negc ;;
  t11 <- pair S P ;;
  let t12 := mulg_mul T t11 t10 in
  let t14 := zr_mul_mpz r hm (to_mpz t12) in
  Ok (S, c, t14, t14 =? c).

(** example/zss.c:31-55; [hm] is the hash of the message *)
Definition zss (P : point K) (x hm : Z) : res (point K * bool) :=
  Ppub <- mul_zn P x ;;
  let t1 := zr_add r hm x in
  t1 <- zr_invert r t1 ;;
  S <- mul_zn P t1 ;;
  t2 <- mul_zn P hm ;;
  t2 <- add t2 Ppub ;;
  t3 <- pair t2 S ;;
  t4 <- pair P P ;;
  Ok (S, mulg_cmp T t3 t4).
End Symmetric.
