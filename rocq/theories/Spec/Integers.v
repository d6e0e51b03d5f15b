(** What the ring Z should answer. *)
From Coq Require Import ZArith List Bool.
From Verif.Base Require Import Gmp.
From Verif.Model Require Import ZRing.   (* only for the call syntax *)
Import ListNotations.
Open Scope Z_scope.

(** GMP's documentation of mpz_perfect_power_p: there are b and e > 1 with
    a = b^e. *)
Definition perfect_power (a : Z) : Prop := exists b e, 1 < e /\ a = b ^ e.
Definition square (a : Z) : Prop := exists b, a = b * b.

(** [zspec s c s' os]: on integers s, call c gives s' and answers os. *)
Inductive zspec (s : nat -> Z) : zcall -> (nat -> Z) -> list zobs -> Prop :=
| s_si : forall d n, zspec s (ZSetSi d n) (zset s d n) []
| s_mpz : forall d n, zspec s (ZSetMpz d n) (zset s d n) []
| s_set : forall d a, zspec s (ZSet d a) (zset s d (s a)) []
| s_0 : forall d, zspec s (ZSet0 d) (zset s d 0) []
| s_1 : forall d, zspec s (ZSet1 d) (zset s d 1) []
| s_add : forall d a b, zspec s (ZAdd d a b) (zset s d (s a + s b)) []
| s_sub : forall d a b, zspec s (ZSub d a b) (zset s d (s a - s b)) []
| s_mul : forall d a b, zspec s (ZMul d a b) (zset s d (s a * s b)) []
| s_sq : forall d a, zspec s (ZSquare d a) (zset s d (s a * s a)) []
| s_dbl : forall d a, zspec s (ZDouble d a) (zset s d (2 * s a)) []
| s_neg : forall d a, zspec s (ZNeg d a) (zset s d (- s a)) []
| s_mulz : forall d a n, zspec s (ZMulMpz d a n) (zset s d (n * s a)) []
| s_muls : forall d a n, zspec s (ZMulSi d a n) (zset s d (n * s a)) []
| s_pow : forall d a e, 0 <= e < 2 ^ 64 -> zspec s (ZPow d a e) (zset s d (s a ^ e)) []
| s_inv : forall d a v, s a * v = 1 -> zspec s (ZInvert d a) (zset s d v) []
| s_div : forall d a b v, s b <> 0 -> s a = s b * v -> zspec s (ZDiv d a b) (zset s d v) []
| s_sqrt : forall d a v, 0 <= v -> s a = v * v -> zspec s (ZSqrt d a) (zset s d v) []
| s_to : forall a, zspec s (ZToMpz a) s [ON (s a)]
| s_sgn : forall a, zspec s (ZSign a) s [ON (Z.sgn (s a))]
| s_is0 : forall a b, (b = true <-> s a = 0) -> zspec s (ZIs0 a) s [OB b]
| s_is1 : forall a b, (b = true <-> s a = 1) -> zspec s (ZIs1 a) s [OB b]
| s_cmp : forall a b n, Z.abs n <= 1 -> (n < 0 <-> s a < s b) -> (n = 0 <-> s a = s b) -> zspec s (ZCmp a b) s [ON n]
| s_issqr : forall a b, (b = true <-> square (s a)) -> (perfect_power (s a) -> square (s a)) ->
    zspec s (ZIsSqr a) s [OB b].

Inductive zspec_run : (nat -> Z) -> list zcall -> list zobs -> Prop :=
| zr_nil : forall s, zspec_run s [] []
| zr_cons : forall s c s' os h os', zspec s c s' os -> zspec_run s' h os' -> zspec_run s (c :: h) (os ++ os').

(** Bytes of the magnitude of z, with a null byte if the top bit is set. *)
Definition z_size (z : Z) : Z := (sizeinbase2 z + 7) / 8 + (if sizeinbase2 z mod 8 =? 0 then 1 else 0).
