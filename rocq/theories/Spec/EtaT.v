(** The eta_T pairing on y^2 = x^3 - x + 1 over K = GF(3^m), as a formula.

    GF36m K is K[i]/(i^2 + 1)[z]/(z^3 - z - 1); [elt6 u0 .. u5] is
    u0 + u1 i + (u2 + u3 i) z + (u4 + u5 i) z^2 (Spec/TernaryTower.v). *)
From Coq Require Import ZArith List Bool.
From Verif.Base Require Import Algebra Slots.
From Verif.Spec Require Import FiniteField Quadratic Extension TernaryTower.
Open Scope Z_scope.

Section E.
Variable K : fld.
Variable m : nat.
Definition on_ternary_curve (x y : K) : Prop := fmul y y = fadd (fsub (fmul x (fmul x x)) x) f1.

(** The trace sign: #E = 3^m + 1 + mu 3^((m+1)/2). *)
Definition eta_mu : Z := if (Z.of_nat m mod 12 =? 1) || (Z.of_nat m mod 12 =? 11) then 1 else -1.
Definition eta_lambda : Z := if (Z.of_nat m mod 12 =? 7) || (Z.of_nat m mod 12 =? 11) then 1 else -1.
Definition eta_t : Z := 3 ^ ((Z.of_nat m + 1) / 2).
(** The number of points, and the exponent of the final exponentiation. *)
Definition eta_N : Z := 3 ^ Z.of_nat m + 1 + eta_mu * eta_t.
Definition eta_M : Z := (3 ^ Z.of_nat (3 * m) - 1) * (3 ^ Z.of_nat m + 1) * (3 ^ Z.of_nat m + 1 - eta_mu * eta_t).

Variables xp yp xq yq : K.
(** x_n = xq^(3^(2n+1)) - n and y_n = (-1)^n yq^(3^(2n+1)). *)
Definition eta_x (n : nat) : K := fsub (fpow xq (3 ^ Z.of_nat (2 * n + 1))) (fofz (Z.of_nat n)).
Definition eta_y (n : nat) : K := fmul (fpow (fopp f1) (Z.of_nat n)) (fpow yq (3 ^ Z.of_nat (2 * n + 1))).
(** - mu yp, and t_n = xp + 1 + x_n. *)
Definition eta_yp : K := fmul (fofz (- eta_mu)) yp.
Definition eta_tn (n : nat) : K := fadd (fadd xp f1) (eta_x n).
(** -t^2 + u i - t z - z^2. *)
Definition eta_line (t u : K) : GF36m K := elt6 (fopp (fmul t t)) u (fopp t) f0 (fopp f1) f0.
Definition eta_factor (n : nat) : GF36m K := eta_line (eta_tn n) (fmul eta_yp (eta_y n)).
(** lambda (yp' t_0 - y_0 i - yp' z). *)
Definition eta_first : GF36m K :=
  let l := fofz eta_lambda in
  elt6 (fmul l (fmul eta_yp (eta_tn 0))) (fopp (fmul l (eta_y 0))) (fopp (fmul l eta_yp)) f0 f0 f0.
Fixpoint eta_miller (n : nat) : GF36m K :=
  match n with
  | O => fmul eta_first (eta_factor 0)
  | S n' => fmul (fpow (eta_miller n') 3) (eta_factor n)
  end.
Definition eta_T : GF36m K := fpow (eta_miller ((m - 1) / 2)) eta_M.
End E.
