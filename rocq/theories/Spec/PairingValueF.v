(** What a type F pairing computes: Barreto-Naehrig curves Y^2 = X^3 + b over
    F_q, embedding degree twelve, second group on the sextic twist. *)
From Coq Require Import ZArith Znumtheory List.
From Verif.Base Require Import Algebra.
From Verif.Spec Require Import FiniteField Quadratic Polynomials Extension Curve Tate Twist PairingValueD.
Import ListNotations.
Local Open Scope Z_scope.

Section F.
Variable K : fld.
Variable beta : K.
(** F_{q^2} = K(sqrt beta), F_{q^12} = F_{q^2}(w) with w^6 = -alpha *)
Definition F2 : fld := Quad K beta.
Variable alpha : F2.
Definition sextic : list F2 := [alpha; f0; f0; f0; f0; f0; f1].
Definition F12 : fld := Ext F2 6 sextic.
Definition root : F12 := mkvec 6 (fun i => if Nat.eqb i 1 then f1 else f0).
Definition from2 (x : F2) : F12 := const F2 6 sextic x.
Definition from1 (x : K) : F12 := from2 (low K beta x).
(** Type F parameters: q > 3 prime, beta not a square in F_q, x^6 + alpha
    irreducible over F_{q^2}, r an odd prime dividing the twelfth cyclotomic
    polynomial at q. *)
Record type_f (b : K) (q r : Z) : Prop := {
  tf_q : prime q; tf_q3 : 3 < q; tf_field : fld_laws K; tf_order : has_order K q;
  tf_beta : ~ is_square beta; tf_irred : irreducible sextic; tf_curve : elliptic K f0 b;
  tf_r : prime r; tf_r2 : 2 < r; tf_deg : (r | q ^ 4 - q ^ 2 + 1) }.
(** The second group: points of Y^2 = X^3 - alpha b over F_{q^2}. *)
Definition on_f_twist (b : K) (Q : point F2) : Prop := on_curve F2 f0 (fmul (fopp alpha) (low K beta b)) Q.
(** They go into E(F_{q^12}) by (x, y) -> (x / w^2, y / w^3). *)
Definition f_untwist (Q : point F2) : point F12 :=
  match Q with
  | None => None
  | Some (x, y) => Some (fdiv (from2 x) (fmul root root), fdiv (from2 y) (fmul (fmul root root) root))
  end.
Definition f_value (q r : Z) (P : point K) (Q : point F2) : F12 :=
  tate F12 f0 r ((q ^ 12 - 1) / r) (epoint from1 P) (f_untwist Q).
End F.
