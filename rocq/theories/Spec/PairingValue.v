(** What the pairings compute, in terms of the Tate pairing. *)
From Coq Require Import ZArith Znumtheory.
From Verif.Base Require Import Algebra.
From Verif.Spec Require Import FiniteField Quadratic Curve Tate Twist.
Local Open Scope Z_scope.

(** Type A: E is Y^2 = X^3 + X over F_q, q = 3 mod 4, F_{q^2} = F_q(i).  The
    second argument is moved by (x, y) -> (-x, iy), which is [twist] with
    v = -1; the final exponent is (q^2 - 1) / r. *)
Definition type_a_value (K : fld) (q r : Z) (P Q : point K) : Quad K (fopp f1) :=
  let i2 : K := fopp f1 in
  tate (Quad K i2) (low K i2 f1) r ((q * q - 1) / r) (epoint (low K i2) P) (twist K i2 Q).

(** Type A parameters: q = 3 mod 4 prime, r prime with r h = q + 1 and
    r = 2^e2 + s1 2^e1 + s0 (s0, s1 = 1 or -1); K is F_q.  With r = 3 or 5 the
    chord in the last step of the code is a tangent, so r > 5 is assumed. *)
Record type_a (K : fld) (q r h e2 e1 s1 s0 : Z) : Prop := {
  ta_q : prime q; ta_mod : q mod 4 = 3; ta_field : fld_laws K; ta_order : has_order K q;
  ta_r : prime r; ta_big : 5 < r; ta_h : r * h = q + 1;
  ta_exp : 0 <= e1 < e2; ta_s1 : s1 = 1 \/ s1 = -1; ta_s0 : s0 = 1 \/ s0 = -1;
  ta_solinas : r = 2 ^ e2 + s1 * 2 ^ e1 + s0 }.
(** Points of the curve Y^2 = X^3 + aX + b, and those killed by r. *)
Definition torsion (K : fld) (a b : K) (r : Z) (P : point K) : Prop := on_curve K a b P /\ pzmul K a r P = None.
Definition gprod {T : fld} (l : list T) : T := List.fold_right fmul f1 l.

(** ** The other pairings with a quadratic twist.  E is Y^2 = X^3 + aX + b over
    K; M contains K (by [h]), L = M(sqrt v), the second argument is a point of
    the twist over M; [e] is the final exponent. *)
Definition twisted_value {K M : fld} (h : K -> M) (v : M) (a : K) (r e : Z) (P : point K) (Q : point M) : Quad M v :=
  tate (Quad M v) (low M v (h a)) r e (epoint (fun x => low M v (h x)) P) (twist M v Q).
(** The multiples of P met by double-and-add on the bits of r, from the top:
    none is the identity, none has order two and no addition of P is a
    doubling or gives the identity. *)
Definition regular (K : fld) (a : K) (r : Z) (P : point K) : Prop :=
  forall m, 0 < m -> let k := r / 2 ^ m in 0 < k ->
    pzmul K a k P <> None /\ pzmul K a (2 * k) P <> None /\ (Z.odd k = true -> 1 < k -> pzmul K a (k - 2) P <> None).
(** P has order exactly r. *)
Definition exact_order (K : fld) (a : K) (r : Z) (P : point K) : Prop :=
  pzmul K a r P = None /\ forall k, 0 < k < r -> pzmul K a k P <> None.

(** Type A1 parameters: p = 3 mod 4 prime, p + 1 = n l, n odd and usually
    composite; K is F_p. *)
Record type_a1 (K : fld) (p n l : Z) : Prop := {
  t1_p : prime p; t1_mod : p mod 4 = 3; t1_field : fld_laws K; t1_order : has_order K p;
  t1_n : 2 < n; t1_odd : Z.odd n = true; t1_l : n * l = p + 1 }.
(** The first arguments of a type A1 pairing: points of E[n] whose multiples
    met by double-and-add are in general position (for instance points of order
    exactly n), and the identity. *)
Definition a1_input (K : fld) (n : Z) (P : point K) : Prop := torsion K f1 f0 n P /\ (P <> None -> regular K f1 n P).
