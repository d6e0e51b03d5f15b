(** C38 (and C34, C39, C58, C64 for this type): type F pairings.  Embedding
    degree twelve, Y^2 = X^3 + b over F_q, second group on the sextic twist
    over F_{q^2}.  The value is f_P(psi Q)^((q^12-1)/r), with f_P the function
    with divisor r(P) - r(O) and psi the untwisting map into E(F_{q^12}). *)
From Coq Require Import ZArith Znumtheory List Bool.
From Verif.Base Require Import Outcome Algebra Gmp.
From Verif.Spec Require Import FiniteField Polynomials Curve Tate PairingValue PairingValueF.
From Verif.Model Require Import Pairing PairingA PairingF.
From Verif.Proofs Require Import PolySextic PairingDWitness PairingFApi PairingFMain.
From Verif.Model Require Import Pairing.
Import ListNotations.
Open Scope Z_scope.

(** f_init_pairing's constants: initialisation succeeds; below, d is what it
    stores. *)
Theorem type_f_init : forall (K : fld) beta alpha (b : K) q r, type_f K beta alpha b q r -> exists d, f_init K beta alpha q r = Ok d.
Proof. exact init_ex. Qed.
Print Assumptions type_f_init.
(** C38: the sparse multiplication is the multiplication by
    a Qx w^4 + b Qy w^3 + c. *)
Theorem type_f_sparse_multiplication : forall (K : fld) beta alpha (b : K) q r, type_f K beta alpha b q r -> forall d, f_init K beta alpha q r = Ok d ->
  forall v ca cb cc (Qx Qy : F2 K beta),
  f_miller_evalfn K beta alpha (negalpha K beta d) v (ca, cb, cc) Qx Qy =
  let w := root K beta alpha in
  fmul v (fadd (fadd (fmul (from1 K beta alpha ca) (fmul (from2 K beta alpha Qx) (fmul (fmul w w) (fmul w w))))
                     (fmul (from1 K beta alpha cb) (fmul (from2 K beta alpha Qy) (fmul (fmul w w) w)))) (from1 K beta alpha cc)).
Proof. exact m_evalfn. Qed.
Print Assumptions type_f_sparse_multiplication.
(** C38: the final exponentiation, through powers of Frobenius and
    (q^4 - q^2 + 1) / r, is the power (q^12 - 1) / r. *)
Theorem type_f_final_exponentiation : forall (K : fld) beta alpha (b : K) q r, type_f K beta alpha b q r -> forall d, f_init K beta alpha q r = Ok d ->
  forall x : F12 K beta alpha, x <> f0 -> f_tateexp K beta alpha d x = Ok (fpow x ((q ^ 12 - 1) / r)).
Proof. exact m_tateexp. Qed.
Print Assumptions type_f_final_exponentiation.
(** C38: the pairing. *)
Theorem type_f_pairing_is_tate : forall (K : fld) beta alpha (b : K) q r, type_f K beta alpha b q r -> forall d, f_init K beta alpha q r = Ok d ->
  forall P Q, torsion K f0 b r P -> on_f_twist K beta alpha b Q -> pairing_apply (f_pairing_rec K beta alpha d r) P Q = Ok (f_value K beta alpha q r P Q).
Proof. exact m_apply. Qed.
Print Assumptions type_f_pairing_is_tate.
Theorem type_f_preprocessed_is_tate : forall (K : fld) beta alpha (b : K) q r, type_f K beta alpha b q r -> forall d, f_init K beta alpha q r = Ok d ->
  forall P, torsion K f0 b r P -> exists pp, pairing_pp_init (f_pairing_rec K beta alpha d r) P = Ok pp /\
  forall Q, on_f_twist K beta alpha b Q -> pairing_pp_apply (f_pairing_rec K beta alpha d r) Q pp = Ok (f_value K beta alpha q r P Q).
Proof. exact m_pp. Qed.
Print Assumptions type_f_preprocessed_is_tate.
(** C34. *)
Theorem type_f_product : forall (K : fld) beta alpha (b : K) q r, type_f K beta alpha b q r -> forall d, f_init K beta alpha q r = Ok d ->
  forall in1 in2, length in1 = length in2 -> in1 <> [] -> Forall (torsion K f0 b r) in1 -> Forall (on_f_twist K beta alpha b) in2 ->
  Forall (fun P => P <> None) in1 -> Forall (fun Q => Q <> None) in2 ->
  element_prod_pairing (f_pairing_rec K beta alpha d r) in1 in2 (length in1) =
    Ok (gprod (map (fun pq => f_value K beta alpha q r (fst pq) (snd pq)) (combine in1 in2))).
Proof. exact m_prod. Qed.
Print Assumptions type_f_product.
Theorem type_f_product_identity_gives_1 : forall (K : fld) beta alpha (b : K) q r, type_f K beta alpha b q r -> forall d, f_init K beta alpha q r = Ok d ->
  forall in1 in2 i P Q, length in1 = length in2 -> nth_error in1 i = Some P -> nth_error in2 i = Some Q -> P = None \/ Q = None ->
  element_prod_pairing (f_pairing_rec K beta alpha d r) in1 in2 (length in1) = Ok f1.
Proof. exact m_prod_1. Qed.
Print Assumptions type_f_product_identity_gives_1.
Theorem type_f_identity : forall (K : fld) beta alpha (b : K) q r, type_f K beta alpha b q r ->
  (forall Q, f_value K beta alpha q r None Q = f1) /\ (forall P, f_value K beta alpha q r P None = f1).
Proof. exact m_identity. Qed.
Print Assumptions type_f_identity.
Theorem type_f_value_order : forall (K : fld) beta alpha (b : K) q r, type_f K beta alpha b q r ->
  forall P Q, torsion K f0 b r P -> on_f_twist K beta alpha b Q -> fpow (f_value K beta alpha q r P Q) r = f1.
Proof. exact f_value_r. Qed.
Print Assumptions type_f_value_order.
(** C39: bilinear, for every point of the twist. *)
Theorem type_f_bilinear : forall (K : fld) beta alpha (b : K) q r, type_f K beta alpha b q r ->
  forall i j P Q, torsion K f0 b r P -> on_f_twist K beta alpha b Q ->
  f_value K beta alpha q r (pzmul K f0 i P) (pzmul (F2 K beta) f0 j Q) = fpow (f_value K beta alpha q r P Q) ((i * j) mod r).
Proof. exact f_bilinear. Qed.
Print Assumptions type_f_bilinear.
Theorem type_f_additive : forall (K : fld) beta alpha (b : K) q r, type_f K beta alpha b q r ->
  forall P P' Q Q', torsion K f0 b r P -> torsion K f0 b r P' -> on_f_twist K beta alpha b Q -> on_f_twist K beta alpha b Q' ->
  f_value K beta alpha q r (padd K f0 P P') Q = fmul (f_value K beta alpha q r P Q) (f_value K beta alpha q r P' Q) /\
  f_value K beta alpha q r P (padd (F2 K beta) f0 Q Q') = fmul (f_value K beta alpha q r P Q) (f_value K beta alpha q r P Q').
Proof. exact f_additive. Qed.
Print Assumptions type_f_additive.
(** C58. *)
Theorem type_f_random_gt_order : forall (K : fld) beta alpha (b : K) q r, type_f K beta alpha b q r -> forall d, f_init K beta alpha q r = Ok d ->
  forall x : F12 K beta alpha, x <> f0 -> exists u, f_tateexp K beta alpha d x = Ok u /\ fpow u r = f1.
Proof. exact m_gt. Qed.
Print Assumptions type_f_random_gt_order.
(** C64. *)
Theorem type_f_coddh_decides : forall (K : fld) beta alpha (b : K) q r, type_f K beta alpha b q r -> forall d, f_init K beta alpha q r = Ok d ->
  forall P B Q X, torsion K f0 b r P -> torsion K f0 b r B -> on_f_twist K beta alpha b Q -> on_f_twist K beta alpha b X -> exists z,
  generic_is_almost_coddh (f_pairing_rec K beta alpha d r) P B Q X = Ok z /\
  (z = true <-> f_value K beta alpha q r P X = f_value K beta alpha q r B Q \/ fmul (f_value K beta alpha q r P X) (f_value K beta alpha q r B Q) = f1).
Proof. exact m_coddh. Qed.
Print Assumptions type_f_coddh_decides.
Theorem type_f_coddh_accepts : forall (K : fld) beta alpha (b : K) q r, type_f K beta alpha b q r -> forall d, f_init K beta alpha q r = Ok d ->
  forall P Q x s, torsion K f0 b r P -> on_f_twist K beta alpha b Q -> s = 1 \/ s = -1 ->
  generic_is_almost_coddh (f_pairing_rec K beta alpha d r) P (pzmul K f0 x P) Q (pzmul (F2 K beta) f0 (s * x) Q) = Ok true.
Proof. exact m_accepts. Qed.
Print Assumptions type_f_coddh_accepts.
(** The hypothesis on alpha: it is enough that -alpha is neither a square nor
    a cube. *)
Theorem sextic_irreducibility : forall (M : fld), fld_laws M -> forall alpha : M, ~ is_square (fopp alpha) -> (forall x, fmul (fmul x x) x <> fopp alpha) ->
  irreducible [alpha; f0; f0; f0; f0; f0; f1].
Proof. exact sextic_irreducible. Qed.
Print Assumptions sextic_irreducibility.

(** q = 7, r = 13, Y^2 = X^3 + 3: the hypotheses hold and the value is not 1. *)
Example type_f_instance : type_f F7 (e7 3) a49 (e7 3) 7 13 /\ torsion F7 f0 (e7 3) 13 PF7 /\ on_f_twist F7 (e7 3) a49 (e7 3) QF7 /\
  f_value F7 (e7 3) a49 7 13 PF7 QF7 <> f1.
Proof. split; [exact type_f_7 | ]. split; [exact tf7 | ]. split; [exact of7 | exact val7f_not_1]. Qed.
