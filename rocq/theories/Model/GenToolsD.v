(** The program gen/gendparam.c. *)
From Coq Require Import ZArith List Bool String.
From Verif.Base Require Import Outcome Algebra.
From Verif.Model Require Import Param CurveGen Mnt GenTools.
From Verif.Spec Require Import ParamText.
Import ListNotations.
Open Scope Z_scope.

(** struct d_param_s as set at d_param.c:1149-1171, 1250-1257 and printed at
    73-93.  k is 6 for every curve found by pbc_cm_search_d, so there are three
    coefficients. *)
Definition d_values (c : cm) (a b : Z) (coeffs : list Z) (nqr : Z) : values := fun key =>
  if key_is key "q" then cm_q c else if key_is key "n" then cm_n c else if key_is key "h" then cm_h c else if key_is key "r" then cm_r c else
  if key_is key "a" then a else if key_is key "b" then b else if key_is key "k" then cm_k c else
  if key_is key "nk" then extension_order (cm_q c) (cm_n c) (cm_k c) else
  if key_is key "hk" then extension_cofactor (cm_q c) (cm_n c) (cm_r c) (cm_k c) else
  if key_is key "coeff0" then nth 0 coeffs 0 else if key_is key "coeff1" then nth 1 coeffs 0 else if key_is key "coeff2" then nth 2 coeffs 0 else
  if key_is key "nqr" then nqr else 0.
(** d_param.c:1100-1154 and 1234-1257; [hilbert] is what pbc_hilbert gives for D,
    [nqr0] what field_get_nqr gives *)
Definition d_rest (K : fld) (to_mpz : K -> Z) (is_sqr : K -> bool) (sqrt : K -> res K) (isprime : Z -> bool) (nextprime : Z -> Z)
    (nqr0 : K) (hilbert : list Z) (x : Z) (src src2 : list K) (fuel : nat) (c : cm) : res (Z * Z * list Z * Z) :=
  let d := Z.to_nat (Z.quot (cm_k c) 2) in
  ' (a, b, _) <- cm_curve K (cm_q c) is_sqr sqrt nqr0 hilbert (cm_n c) x src ;;
  ' (irred, nqr, _) <- extension_gen K (cm_q c) isprime nextprime fuel d src2 ;;
  Ok (to_mpz a, to_mpz b, map to_mpz (firstn d irred), to_mpz nqr).

(** gendparam.c:7-17; [rest] is the choice of the curve and of the extension *)
Definition generate (rest : cm -> res (Z * Z * list Z * Z)) (c : cm) : res (list Z) :=
  ' (a, b, coeffs, nqr) <- rest c ;; param_out_str TD (d_values c a b coeffs nqr).
Fixpoint generate_all (rest : cm -> res (Z * Z * list Z * Z)) (l : list cm) : res (list (list Z)) :=
  match l with
  | [] => Ok []
  | c :: l => t <- generate rest c ;; ts <- generate_all rest l ;; Ok (t :: ts)
  end.
(** gendparam.c:19-36: the texts printed by the calls of generate *)
Definition gendparam (isprime : Z -> bool) (nextprime : Z -> Z) (rest : cm -> res (Z * Z * list Z * Z)) (fuel : nat) (D : Z) : res (list (list Z)) :=
  if (D <=? 0) || (D mod 4 =? 1) || (D mod 4 =? 2) then Die else
  ' (hist, found) <- cm_search_d isprime nextprime (fun _ _ => 1) fuel D 500 ;;
  ts <- generate_all rest hist ;;
  if found =? 0 then Die else Ok ts.
