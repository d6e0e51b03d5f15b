(** The program gen/gengparam.c. *)
From Coq Require Import ZArith List Bool String.
From Verif.Base Require Import Outcome Algebra.
From Verif.Model Require Import Param CurveGen Mnt GenTools GenToolsD.
From Verif.Spec Require Import ParamText.
Import ListNotations.
Open Scope Z_scope.

(** struct g_param_s as set by pbc_param_init_g_gen (g_param.c:1404-1433, the
    same computations as for type D, see [d_rest], with k = 10) and printed at
    66-84 *)
Definition g_values (c : cm) (a b : Z) (coeffs : list Z) (nqr : Z) : values := fun key =>
  if key_is key "coeff3" then nth 3 coeffs 0 else if key_is key "coeff4" then nth 4 coeffs 0 else d_values c a b coeffs nqr key.
(** gengparam.c:4-14 *)
Definition generate_g (rest : cm -> res (Z * Z * list Z * Z)) (c : cm) : res (list Z) :=
  ' (a, b, coeffs, nqr) <- rest c ;; param_out_str TG (g_values c a b coeffs nqr).
Fixpoint generate_g_all (rest : cm -> res (Z * Z * list Z * Z)) (l : list cm) : res (list (list Z)) :=
  match l with
  | [] => Ok []
  | c :: l => t <- generate_g rest c ;; ts <- generate_g_all rest l ;; Ok (t :: ts)
  end.
(** gengparam.c:16-33: the texts printed by the calls of generate *)
Definition gengparam (isprime : Z -> bool) (nextprime : Z -> Z) (rest : cm -> res (Z * Z * list Z * Z)) (fuel : nat) (D : Z) : res (list (list Z)) :=
  if (D <=? 0) || negb ((D mod 120 =? 43) || (D mod 120 =? 67)) then Die else
  ' (hist, found) <- cm_search_g isprime nextprime (fun _ _ => 1) fuel D 500 ;;
  ts <- generate_g_all rest hist ;;
  if found =? 0 then Die else Ok ts.
