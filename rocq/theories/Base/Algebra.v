(** Abstract structures on which the generic code of PBC operates: the table
    of functions of a field_s (include/pbc_field.h) restricted to the
    operations used, with the laws stated separately. *)
From Coq Require Import ZArith List Bool Ring_theory Field_theory.
From Verif.Base Require Import Outcome.
Import ListNotations.

(** Structures with a multiplication and a one (fields, rings, and groups
    written multiplicatively; for curves element_mul is point addition). *)
Record monoid := {
  mcar :> Type;
  mone : mcar;
  mmul : mcar -> mcar -> mcar
}.
Record monoid_laws (G : monoid) : Prop := {
  m_assoc : forall x y z : G, mmul G x (mmul G y z) = mmul G (mmul G x y) z;
  m_1_l : forall x : G, mmul G (mone G) x = x;
  m_1_r : forall x : G, mmul G x (mone G) = x
}.
Definition m_commutative (G : monoid) : Prop := forall x y : G, mmul G x y = mmul G y x.

(** x multiplied by itself n times. *)
Fixpoint npow {G : monoid} (x : G) (n : nat) : G :=
  match n with O => mone G | S n' => mmul G x (npow x n') end.
(** ... for an integer n >= 0. *)
Definition zpow {G : monoid} (x : G) (n : Z) : G := npow x (Z.to_nat n).

(** Fields. *)
Record fld := {
  fcar :> Type;
  f0 : fcar; f1 : fcar;
  fadd : fcar -> fcar -> fcar;
  fsub : fcar -> fcar -> fcar;
  fmul : fcar -> fcar -> fcar;
  fopp : fcar -> fcar;
  fdiv : fcar -> fcar -> fcar;
  finv : fcar -> fcar;
  feqb : fcar -> fcar -> bool
}.
Arguments f0 {_}. Arguments f1 {_}. Arguments fadd {_}. Arguments fsub {_}. Arguments fmul {_}.
Arguments fopp {_}. Arguments fdiv {_}. Arguments finv {_}. Arguments feqb {_}.

Record fld_laws (K : fld) : Prop := {
  fl_field : @field_theory K f0 f1 fadd fmul fsub fopp fdiv finv eq;
  fl_eqb : forall x y : K, feqb x y = true <-> x = y
}.

(** element_invert: no meaning on zero. *)
Definition finvert {K : fld} (x : K) : res K := if feqb x f0 then UB else Ok (finv x).
(** element_div *)
Definition fdivide {K : fld} (x y : K) : res K := i <- finvert y ;; Ok (fmul i x).

(** The multiplicative monoid of a field. *)
Definition mul_monoid (K : fld) : monoid := {| mcar := K; mone := f1; mmul := fmul |}.
(** x^n in a field, n >= 0. *)
Definition fpow {K : fld} (x : K) (n : Z) : K := zpow (x : mul_monoid K) n.
