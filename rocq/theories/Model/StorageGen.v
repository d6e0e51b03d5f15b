(** Dynamic storage of the parameter generators pbc_param_init_a_gen ..
    pbc_param_init_i_gen: the blocks of the parameter object that is made, and
    those of the fields, curves, points and polynomials that the generators
    work with.

    The outcome of the searches is a parameter of the model: how many curves
    are tried, how many coefficients the class polynomial has, and which
    quadratic nonresidues get generated on the way.  As in [Storage],
    temporaries which one and the same function of arith/ and misc/ both
    initialises and clears are left out (poly_findroot, poly_is_irred,
    pbc_mpz_trace_n, pbc_mpz_random, element_random, ...). *)
From Coq Require Import List ZArith Bool Arith.
From Verif.Base Require Import Outcome.
From Verif.Model Require Import Storage.
Import ListNotations.
Local Open Scope nat_scope.

Record search := {
  tries : nat;      (* type F: curves tried before the right one *)
  class_n : nat;    (* types D, G: coefficients of the class polynomial *)
  nq_cm : bool;     (* the nonresidue of F_q is generated while looking for the curve *)
  nq_q : bool;      (* ... of F_q, after that *)
  nq_d : bool;      (* ... of the extension *)
}.

Section Gen.
Variables (p : pinfo) (K : path) (s : search).
(** The local variables of the generators: [L i] is the i-th one. *)
Definition L (i : nat) : path := i :: 50 :: K.

(** a_init, a1_init, d_param_init (d_param.c:1175-1195), e_init, f_init
    (f_param.c:449-463), g_init, i_init: no coefficients yet. *)
Definition blank_param : prog := alloc (0 :: K) >> upto (mpz_count p) (fun i => alloc (S i :: K)).

(** field_init_curve_b, curve.c:933-939: the curve [c] over [b]; [t] is its
    temporary. *)
Definition init_curve_b (c b : field) (t : path) : prog := inits [(b, t)] >> field_init c >> clears [(b, t)].
(** field_init_curve_j, curve.c:911-931 *)
Definition init_curve_j (c b : field) (t u : path) : prog := inits [(b, t); (b, u)] >> field_init c >> clears [(b, t); (b, u)].
Definition maybe_nqr (f : field) (b : bool) : prog := if b then gen_nqr f else skip.

(** A polynomial with [n] coefficients in a ring that is a local variable. *)
Definition poly_make (rs : path) (b : field) (e : path) (n : nat) : prog := inits [(Poly rs None b, e)] >> poly_grow rs None b e n.
Definition poly_drop (b : field) (e : path) (n : nat) : prog := poly_shrink b e n >> release (1 :: e) >> release (0 :: e).

Definition Gq := Fp (qi p) (L 0) None.
Definition Gcurve := Curve (L 1) None Gq false false.
Definition Gring := Poly (L 2) None Gq.

(** compute_cm_curve, d_param.c:1100-1174, g_param.c:1173-1246; pbc_hilbert and
    pbc_hilbert_free, hilbert.c: an array of integers. *)
Definition cm_curve : prog :=
  field_init Gq >> field_init Gring >>
  inits [(Gring, L 10)] >> alloc (L 11) >> upto (class_n s) (fun i => alloc (i :: L 11)) >>
  poly_grow (L 2) None Gq (L 10) (class_n s) >>
  upto (class_n s) (fun i => release (i :: L 11)) >> release (L 11) >>
  inits [(Gq, L 12)] >> poly_drop Gq (L 10) (class_n s) >> field_clear Gring false >>
  init_curve_j Gcurve Gq (L 13) (L 14) >> clears [(Gq, L 12)] >>
  inits [(Gcurve, L 15)] >> maybe_nqr Gq (nq_cm s) >> clears [(Gcurve, L 15)] >>
  alloc (L 16) >> release (L 16) >> field_clear Gcurve false >> field_clear Gq (nq_cm s).

(** pbc_param_init_d_gen, d_param.c:1227-1265, and pbc_param_init_g_gen,
    g_param.c:1404-1442; [d] is half the embedding degree.  The ring is cleared
    before the extension made from it. *)
Definition Gext (d : nat) := PolyMod (L 3) None d (L 2) None Gq.
Definition dg_gen (d : nat) : prog :=
  blank_param >> cm_curve >>
  field_init Gq >> field_init Gring >> poly_make (L 2) Gq (L 10) (d + 1) >> field_init (Gext d) >>
  inits [(Gext d, L 12)] >> maybe_nqr Gq (nq_q s) >> maybe_nqr (Gext d) (nq_d s) >>
  alloc (20 :: K) >> upto d (fun i => alloc (21 + i :: K)) >>
  clears [(Gext d, L 12)] >> poly_drop Gq (L 10) (d + 1) >>
  field_clear Gring false >> field_clear (Gext d) (nq_d s) >> field_clear Gq (nq_q s).

(** pbc_param_init_a_gen, a_param.c:1504-1562; pbc_param_init_i_gen,
    eta_T_3.c:769-end *)
Definition plain_gen : prog := blank_param.
(** pbc_param_init_a1_gen, a_param.c:2300-2321 *)
Definition a1_gen : prog := blank_param >> alloc (L 10) >> release (L 10).

(** pbc_param_init_e_gen, e_param.c:908-1007: neither Fq nor cc is cleared. *)
Definition e_gen : prog :=
  blank_param >> alloc (L 10) >> field_init Gq >> inits [(Gq, L 11)] >> init_curve_b Gcurve Gq (L 12) >> clears [(Gq, L 11)] >>
  inits [(Gcurve, L 13)] >> maybe_nqr Gq (nq_cm s) >> clears [(Gcurve, L 13)] >> release (L 10).

(** pbc_param_init_f_gen, f_param.c:481-603: the last curve tried and the
    point on it are not cleared. *)
Definition Gq2 := Quad (L 3) None Gq.
Definition Gring2 := Poly (L 4) None Gq2.
Definition Gtest := Curve (L 5) None Gq2 false false.
Definition f_try : prog := init_curve_b Gcurve Gq (L 12) >> inits [(Gcurve, L 13)].
Definition f_gen : prog :=
  blank_param >> alloc (L 10) >> alloc (L 11) >> field_init Gq >> inits [(Gq, L 14)] >>
  upto (tries s) (fun _ => f_try >> clears [(Gcurve, L 13)] >> field_clear Gcurve false) >>
  f_try >> maybe_nqr Gq (nq_cm s) >> clears [(Gq, L 14)] >> field_init Gq2 >> get_nqr Gq (nq_cm s) >>
  field_init Gring2 >> poly_make (L 4) Gq2 (L 15) 7 >>
  alloc (L 16) >> alloc (L 17) >> inits [(Gq2, L 14)] >> init_curve_b Gtest Gq2 (L 12) >> inits [(Gtest, L 18)] >> maybe_nqr Gq2 (nq_d s) >>
  clears [(Gq2, L 14); (Gtest, L 18)] >> field_clear Gtest false >> release (L 16) >> release (L 17) >>
  poly_drop Gq2 (L 15) 7 >> field_clear Gring2 false >> field_clear Gq2 (nq_d s) >> field_clear Gq true >>
  release (L 11) >> release (L 10).

Definition param_gen : prog :=
  match ty p with
  | TA _ _ | TI => plain_gen | TA1 => a1_gen | TD n => dg_gen n | TG => dg_gen 5 | TE => e_gen | TF => f_gen
  end.
End Gen.

(** Programs of the user in which parameters may also be generated. *)
Inductive gcall := Plain (c : call) | Gen (k : nat) (p : pinfo) (s : search).
Definition gexec (c : gcall) (st : objs * heap) : res (objs * heap) :=
  match c with
  | Plain c => exec c st
  | Gen k p s => let '(o, h) := st in bind (param_gen p [k] s h) (fun h' => Ok ((k, OParam p) :: o, h'))
  end.
Fixpoint gexecs (cs : list gcall) (st : objs * heap) : res (objs * heap) :=
  match cs with [] => Ok st | c :: cs' => bind (gexec c st) (gexecs cs') end.
