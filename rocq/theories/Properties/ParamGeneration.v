(** C42, C48: generated parameters.  [rand_ok]: rand() returns no negative
    numbers.  The primality test and the random numbers are arbitrary. *)
From Coq Require Import ZArith Znumtheory List Bool Lia.
From Verif.Base Require Import Outcome.
From Verif.Model Require Import ParamGen.
From Verif.Spec Require Import ParamEqs.
From Verif.Proofs Require Import MntMain ParamGenFacts.
Import ListNotations.
Open Scope Z_scope.

Theorem a_gen_equations : forall isprime fuel rbits rands hs p, rand_ok rands -> a_gen isprime fuel rbits rands hs = Ok p ->
  solinas_form (a_r p) (exp2 (a_s p)) (exp1 (a_s p)) (sign1 (a_s p)) (sign0 (a_s p)) /\ (3 <= rbits -> exp1 (a_s p) < exp2 (a_s p)) /\
  a_q p + 1 = a_h p * a_r p /\ (12 | a_h p) /\ a_q p mod 4 = 3 /\ isprime (a_r p) = true /\ isprime (a_q p) = true.
Proof. exact a_gen_ok. Qed.
Print Assumptions a_gen_equations.
Example a_gen_equations_applies : rand_ok [0; 1; 0; 1; 0; 1] /\ a_gen isprime 5 5 [0; 1; 0; 1; 0; 1] [2; 1] =
  Ok {| a_s := {| exp2 := 4; exp1 := 1; sign1 := 1; sign0 := 1 |}; a_r := 19; a_h := 12; a_q := 227 |}.
Proof. split; [repeat constructor; lia|vm_compute; reflexivity]. Qed.

Theorem e_gen_equations : forall isprime fuel rbits rands hs p, rand_ok rands -> e_gen isprime fuel rbits rands hs = Ok p ->
  solinas_form (a_r p) (exp2 (a_s p)) (exp1 (a_s p)) (sign1 (a_s p)) (sign0 (a_s p)) /\ (3 <= rbits -> exp1 (a_s p) < exp2 (a_s p)) /\
  a_q p = a_h p * a_r p ^ 2 + 1 /\ (exists s, a_h p = 3 * s ^ 2) /\ isprime (a_r p) = true /\ isprime (a_q p) = true.
Proof. exact e_gen_ok. Qed.
Print Assumptions e_gen_equations.

Example e_gen_equations_applies : e_gen isprime 5 5 [1; 0; 1] [2; 4; 8] =
  Ok {| a_s := {| exp2 := 4; exp1 := 1; sign1 := 1; sign0 := 1 |}; a_r := 19; a_h := 3 * 8 ^ 2; a_q := 1083 * 8 ^ 2 + 1 |}.
Proof. vm_compute. reflexivity. Qed.

Theorem f_gen_equations : forall isprime fuel bits q r, f_gen isprime fuel bits = Ok (q, r) ->
  isprime q = true /\ isprime r = true /\ exists x, 2 ^ ((bits - 6) / 4) <= Z.abs x /\ q = bn_q x /\ r = bn_r x /\ r = q + 1 - bn_t x.
Proof. exact f_gen_ok. Qed.
Print Assumptions f_gen_equations.

Example f_gen_equations_applies : f_gen isprime 10 10 = Ok (373, 349).
Proof. vm_compute. reflexivity. Qed.

(** l below 2^31 *)
Theorem a1_gen_equations : forall isprime fuel order a, a1_gen isprime fuel order = Ok a ->
  isprime (a1_p a) = true /\ a1_n a = order /\ exists l, (4 | l) /\ 0 < l <= 4 * Z.of_nat fuel /\ a1_p a + 1 = l * order /\ (l < 2 ^ 31 -> a1_l a = l) /\
    a1_l a = (l + 2 ^ 31) mod 2 ^ 32 - 2 ^ 31.
Proof. exact a1_gen_ok. Qed.
Print Assumptions a1_gen_equations.
Example a1_gen_equations_applies : a1_gen isprime 10 9 = Ok {| a1_p := 71; a1_n := 9; a1_l := 8 |}.
Proof. vm_compute. reflexivity. Qed.
(** otherwise the recorded l is wrong *)
Theorem a1_gen_large_l_refuted : exists isprime fuel a, a1_gen isprime fuel 3 = Ok a /\ a1_p a + 1 <> a1_l a * a1_n a.
Proof. exact a1_refuted. Qed.
Print Assumptions a1_gen_large_l_refuted.

(** C48 *)
Theorem i_gen_equations : forall g p, i_gen g = Ok p ->
  i_n p * i_n2 p = ternary_order (i_m p) /\ i_m p mod 2 = 1 /\ i_m p mod 3 <> 0 /\ 0 < i_t p < i_m p /\ 2 ^ g <= i_n p.
Proof. exact i_gen_ok. Qed.
Print Assumptions i_gen_equations.
Theorem i_gen_supported : forall g, g <= 892 <-> exists p, i_gen g = Ok p.
Proof. exact i_gen_total. Qed.
Print Assumptions i_gen_supported.
