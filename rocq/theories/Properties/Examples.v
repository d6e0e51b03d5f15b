(** C75: the programs of example/ accept honest runs, whatever the random
    choices.  bls.c over types A, A1, D, E, F and G; the six programs that need a
    symmetric pairing over types A, A1 and E. *)
From Coq Require Import ZArith Znumtheory List Bool Lia.
From Verif.Base Require Import Outcome Algebra Gmp Slots.
From Verif.Spec Require Import FiniteField Quadratic Extension Curve Tate PairingValue PairingValueD PairingValueE PairingValueF HashToCurve.
From Verif.Model Require Import Curve CurveCodec Pairing PairingA PairingA1 PairingD PairingE PairingF Examples.
From Verif.Proofs Require Import PairingAWitness PairingEWitness PairingDWitness PairingA1Witness ExampleMain ExampleWitness ExampleA1.
Local Open Scope Z_scope.

(** bls.c.  The signature x h verifies after being compressed and read back,
    and after being cut to its x-coordinate and read back (with one of the two
    guesses); the random signature [rs] verifies exactly when
    e(rs, g) = e(h, g)^x.  [st0] is the memory before the run.  The key must
    not make the signature O. *)
Theorem type_a_bls_accepts_partial : forall (K : fld) q r h e2 e1 s1 s0, type_a K q r h e2 e1 s1 s0 -> forall j m,
  let pr := pairing_apply (a_pairing K (Ok j) (a_info_of h e2 e1 s1) m) in let G := torsion K f1 f0 r in let L := Quad K (fopp f1) in
  forall blen enc dec sign is_sqr sqrt, is_code K blen enc dec -> is_sign K sign -> good_roots K is_sqr sqrt ->
  forall st0 g x hh rs, G hh -> on_curve K f1 f0 g -> G rs -> 0 <= x -> pzmul K f1 x hh <> None ->
  bls K K L f1 f0 f1 blen enc dec sign sqrt pr st0 g x hh rs =
    Ok (true, true, feqb (type_a_value K q r rs g) (fpow (type_a_value K q r hh g) x)).
Proof. exact a_bls. Qed.
Print Assumptions type_a_bls_accepts_partial.
Theorem type_e_bls_accepts_partial : forall (K : fld) a b q r e2 e1 s1 s0, type_e K a b q r e2 e1 s1 s0 -> forall R, e_shift K a b r R -> (forall k, 0 < k < 5 -> pzmul K a (k * r) R <> None) -> forall m,
  let pr := pairing_apply (e_pairing_rec K a {| ee2 := e2; ee1 := e1; es1 := s1; es0 := s0 |} q r R m) in let G := torsion K a b r in
  forall blen enc dec sign is_sqr sqrt, is_code K blen enc dec -> is_sign K sign -> good_roots K is_sqr sqrt ->
  forall st0 g x hh rs, G hh -> G g -> G rs -> 0 <= x -> pzmul K a x hh <> None ->
  bls K K K a b a blen enc dec sign sqrt pr st0 g x hh rs =
    Ok (true, true, feqb (e_value K a q r R rs g) (fpow (e_value K a q r R hh g) x)).
Proof. exact e_bls. Qed.
Print Assumptions type_e_bls_accepts_partial.
Theorem type_d_bls_accepts_partial : forall (K : fld) n m (c a b : K) q r, type_d K n m c a b q r ->
  let M := Ext K n m in let w := const K n m c : M in let a2 := fmul (fmul (const K n m a : M) w) w in
  let pr := pairing_apply (d_pairing K n m w a r (2 * Z.of_nat n) q MillerAffine) in let G := torsion K a b r in
  forall blen enc dec sign is_sqr sqrt, is_code K blen enc dec -> is_sign K sign -> good_roots K is_sqr sqrt ->
  forall st0 g x hh rs, G hh -> on_twist K n m c a b g -> G rs -> 0 <= x -> pzmul K a x hh <> None ->
  bls K M (Quad M w) a b a2 blen enc dec sign sqrt pr st0 g x hh rs =
    Ok (true, true, feqb (dg_value K n m c a q r rs g) (fpow (dg_value K n m c a q r hh g) x)).
Proof. exact d_bls. Qed.
Print Assumptions type_d_bls_accepts_partial.
Theorem type_f_bls_accepts_partial : forall (K : fld) beta alpha (b : K) q r, type_f K beta alpha b q r -> forall d, f_init K beta alpha q r = Ok d ->
  let pr := pairing_apply (f_pairing_rec K beta alpha d r) in let G := torsion K f0 b r in
  forall blen enc dec sign is_sqr sqrt, is_code K blen enc dec -> is_sign K sign -> good_roots K is_sqr sqrt ->
  forall st0 g x hh rs, G hh -> on_f_twist K beta alpha b g -> G rs -> 0 <= x -> pzmul K f0 x hh <> None ->
  bls K (F2 K beta) (F12 K beta alpha) f0 b f0 blen enc dec sign sqrt pr st0 g x hh rs =
    Ok (true, true, feqb (f_value K beta alpha q r rs g) (fpow (f_value K beta alpha q r hh g) x)).
Proof. exact f_bls. Qed.
Print Assumptions type_f_bls_accepts_partial.
(** Type G: its map is undefined when the value is 1, so neither the value of
    the signature nor that of the random signature may be 1. *)
Theorem type_g_bls_accepts_partial : forall (K : fld) m (c a b : K) q r, type_g K m c a b q r ->
  let M := Ext K 5 m in let w := const K 5 m c : M in let a2 := fmul (fmul (const K 5 m a : M) w) w in
  let pr := pairing_apply (g_pairing K 5 m w a r q MillerAffine) in let G := torsion K a b r in let val := dg_value K 5 m c a q r in
  forall blen enc dec sign is_sqr sqrt, is_code K blen enc dec -> is_sign K sign -> good_roots K is_sqr sqrt ->
  forall st0 g x hh rs, G hh -> on_twist K 5 m c a b g -> G rs -> 0 <= x -> fpow (val hh g) x <> f1 -> rs = None \/ val rs g <> f1 ->
  bls K M (Quad M w) a b a2 blen enc dec sign sqrt pr st0 g x hh rs = Ok (true, true, feqb (val rs g) (fpow (val hh g) x)).
Proof. exact g_bls. Qed.
Print Assumptions type_g_bls_accepts_partial.
(** With the secret key 0 the signature is O, whose encodings are those of
    whatever coordinates the element holds: the run is undefined on fresh
    memory, and rejects its own signature on memory that held another point. *)
Theorem bls_zero_key_refuted : exists (K : fld) q r h e2 e1 s1 s0 (g hh rs : point K) blen enc dec sign is_sqr sqrt (fresh used : cst K),
  type_a K q r h e2 e1 s1 s0 /\ torsion K f1 f0 r hh /\ on_curve K f1 f0 g /\ torsion K f1 f0 r rs /\
  is_code K blen enc dec /\ is_sign K sign /\ good_roots K is_sqr sqrt /\
  (forall o, cval fresh o = None) /\ (forall l, sl fresh l = f0) /\
  let run st := bls K K (Quad K (fopp f1)) f1 f0 f1 blen enc dec sign sqrt (pairing_apply (a_pairing K (Ok f0) (a_info_of h e2 e1 s1) Miller)) st g 0 hh rs in
  run fresh = UB /\ exists v, run used = Ok (false, false, v).
Proof. exact zero_key_w. Qed.
Print Assumptions bls_zero_key_refuted.

(** joux.c: the three parties compute the same key, e(P, P)^(xyz). *)
Theorem type_a_joux_keys_agree : forall (K : fld) q r h e2 e1 s1 s0, type_a K q r h e2 e1 s1 s0 -> forall j m,
  let pr := pairing_apply (a_pairing K (Ok j) (a_info_of h e2 e1 s1) m) in let G := torsion K f1 f0 r in let L := Quad K (fopp f1) in forall P x y z, G P -> 0 <= x -> 0 <= y -> 0 <= z ->
  joux K L f1 pr P x y z = let k := fpow (type_a_value K q r P P) (x * y * z) in Ok (k, k, k).
Proof. exact a_joux. Qed.
Print Assumptions type_a_joux_keys_agree.
Theorem type_e_joux_keys_agree : forall (K : fld) a b q r e2 e1 s1 s0, type_e K a b q r e2 e1 s1 s0 -> forall R, e_shift K a b r R -> (forall k, 0 < k < 5 -> pzmul K a (k * r) R <> None) -> forall m,
  let pr := pairing_apply (e_pairing_rec K a {| ee2 := e2; ee1 := e1; es1 := s1; es0 := s0 |} q r R m) in let G := torsion K a b r in forall P x y z, G P -> 0 <= x -> 0 <= y -> 0 <= z ->
  joux K K a pr P x y z = let k := fpow (e_value K a q r R P P) (x * y * z) in Ok (k, k, k).
Proof. exact e_joux. Qed.
Print Assumptions type_e_joux_keys_agree.

(** hess.c: the signature verifies; [to_mpz] is the conversion of elements of
    GT to integers, any function. *)
Theorem type_a_hess_accepts : forall (K : fld) q r h e2 e1 s1 s0, type_a K q r h e2 e1 s1 s0 -> forall j m,
  let pr := pairing_apply (a_pairing K (Ok j) (a_info_of h e2 e1 s1) m) in let G := torsion K f1 f0 r in let L := Quad K (fopp f1) in forall (to_mpz : L -> Z) P Qid P1 s k hm, G P -> G Qid -> G P1 -> 0 <= s -> 0 <= k ->
  exists v u, hess K L f1 r pr to_mpz P Qid P1 s k hm = Ok (v, u, v, true) /\ 0 <= v < r /\ G u.
Proof. exact a_hess. Qed.
Print Assumptions type_a_hess_accepts.
Theorem type_e_hess_accepts : forall (K : fld) a b q r e2 e1 s1 s0, type_e K a b q r e2 e1 s1 s0 -> forall R, e_shift K a b r R -> (forall k, 0 < k < 5 -> pzmul K a (k * r) R <> None) -> forall m,
  let pr := pairing_apply (e_pairing_rec K a {| ee2 := e2; ee1 := e1; es1 := s1; es0 := s0 |} q r R m) in let G := torsion K a b r in forall (to_mpz : K -> Z) P Qid P1 s k hm, G P -> G Qid -> G P1 -> 0 <= s -> 0 <= k ->
  exists v u, hess K K a r pr to_mpz P Qid P1 s k hm = Ok (v, u, v, true) /\ 0 <= v < r /\ G u.
Proof. exact e_hess. Qed.
Print Assumptions type_e_hess_accepts.

(** paterson.c: the signature verifies, unless the random k is 0: the program
    inverts it. *)
Theorem type_a_paterson_accepts : forall (K : fld) q r h e2 e1 s1 s0, type_a K q r h e2 e1 s1 s0 -> forall j m,
  let pr := pairing_apply (a_pairing K (Ok j) (a_info_of h e2 e1 s1) m) in let G := torsion K f1 f0 r in let L := Quad K (fopp f1) in forall P Qid s k h2 h3, G P -> G Qid -> 0 <= s -> 0 <= k -> 0 <= h2 -> (forall R, 0 <= h3 R) ->
  (k mod r <> 0 -> exists R S, paterson K L f1 r pr P Qid s k h2 h3 = Ok (R, S, true) /\ G R /\ G S) /\
  (k mod r = 0 -> paterson K L f1 r pr P Qid s k h2 h3 = UB).
Proof. exact a_paterson. Qed.
Print Assumptions type_a_paterson_accepts.
Theorem type_e_paterson_accepts : forall (K : fld) a b q r e2 e1 s1 s0, type_e K a b q r e2 e1 s1 s0 -> forall R, e_shift K a b r R -> (forall k, 0 < k < 5 -> pzmul K a (k * r) R <> None) -> forall m,
  let pr := pairing_apply (e_pairing_rec K a {| ee2 := e2; ee1 := e1; es1 := s1; es0 := s0 |} q r R m) in let G := torsion K a b r in forall P Qid s k h2 h3, G P -> G Qid -> 0 <= s -> 0 <= k -> 0 <= h2 -> (forall R, 0 <= h3 R) ->
  (k mod r <> 0 -> exists R S, paterson K K a r pr P Qid s k h2 h3 = Ok (R, S, true) /\ G R /\ G S) /\
  (k mod r = 0 -> paterson K K a r pr P Qid s k h2 h3 = UB).
Proof. exact e_paterson. Qed.
Print Assumptions type_e_paterson_accepts.

(** yuanli.c: both parties compute the same key. *)
Theorem type_a_yuanli_keys_agree : forall (K : fld) q r h e2 e1 s1 s0, type_a K q r h e2 e1 s1 s0 -> forall j m,
  let pr := pairing_apply (a_pairing K (Ok j) (a_info_of h e2 e1 s1) m) in let G := torsion K f1 f0 r in let L := Quad K (fopp f1) in forall P Qa Qb s x y, G P -> G Qa -> G Qb -> 0 <= s -> 0 <= x -> 0 <= y ->
  exists k, yuanli K L f1 pr P Qa Qb s x y = Ok (k, k, true) /\
  k = fmul (fpow (type_a_value K q r P (padd K f1 Qa Qb)) (x * y)) (fpow (type_a_value K q r (padd K f1 (pzmul K f1 x P) Qa) (padd K f1 (pzmul K f1 y P) Qb)) s).
Proof. exact a_yuanli. Qed.
Print Assumptions type_a_yuanli_keys_agree.
Theorem type_e_yuanli_keys_agree : forall (K : fld) a b q r e2 e1 s1 s0, type_e K a b q r e2 e1 s1 s0 -> forall R, e_shift K a b r R -> (forall k, 0 < k < 5 -> pzmul K a (k * r) R <> None) -> forall m,
  let pr := pairing_apply (e_pairing_rec K a {| ee2 := e2; ee1 := e1; es1 := s1; es0 := s0 |} q r R m) in let G := torsion K a b r in forall P Qa Qb s x y, G P -> G Qa -> G Qb -> 0 <= s -> 0 <= x -> 0 <= y ->
  exists k, yuanli K K a pr P Qa Qb s x y = Ok (k, k, true) /\
  k = fmul (fpow (e_value K a q r R P (padd K a Qa Qb)) (x * y)) (fpow (e_value K a q r R (padd K a (pzmul K a x P) Qa) (padd K a (pzmul K a y P) Qb)) s).
Proof. exact e_yuanli. Qed.
Print Assumptions type_e_yuanli_keys_agree.

(** zhangkim.c: the unblinded signature verifies. *)
Theorem type_a_zhangkim_accepts : forall (K : fld) q r h e2 e1 s1 s0, type_a K q r h e2 e1 s1 s0 -> forall j m,
  let pr := pairing_apply (a_pairing K (Ok j) (a_info_of h e2 e1 s1) m) in let G := torsion K f1 f0 r in let L := Quad K (fopp f1) in forall (to_mpz : L -> Z) P Qid s rr x y hm, G P -> G Qid -> 0 <= s -> 0 <= rr -> 0 <= x -> 0 <= y ->
  exists S c, zhangkim K L f1 r pr to_mpz P Qid s rr x y hm = Ok (S, c, c, true) /\ 0 <= c < r /\ G S.
Proof. exact a_zhangkim. Qed.
Print Assumptions type_a_zhangkim_accepts.
Theorem type_e_zhangkim_accepts : forall (K : fld) a b q r e2 e1 s1 s0, type_e K a b q r e2 e1 s1 s0 -> forall R, e_shift K a b r R -> (forall k, 0 < k < 5 -> pzmul K a (k * r) R <> None) -> forall m,
  let pr := pairing_apply (e_pairing_rec K a {| ee2 := e2; ee1 := e1; es1 := s1; es0 := s0 |} q r R m) in let G := torsion K a b r in forall (to_mpz : K -> Z) P Qid s rr x y hm, G P -> G Qid -> 0 <= s -> 0 <= rr -> 0 <= x -> 0 <= y ->
  exists S c, zhangkim K K a r pr to_mpz P Qid s rr x y hm = Ok (S, c, c, true) /\ 0 <= c < r /\ G S.
Proof. exact e_zhangkim. Qed.
Print Assumptions type_e_zhangkim_accepts.

(** zss.c: the signature verifies, unless H(m) + x = 0: the program inverts it. *)
Theorem type_a_zss_accepts : forall (K : fld) q r h e2 e1 s1 s0, type_a K q r h e2 e1 s1 s0 -> forall j m,
  let pr := pairing_apply (a_pairing K (Ok j) (a_info_of h e2 e1 s1) m) in let G := torsion K f1 f0 r in let L := Quad K (fopp f1) in forall P x hm, G P -> 0 <= x -> 0 <= hm ->
  ((hm + x) mod r <> 0 -> exists S, zss K L f1 r pr P x hm = Ok (S, true) /\ G S) /\ ((hm + x) mod r = 0 -> zss K L f1 r pr P x hm = UB).
Proof. exact a_zss. Qed.
Print Assumptions type_a_zss_accepts.
Theorem type_e_zss_accepts : forall (K : fld) a b q r e2 e1 s1 s0, type_e K a b q r e2 e1 s1 s0 -> forall R, e_shift K a b r R -> (forall k, 0 < k < 5 -> pzmul K a (k * r) R <> None) -> forall m,
  let pr := pairing_apply (e_pairing_rec K a {| ee2 := e2; ee1 := e1; es1 := s1; es0 := s0 |} q r R m) in let G := torsion K a b r in forall P x hm, G P -> 0 <= x -> 0 <= hm ->
  ((hm + x) mod r <> 0 -> exists S, zss K K a r pr P x hm = Ok (S, true) /\ G S) /\ ((hm + x) mod r = 0 -> zss K K a r pr P x hm = UB).
Proof. exact e_zss. Qed.
Print Assumptions type_e_zss_accepts.
(** paterson.c with k = 0, and zss.c with H(m) = -x: undefined. *)
Theorem zero_inversion_refuted : exists (K : fld) q r h e2 e1 s1 s0 (P Q : point K),
  type_a K q r h e2 e1 s1 s0 /\ torsion K f1 f0 r P /\ torsion K f1 f0 r Q /\ P <> None /\
  let pr := pairing_apply (a_pairing K (Ok f0) (a_info_of h e2 e1 s1) Miller) in
  paterson K (Quad K (fopp f1)) f1 r pr P Q 1 0 1 (fun _ => 1) = UB /\ zss K (Quad K (fopp f1)) f1 r pr P 1 (r - 1) = UB.
Proof. exact invert_zero_w. Qed.
Print Assumptions zero_inversion_refuted.

(** q = 83, r = 7: the hypotheses hold, and the third verdict can be false. *)
Example examples_instance : type_a F83 83 7 12 3 1 (-1) 1 /\ is_code F83 1 enc83 dec83 /\ is_sign F83 sign83 /\ good_roots F83 is_sqr83 sqrt83 /\
  torsion F83 f1 f0 7 P83 /\ on_curve F83 f1 f0 Q83 /\ pzmul F83 f1 3 P83 <> None /\ bls83 Miller st83 Q83 3 P83 P83 = Ok (true, true, false).
Proof.
  split; [exact type_a_83 | ]. split; [exact code83 | ]. split; [exact sign83_ok | ]. split; [exact roots83 | ]. split; [exact P83_G1 | ].
  split; [exact Q83_on | ]. split; [exact show3 | exact run83].
Qed.
Example type_g_bls_instance : type_g F7 m7 (e7 3) (e7 1) (e7 6) 7 11 /\ torsion F7 (e7 1) (e7 6) 11 PP7 /\ on_twist F7 5 m7 (e7 3) (e7 1) (e7 6) QQ7 /\
  dg_value F7 5 m7 (e7 3) (e7 1) 7 11 PP7 QQ7 <> f1.
Proof. split; [exact type_g_7 | ]. split; [exact t7 | ]. split; [exact o7 | exact val7_not_1]. Qed.

(** Type A1.  The group order n is composite, and the pairing is defined when
    its first argument is O or has no small multiple equal to O ([a1_input]):
    each program is correct when the first arguments of its pairings are such
    points.  A multiple by an integer coprime to n of a point of order n is
    one. *)
Theorem type_a1_coprime_multiple_is_input : forall (K : fld) p n l, type_a1 K p n l ->
  forall P x, on_curve K f1 f0 P -> exact_order K f1 n P -> 0 <= x -> Z.gcd x n = 1 -> a1_input K n (pzmul K f1 x P).
Proof. exact coprime_input. Qed.
Print Assumptions type_a1_coprime_multiple_is_input.
Theorem type_a1_bls_accepts_partial : forall (K : fld) p n l, type_a1 K p n l -> forall m,
  let pr := pairing_apply (a1_pairing K n l m) in let G := torsion K f1 f0 n in let inp := a1_input K n in let L := Quad K (fopp f1) in
  let val := type_a_value K p n in let pz := pzmul K f1 in let add := padd K f1 in
  forall blen enc dec sign is_sqr sqrt, is_code K blen enc dec -> is_sign K sign -> good_roots K is_sqr sqrt ->
  forall st0 g x hh rs, inp hh -> on_curve K f1 f0 g -> inp rs -> 0 <= x -> pz x hh <> None -> inp (pz x hh) ->
  bls K K L f1 f0 f1 blen enc dec sign sqrt pr st0 g x hh rs = Ok (true, true, feqb (val rs g) (fpow (val hh g) x)).
Proof. exact a1_bls. Qed.
Print Assumptions type_a1_bls_accepts_partial.
Theorem type_a1_joux_keys_agree_partial : forall (K : fld) p n l, type_a1 K p n l -> forall m,
  let pr := pairing_apply (a1_pairing K n l m) in let G := torsion K f1 f0 n in let inp := a1_input K n in let L := Quad K (fopp f1) in
  let val := type_a_value K p n in let pz := pzmul K f1 in let add := padd K f1 in
  forall P x y z, G P -> 0 <= x -> 0 <= y -> 0 <= z -> inp (pz x P) -> inp (pz y P) ->
  joux K L f1 pr P x y z = let k := fpow (val P P) (x * y * z) in Ok (k, k, k).
Proof. exact a1_joux. Qed.
Print Assumptions type_a1_joux_keys_agree_partial.
Theorem type_a1_hess_accepts_partial : forall (K : fld) p n l, type_a1 K p n l -> forall m (to_mpz : Quad K (fopp f1) -> Z),
  let pr := pairing_apply (a1_pairing K n l m) in let G := torsion K f1 f0 n in let inp := a1_input K n in let L := Quad K (fopp f1) in
  let val := type_a_value K p n in let pz := pzmul K f1 in let add := padd K f1 in
  forall P Qid P1 s k hm, G P -> inp Qid -> inp P1 -> 0 <= s -> 0 <= k ->
  let v := (hm * to_mpz (fpow (val P1 P) k)) mod n in let u := add (pz v (pz s Qid)) (pz k P1) in inp u ->
  hess K L f1 n pr to_mpz P Qid P1 s k hm = Ok (v, u, v, true).
Proof. exact a1_hess. Qed.
Print Assumptions type_a1_hess_accepts_partial.
Theorem type_a1_paterson_accepts_partial : forall (K : fld) p n l, type_a1 K p n l -> forall m,
  let pr := pairing_apply (a1_pairing K n l m) in let G := torsion K f1 f0 n in let inp := a1_input K n in let L := Quad K (fopp f1) in
  let val := type_a_value K p n in let pz := pzmul K f1 in let add := padd K f1 in
  forall P Qid s k h2 h3, G Qid -> 0 <= s -> 0 <= k -> 0 <= h2 -> (forall R, 0 <= h3 R) -> inp P ->
  (Z.gcd k n = 1 -> inp (pz s P) -> inp (pz k P) -> exists R S, paterson K L f1 n pr P Qid s k h2 h3 = Ok (R, S, true) /\ G R /\ G S) /\
  (Z.gcd k n <> 1 -> paterson K L f1 n pr P Qid s k h2 h3 = UB).
Proof. exact a1_paterson. Qed.
Print Assumptions type_a1_paterson_accepts_partial.
Theorem type_a1_yuanli_keys_agree_partial : forall (K : fld) p n l, type_a1 K p n l -> forall m,
  let pr := pairing_apply (a1_pairing K n l m) in let G := torsion K f1 f0 n in let inp := a1_input K n in let L := Quad K (fopp f1) in
  let val := type_a_value K p n in let pz := pzmul K f1 in let add := padd K f1 in
  forall P Qa Qb s x y, G P -> G Qa -> G Qb -> 0 <= s -> 0 <= x -> 0 <= y ->
  inp (add (pz x (pz s P)) (pz s Qa)) -> inp (add (pz x P) Qa) -> inp (pz y (pz x P)) ->
  exists k, yuanli K L f1 pr P Qa Qb s x y = Ok (k, k, true) /\
  k = fmul (fpow (val P (add Qa Qb)) (x * y)) (fpow (val (add (pz x P) Qa) (add (pz y P) Qb)) s).
Proof. exact a1_yuanli. Qed.
Print Assumptions type_a1_yuanli_keys_agree_partial.
Theorem type_a1_zhangkim_accepts_partial : forall (K : fld) p n l, type_a1 K p n l -> forall m (to_mpz : Quad K (fopp f1) -> Z),
  let pr := pairing_apply (a1_pairing K n l m) in let G := torsion K f1 f0 n in let inp := a1_input K n in let L := Quad K (fopp f1) in
  let val := type_a_value K p n in let pz := pzmul K f1 in let add := padd K f1 in
  forall P Qid s rr x y hm, G P -> inp Qid -> 0 <= s -> 0 <= rr -> 0 <= x -> 0 <= y ->
  let t := add (pz y Qid) (add (pz rr P) (pz x P)) in let c := (hm * to_mpz (val t (pz s P))) mod n in
  let S := add (add (pz ((c + y) mod n) (pz s Qid)) (pz rr (pz s P))) (pz x (pz s P)) in inp t -> inp S ->
  zhangkim K L f1 n pr to_mpz P Qid s rr x y hm = Ok (S, c, c, true).
Proof. exact a1_zhangkim. Qed.
Print Assumptions type_a1_zhangkim_accepts_partial.
Theorem type_a1_zss_accepts_partial : forall (K : fld) p n l, type_a1 K p n l -> forall m,
  let pr := pairing_apply (a1_pairing K n l m) in let G := torsion K f1 f0 n in let inp := a1_input K n in let L := Quad K (fopp f1) in
  let val := type_a_value K p n in let pz := pzmul K f1 in let add := padd K f1 in
  forall P x hm, inp P -> 0 <= x -> 0 <= hm ->
  (Z.gcd (hm + x) n = 1 -> inp (add (pz hm P) (pz x P)) -> exists S, zss K L f1 n pr P x hm = Ok (S, true) /\ G S) /\
  (Z.gcd (hm + x) n <> 1 -> zss K L f1 n pr P x hm = UB).
Proof. exact a1_zss. Qed.
Print Assumptions type_a1_zss_accepts_partial.
(** A nonzero secret that shares a factor with n: p = 59, n = 15, joux.c with
    the secret 5 and zss.c with H(m) + x = 3 are undefined. *)
Theorem type_a1_shared_factor_refuted : exists (K : fld) p n l (P : point K), type_a1 K p n l /\ on_curve K f1 f0 P /\ exact_order K f1 n P /\
  forall m, let pr := pairing_apply (a1_pairing K n l m) in
  joux K (Quad K (fopp f1)) f1 pr P 5 1 1 = UB /\ zss K (Quad K (fopp f1)) f1 n pr P 1 2 = UB.
Proof. exact a1_shared_factor_w. Qed.
Print Assumptions type_a1_shared_factor_refuted.
Example type_a1_programs_instance : type_a1 F59 59 15 4 /\ on_curve F59 f1 f0 P59 /\ exact_order F59 f1 15 P59 /\ a1_input F59 15 (pzmul F59 f1 2 P59) /\
  a1_input F59 15 (pzmul F59 f1 7 P59) /\ type_a_value F59 59 15 P59 P59 <> f1.
Proof.
  split; [exact type_a1_59 | ]. split; [exact (proj1 (proj1 P59_input)) | ]. split; [exact P59_exact | ].
  split; [apply (coprime_input F59 59 15 4 type_a1_59 P59 2 (proj1 (proj1 P59_input)) P59_exact); [lia | reflexivity] | ].
  split; [apply (coprime_input F59 59 15 4 type_a1_59 P59 7 (proj1 (proj1 P59_input)) P59_exact); [lia | reflexivity] | exact PairingA1Witness.value_not_1].
Qed.
