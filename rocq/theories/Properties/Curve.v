(** C24-C30, C60: elliptic curves. *)
From Coq Require Import ZArith List Bool.
From Verif.Base Require Import Outcome Algebra Slots.
From Verif.Spec Require Import FiniteField Curve CurveCalls HashToCurve.
From Verif.Model Require Import Tonelli Curve CurveCodec.
From Verif.Proofs Require Import ZpField RootWitness CurveBatch CodecFacts CurvePublic CurveWitness.
Import ListNotations.
Open Scope Z_scope.

(** C24: the chord-and-tangent law stays on the curve. *)
Theorem curve_law_closed : forall (K : fld), fld_laws K -> forall a b : K, f2 K <> f0 ->
  forall P Q, on_curve K a b P -> on_curve K a b Q -> on_curve K a b (padd K a P Q) /\ on_curve K a b (pneg P).
Proof. exact closed_pub. Qed.
Print Assumptions curve_law_closed.

(** C25: it is a commutative group. *)
Theorem curve_law_group : forall (K : fld), fld_laws K -> forall a b : K, elliptic K a b ->
  forall P Q R, on_curve K a b P -> on_curve K a b Q -> on_curve K a b R ->
  padd K a (padd K a P Q) R = padd K a P (padd K a Q R) /\ padd K a P Q = padd K a Q P /\
  padd K a None P = P /\ padd K a P (pneg P) = None.
Proof. exact group_pub. Qed.
Print Assumptions curve_law_group.

(** C24, C25, C26: every history of calls on point registers (any of which may
    coincide), starting from points of the curve, is answered as that law says
    - in particular nothing is ever divided by zero - and every point shown is
    on the curve.  Comparisons take the quotient group into account. *)
Theorem curve_histories_exact : forall (K : fld), fld_laws K -> forall a b : K, elliptic K a b ->
  forall (quotient : option Z) (h : list ccall) (st : cst K) (v : nat -> point K),
  (forall n, quotient = Some n -> 0 <= n) -> scalars_ok h ->
  (forall n, cval st (Reg n) = v n) -> (forall n, on_curve K a b (v n)) ->
  c_run K a quotient st h = Ok (prun K a quotient v h) /\
  forall P, In (Datatypes.inr P) (prun K a quotient v h) -> on_curve K a b P.
Proof. exact run_pub. Qed.
Print Assumptions curve_histories_exact.

Example curve_histories_example : elliptic F (c13 3) (c13 8) /\ (forall n, on_curve F (c13 3) (c13 8) (v13 n)) /\
  (forall n, cval st13 (Reg n) = v13 n) /\
  match c_run F (c13 3) (Some 3) st13 [CAdd 0 0 1; CAdd 0 0 0; CSub 0 0 1; CValue 0; CMulZ 2 1 6; CNeg 2 2; CAdd 2 2 0; CCmp 0 2; CIs0 9; CMulZ 3 0 9; CIs0 3] with
  | Ok [Datatypes.inr P; Datatypes.inl false; Datatypes.inl true; Datatypes.inl true] => show P = Some (9, 7)
  | _ => False end.
Proof. exact history_witness. Qed.

(** C26: multiplication by non-negative integers. *)
Theorem scalar_multiplication_laws : forall (K : fld), fld_laws K -> forall a b : K, elliptic K a b ->
  forall P Q m n, on_curve K a b P -> on_curve K a b Q -> 0 <= m -> 0 <= n ->
  pzmul K a (m + n) P = padd K a (pzmul K a m P) (pzmul K a n P) /\
  pzmul K a (m * n) P = pzmul K a m (pzmul K a n P) /\
  pzmul K a n (padd K a P Q) = padd K a (pzmul K a n P) (pzmul K a n Q) /\
  forall r, 0 < r -> pzmul K a r P = None -> pzmul K a n P = pzmul K a (n mod r) P.
Proof. exact scalar_pub. Qed.
Print Assumptions scalar_multiplication_laws.
(** Negative scalars are not supported: -1 times P comes out as P. *)
Theorem negative_scalar_refuted : exists (K : fld) (a b : K) (P : point K) (st : cst K),
  fld_laws K /\ elliptic K a b /\ on_curve K a b P /\ cval st (Reg 0) = P /\
  exists st', curve_pow_mpz K a (Reg 1) (Reg 0) (-1) st = Ok st' /\ cval st' (Reg 1) <> pneg P /\ cval st' (Reg 1) = P.
Proof. exact negative_refuted. Qed.
Print Assumptions negative_scalar_refuted.

(** C60 is false: element_mul_si and element_halve return their argument. *)
Theorem mul_si_returns_argument : forall (K : fld) (a : K) c p n (st : cst K),
  exists st', curve_mul_si K a (Reg c) (Reg p) n st = Ok st' /\ cval st' (Reg c) = cval st (Reg p).
Proof. exact mul_si_nothing. Qed.
Print Assumptions mul_si_returns_argument.
Theorem halve_returns_argument : forall (K : fld) (a : K) c p (st : cst K),
  exists st', curve_halve K a (Reg c) (Reg p) st = Ok st' /\ cval st' (Reg c) = cval st (Reg p).
Proof. exact halve_nothing. Qed.
Print Assumptions halve_returns_argument.
Theorem mul_si_refuted : exists (K : fld) (a b : K) (P : point K) (st : cst K), fld_laws K /\ elliptic K a b /\ on_curve K a b P /\
  cval st (Reg 0) = P /\ exists st', curve_mul_si K a (Reg 1) (Reg 0) 2 st = Ok st' /\ cval st' (Reg 1) <> pzmul K a 2 P.
Proof. exact mul_si_refuted_w. Qed.
Print Assumptions mul_si_refuted.
Theorem halve_refuted : exists (K : fld) (a b : K) (P : point K) (st : cst K), fld_laws K /\ elliptic K a b /\ on_curve K a b P /\
  cval st (Reg 0) = P /\ exists st', curve_halve K a (Reg 1) (Reg 0) st = Ok st' /\
    padd K a (cval st' (Reg 1)) (cval st' (Reg 1)) <> P.
Proof. exact halve_refuted_w. Qed.
Print Assumptions halve_refuted.

(** C27: encodings of finite points, given those of the base field. *)
Theorem point_bytes_round_trip : forall (K : fld), fld_laws K -> forall (a b : K) blen enc dec, is_code K blen enc dec ->
  forall (st st1 : cst K) o o' P, cval st o = Some P -> on_curve K a b (Some P) ->
  length (curve_to_bytes K enc st o) = (2 * blen)%nat /\
  exists st', curve_from_bytes K a b blen dec o' (curve_to_bytes K enc st o) st1 = Ok st' /\ cval st' o' = Some P /\
    forall p, p <> o' -> cval st' p = cval st1 p.
Proof. exact bytes_pub. Qed.
Print Assumptions point_bytes_round_trip.
Theorem point_compressed_round_trip : forall (K : fld), fld_laws K -> forall (a b : K) blen enc dec, is_code K blen enc dec ->
  forall sign is_sqr sqrt, is_sign K sign -> good_roots K is_sqr sqrt ->
  forall (st st1 : cst K) o o' P, cval st o = Some P -> on_curve K a b (Some P) ->
  length (to_bytes_compressed K enc sign st o) = (blen + 1)%nat /\
  exists st', from_bytes_compressed K a b blen dec sign sqrt o' (to_bytes_compressed K enc sign st o) st1 = Ok st' /\
    cval st' o' = Some P /\ forall p, p <> o' -> cval st' p = cval st1 p.
Proof. exact compressed_pub. Qed.
Print Assumptions point_compressed_round_trip.
Theorem point_x_only_round_trip : forall (K : fld), fld_laws K -> forall (a b : K) blen enc dec, is_code K blen enc dec ->
  forall is_sqr sqrt, good_roots K is_sqr sqrt ->
  forall (st st1 : cst K) o o' P, cval st o = Some P -> on_curve K a b (Some P) ->
  length (to_bytes_x_only K enc st o) = blen /\
  exists st', from_bytes_x_only K a b blen dec sqrt o' (to_bytes_x_only K enc st o) st1 = Ok st' /\
    (cval st' o' = Some P \/ cval st' o' = pneg (Some P)) /\ forall p, p <> o' -> cval st' p = cval st1 p.
Proof. exact x_only_pub. Qed.
Print Assumptions point_x_only_round_trip.
(** Whatever bytes are decoded, the uncompressed decoder gives a curve point. *)
Theorem point_from_bytes_on_curve : forall (K : fld), fld_laws K -> forall (a b : K) blen enc dec, is_code K blen enc dec ->
  forall (st : cst K) o data, (2 * blen <= length data)%nat ->
  exists st', curve_from_bytes K a b blen dec o data st = Ok st' /\ on_curve K a b (cval st' o) /\
    forall p, p <> o -> cval st' p = cval st p.
Proof. exact bytes_any_pub. Qed.
Print Assumptions point_from_bytes_on_curve.
(** O does not round-trip: its left-over coordinates are written. *)
Theorem infinity_bytes_refuted : exists (K : fld) (a b : K) blen enc dec (st st' : cst K),
  fld_laws K /\ elliptic K a b /\ is_code K blen enc dec /\ cval st (Reg 0) = None /\
  curve_from_bytes K a b blen dec (Reg 1) (curve_to_bytes K enc st (Reg 0)) st = Ok st' /\ cval st' (Reg 1) <> None.
Proof. exact bytes_infinity_refuted_w. Qed.
Print Assumptions infinity_bytes_refuted.
(** The other decoders do not check: they can produce a point off the curve. *)
Theorem compressed_check_refuted : exists (K : fld) (a b : K) blen enc dec sign is_sqr sqrt (data : list Z) (st st' : cst K),
  fld_laws K /\ elliptic K a b /\ is_code K blen enc dec /\ is_sign K sign /\ good_roots K is_sqr sqrt /\
  length data = compressed_length blen /\
  from_bytes_compressed K a b blen dec sign sqrt (Reg 0) data st = Ok st' /\ ~ on_curve K a b (cval st' (Reg 0)).
Proof. exact compressed_off_curve_w. Qed.
Print Assumptions compressed_check_refuted.
Theorem x_only_check_refuted : exists (K : fld) (a b : K) blen enc dec is_sqr sqrt (data : list Z) (st st' : cst K),
  fld_laws K /\ elliptic K a b /\ is_code K blen enc dec /\ good_roots K is_sqr sqrt /\
  length data = x_only_length blen /\
  from_bytes_x_only K a b blen dec sqrt (Reg 0) data st = Ok st' /\ ~ on_curve K a b (cval st' (Reg 0)).
Proof. exact x_only_off_curve_w. Qed.
Print Assumptions x_only_check_refuted.

(** C28: the hash is the first iterate of X |-> X^2 + 1 that is the abscissa
    of a point, with the ordinate of non-negative sign, times the cofactor. *)
Theorem curve_hash_exact : forall (K : fld), fld_laws K -> forall a b : K, elliptic K a b ->
  forall sign hash, is_sign K sign -> forall is_sqr sqrt cofac data n Y, good_roots K is_sqr sqrt ->
  (forall c, cofac = Some c -> 0 <= c) ->
  first_square K a b n (hash data) -> fmul Y Y = rhs K a b (orbit K n (hash data)) -> 0 <= sign Y ->
  forall fuel, curve_from_hash K a b sign is_sqr sqrt hash fuel cofac data =
    if (n <? fuel)%nat then Ok (cleared K a cofac (Some (orbit K n (hash data), Y))) else OutOfFuel.
Proof. exact hash_pub. Qed.
Print Assumptions curve_hash_exact.
Theorem curve_hash_on_curve : forall (K : fld), fld_laws K -> forall a b : K, elliptic K a b ->
  forall sign hash, is_sign K sign -> forall is_sqr sqrt cofac data fuel P, good_roots K is_sqr sqrt ->
  (forall c, cofac = Some c -> 0 <= c) ->
  curve_from_hash K a b sign is_sqr sqrt hash fuel cofac data = Ok P ->
  on_curve K a b P /\ exists R, on_curve K a b R /\ P = cleared K a cofac R.
Proof. exact hash_sound_pub. Qed.
Print Assumptions curve_hash_on_curve.
(** The random non-residue kept by the base field does not matter. *)
Theorem curve_hash_choice_free : forall (K : fld), fld_laws K -> forall a b : K, elliptic K a b ->
  forall sign hash, is_sign K sign -> forall q, has_order K q -> Z.odd q = true ->
  forall is_sqr, (forall x, is_sqr x = true <-> is_square x) ->
  forall nqr1 nqr2 : K, ~ is_square nqr1 -> ~ is_square nqr2 -> forall cofac, (forall c, cofac = Some c -> 0 <= c) ->
  forall data fuel, curve_from_hash K a b sign is_sqr (element_tonelli K q nqr1) hash fuel cofac data =
                    curve_from_hash K a b sign is_sqr (element_tonelli K q nqr2) hash fuel cofac data.
Proof. exact hash_choice_pub. Qed.
Print Assumptions curve_hash_choice_free.
(** It need not terminate: X^2 + 1 can have a fixed point. *)
Theorem curve_hash_terminates_refuted : exists (K : fld) (a b : K) sign is_sqr sqrt (hash : list Z -> K) (data : list Z),
  fld_laws K /\ elliptic K a b /\ is_sign K sign /\ good_roots K is_sqr sqrt /\
  forall fuel cofac, curve_from_hash K a b sign is_sqr sqrt hash fuel cofac data = OutOfFuel.
Proof. exact hash_diverges_w. Qed.
Print Assumptions curve_hash_terminates_refuted.

Example codec_example : elliptic F (c13 3) (c13 8) /\ is_code F 1 enc13 dec13 /\ is_sign F sign13 /\ good_roots F is_sqr13 sqrt13 /\
  on_curve F (c13 3) (c13 8) P15 /\ to_bytes_compressed F enc13 sign13 st13 (Reg 0) = [1; 1] /\
  match curve_from_hash F (c13 3) (c13 8) sign13 is_sqr13 sqrt13 dec13 20 (Some 3) [7] with Ok P => show P = Some (9, 7) | _ => False end.
Proof. exact codec_witness. Qed.

(** Random points and generators are on the curve and in the image of
    multiplication by the cofactor. *)
Theorem random_point_on_curve : forall (K : fld), fld_laws K -> forall a b : K, elliptic K a b ->
  forall is_sqr sqrt cofac xs P, good_roots K is_sqr sqrt -> (forall c, cofac = Some c -> 0 <= c) ->
  random_solvefory K a b is_sqr sqrt cofac xs = Ok P ->
  on_curve K a b P /\ exists R, on_curve K a b R /\ P = cleared K a cofac R.
Proof. exact random_on. Qed.
Print Assumptions random_point_on_curve.

(** element_is_sqr on points: right for odd order, wrong for even order. *)
Theorem point_is_sqr_odd : forall (K : fld), fld_laws K -> forall a b : K, elliptic K a b ->
  forall order P, Z.odd order = true -> on_curve K a b P -> 0 < order -> pzmul K a order P = None ->
  point_is_sqr K a order P = Ok true /\ exists R, on_curve K a b R /\ padd K a R R = P.
Proof. exact odd_is_sqr. Qed.
Print Assumptions point_is_sqr_odd.
Theorem point_is_sqr_even_refuted : exists (K : fld) (a b : K) (order : Z) (R : point K),
  fld_laws K /\ elliptic K a b /\ on_curve K a b R /\
  (exists l, NoDup l /\ (forall P, In P l <-> on_curve K a b P) /\ Z.of_nat (length l) = order) /\
  point_is_sqr K a order (padd K a R R) = Ok false.
Proof. exact even_is_sqr_w. Qed.
Print Assumptions point_is_sqr_even_refuted.

(** C29: one batch of additions is the additions one after the other, provided
    no output is an input of a later entry and the abscissae stored in the two
    operands of every entry differ.  Missing: the other cases, below. *)
Theorem multi_add_partial : forall (K : fld), fld_laws K -> forall a : K, f2 K <> f0 ->
  forall (l : list (nat * (nat * nat))) (st : cst K) (v : nat -> point K), l <> [] ->
  (forall n, v n = cval st (Reg n)) -> independent (map add_inputs l) ->
  (forall c p q, In (c, (p, q)) l -> sl st (Reg p, 0%nat) <> sl st (Reg q, 0%nat)) ->
  exists st', multi_add K a (map reg3 l) st = Ok st' /\ forall n, seq_add K a v l n = cval st' (Reg n).
Proof. exact multi_add_ok. Qed.
Print Assumptions multi_add_partial.
(** If the operands of one entry have equal abscissae (equal or opposite
    points, or stale values in O), zero is inverted: undefined. *)
Theorem multi_add_refuted : forall (K : fld), fld_laws K -> forall a : K,
  forall (l : list (nat * (nat * nat))) (st : cst K),
  (exists c p q, In (c, (p, q)) l /\ sl st (Reg p, 0%nat) = sl st (Reg q, 0%nat)) ->
  multi_add K a (map reg3 l) st = UB.
Proof. exact multi_add_ub. Qed.
Print Assumptions multi_add_refuted.
Theorem multi_double_partial : forall (K : fld), fld_laws K -> forall a : K, f2 K <> f0 ->
  forall (l : list (nat * nat)) (st : cst K) (v : nat -> point K), l <> [] ->
  (forall n, v n = cval st (Reg n)) -> independent (map double_inputs l) -> NoDup (map fst l) ->
  (forall c p, In (c, p) l -> sl st (Reg p, 1%nat) <> f0) ->
  (forall c p, In (c, p) l -> v p <> None -> v c <> None) ->
  exists st', multi_double K a (map reg2 l) st = Ok st' /\ forall n, seq_double K a v l n = cval st' (Reg n).
Proof. exact multi_double_ok. Qed.
Print Assumptions multi_double_partial.
(** An output that holds O beforehand, as a fresh element does, keeps it. *)
Theorem multi_double_refuted : forall (K : fld), fld_laws K -> forall a : K, f2 K <> f0 -> forall c p (st : cst K),
  cval st (Reg c) = None -> sl st (Reg p, 1%nat) <> f0 ->
  exists st', multi_double K a [(Reg c, Reg p)] st = Ok st' /\ cval st' (Reg c) = None.
Proof. exact multi_double_fresh. Qed.
Print Assumptions multi_double_refuted.

Example multi_add_example : let l := [(0, (1, 2)); (3, (1, 2))]%nat in
  let st := {| sl := fun l => match l with (Reg 1, O) => c13 1 | (Reg 1, _) => c13 5 | (Reg 2, O) => c13 2 | (Reg 2, _) => c13 10 | _ => c13 0 end; inf := fun o => negb (obj_eqb o (Reg 1) || obj_eqb o (Reg 2)) |} in
  independent (map add_inputs l) /\ (forall c p q, In (c, (p, q)) l -> sl st (Reg p, 0%nat) <> sl st (Reg q, 0%nat)) /\
  match multi_add F (c13 3) (map (fun e => (Reg (fst e), (Reg (fst (snd e)), Reg (snd (snd e))))) l) st with
  | Ok st' => show (cval st' (Reg 0)) = Some (9, 7) | _ => False end.
Proof. exact batch_witness. Qed.

(** C30: traces and orders over extensions.  alpha and beta are the roots of
    X^2 - tX + q in any field that has them. *)
Theorem trace_over_extension : forall (K : fld), fld_laws K -> forall (q t : Z) (alpha beta : K),
  fadd alpha beta = fofz t -> fmul alpha beta = fofz q ->
  forall n, 1 <= n -> fofz (trace_n q t n) = fadd (fpow alpha n) (fpow beta n).
Proof. exact trace_ok. Qed.
Print Assumptions trace_over_extension.
Theorem order_over_extension : forall (K : fld), fld_laws K -> forall (q t : Z) (alpha beta : K),
  fadd alpha beta = fofz t -> fmul alpha beta = fofz q -> forall k, 1 <= k ->
  fofz (curve_order_extn q t k) = fsub (fadd (fofz (q ^ k)) f1) (fadd (fpow alpha k) (fpow beta k)).
Proof. exact order_extn_pub. Qed.
Print Assumptions order_over_extension.
Theorem trace_of_integers : forall alpha beta n, 1 <= n ->
  trace_n (alpha * beta) (alpha + beta) n = alpha ^ n + beta ^ n.
Proof. exact trace_int. Qed.
Print Assumptions trace_of_integers.
Example trace_example : trace_n 6 5 3 = 35 /\ curve_order_extn 13 2 2 = 192.
Proof. vm_compute. split; reflexivity. Qed.

(** The quadratic twist: v x is an abscissa on the twist by a non-residue v
    exactly when x is not one on the curve (rhs' (v x) = v^3 rhs x). *)
Theorem twist_right_hand_side : forall (K : fld), fld_laws K -> forall a b v x : K,
  let '(a', b') := twist_coeffs K a b v in rhs K a' b' (fmul v x) = fmul (fmul (fmul v v) v) (rhs K a b x).
Proof. exact twist_rhs. Qed.
Print Assumptions twist_right_hand_side.
(** The curve built from a j-invariant other than 1728 has that j-invariant:
    1728 * 4a^3 = j * (4a^3 + 27b^2); and it is non-singular unless j = 0. *)
Theorem curve_from_j : forall (K : fld), fld_laws K -> forall j : K, fofz 1728 <> j -> f2 K <> f0 -> f3 K <> f0 ->
  exists a b, j_coeffs K j = Ok (a, b) /\
   let d := fadd (fmul (fmul (f2 K) (f2 K)) (fmul (fmul a a) a)) (fmul (fmul (fmul (f3 K) (f3 K)) (f3 K)) (fmul b b)) in
   (j <> f0 -> d <> f0) /\ fmul (fofz 1728) (fmul (fmul (f2 K) (f2 K)) (fmul (fmul a a) a)) = fmul j d.
Proof. exact j_ok. Qed.
Print Assumptions curve_from_j.
