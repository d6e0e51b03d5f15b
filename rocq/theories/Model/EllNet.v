(** The Shipsey-Stange ("elliptic net") method, chosen by the option
    "method" = "shipsey-stange": ecc/a_param.c:361-1050 (types A and A1, with
    preprocessing), ecc/g_param.c:787-1110 (type G), ecc/e_param.c:485-795
    (type E).  The four functions run the same loop on the same variables, so
    the loop is modelled once: [L] is the field of [out] and of the variables
    d, [scal] the way a variable c (in the base field) multiplies an element
    of [L] in each file, [mulA] the multiplication by A.  As in
    Model/PairingA.v the temporaries are threaded as let-bound variables and
    reading the coordinates of the identity is [UB]. *)
From Coq Require Import ZArith List Bool String.
From Verif.Base Require Import Outcome Array Algebra Slots Gmp.
From Verif.Spec Require Import Quadratic Curve Extension.
From Verif.Model Require Import GenericPow Curve Lucas Pairing PairingA PairingA1 Miller PairingD PairingE.
Import ListNotations.
Local Open Scope Z_scope.

(** c_{k-3} ... c_{k+4} *)
Record cblock (K : Type) := { cm3 : K; cm2 : K; cm1 : K; c0 : K; c1 : K; c2 : K; c3 : K; c4 : K }.
(** d_{k-1}, d_k, d_{k+1} *)
Record dblock (L : Type) := { dm1 : L; d0 : L; d1 : L }.
(** the squares and products kept by preprocessing: struct ellnet_pp_st_s,
    a_param.c:672-675 *)
Record kept (K : Type) := { sm1 : K; s0 : K; s1 : K; s2 : K; tm1 : K; t0 : K; t1 : K; t2 : K }.
(** those used by the c variables only *)
Record outer (K : Type) := { sm2 : K; s3 : K; tm2 : K; t3 : K }.
Arguments cm3 {K}. Arguments cm2 {K}. Arguments cm1 {K}. Arguments c0 {K}. Arguments c1 {K}. Arguments c2 {K}. Arguments c3 {K}. Arguments c4 {K}.
Arguments dm1 {L}. Arguments d0 {L}. Arguments d1 {L}.
Arguments sm1 {K}. Arguments s0 {K}. Arguments s1 {K}. Arguments s2 {K}. Arguments tm1 {K}. Arguments t0 {K}. Arguments t1 {K}. Arguments t2 {K}.
Arguments sm2 {K}. Arguments s3 {K}. Arguments tm2 {K}. Arguments t3 {K}.

Section Net.
Variable K : fld.
Local Notation "x + y" := (fadd x y). Local Notation "x - y" := (fsub x y). Local Notation "x * y" := (fmul x y). Local Notation "- x" := (fopp x).
Variable r : Z.                       (* pairing->r *)

(** ** The loop *)
(** a_param.c:487-500; 798-811; e_param.c:635-648; g_param.c:949-962 *)
Definition keep (c : cblock K) : kept K :=
  {| sm1 := cm1 c * cm1 c; s0 := c0 c * c0 c; s1 := c1 c * c1 c; s2 := c2 c * c2 c;
     tm1 := cm2 c * c0 c; t0 := cm1 c * c1 c; t1 := c0 c * c2 c; t2 := c1 c * c3 c |}.
Definition rest (c : cblock K) : outer K :=
  {| sm2 := cm2 c * cm2 c; s3 := c3 c * c3 c; tm2 := cm3 c * cm1 c; t3 := c2 c * c4 c |}.
(** a_param.c:506-541; 818-853; e_param.c:654-689; g_param.c:968-1003 *)
Definition c_double_add (C : K) (k : kept K) (o : outer K) : cblock K :=
  {| cm3 := (t0 k * sm2 o - tm2 o * s0 k) * C;
     cm2 := t0 k * sm1 k - tm1 k * s0 k;
     cm1 := (t1 k * sm1 k - tm1 k * s1 k) * C;
     c0 := t1 k * s0 k - t0 k * s1 k;
     c1 := (t2 k * s0 k - t0 k * s2 k) * C;
     c2 := t2 k * s1 k - t1 k * s2 k;
     c3 := (t3 o * s1 k - t1 k * s3 o) * C;
     c4 := t3 o * s2 k - t2 k * s3 o |}.
(** a_param.c:568-603; 857-892; e_param.c:708-743; g_param.c:1028-1063 *)
Definition c_double (C : K) (k : kept K) (o : outer K) : cblock K :=
  {| cm3 := tm1 k * sm2 o - tm2 o * sm1 k;
     cm2 := (t0 k * sm2 o - tm2 o * s0 k) * C;
     cm1 := t0 k * sm1 k - tm1 k * s0 k;
     c0 := (t1 k * sm1 k - tm1 k * s1 k) * C;
     c1 := t1 k * s0 k - t0 k * s1 k;
     c2 := (t2 k * s0 k - t0 k * s2 k) * C;
     c3 := t2 k * s1 k - t1 k * s2 k;
     c4 := (t3 o * s1 k - t1 k * s3 o) * C |}.
Definition c_step (bit : bool) (C : K) (k : kept K) (o : outer K) : cblock K := if bit then c_double_add C k o else c_double C k o.

Variable L : fld.
Variable scal : K -> L -> L.
Variable mulA : L -> L.
Variable B : L.
(** a_param.c:502-503, 543-565; 989-1010; e_param.c:650-651, 691-705;
    g_param.c:964-965, 1005-1025.  [out] holds scal t u. *)
Definition d_double_add (k : kept K) (d : dblock L) : dblock L :=
  let u := d0 d * d0 d in
  let v := dm1 d * d1 d in
  {| dm1 := scal (s0 k) v - scal (t0 k) u;
     d0 := mulA (scal (s1 k) v - scal (t1 k) u);
     d1 := (scal (s2 k) v - scal (t2 k) u) * B |}.
(** a_param.c:605-624; 1013-1032; e_param.c:745-757; g_param.c:1065-1083 *)
Definition d_double (k : kept K) (d : dblock L) : dblock L :=
  let u := d0 d * d0 d in
  let v := dm1 d * d1 d in
  {| dm1 := scal (sm1 k) v - scal (tm1 k) u;
     d0 := scal (s0 k) v - scal (t0 k) u;
     d1 := mulA (scal (s1 k) v - scal (t1 k) u) |}.
Definition d_step (bit : bool) (k : kept K) (d : dblock L) : dblock L := if bit then d_double_add k d else d_double k d.
(** a_param.c:484-628; e_param.c:632-761; g_param.c:946-1087; [m] is the C
    variable m *)
Fixpoint net_loop (m : nat) (C : K) (c : cblock K) (d : dblock L) : cblock K * dblock L :=
  let bit := mpz_tstbit r (Z.of_nat m) in
  let k := keep c in
  let c' := c_step bit C k (rest c) in
  let d' := d_step bit k d in
  match m with O => (c', d') | S m' => net_loop m' C c' d' end.

(** ** The first block, k = 1, over Y^2 = X^3 + aX + b *)
(** d_0, d_1 = 1: a_param.c:454-455 *)
Definition first_d (d2 : L) : dblock L := {| dm1 := f1; d0 := f1; d1 := d2 |}.
(** c_5: a_param.c:418-424; e_param.c:564-570; g_param.c:861-867 *)
Definition fifth (c1 c2 c3 : K) : K := c1 * c1 * c1 * c3 - c2 * c2 * c2.
Definition double (x : K) : K := x + x.
(** e_param.c:521-570; g_param.c:824-867 *)
Definition first_c (a b x y : K) : cblock K :=
  let c1 := double y in
  let cm2 := x * x in
  let C := cm2 * cm2 in
  let cm1 := double (b * x) in
  let c4 := a * a in
  let c2 := double (cm1 * cm2) in
  let c0 := a * C in
  let c2 := c2 + c0 in
  let c0 := c4 * cm2 in
  let c2 := c2 - c0 in
  let c0 := double (double c2) in
  let c2 := c2 + c0 in
  let c0 := cm1 * a in
  let c3 := double (double (b * b)) in
  let c0 := double (c0 + c3) in
  let c3 := a * c4 in
  let c0 := c0 + c3 in
  let c2 := c2 - c0 in
  let c0 := cm2 * C in
  let c3 := c0 + c2 in
  let c3 := double (c3 * c1) in
  let c0 := a * cm2 in
  let c0 := double (c0 + cm1) in
  let c0 := c0 + C in
  let c2 := double c0 in
  let c0 := c0 + c2 in
  let c2 := c0 - c4 in
  {| cm3 := - c1; cm2 := - f1; cm1 := f0; c0 := f1; c1 := c1; c2 := c2; c3 := c3; c4 := fifth c1 c2 c3 |}.
(** the same for a = 1, b = 0: a_param.c:388-424; 726-762 *)
Definition first_c_a (x y : K) : cblock K :=
  let c1 := double y in
  let cm2 := - f1 in
  let cm1 := x * x in
  let C := cm1 * cm1 in
  let c2 := C - cm1 in
  let c3 := double (double c2) in
  let c3 := c3 + c2 in
  let c2 := C * cm1 in
  let c3 := c3 + c2 in
  let c3 := c3 + cm2 in
  let c3 := double (c3 * c1) in
  let cm1 := double cm1 in
  let cm1 := cm1 + C in
  let C := double cm1 in
  let C := C + cm1 in
  let c2 := C + cm2 in
  {| cm3 := - c1; cm2 := cm2; cm1 := f0; c0 := f1; c1 := c1; c2 := c2; c3 := c3; c4 := fifth c1 c2 c3 |}.
End Net.

(** * Types A and A1 *)
Section A.
Variable K : fld.
Variable inv0 : res K.          (* see Model/Lucas.v *)
Variables r phikonr : Z.
Local Notation T := (Fq2 K).
Local Notation "x + y" := (fadd x y). Local Notation "x - y" := (fsub x y). Local Notation "x * y" := (fmul x y). Local Notation "- x" := (fopp x).
(** componentwise, a_param.c:543-546 and the like *)
Definition a_scal (c : K) (e : T) : T := (fst e * c, snd e * c).
(** a_param.c:428-446; 957-974: B, A and d_2 *)
Definition a_net_start (x y x2 y2 : K) : res (T * K * T) :=
  let A := x + x2 in
  let C := double K x - x2 in
  let cm1 := C * (A * A) in
  let d1 : T := fmul ((y, y2) : T) (y, y2) in
  let d1 : T := (fst d1 - cm1, snd d1) in
  B <- finvert (fopp d1) ;;
  A <- finvert A ;;
  let d1 : T := (- (y * A), y2 * A) in
  let d1 := fmul d1 d1 in
  Ok (B, A, (C - fst d1, - snd d1)).
(** a_pairing_ellnet, a_param.c:364-670 *)
Definition a_pairing_ellnet (in1 in2 : point K) : res T :=
  ' (x, y) <- coords K in1 ;;
  ' (x2, y2) <- coords K in2 ;;
  ' (B, A, d2) <- a_net_start x y x2 y2 ;;
  C <- finvert (double K y) ;;
  let '(_, d) := net_loop K r T a_scal (a_scal A) B (start_bit r) C (first_c_a K x y) (first_d T d2) in
  a_tateexp K (- f1) inv0 (d1 d) phikonr.

(** ** Preprocessing: struct ellnet_pp_s, :677-685; an entry of seq is [None]
    until written *)
Record net_pp := { px : K; py : K; seq : list (option (kept K)) }.
(** :785-898, [k] the C variable k *)
Fixpoint net_pp_loop (m k : nat) (C : K) (c : cblock K) (sq : list (option (kept K))) : res (list (option (kept K))) :=
  sq <- put sq k (Some (keep K c)) ;;
  match m with
  | O => Ok sq
  | S m' => net_pp_loop m' (S k) C (c_step K (mpz_tstbit r (Z.of_nat m)) C (keep K c) (rest K c)) sq
  end.
(** a_pairing_ellnet_pp_init, :687-910 *)
Definition a_pairing_ellnet_pp_init (in1 : point K) : res net_pp :=
  ' (x, y) <- coords K in1 ;;
  C <- finvert (double K y) ;;
  sq <- net_pp_loop (start_bit r) 0 C (first_c_a K x y) (repeat None (Z.to_nat (sizeinbase2 r))) ;;
  Ok {| px := x; py := y; seq := sq |}.
(** :976-1036 *)
Fixpoint net_pp_eval (m k : nat) (A : K) (B : T) (sq : list (option (kept K))) (d : dblock T) : res (dblock T) :=
  o <- get sq k ;;
  match o with
  | None => UB
  | Some st =>
      let d := d_step K T a_scal (a_scal A) B (mpz_tstbit r (Z.of_nat m)) st d in
      match m with O => Ok d | S m' => net_pp_eval m' (S k) A B sq d end
  end.
(** a_pairing_ellnet_pp_apply, :932-1048 *)
Definition a_pairing_ellnet_pp_apply (pp : net_pp) (in2 : point K) : res T :=
  ' (x2, y2) <- coords K in2 ;;
  ' (B, A, d2) <- a_net_start (px pp) (py pp) x2 y2 ;;
  d <- net_pp_eval (start_bit r) 0 A B (seq pp) (first_d T d2) ;;
  a_tateexp K (- f1) inv0 (d1 d) phikonr.
(** The pairing after the option is set, :1411-1415.  prod_pairings is left
    alone: for type A it remains a_pairings_affine. *)
Definition a_pairing_net (info : a_info) : pairing :=
  {| g1 := point K; g2 := point K; gt := T; ppt := net_pp;
     is0_1 := is_inf K; is0_2 := is_inf K;
     map_ := a_pairing_ellnet; pp_init_ := a_pairing_ellnet_pp_init; pp_apply_ := a_pairing_ellnet_pp_apply;
     prod_ := a_pairings_affine K inv0 info |}.
(** :2221-2225 *)
Definition a1_pairing_net : pairing :=
  {| g1 := point K; g2 := point K; gt := T; ppt := net_pp;
     is0_1 := is_inf K; is0_2 := is_inf K;
     map_ := a_pairing_ellnet; pp_init_ := a_pairing_ellnet_pp_init; pp_apply_ := a_pairing_ellnet_pp_apply;
     prod_ := a1_pairings_affine K r phikonr |}.
End A.

(** * Type E *)
Section E.
Variable K : fld.
Variables a b : K.              (* curve_a_coeff, curve_b_coeff *)
Variables q r : Z.
Local Notation "x + y" := (fadd x y). Local Notation "x - y" := (fsub x y). Local Notation "x * y" := (fmul x y). Local Notation "- x" := (fopp x).
(** e_param.c:485-795; the final exponent phikonr is (q - 1) / r *)
Definition e_pairing_ellnet (in1 in2 : point K) : res K :=
  ' (x, y) <- coords K in1 ;;
  ' (x2, y2) <- coords K in2 ;;
  let A := x - x2 in
  let C := double K x + x2 in
  let cm1 := C * (A * A) in
  let d1' := y + y2 in
  B <- finvert (cm1 - d1' * d1') ;;
  A <- finvert A ;;
  let d1' := (y - y2) * A in
  let d2 := C - d1' * d1' in
  C <- finvert (double K y) ;;
  let '(c, d) := net_loop K r K (fun t u => u * t) (fun u => u * A) B (start_bit r) C (first_c K a b x y) (first_d K d2) in
  c1' <- finvert (c1 c) ;;
  generic_pow_mpz (mul_monoid K) (d1 d * c1') ((q - 1) / r).
(** The pairing after the option is set, :809-810: only map changes;
    generic_prod_pairings and default_pp_apply (ecc/pairing.c:35-46, 65-68) call
    the current map. *)
Definition e_pairing_net : pairing :=
  {| g1 := point K; g2 := point K; gt := K; ppt := point K;
     is0_1 := is_inf K; is0_2 := is_inf K;
     map_ := e_pairing_ellnet;
     pp_init_ := fun in1 => Ok in1;
     pp_apply_ := e_pairing_ellnet;
     prod_ := generic_prod_pairings e_pairing_ellnet |}.
End E.

(** * Type G *)
Section G.
Variables (K : fld) (d : nat) (irred : list K).
Local Notation M := (Fqd K d irred).
Variable nqr : M.
Local Notation T := (Fqk K d irred nqr).
Variables a b : K.
Variable r : Z.
Variable tatepower : T -> res T.        (* tatepower10 *)
Local Notation "x + y" := (fadd x y). Local Notation "x - y" := (fsub x y). Local Notation "x * y" := (fmul x y). Local Notation "- x" := (fopp x).
(** polymod_const_mul on each component, g_param.c:1005-1008 and the like *)
Definition g_scal (c : K) (e : T) : T := (const_mul K d irred c (fst e), const_mul K d irred c (snd e)).
(** g_param.c:789-1110 *)
Definition g_pairing_ellnet (in1 : point K) (in2 : point M) : res T :=
  ' (x, y) <- coords K in1 ;;
  ' (xq, yq) <- untwist K d irred nqr in2 ;;
  let d0' : T := (xq, f0) in
  let A : T := fopp d0' in
  let A : T := (add_at0 K d irred (fst A) x, snd A) in
  let C := double K x in
  let d0' : T := (add_at0 K d irred (fst d0') C, snd d0') in
  let dm1' := fmul A A in
  let dm1' := fmul d0' dm1' in
  let d1' : T := (mkvec d (fun i => if Nat.eqb i 0 then y else f0), yq) in
  let d1' := fmul d1' d1' in
  let d1' := fsub dm1' d1' in
  B <- finvert d1' ;;
  A <- finvert A ;;
  let d1' : T := (mkvec d (fun i => if Nat.eqb i 0 then - y else f0), yq) in
  let d1' := fmul d1' A in
  let d1' := fmul d1' d1' in
  let d2 := fsub d0' d1' in
  C <- finvert (double K y) ;;
  let '(_, e) := net_loop K r T g_scal (fun u => fmul u A) B (start_bit r) C (first_c K a b x y) (first_d T d2) in
  tatepower (d1 e).
(** The pairing after the option is set, :1156-1157: only map changes, and
    generic_prod_pairings (pairing.c:35-46) calls the current map. *)
Definition g_pairing_net : pairing :=
  {| g1 := point K; g2 := point M; gt := T; ppt := table K;
     is0_1 := is_inf K; is0_2 := is_inf2 K d irred;
     map_ := g_pairing_ellnet;
     pp_init_ := d_pairing_pp_init K a r;
     pp_apply_ := d_pairing_pp_apply K d irred nqr r tatepower;
     prod_ := generic_prod_pairings g_pairing_ellnet |}.
End G.

(** * Tables and a change of method.  What pp_init stores depends on the method
    selected at that time, and pairing_pp_apply (pbc_pairing.h:79-89) calls the
    pp_apply of the method selected now.  Type A: the Miller table and the net
    table are different structures behind one void pointer (a_param.c:149, 317,
    687, 932); reading one as the other is [UB]. *)
Section Mixed.
Variable K : fld.
Variable inv0 : res K.
Variables r h : Z.
Variable info : a_info.
Inductive any_pp := MillerPP (t : option (PairingA.table K)) | NetPP (t : option (net_pp K)).
Inductive any_method := UseMiller (m : a_method) | UseNet.
Definition any_init (m : any_method) (P : point K) : res any_pp :=
  match m with
  | UseMiller m => t <- pairing_pp_init (a_pairing K inv0 info m) P ;; Ok (MillerPP t)
  | UseNet => t <- pairing_pp_init (a_pairing_net K inv0 r h info) P ;; Ok (NetPP t)
  end.
Definition any_apply (m : any_method) (Q : point K) (pp : any_pp) : res (Fq2 K) :=
  match m, pp with
  | UseMiller m, MillerPP t => pairing_pp_apply (a_pairing K inv0 info m) Q t
  | UseNet, NetPP t => pairing_pp_apply (a_pairing_net K inv0 r h info) Q t
  | UseMiller m, NetPP t => match t with None => Ok f1 | Some _ => if is_inf K Q then Ok f1 else UB end
  | UseNet, MillerPP t => match t with None => Ok f1 | Some _ => if is_inf K Q then Ok f1 else UB end
  end.
Definition any_map (m : any_method) (P Q : point K) : res (Fq2 K) :=
  match m with
  | UseMiller m => pairing_apply (a_pairing K inv0 info m) P Q
  | UseNet => pairing_apply (a_pairing_net K inv0 r h info) P Q
  end.
End Mixed.
