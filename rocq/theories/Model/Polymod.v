(** arith/poly.c: the ring K[X]/(m) made by field_init_polymod.  An element is
    an object with n slots.  Temporaries of one call are Tmp 0, 1, 2, 3 (an
    element or an array of base-field elements each); the temporary of the
    generic division and halving is Tmp 8.  The powers of X computed once by
    field_init_polymod are constants. *)
From Coq Require Import ZArith List Bool Arith.
From Verif.Base Require Import Outcome Array Algebra Slots.
From Verif.Spec Require Import FieldCalls.    (* only for the call syntax *)
From Verif.Model Require Import Poly.
Import ListNotations.
Open Scope nat_scope.

Section P.
Variable K : fld.
Variable n : nat.
Variable m : list K.
Notation prog := (list (instr K)).
Notation "p ;+ q" := (p ++ q) (at level 60, right associativity).

(** for (i = 0; i < n; i++) *)
Definition each (ins : nat -> instr K) : prog := map ins (seq 0 n).
(** poly.c:776-794 (set_si, set_mpz), :1168-1176 (set0), :1178-1187 (set1) *)
Definition pm_const (e : obj) (c : K) : prog := IConst (e, 0) c :: map (fun i => IConst (e, i) f0) (seq 1 (n - 1)).
Definition pm_set0 (e : obj) : prog := each (fun i => IConst (e, i) f0).
(** :796-812 *)
Definition pm_set (e f : obj) : prog := each (fun i => ISet (e, i) (f, i)).
Definition pm_neg (e f : obj) : prog := each (fun i => INeg (e, i) (f, i)).
(** :824-849 *)
Definition pm_add (r e f : obj) : prog := each (fun i => IAdd (r, i) (e, i) (f, i)).
Definition pm_double (r f : obj) : prog := each (fun i => IDbl (r, i) (f, i)).
Definition pm_sub (r e f : obj) : prog := each (fun i => ISub (r, i) (e, i) (f, i)).
(** :851-867 *)
Definition pm_mul_z (e f : obj) (z : Z) : prog := each (fun i => IMulZ (e, i) (f, i) z).
(** :1550-1558; the second factor is a constant element *)
Definition pm_const_mul (res : obj) (a : loc) (x : nat -> K) : prog := each (fun i => IMulC (res, i) a (x i)).

(** :869-907 *)
Definition kar_poly_2 (dst : nat -> loc) (c3 c4 : loc) (s1 s2 scratch : nat -> loc) : prog :=
  let c12 := scratch 0 in let c02 := scratch 1 in let c01 := scratch 2 in
  [IAdd c3 (s1 0) (s1 1); IAdd c4 (s2 0) (s2 1); IMul c01 c3 c4;
   IAdd c3 (s1 0) (s1 2); IAdd c4 (s2 0) (s2 2); IMul c02 c3 c4;
   IAdd c3 (s1 1) (s1 2); IAdd c4 (s2 1) (s2 2); IMul c12 c3 c4;
   IMul (dst 1) (s1 1) (s2 1);
   IMul (dst 0) (s1 0) (s2 0);
   IMul c4 (s1 2) (s2 2);
   IAdd c3 (dst 1) c4; ISub c3 c12 c3;
   IAdd (dst 2) c4 (dst 0); ISub c02 c02 (dst 2); IAdd (dst 2) (dst 1) c02;
   ISub c01 c01 (dst 0); ISub (dst 1) c01 (dst 1)].
Notation at_ o := (fun i => (o, i) : loc).
(** the same object, from slot k on *)
Notation from k o := (fun i => (o, k + i) : loc).

Section X.
Variable xp : nat -> nat -> K.      (* xp i j: coefficient j of p->xpwr[i] *)
(** :909-930; p0 = Tmp 0, c3 = Tmp 1, c4 = Tmp 2 *)
Definition pm_mul_degree3 (res e f : obj) : prog :=
  let p0 := Tmp 0 in let c3 := (Tmp 1, 0) in let c4 := (Tmp 2, 0) in
  kar_poly_2 (at_ res) c3 c4 (at_ e) (at_ f) (at_ p0) ;+
  pm_const_mul p0 c3 (xp 0) ;+ pm_add res res p0 ;+
  pm_const_mul p0 c4 (xp 1) ;+ pm_add res res p0.
(** :932-1002; p0..p3 = Tmp 0..3 *)
Definition pm_mul_degree6 (res e f : obj) : prog :=
  let p0 := Tmp 0 in let p1 := Tmp 1 in let p2 := Tmp 2 in let p3 := Tmp 3 in
  [IAdd (p0, 0) (e, 0) (e, 3); IAdd (p0, 1) (e, 1) (e, 4); IAdd (p0, 2) (e, 2) (e, 5);
   IAdd (p1, 0) (f, 0) (f, 3); IAdd (p1, 1) (f, 1) (f, 4); IAdd (p1, 2) (f, 2) (f, 5)] ;+
  kar_poly_2 (at_ p2) (p2, 3) (p2, 4) (at_ p0) (at_ p1) (at_ p3) ;+
  kar_poly_2 (at_ p0) (p0, 3) (p0, 4) (at_ e) (at_ f) (at_ p3) ;+
  kar_poly_2 (at_ p1) (p1, 3) (p1, 4) (from 3 e) (from 3 f) (at_ p3) ;+
  [ISet (res, 0) (p0, 0); ISet (res, 1) (p0, 1); ISet (res, 2) (p0, 2);
   ISub (res, 3) (p0, 3) (p0, 0); ISub (res, 3) (res, 3) (p1, 0); IAdd (res, 3) (res, 3) (p2, 0);
   ISub (res, 4) (p0, 4) (p0, 1); ISub (res, 4) (res, 4) (p1, 1); IAdd (res, 4) (res, 4) (p2, 1);
   ISub (res, 5) (p2, 2) (p0, 2); ISub (res, 5) (res, 5) (p1, 2);
   ISub (p0, 0) (p2, 3) (p0, 3); ISub (p0, 0) (p0, 0) (p1, 3); IAdd (p0, 0) (p0, 0) (p1, 0);
   ISub (p0, 1) (p2, 4) (p0, 4); ISub (p0, 1) (p0, 1) (p1, 4); IAdd (p0, 1) (p0, 1) (p1, 1)] ;+
  pm_const_mul p3 (p0, 0) (xp 0) ;+ pm_add res res p3 ;+
  pm_const_mul p3 (p0, 1) (xp 1) ;+ pm_add res res p3 ;+
  pm_const_mul p3 (p1, 2) (xp 2) ;+ pm_add res res p3 ;+
  pm_const_mul p3 (p1, 3) (xp 3) ;+ pm_add res res p3 ;+
  pm_const_mul p3 (p1, 4) (xp 4) ;+ pm_add res res p3.
(** :1004-1047 and :1091-1143, common frame: high = Tmp 0, prod = Tmp 1, p0 =
    Tmp 2, c0 = Tmp 3; high and prod start at zero *)
Definition high := Tmp 0. Definition prod := Tmp 1. Definition p0 := Tmp 2. Definition c0 : loc := (Tmp 3, 0).
Definition pm_generic (res : obj) (body : prog) : prog :=
  map (fun i => IConst (high, i) f0) (seq 0 (n - 1)) ;+ pm_set0 prod ;+
  body ;+
  flat_map (fun i => pm_const_mul p0 (high, i) (xp i) ;+ pm_add prod prod p0) (seq 0 (n - 1)) ;+
  pm_set res prod.
Definition pm_mul_generic (res e f : obj) : prog :=
  pm_generic res (flat_map (fun i =>
    let ni := n - i in
    flat_map (fun j => [IMul c0 (e, i) (f, j); IAdd (prod, i + j) (prod, i + j) c0]) (seq 0 ni) ;+
    flat_map (fun j => [IMul c0 (e, i) (f, j); IAdd (high, j - ni) (high, j - ni) c0]) (seq ni (n - ni))) (seq 0 n)).
(** :1049-1089; p0 = Tmp 0, c0 = Tmp 1, c2 = Tmp 2; c3 and c1 are p0[0], p0[1] *)
Definition pm_square_degree3 (res e : obj) : prog :=
  let p0 := Tmp 0 in let c0 := (Tmp 1, 0) in let c2 := (Tmp 2, 0) in
  let c3 := (p0, 0) in let c1 := (p0, 1) in
  [IMul c3 (e, 0) (e, 1); IMul c1 (e, 0) (e, 2); ISqr (res, 0) (e, 0);
   IMul c2 (e, 1) (e, 2); ISqr c0 (e, 2); ISqr (res, 2) (e, 1);
   IAdd (res, 1) c3 c3; IAdd c1 c1 c1; IAdd (res, 2) (res, 2) c1] ;+
  pm_const_mul p0 c0 (xp 1) ;+ pm_add res res p0 ;+
  [IAdd c2 c2 c2] ;+ pm_const_mul p0 c2 (xp 0) ;+ pm_add res res p0.
(** :1091-1143; j starts again at max (i+1, n-i) in the third loop *)
Definition pm_square_generic (res e : obj) : prog :=
  pm_generic res (flat_map (fun i =>
    (if 2 * i <? n then [ISqr c0 (e, i); IAdd (prod, 2 * i) (prod, 2 * i) c0]
     else [ISqr c0 (e, i); IAdd (high, 2 * i - n) (high, 2 * i - n) c0]) ;+
    let mid := max (i + 1) (n - i) in
    flat_map (fun j => [IMul c0 (e, i) (e, j); IAdd c0 c0 c0; IAdd (prod, i + j) (prod, i + j) c0]) (seq (i + 1) (mid - (i + 1))) ;+
    flat_map (fun j => [IMul c0 (e, i) (e, j); IAdd c0 c0 c0; IAdd (high, i + j - n) (high, i + j - n) c0]) (seq mid (n - mid))) (seq 0 n)).
(** :1508-1521: chosen by the degree *)
Definition pm_mul (res e f : obj) : prog :=
  if n =? 3 then pm_mul_degree3 res e f else if n =? 6 then pm_mul_degree6 res e f else pm_mul_generic res e f.
Definition pm_square (res e : obj) : prog := if n =? 3 then pm_square_degree3 res e else pm_square_generic res e.
End X.

(** :494-508, on values *)
Definition truncate (f : list K) : list K := map (fun i => if i <? length f then nth i f f0 else f0) (seq 0 n).
(** :1301-1333, on values: xpwr[0] is the negated truncation of m; each next
    one is the shift of the previous one plus its last coefficient times
    xpwr[0] *)
Definition x_step (pwrn prev : list K) : list K :=
  map (fun j => fadd (if j =? 0 then f0 else nth (j - 1) prev f0) (fmul (nth j pwrn f0) (nth (n - 1) prev f0))) (seq 0 n).
Fixpoint x_powers (k : nat) (pwrn prev : list K) : list (list K) :=
  match k with O => [] | S k' => prev :: x_powers k' pwrn (x_step pwrn prev) end.
Definition compute_x_powers : list (list K) := let pwrn := map fopp (truncate m) in x_powers n pwrn pwrn.
Definition xpwr (i j : nat) : K := nth j (nth i compute_x_powers []) f0.

(** :510-537 *)
Definition pm_to_poly (s : store K) (e : obj) : res (list K) := poly_remove_leading_zeroes K (map (fun i => s (e, i)) (seq 0 n)).
Definition pm_invert (fuel : nat) (r e : obj) (s : store K) : res (store K) :=
  f <- pm_to_poly s e ;;
  r1 <- poly_invert K fuel f m ;;
  run (each (fun i => IConst (r, i) (nth i (truncate r1) f0))) s.

(** halve and div are not overridden: field.c:406-413 and :457-469. *)
Definition t8 : obj := Tmp 8.
Definition pm_halve (fuel : nat) (r e : obj) (s : store K) : res (store K) :=
  s <- run (pm_const t8 (fofz 2)) s ;; s <- pm_invert fuel t8 t8 s ;; run (pm_mul xpwr r e t8) s.
Definition pm_div (fuel : nat) (c a b : obj) (s : store K) : res (store K) :=
  if obj_eqb c a then s <- pm_invert fuel t8 b s ;; run (pm_mul xpwr c t8 a) s
  else s <- pm_invert fuel c b s ;; run (pm_mul xpwr c c a) s.

Definition pm_value (s : store K) (r : nat) : list K := map (fun i => s (Reg r, i)) (seq 0 n).
(** One public call: is0 (:1145-1154), is1 (:1156-1166), cmp (:814-822); FValue
    reads the coefficients through element_item. *)
Definition pm_step (fuel : nat) (s : store K) (c : fcall) : res (store K * list (bool + list K)) :=
  let go p := s <- run p s ;; Ok (s, []) in
  let st p := s <- p ;; Ok (s, []) in
  match c with
  | FSet r a => go (pm_set (Reg r) (Reg a))
  | FSet0 r => go (pm_set0 (Reg r))
  | FSet1 r => go (pm_const (Reg r) f1)
  | FSetZ r z => go (pm_const (Reg r) (fofz z))
  | FAdd r a b => go (pm_add (Reg r) (Reg a) (Reg b))
  | FSub r a b => go (pm_sub (Reg r) (Reg a) (Reg b))
  | FMul r a b => go (pm_mul xpwr (Reg r) (Reg a) (Reg b))
  | FDiv r a b => st (pm_div fuel (Reg r) (Reg a) (Reg b) s)
  | FNeg r a => go (pm_neg (Reg r) (Reg a))
  | FSqr r a => go (pm_square xpwr (Reg r) (Reg a))
  | FDbl r a => go (pm_double (Reg r) (Reg a))
  | FHalve r a => st (pm_halve fuel (Reg r) (Reg a) s)
  | FInv r a => st (pm_invert fuel (Reg r) (Reg a) s)
  | FMulZ r a z => go (pm_mul_z (Reg r) (Reg a) z)
  | FIs0 a => Ok (s, [inl (forallb (fun x => feqb x f0) (pm_value s a))])
  | FIs1 a => Ok (s, [inl (match pm_value s a with x :: l => feqb x f1 && forallb (fun x => feqb x f0) l | [] => true end)])
  | FCmp a b => Ok (s, [inl (existsb (fun i => negb (feqb (s (Reg a, i)) (s (Reg b, i)))) (seq 0 n))])
  | FValue a => Ok (s, [inr (pm_value s a)])
  end.
Fixpoint pm_run (fuel : nat) (s : store K) (h : list fcall) : res (list (bool + list K)) :=
  match h with
  | [] => Ok []
  | c :: h' => r <- pm_step fuel s c ;; os <- pm_run fuel (fst r) h' ;; Ok (snd r ++ os)
  end.
End P.
