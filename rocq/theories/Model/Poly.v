(** arith/poly.c:1-560, :1340-1475: polynomial rings.  A polynomial is its darray of
    coefficients; variables are numbered, so that in-place calls read and
    write the same array.  Coefficient arithmetic is that of the field K. *)
From Coq Require Import ZArith List Bool Arith.
From Verif.Base Require Import Outcome Array Algebra Slots.
From Verif.Spec Require Import PolynomialCalls.   (* only for the call syntax *)
Import ListNotations.
Open Scope nat_scope.

(** for (i = from; i < from + k; i++) *)
Fixpoint for_up {A} (k from : nat) (body : nat -> A -> res A) (a : A) : res A :=
  match k with O => Ok a | S k' => a <- body from a ;; for_up k' (S from) body a end.

Section P.
Variable K : fld.
Notation poly := (list K).
Definition pst := nat -> poly.
Definition pset (st : pst) (d : nat) (f : poly) : pst := fun v => if Nat.eqb v d then f else st v.
(** element_xxx (poly_coeff (d, i), ...) with result v *)
Definition cell_set (d i : nat) (v : K) (st : pst) : res pst := f <- put (st d) i v ;; Ok (pset st d f).

(** poly.c:47-65; element_init gives 0 *)
Definition poly_alloc (f : poly) (n : nat) : poly := firstn n f ++ repeat f0 (n - length f).
(** :84-95; n + 1 = i *)
Fixpoint remove_loop (i : nat) (f : poly) : res poly :=
  match i with
  | O => Ok f
  | S n => c <- get f n ;; if feqb c f0 then remove_loop n (firstn n f) else Ok f
  end.
Definition poly_remove_leading_zeroes (f : poly) : res poly := remove_loop (length f) f.
Definition strip (d : nat) (st : pst) : res pst := f <- poly_remove_leading_zeroes (st d) ;; Ok (pset st d f).
(** :97-108 *)
Definition poly_set0 (d : nat) (st : pst) : res pst := Ok (pset st d (poly_alloc (st d) 0)).
Definition poly_set1 (d : nat) (st : pst) : res pst := cell_set d 0 f1 (pset st d (poly_alloc (st d) 1)).
(** :110-121 *)
Definition poly_is0 (f : poly) : bool := Nat.eqb (length f) 0.
Definition poly_is1 (f : poly) : bool := match f with [c] => feqb c f1 | _ => false end.
(** :123-140 *)
Definition poly_set_z (d : nat) (n : Z) (st : pst) : res pst :=
  st <- cell_set d 0 (fofz n) (pset st d (poly_alloc (st d) 1)) ;; strip d st.
(** one pass d[i] = op (a[i]): :159-168 (set), :259-270 (neg), :272-283
    (double), :285-296 (mul_mpz), :298-309 (mul_si) *)
Definition poly_map (op : K -> K) (d a : nat) (st : pst) : res pst :=
  let n := length (st a) in
  for_up n 0 (fun i st => c <- get (st a) i ;; cell_set d i (op c) st) (pset st d (poly_alloc (st d) n)).
Definition poly_set := poly_map (fun c => c).
Definition poly_neg := poly_map fopp.
Definition poly_double := poly_map (fun c => fadd c c).
Definition poly_mul_z (d a : nat) (n : Z) := poly_map (fun c => fmulz c n) d a.
(** :191-227 *)
Definition poly_add (s f g : nat) (st : pst) : res pst :=
  let nf := length (st f) in let ng := length (st g) in
  let '(n, n1, big) := if ng <? nf then (ng, nf, f) else (nf, ng, g) in
  let st := pset st s (poly_alloc (st s) n1) in
  st <- for_up n 0 (fun i st => a <- get (st f) i ;; b <- get (st g) i ;; cell_set s i (fadd a b) st) st ;;
  st <- for_up (n1 - n) n (fun i st => a <- get (st big) i ;; cell_set s i a st) st ;;
  strip s st.
(** :229-257 *)
Definition poly_sub (s f g : nat) (st : pst) : res pst :=
  let nf := length (st f) in let ng := length (st g) in
  let '(n, n1, big) := if ng <? nf then (ng, nf, f) else (nf, ng, g) in
  let st := pset st s (poly_alloc (st s) n1) in
  st <- for_up n 0 (fun i st => a <- get (st f) i ;; b <- get (st g) i ;; cell_set s i (fsub a b) st) st ;;
  st <- for_up (n1 - n) n (fun i st => a <- get (st big) i ;; cell_set s i (if Nat.eqb big f then a else fopp a) st) st ;;
  strip s st.
(** :311-344; the product is built in a temporary and then copied *)
Definition mul_coeff (f g : poly) (i : nat) : res K :=
  for_up (S i) 0 (fun j x => if (j <? length f) && (i - j <? length g)
                             then a <- get f j ;; b <- get g (i - j) ;; Ok (fadd x (fmul a b)) else Ok x) f0.
Definition mul_value (f g : poly) : res poly :=
  if (length f =? 0) || (length g =? 0) then Ok []
  else
    let n := length f + length g - 1 in
    p <- for_up n 0 (fun i p => x <- mul_coeff f g i ;; put p i x) (poly_alloc [] n) ;;
    poly_remove_leading_zeroes p.
Definition poly_mul (r f g : nat) (st : pst) : res pst := p <- mul_value (st f) (st g) ;; Ok (pset st r p).

(** :438-448: k from i-1 down to 0; m = n + k *)
Fixpoint div_loop (b : poly) (binv : K) (n i : nat) (q r : poly) : res (poly * poly) :=
  match i with
  | O => Ok (q, r)
  | S k =>
      c <- get r (n + k) ;;
      let qe := fmul binv c in
      q <- put q k qe ;;
      r <- for_up (S n) 0 (fun i r => x <- get b i ;; y <- get r (i + k) ;; put r (i + k) (fsub y (fmul qe x))) r ;;
      div_loop b binv n k q r
  end.
(** :406-454, quotient and remainder; None: degree of b larger (:419-423) *)
Definition div_value (a b : poly) : res (option (poly * poly)) :=
  if poly_is0 b then Die
  else if length a <? length b then Ok None
  else
    let n := length b - 1 in
    let k := length a - length b in
    c <- get b n ;;
    binv <- finvert c ;;
    '(q, r) <- div_loop b binv n (S k) (poly_alloc [] (S k)) a ;;
    r <- poly_remove_leading_zeroes r ;;
    Ok (Some (q, r)).
Definition poly_div (quot rem a b : nat) (st : pst) : res pst :=
  d <- div_value (st a) (st b) ;;
  match d with
  | None => st <- poly_set rem a st ;; poly_set0 quot st
  | Some (q, r) => Ok (pset (pset st quot q) rem r)
  end.
(** poly_div on private variables *)
Definition divmod (a b : poly) : res (poly * poly) :=
  d <- div_value a b ;; Ok (match d with None => ([], a) | Some qr => qr end).

(** :1340-1362 *)
Fixpoint gcd_loop (fuel : nat) (a b : poly) : res poly :=
  match fuel with
  | O => OutOfFuel
  | S n => '(q, r) <- divmod a b ;; if poly_is0 r then Ok b else gcd_loop n b r
  end.
Definition poly_gcd (fuel d f g : nat) (st : pst) : res pst := p <- gcd_loop fuel (st f) (st g) ;; Ok (pset st d p).

(** :1365-1379 *)
Definition poly_make_monic (f g : nat) (st : pst) : res pst :=
  let n := length (st g) in
  let st := pset st f (poly_alloc (st f) n) in
  if n =? 0 then Ok st
  else
    c <- get (st g) (n - 1) ;;
    e0 <- finvert c ;;
    st <- cell_set f (n - 1) e0 st ;;
    st <- for_up (n - 1) 0 (fun i st => c <- get (st g) i ;; e <- get (st f) (n - 1) ;; cell_set f i (fmul c e) st) st ;;
    cell_set f (n - 1) f1 st.
(** :1425-1433 *)
Definition poly_set_coeff (e : nat) (a : K) (n : nat) (st : pst) : res pst :=
  let st := if length (st e) <? n + 1 then pset st e (poly_alloc (st e) (n + 1)) else st in
  st <- cell_set e n a st ;;
  if (length (st e) =? n + 1) && feqb a f0 then strip e st else Ok st.
(** :1435-1441 *)
Definition poly_set_coeff0 (e n : nat) (st : pst) : res pst :=
  if n <? length (st e) then
    st <- cell_set e n f0 st ;; if n =? length (st e) - 1 then strip e st else Ok st
  else Ok st.
(** :1443-1449 *)
Definition poly_set_coeff1 (e n : nat) (st : pst) : res pst :=
  cell_set e n f1 (if length (st e) <? n + 1 then pset st e (poly_alloc (st e) (n + 1)) else st).
(** :1451-1455 *)
Definition poly_setx (f : nat) (st : pst) : res pst :=
  st <- cell_set f 1 f1 (pset st f (poly_alloc (st f) 2)) ;; cell_set f 0 f0 st.
(** :1457-1464; the scalar is not one of the coefficients of the result *)
Definition poly_const_mul (r : nat) (c : K) (p : nat) (st : pst) : res pst := st <- poly_map (fmul c) r p st ;; strip r st.

(** :456-494; b0, b1, r0, r1 are private *)
Definition private (f g : poly) : pst := fun v => if Nat.eqb v 0 then f else g.
Definition sub_value (f g : poly) : res poly := st <- poly_sub 1 0 1 (private f g) ;; Ok (st 1).
Fixpoint invert_loop (fuel : nat) (b0 b1 r0 r1 : poly) : res (poly * poly) :=
  match fuel with
  | O => OutOfFuel
  | S n =>
      '(q, r2) <- divmod r0 r1 ;;
      if poly_is0 r2 then Ok (b1, r1)
      else b2 <- mul_value b1 q ;; b2 <- sub_value b0 b2 ;; invert_loop n b1 b2 r1 r2
  end.
Definition poly_invert (fuel : nat) (f m : poly) : res poly :=
  '(b1, r1) <- invert_loop fuel [] [f1] m f ;;
  c <- get r1 0 ;;
  inv <- finvert c ;;
  st <- poly_const_mul 0 inv 1 (private [] b1) ;; Ok (st 0).

(** :535-545; true when different *)
Definition poly_cmp (f g : poly) : bool :=
  negb (length f =? length g) || negb (forallb (fun p => feqb (fst p) (snd p)) (combine f g)).
(** pbc_poly.h: poly_degree *)
Definition poly_degree (f : poly) : Z := Z.of_nat (length f) - 1.

(** One call.  square is not overridden: mul on equal arguments. *)
Definition p_step (fuel : nat) (st : pst) (c : pcall K) : res (pst * list (pobs K)) :=
  let go m := st <- m ;; Ok (st, []) in
  match c with
  | PSet d a => go (poly_set d a st)
  | PSet0 d => go (poly_set0 d st)
  | PSet1 d => go (poly_set1 d st)
  | PSetZ d n => go (poly_set_z d n st)
  | PSetX d => go (poly_setx d st)
  | PAdd d a b => go (poly_add d a b st)
  | PSub d a b => go (poly_sub d a b st)
  | PMul d a b => go (poly_mul d a b st)
  | PNeg d a => go (poly_neg d a st)
  | PSqr d a => go (poly_mul d a a st)
  | PDbl d a => go (poly_double d a st)
  | PMulZ d a n => go (poly_mul_z d a n st)
  | PConstMul d c a => go (poly_const_mul d c a st)
  | PMonic d a => go (poly_make_monic d a st)
  | PDiv q r a b => go (poly_div q r a b st)
  | PGcd d a b => go (poly_gcd fuel d a b st)
  | PSetCoeff d c n => go (poly_set_coeff d c n st)
  | PSetCoeff0 d n => go (poly_set_coeff0 d n st)
  | PSetCoeff1 d n => go (poly_set_coeff1 d n st)
  | PIs0 a => Ok (st, [OBool (poly_is0 (st a))])
  | PIs1 a => Ok (st, [OBool (poly_is1 (st a))])
  | PCmp a b => Ok (st, [OBool (poly_cmp (st a) (st b))])
  | PDegree a => Ok (st, [ODegree (poly_degree (st a))])
  | PItem a i => c <- get (st a) i ;; Ok (st, [OCoeff c])
  end.
Fixpoint p_run (fuel : nat) (st : pst) (h : list (pcall K)) : res (pst * list (pobs K)) :=
  match h with
  | [] => Ok (st, [])
  | c :: h' => r <- p_step fuel st c ;; r' <- p_run fuel (fst r) h' ;; Ok (fst r', snd r ++ snd r')
  end.

(** ** Encoding (:547-575); [enc] and [dec] are those of K, of length blen. *)
Section B.
Variables (blen : nat) (enc : K -> list Z) (dec : list Z -> K).
Definition poly_to_bytes (f : poly) : list Z :=
  let n := Z.of_nat (length f) in (n mod 256)%Z :: ((n / 256) mod 256)%Z :: flat_map enc f.
(** the polynomial and the number of bytes read *)
Definition poly_from_bytes (data : list Z) : res (poly * nat) :=
  b0 <- get data 0 ;; b1 <- get data 1 ;;
  let count := Z.to_nat (b0 + b1 * 256) in
  p <- for_up count 0 (fun i p => d <- slice data (2 + i * blen) blen ;; put p i (dec d)) (poly_alloc [] count) ;;
  Ok (p, 2 + count * blen).
End B.
End P.
