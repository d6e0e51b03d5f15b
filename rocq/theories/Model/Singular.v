(** ecc/singular.c: the cubic with a node, Y^2 = X^3 + X^2.

    Points are laid out as in ecc/curve.c (struct at singular.c:15-19), and
    sn_set (:118-127) and sn_invert (:189-200) are the same code as curve_set
    and curve_invert there.  Temporaries lambda, e0, e1 are Tmp 0..2.
    Not modelled: sn_out_str, and the pairing (:320-end), which the source
    itself calls useless. *)
From Coq Require Import ZArith List Bool.
From Verif.Base Require Import Outcome Algebra Slots.
From Verif.Spec Require Import Curve.     (* only for the type of points *)
From Verif.Model Require Import GenericPow Curve.
Import ListNotations.
Open Scope nat_scope.

Section S.
Variable K : fld.
Notation x o := ((o, 0) : loc).
Notation y o := ((o, 1) : loc).
Notation prog := (list (instr K)).
Notation point := (point K).

(** :67-103 sn_double_no_check *)
Definition sn_double_prog (r p : obj) : prog :=
  [IMulZ lambda (x p) 3; IConst e0 (fofz 2); IAdd lambda lambda e0; IMul lambda lambda (x p);
   IAdd e0 (y p) (y p); IInv e0 e0; IMul lambda lambda e0;
   IAdd e1 (x p) (x p); ISqr e0 lambda; ISub e0 e0 e1; IConst e1 (fofz 1); ISub e0 e0 e1;
   ISub e1 (x p) e0; IMul e1 e1 lambda; ISub e1 e1 (y p);
   ISet (x r) e0; ISet (y r) e1].
Definition sn_double_no_check (r p : obj) (st : cst K) : res (cst K) :=
  st <- crun K (sn_double_prog r p) st ;; Ok (set_inf r false st).
(** :105-116 sn_double *)
Definition sn_double (c p : obj) (st : cst K) : res (cst K) :=
  if inf st p then Ok (set_inf c true st)
  else if feqb (sl st (y p)) f0 then Ok (set_inf c true st)
  else sn_double_no_check c p st.
(** :129-187 sn_add *)
Definition sn_chord_prog (r p q : obj) : prog :=
  [ISub e0 (x q) (x p); IInv e0 e0; ISub lambda (y q) (y p); IMul lambda lambda e0;
   ISqr e0 lambda; ISub e0 e0 (x p); ISub e0 e0 (x q); IConst e1 f1; ISub e0 e0 e1;
   ISub e1 (x p) e0; IMul e1 e1 lambda; ISub e1 e1 (y p);
   ISet (x r) e0; ISet (y r) e1].
Definition sn_add (c p q : obj) (st : cst K) : res (cst K) :=
  if inf st p then curve_set K c q st
  else if inf st q then curve_set K c p st
  else if feqb (sl st (x p)) (sl st (x q)) then
    if feqb (sl st (y p)) (sl st (y q)) then
      if feqb (sl st (y p)) f0 then Ok (set_inf c true st)
      else sn_double_no_check c p st
    else Ok (set_inf c true st)
  else st <- crun K (sn_chord_prog c p q) st ;; Ok (set_inf c false st).

(** mul_mpz = generic_pow_mpz (:300, field.c:606), run on values as for curves. *)
Definition sn_mul_value (P Q : point) : res point :=
  st <- sn_add (Reg 2) (Reg 0) (Reg 1) (load K P Q) ;; Ok (cval st (Reg 2)).
Definition sn_monoid : monoid :=
  {| mcar := res point; mone := Ok None; mmul := fun u v => P <- u ;; Q <- v ;; sn_mul_value P Q |}.
Definition sn_mul_mpz (c p : obj) (n : Z) (st : cst K) : res (cst K) :=
  P <- join (generic_pow_mpz sn_monoid (Ok (cval st p)) n) ;; store_value K c P st.

(** :49-65 sn_random.  [xs] are the successive random elements, [t] the
    current value of the temporary (zero after element_init); [is_sqr] and
    [sqrt] are those of the base field.  The [continue] for x = 0 jumps to the
    loop condition. *)
Section Random.
Variables (is_sqr : K -> bool) (sqrt : K -> res K).
Fixpoint sn_random_loop (xs : list K) (t : K) : res point :=
  match xs with
  | [] => OutOfFuel
  | X :: xs' =>
    let t := if feqb X f0 then t else fmul (fadd (fmul X X) X) X in
    if is_sqr t then Y <- sqrt t ;; Ok (Some (X, Y)) else sn_random_loop xs' t
  end.
Definition sn_random (xs : list K) : res point := sn_random_loop xs f0.
End Random.

(** One public call. *)
Inductive scall :=
| SSet (d p : nat) | SSet0 (d : nat) | SAdd (d p q : nat) | SNeg (d p : nat) | SDbl (d p : nat)
| SMulZ (d p : nat) (n : Z) | SIs0 (p : nat) | SValue (p : nat).
Definition s_step (st : cst K) (c : scall) : res (cst K * list (bool + point)) :=
  let go m := st <- m ;; Ok (st, []) in
  match c with
  | SSet d p => go (curve_set K (Reg d) (Reg p) st)
  | SSet0 d => go (Ok (set_inf (Reg d) true st))
  | SAdd d p q => go (sn_add (Reg d) (Reg p) (Reg q) st)
  | SNeg d p => go (curve_invert K (Reg d) (Reg p) st)
  | SDbl d p => go (sn_double (Reg d) (Reg p) st)
  | SMulZ d p n => go (sn_mul_mpz (Reg d) (Reg p) n st)
  | SIs0 p => Ok (st, [inl (inf st (Reg p))])
  | SValue p => Ok (st, [inr (cval st (Reg p))])
  end.
Fixpoint s_run (st : cst K) (h : list scall) : res (list (bool + point)) :=
  match h with
  | [] => Ok []
  | c :: h' => r <- s_step st c ;; os <- s_run (fst r) h' ;; Ok (snd r ++ os)
  end.
End S.
