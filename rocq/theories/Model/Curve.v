(** ecc/curve.c: points of Y^2 = X^3 + aX + b.  A point object has the slots
    x (0) and y (1) and an inf_flag (struct at curve.c:37-40).  Base-field
    temporaries lambda, e0, e1, e2 are Tmp 0..3; a temporary point is Tmp 8;
    the tables of the batch functions are Tmp 16, 17, ... *)
From Coq Require Import ZArith List Bool.
From Verif.Base Require Import Outcome Array Algebra Slots.
From Verif.Spec Require Import Curve.     (* only for the type of points *)
From Verif.Model Require Import GenericPow.
Import ListNotations.
Open Scope nat_scope.

Section C.
Variable K : fld.
Variables a b : K.
Notation x o := ((o, 0) : loc).
Notation y o := ((o, 1) : loc).
Notation prog := (list (instr K)).
Notation point := (point K).
Definition lambda : loc := (Tmp 0, 0).
Definition e0 : loc := (Tmp 1, 0).
Definition e1 : loc := (Tmp 2, 0).
Definition e2 : loc := (Tmp 3, 0).

Record cst := mk_cst { sl : store K; inf : obj -> bool }.
Definition set_inf (o : obj) (f : bool) (st : cst) : cst :=
  {| sl := sl st; inf := fun o' => if obj_eqb o' o then f else inf st o' |}.
Definition crun (p : prog) (st : cst) : res cst := s <- run p (sl st) ;; Ok {| sl := s; inf := inf st |}.
(** The point an object stands for (what element_item or the coordinate
    accessors show, :658-686). *)
Definition cval (st : cst) (o : obj) : point := if inf st o then None else Some (sl st (x o), sl st (y o)).

(** :57-77 *)
Definition curve_is_valid_point (st : cst) (o : obj) : bool :=
  if inf st o then true else
  let X := sl st (x o) in let Y := sl st (y o) in
  let t0 := fmul X X in let t0 := fadd t0 a in let t0 := fmul t0 X in let t0 := fadd t0 b in
  feqb t0 (fmul Y Y).
(** :79-89 *)
Definition curve_invert (c p : obj) (st : cst) : res cst :=
  if inf st p then Ok (set_inf c true st)
  else crun [ISet (x c) (x p); INeg (y c) (y p)] (set_inf c false st).
(** :91-100 *)
Definition curve_set (c p : obj) (st : cst) : res cst :=
  if inf st p then Ok (set_inf c true st)
  else crun [ISet (x c) (x p); ISet (y c) (y p)] (set_inf c false st).
(** :102-137.  The coefficient a is read through a slot of its own (e2). *)
Definition double_prog (r p : obj) : prog :=
  [ISqr lambda (x p); IMulZ lambda lambda 3; IConst e2 a; IAdd lambda lambda e2;
   IDbl e0 (y p); IInv e0 e0; IMul lambda lambda e0;
   IDbl e1 (x p); ISqr e0 lambda; ISub e0 e0 e1;
   ISub e1 (x p) e0; IMul e1 e1 lambda; ISub e1 e1 (y p);
   ISet (x r) e0; ISet (y r) e1].
Definition double_no_check (r p : obj) (st : cst) : res cst :=
  st <- crun (double_prog r p) st ;; Ok (set_inf r false st).
(** :139-151 *)
Definition curve_double (c p : obj) (st : cst) : res cst :=
  if inf st p then Ok (set_inf c true st)
  else if feqb (sl st (y p)) f0 then Ok (set_inf c true st)
  else double_no_check c p st.
(** :153-207 *)
Definition chord_prog (r p q : obj) : prog :=
  [ISub e0 (x q) (x p); IInv e0 e0; ISub lambda (y q) (y p); IMul lambda lambda e0;
   ISqr e0 lambda; ISub e0 e0 (x p); ISub e0 e0 (x q);
   ISub e1 (x p) e0; IMul e1 e1 lambda; ISub e1 e1 (y p);
   ISet (x r) e0; ISet (y r) e1].
Definition curve_mul (c p q : obj) (st : cst) : res cst :=
  if inf st p then curve_set c q st
  else if inf st q then curve_set c p st
  else if feqb (sl st (x p)) (sl st (x q)) then
    if feqb (sl st (y p)) (sl st (y q)) then
      if feqb (sl st (y p)) f0 then Ok (set_inf c true st)
      else double_no_check c p st
    else Ok (set_inf c true st)
  else st <- crun (chord_prog c p q) st ;; Ok (set_inf c false st).
(** :395-402 *)
Definition curve_set1 (c : obj) (st : cst) : res cst := Ok (set_inf c true st).
Definition curve_is1 (c : obj) (st : cst) : bool := inf st c.
(** sub and div are not overridden: field.c:445-469.  They are the same code
    here, since neg = invert and add = mul (:711-716). *)
Definition t8 : obj := Tmp 8.
Definition curve_div (c p q : obj) (st : cst) : res cst :=
  if obj_eqb c p then st <- curve_invert t8 q st ;; curve_mul c t8 p st
  else st <- curve_invert c q st ;; curve_mul c c p st.

(** ** Scalar multiplication: mul_mpz = pow_mpz = generic_pow_mpz (:719,
    field.c:606).  That function works on private elements and finally assigns
    the result, so it is run on values, each product being computed by
    curve_mul on fresh objects.  (Its squarings call curve_double, which gives
    the same as curve_mul on equal arguments.) *)
Definition load (P Q : point) : cst :=
  {| sl := fun l => match (match fst l with Reg 0 => P | _ => Q end) with
                    | None => f0 | Some (u, v) => if Nat.eqb (snd l) 0 then u else v end;
     inf := fun o => match (match o with Reg 0 => P | _ => Q end) with None => true | Some _ => false end |}.
Definition mul_value (P Q : point) : res point :=
  st <- curve_mul (Reg 2) (Reg 0) (Reg 1) (load P Q) ;; Ok (cval st (Reg 2)).
Definition double_value (P : point) : res point :=
  st <- curve_double (Reg 2) (Reg 0) (load P P) ;; Ok (cval st (Reg 2)).
Definition point_monoid : monoid :=
  {| mcar := res point; mone := Ok None; mmul := fun u v => P <- u ;; Q <- v ;; mul_value P Q |}.
Definition join {A} (m : res (res A)) : res A := v <- m ;; v.
(** Assigning a value, as curve_set does. *)
Definition store_value (c : obj) (P : point) (st : cst) : res cst :=
  match P with
  | None => Ok (set_inf c true st)
  | Some (u, v) => crun [IConst (x c) u; IConst (y c) v] (set_inf c false st)
  end.
Definition curve_pow_mpz (c p : obj) (n : Z) (st : cst) : res cst :=
  P <- join (generic_pow_mpz point_monoid (Ok (cval st p)) n) ;; store_value c P st.
(** mul_si and halve are not overridden: field.c:394-413 with set_si reading
    every integer as the neutral element (field.c:420-435). *)
Definition curve_mul_si (c p : obj) (n : Z) (st : cst) : res cst :=
  st <- curve_set1 t8 st ;; curve_mul c p t8 st.
Definition curve_halve (c p : obj) (st : cst) : res cst :=
  st <- curve_set1 t8 st ;; st <- curve_invert t8 t8 st ;; curve_mul c p t8 st.

(** ** Comparison.  :368-373; true when different *)
Definition point_cmp (p q : obj) (st : cst) : bool :=
  if inf st p || inf st q then negb (inf st p && inf st q)
  else negb (feqb (sl st (x p)) (sl st (x q))) || negb (feqb (sl st (y p)) (sl st (y q))).
(** :375-393; the pointers are compared first *)
Definition curve_cmp (quotient : option Z) (p q : obj) (st : cst) : res bool :=
  if obj_eqb p q then Ok false
  else match quotient with
       | Some n =>
           st <- curve_div t8 p q st ;; st <- curve_pow_mpz t8 t8 n st ;; Ok (negb (curve_is1 t8 st))
       | None => Ok (point_cmp p q st)
       end.

(** One public call. *)
Inductive ccall :=
| CSet (d p : nat) | CSet0 (d : nat) | CAdd (d p q : nat) | CSub (d p q : nat) | CNeg (d p : nat) | CDbl (d p : nat)
| CMulZ (d p : nat) (n : Z) | CIs0 (p : nat) | CCmp (p q : nat) | CValue (p : nat).
Definition c_step (quotient : option Z) (st : cst) (c : ccall) : res (cst * list (bool + point)) :=
  let go m := st <- m ;; Ok (st, []) in
  match c with
  | CSet d p => go (curve_set (Reg d) (Reg p) st)
  | CSet0 d => go (curve_set1 (Reg d) st)
  | CAdd d p q => go (curve_mul (Reg d) (Reg p) (Reg q) st)
  | CSub d p q => go (curve_div (Reg d) (Reg p) (Reg q) st)
  | CNeg d p => go (curve_invert (Reg d) (Reg p) st)
  | CDbl d p => go (curve_double (Reg d) (Reg p) st)
  | CMulZ d p n => go (curve_pow_mpz (Reg d) (Reg p) n st)
  | CIs0 p => Ok (st, [inl (curve_is1 (Reg p) st)])
  | CCmp p q => r <- curve_cmp quotient (Reg p) (Reg q) st ;; Ok (st, [inl r])
  | CValue p => Ok (st, [inr (cval st (Reg p))])
  end.
Fixpoint c_run (quotient : option Z) (st : cst) (h : list ccall) : res (list (bool + point)) :=
  match h with
  | [] => Ok []
  | c :: h' => r <- c_step quotient st c ;; os <- c_run quotient (fst r) h' ;; Ok (snd r ++ os)
  end.

(** ** Batch operations (:209-365).  field.c:847-883 only copies the
    arrays; with an empty array a[0] and table[-1] are read. *)
Definition tbl (i : nat) : loc := (Tmp (16 + i), 0).
(** the element at index i; the default is never used *)
Notation at_ i l := (nth i l (Reg 0)).
Notation at2_ i l := (nth i l (Reg 0, Reg 0)).
(** :235-239 *)
Definition md_forward (l : list obj) (i : nat) : prog :=
  IDbl (tbl i) (y (at_ i l)) :: (if Nat.eqb i 0 then [] else [IMul (tbl i) (tbl i) (tbl (i - 1))]).
(** :241-246 *)
Definition md_backward (l : list obj) (i : nat) : prog :=
  [IMul (tbl i) (tbl (i - 1)) e2; IMul e2 e2 (y (at_ i l)); IDbl e2 e2].
(** :235-247, and :297-315: for i = 0..n-1; invert; for i = n-1..1 *)
Definition table_prog (forward backward : nat -> prog) (n : nat) : prog :=
  flat_map forward (seq 0 n) ++ [IInv e2 (tbl (n - 1))] ++ flat_map backward (rev (seq 1 (n - 1))) ++ [ISet (tbl 0) e2].
Definition md_table (l : list obj) : prog := table_prog (md_forward l) (md_backward l) (length l).
(** :221-233 *)
Fixpoint md_flags (l : list (obj * obj)) (st : cst) : cst :=
  match l with
  | [] => st
  | (c, p) :: l' =>
      md_flags l' (if inf st p then set_inf c true st else if feqb (sl st (y p)) f0 then set_inf c true st else st)
  end.
(** :249-271 *)
Fixpoint md_finish (i : nat) (l : list (obj * obj)) (st : cst) : res cst :=
  match l with
  | [] => Ok st
  | (r, q) :: l' =>
      st <- (if inf st r then Ok st else
             st <- crun [ISqr e2 (x q); IMulZ e2 e2 3; IConst lambda a; IAdd e2 e2 lambda; IMul e2 e2 (tbl i);
                         IDbl e1 (x q); ISqr e0 e2; ISub e0 e0 e1;
                         ISub e1 (x q) e0; IMul e1 e1 e2; ISub e1 e1 (y q);
                         ISet (x r) e0; ISet (y r) e1] st ;;
             Ok (set_inf r false st)) ;;
      md_finish (S i) l' st
  end.
(** :209-280 *)
Definition multi_double (l : list (obj * obj)) (st : cst) : res cst :=
  match l with
  | [] => UB
  | _ => let st := md_flags l st in st <- crun (md_table (map snd l)) st ;; md_finish 0 l st
  end.

(** :297-306 *)
Definition ma_forward (l : list (obj * obj)) (i : nat) : prog :=
  ISub (tbl i) (x (snd (at2_ i l))) (x (fst (at2_ i l))) :: (if Nat.eqb i 0 then [] else [IMul (tbl i) (tbl i) (tbl (i - 1))]).
(** :308-314 *)
Definition ma_backward (l : list (obj * obj)) (i : nat) : prog :=
  [IMul (tbl i) (tbl (i - 1)) e2; ISub e1 (x (snd (at2_ i l))) (x (fst (at2_ i l))); IMul e2 e2 e1].
Definition ma_table (l : list (obj * obj)) : prog := table_prog (ma_forward l) (ma_backward l) (length l).
(** :317-357 *)
Fixpoint ma_finish (i : nat) (l : list (obj * (obj * obj))) (st : cst) : res cst :=
  match l with
  | [] => Ok st
  | (c, (p, q)) :: l' =>
      st <- (if inf st p then curve_set c q st
             else if inf st q then curve_set c p st
             else if feqb (sl st (x p)) (sl st (x q)) then
               if feqb (sl st (y p)) (sl st (y q)) then
                 if feqb (sl st (y p)) f0 then Ok (set_inf c true st) else double_no_check c p st
               else Ok (set_inf c true st)
             else
               st <- crun [ISub e2 (y q) (y p); IMul e2 e2 (tbl i); ISqr e0 e2; ISub e0 e0 (x p); ISub e0 e0 (x q);
                           ISub e1 (x p) e0; IMul e1 e1 e2; ISub e1 e1 (y p); ISet (x c) e0; ISet (y c) e1] st ;;
               Ok (set_inf c false st)) ;;
      ma_finish (S i) l' st
  end.
(** :283-365 *)
Definition multi_add (l : list (obj * (obj * obj))) (st : cst) : res cst :=
  match l with
  | [] => UB
  | _ => st <- crun (ma_table (map snd l)) st ;; ma_finish 0 l st
  end.
End C.
Arguments sl {K}. Arguments inf {K}. Arguments mk_cst {K}. Arguments cval {K}. Arguments set_inf {K}.
