(** arith/fieldquadratic.c: quadratic extensions.  Objects have two slots,
    x (0) and y (1).  Base-field temporaries e0, e1, e2 are Tmp 0, 1, 2;
    temporaries of the extension field are Tmp 8. *)
From Coq Require Import ZArith List Bool.
From Verif.Base Require Import Outcome Algebra Slots.
From Verif.Spec Require Import FieldCalls.    (* only for the call syntax *)
Import ListNotations.

Section Q.
Variable K : fld.
Notation x o := ((o, 0) : loc).
Notation y o := ((o, 1) : loc).
Definition e0 : loc := (Tmp 0, 0).
Definition e1 : loc := (Tmp 1, 0).
Definition e2 : loc := (Tmp 2, 0).
Notation prog := (list (instr K)).

(** fieldquadratic.c:52-62 (set_si, set_mpz) *)
Definition fq_set_z (e : obj) (n : Z) : prog := [IConst (x e) (fofz n); IConst (y e) f0].
(** :70-80 *)
Definition fq_set0 (e : obj) : prog := [IConst (x e) f0; IConst (y e) f0].
Definition fq_set1 (e : obj) : prog := [IConst (x e) f1; IConst (y e) f0].
(** :167-173 *)
Definition fq_add (n a b : obj) : prog := [IAdd (x n) (x a) (x b); IAdd (y n) (y a) (y b)].
(** :175-180 *)
Definition fq_double (n a : obj) : prog := [IDbl (x n) (x a); IDbl (y n) (y a)].
(** :182-188 *)
Definition fq_sub (n a b : obj) : prog := [ISub (x n) (x a) (x b); ISub (y n) (y a) (y b)].
(** :190-195 *)
Definition fq_set (n a : obj) : prog := [ISet (x n) (x a); ISet (y n) (y a)].
(** :197-233 *)
Definition fq_mul (nqr : K) (n a b : obj) : prog :=
  [IAdd e0 (x a) (y a); IAdd e1 (x b) (y b); IMul e2 e0 e1; IMul e0 (x a) (x b); IMul e1 (y a) (y b);
   IMulC (x n) e1 nqr; IAdd (x n) (x n) e0; ISub e2 e2 e0; ISub (y n) e2 e1].
(** :235-247 *)
Definition fq_mul_z (n a : obj) (z : Z) : prog := [IMulZ (x n) (x a) z; IMulZ (y n) (y a) z].
(** :249-269 *)
Definition fq_square (nqr : K) (n a : obj) : prog :=
  [ISqr e0 (x a); ISqr e1 (y a); IMulC e1 e1 nqr; IAdd e0 e0 e1; IMul e1 (x a) (y a); IDbl e1 e1;
   ISet (x n) e0; ISet (y n) e1].
(** :271-276 *)
Definition fq_neg (n a : obj) : prog := [INeg (x n) (x a); INeg (y n) (y a)].
(** :290-309 *)
Definition fq_invert (nqr : K) (n a : obj) : prog :=
  [ISqr e0 (x a); ISqr e1 (y a); IMulC e1 e1 nqr; ISub e0 e0 e1; IInv e0 e0;
   IMul (x n) (x a) e0; INeg e0 e0; IMul (y n) (y a) e0].
(** :425-457 *)
Definition fi_mul (n a b : obj) : prog :=
  [IAdd e0 (x a) (y a); IAdd e1 (x b) (y b); IMul e2 e0 e1; IMul e0 (x a) (x b); ISub e2 e2 e0;
   IMul e1 (y a) (y b); ISub (x n) e0 e1; ISub (y n) e2 e1].
(** :459-477 *)
Definition fi_square (n a : obj) : prog :=
  [IAdd e0 (x a) (y a); ISub e1 (x a) (y a); IMul e0 e0 e1; IMul e1 (x a) (y a); IAdd e1 e1 e1;
   ISet (x n) e0; ISet (y n) e1].
(** :479-496 *)
Definition fi_invert (n a : obj) : prog :=
  [ISqr e0 (x a); ISqr e1 (y a); IAdd e0 e0 e1; IInv e0 e0; IMul (x n) (x a) e0; INeg e0 e0; IMul (y n) (y a) e0].

(** The two kinds of extension: field_init_quadratic (:592-642) with its
    non-residue, field_init_fi (:644-692). *)
Inductive qkind := KQuadratic (nqr : K) | KFi.
Definition q_mul (k : qkind) := match k with KQuadratic nqr => fq_mul nqr | KFi => fi_mul end.
Definition q_square (k : qkind) := match k with KQuadratic nqr => fq_square nqr | KFi => fi_square end.
Definition q_invert (k : qkind) := match k with KQuadratic nqr => fq_invert nqr | KFi => fi_invert end.

(** halve and div are not overridden: field.c:406-413 and :457-469. *)
Definition t8 : obj := Tmp 8.
Definition q_halve (k : qkind) (n a : obj) : prog := fq_set_z t8 2 ++ q_invert k t8 t8 ++ q_mul k n a t8.
Definition q_div (k : qkind) (c a b : obj) : prog :=
  if obj_eqb c a then q_invert k t8 b ++ q_mul k c t8 a else q_invert k c b ++ q_mul k c c a.

(** One public call.  is0 (:82-85), is1 (:87-90), cmp (:284-288); FValue reads
    x and y through element_item. *)
Definition q_value (s : store K) (n : nat) : K * K := (s (x (Reg n)), s (y (Reg n))).
Definition q_step (k : qkind) (s : store K) (c : fcall) : res (store K * list (bool + K * K)) :=
  let go p := s <- run p s ;; Ok (s, []) in
  match c with
  | FSet n a => go (fq_set (Reg n) (Reg a))
  | FSet0 n => go (fq_set0 (Reg n))
  | FSet1 n => go (fq_set1 (Reg n))
  | FSetZ n z => go (fq_set_z (Reg n) z)
  | FAdd n a b => go (fq_add (Reg n) (Reg a) (Reg b))
  | FSub n a b => go (fq_sub (Reg n) (Reg a) (Reg b))
  | FMul n a b => go (q_mul k (Reg n) (Reg a) (Reg b))
  | FDiv n a b => go (q_div k (Reg n) (Reg a) (Reg b))
  | FNeg n a => go (fq_neg (Reg n) (Reg a))
  | FSqr n a => go (q_square k (Reg n) (Reg a))
  | FDbl n a => go (fq_double (Reg n) (Reg a))
  | FHalve n a => go (q_halve k (Reg n) (Reg a))
  | FInv n a => go (q_invert k (Reg n) (Reg a))
  | FMulZ n a z => go (fq_mul_z (Reg n) (Reg a) z)
  | FIs0 a => let v := q_value s a in Ok (s, [inl (feqb (fst v) f0 && feqb (snd v) f0)])
  | FIs1 a => let v := q_value s a in Ok (s, [inl (feqb (fst v) f1 && feqb (snd v) f0)])
  | FCmp a b => let v := q_value s a in let w := q_value s b in
                Ok (s, [inl (negb (feqb (fst v) (fst w)) || negb (feqb (snd v) (snd w)))])
  | FValue a => Ok (s, [inr (q_value s a)])
  end.
Fixpoint q_run (k : qkind) (s : store K) (h : list fcall) : res (list (bool + K * K)) :=
  match h with
  | [] => Ok []
  | c :: h' => r <- q_step k s c ;; os <- q_run k (fst r) h' ;; Ok (snd r ++ os)
  end.

(** ** Squares *)
Section Roots.
Variables (is_sqr : K -> bool) (sqrt : K -> res K).   (* of the base field *)
(** :339-355 and :498-525 *)
Definition q_is_sqr (k : qkind) (e : K * K) : bool :=
  match k with
  | KQuadratic nqr => is_sqr (fsub (fmul (fst e) (fst e)) (fmul (fmul (snd e) (snd e)) nqr))
  | KFi => is_sqr (fadd (fmul (fst e) (fst e)) (fmul (snd e) (snd e)))
  end.
(** :357-393 and :527-560; the outputs are written after the last reading of
    the inputs, except r->y, written from p->y *)
Definition q_sqrt (k : qkind) (e : K * K) : res (K * K) :=
  let e0 := fmul (fst e) (fst e) in
  let e1 := fmul (snd e) (snd e) in
  let e0 := match k with KQuadratic nqr => fsub e0 (fmul e1 nqr) | KFi => fadd e0 e1 end in
  e0 <- sqrt e0 ;;
  let e1 := fadd (fst e) e0 in
  e2 <- finvert (fofz 2) ;;
  let e1 := fmul e1 e2 in
  let e1 := if negb (is_sqr e1) then fsub e1 e0 else e1 in
  e0 <- sqrt e1 ;;
  let e1 := fadd e0 e0 in
  e1 <- finvert e1 ;;
  Ok (e0, fmul (snd e) e1).
End Roots.
End Q.
