(** The ring K[X]/(X^2 - d): pairs x + y sqrt(d). *)
From Coq Require Import ZArith.
From Verif.Base Require Import Algebra.

Section Q.
Variables (K : fld) (d : K).
Definition qnorm (a : K * K) : K := fsub (fmul (fst a) (fst a)) (fmul d (fmul (snd a) (snd a))).
Definition qmul (a b : K * K) : K * K :=
  (fadd (fmul (fst a) (fst b)) (fmul d (fmul (snd a) (snd b))),
   fadd (fmul (fst a) (snd b)) (fmul (snd a) (fst b))).
Definition qinv (a : K * K) : K * K := (fdiv (fst a) (qnorm a), fopp (fdiv (snd a) (qnorm a))).
Definition Quad : fld := {|
  fcar := (K * K)%type; f0 := (f0, f0); f1 := (f1, f0);
  fadd := fun a b => (fadd (fst a) (fst b), fadd (snd a) (snd b));
  fsub := fun a b => (fsub (fst a) (fst b), fsub (snd a) (snd b));
  fmul := qmul;
  fopp := fun a => (fopp (fst a), fopp (snd a));
  fdiv := fun a b => qmul a (qinv b);
  finv := qinv;
  feqb := fun a b => andb (feqb (fst a) (fst b)) (feqb (snd a) (snd b)) |}.
End Q.
