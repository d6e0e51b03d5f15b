(** A computable test for irreducibility of x^m + x^t + 2 over GF(3).  Lists of
    coefficients, constant term first. *)
From Coq Require Import List Bool Arith.
From Verif.Spec Require Import Ternary.
Import ListNotations.
Open Scope nat_scope.

Definition tadd (a b : trit) : trit :=
  match a, b with T0, x => x | x, T0 => x | T1, T1 => T2 | T2, T2 => T1 | _, _ => T0 end.
Definition tneg (a : trit) : trit := match a with T0 => T0 | T1 => T2 | T2 => T1 end.
Fixpoint padd (f g : list trit) : list trit :=
  match f, g with [], _ => g | _, [] => f | a :: f', b :: g' => tadd a b :: padd f' g' end.
Definition pneg (f : list trit) : list trit := map tneg f.
(** f(x^3) = f(x)^3 *)
Fixpoint spread (f : list trit) : list trit := match f with [] => [] | a :: f' => a :: T0 :: T0 :: spread f' end.
Fixpoint shift (k : nat) (f : list trit) : list trit := match k with O => f | S k' => T0 :: shift k' f end.
(** Replace x^m by 1 - x^t until the length is at most m. *)
Fixpoint fold_down (fuel m t : nat) (f : list trit) : list trit :=
  match fuel with
  | O => f
  | S fuel' => match skipn m f with
               | [] => f
               | hi => fold_down fuel' m t (padd (firstn m f) (padd hi (shift t (pneg hi))))
               end
  end.
Definition cube (fuel m t : nat) (f : list trit) : list trit := fold_down fuel m t (spread f).
(** x^(3^k) for k = 0 .. n *)
Fixpoint powers (n fuel m t : nat) (f : list trit) : list (list trit) :=
  f :: match n with O => [] | S n' => powers n' fuel m t (cube fuel m t f) end.
Fixpoint all0 (f : list trit) : bool := match f with [] => true | T0 :: f' => all0 f' | _ => false end.
Definition X : list trit := [T0; T1].
Definition is_X (f : list trit) : bool := all0 (padd f (pneg X)).

(** Euclid's algorithm, leading coefficient first. *)
Fixpoint strip (f : list trit) : list trit := match f with T0 :: f' => strip f' | _ => f end.
(** a + c b x^k, the leading terms aligned *)
Fixpoint combine (c : trit) (a b : list trit) : list trit :=
  match b, a with
  | [], _ => a
  | _, [] => []
  | y :: b', x :: a' => tadd x (match c with T0 => T0 | T1 => y | T2 => tneg y end) :: combine c a' b'
  end.
(** Whether the only common factors are constants. *)
Fixpoint coprime (fuel : nat) (a b : list trit) : bool :=
  match fuel with
  | O => false
  | S fuel' =>
      match a, b with
      | _, [] => false
      | _, [_] => true
      | [], _ => false
      | x :: _, y :: _ =>
          if length a <? length b then coprime fuel' b a
          else coprime fuel' (strip (combine (match x, y with T1, T1 | T2, T2 => T2 | _, _ => T1 end) a b)) b
      end
  end.
Definition tri (m t : nat) : list trit := padd (T2 :: shift (m - 1) [T1]) (shift t [T1]).
Definition rabin_check (m t fuel : nat) (es : list nat) : bool :=
  let ps := powers m fuel m t X in
  is_X (nth m ps []) &&
  forallb (fun e => (e <=? m) && coprime (4 * m) (rev (tri m t)) (strip (rev (padd (nth e ps []) (pneg X))))) es &&
  forallb (fun d => negb (m mod d =? 0) || existsb (fun e => e mod d =? 0) es) (seq 1 (m - 1)).
