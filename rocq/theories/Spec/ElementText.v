(** Elements as text. *)
From Coq Require Import ZArith List Bool.
From Verif.Base Require Import Outcome.
From Verif.Spec Require Import Numerals Printf.
Import ListNotations.
Open Scope Z_scope.

(** "[t1, t2, ..., tk]" *)
Fixpoint commas (ts : list (list Z)) : list Z :=
  match ts with [] => [] | [t] => t | t :: ts' => t ++ [44; 32] ++ commas ts' end.
Definition bracket (ts : list (list Z)) : list Z := [91] ++ commas ts ++ [93].

(** Called on the position [off] of a buffer with [left] bytes from there on,
    the printer behaves as snprintf with the text [t]: it stores at most
    left - 1 characters of t and a terminator, changes nothing else, and
    returns the length of t. *)
Definition prints_as (pr : list Z -> nat -> nat -> res (list Z * nat)) (t : list Z) : Prop :=
  forall buf off left, (left <> 0 -> off + left <= length buf)%nat ->
  pr buf off left = Ok (firstn off buf ++ truncated (skipn off buf) left t, length t).

(** The text [t], after any white space and before any character that is
    neither white nor a digit, is read as [x], and read entirely. *)
Definition reads_as {A} (rd : list Z -> Z -> res (A * nat)) (base : Z) (t : list Z) (x : A) : Prop :=
  forall ws c rest, Forall white ws -> stops base c ->
  rd (ws ++ t ++ c :: rest) base = Ok (x, (length ws + length t)%nat).

(** On any terminated string, the reader stops before the terminator. *)
Definition reads_safely {A} (rd : list Z -> Z -> res (A * nat)) : Prop :=
  forall s base, In 0 s -> exists x k, rd s base = Ok (x, k) /\ (k <= length s)%nat /\ ~ In 0 (firstn k s).

(** Towers of extensions over F_p: their elements and the text of an element. *)
Inductive tower := TFp | TQuad (t : tower) | TPoly (n : nat) (t : tower).
Fixpoint carrier (t : tower) : Type :=
  match t with TFp => Z | TQuad t' => (carrier t' * carrier t')%type | TPoly _ t' => list (carrier t') end.
Fixpoint is_elem (p : Z) (t : tower) : carrier t -> Prop :=
  match t with
  | TFp => fun x => 0 <= x < p
  | TQuad t' => fun e => is_elem p t' (fst e) /\ is_elem p t' (snd e)
  | TPoly n t' => fun l => length l = n /\ Forall (is_elem p t') l
  end.
(** [num] writes a residue as a numeral. *)
Fixpoint elem_text (num : Z -> list Z) (t : tower) : carrier t -> list Z :=
  match t with
  | TFp => fun x => num x
  | TQuad t' => fun e => bracket [elem_text num t' (fst e); elem_text num t' (snd e)]
  | TPoly n t' => fun l => bracket (map (elem_text num t') l)
  end.

(** Writing [x] to a stream writes [t] and returns its length. *)
Definition counts {A} (out : Z -> A -> list Z * Z) (base : Z) (x : A) (t : list Z) : Prop :=
  out base x = (t, Z.of_nat (length t)) /\ t <> [].

(** Number of coordinates in F_p, the coordinates, and zero. *)
Fixpoint tower_degree (t : tower) : nat :=
  match t with TFp => 1 | TQuad t' => 2 * tower_degree t' | TPoly n t' => n * tower_degree t' end.
Fixpoint coords (t : tower) : carrier t -> list Z :=
  match t with
  | TFp => fun x => [x]
  | TQuad t' => fun e => coords t' (fst e) ++ coords t' (snd e)
  | TPoly n t' => fun l => concat (map (coords t') l)
  end.
Definition is_zero (t : tower) (e : carrier t) : Prop := Forall (fun z => z = 0) (coords t e).
