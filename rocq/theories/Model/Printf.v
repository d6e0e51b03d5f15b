(** misc/extend_printf.c.  Strings are lists of non-zero character codes
    (terminator not shown).  Formatting of one directive by GMP/libc is a
    parameter: an argument is what it prints for a given directive. *)
From Coq Require Import ZArith List Bool.
From Verif.Base Require Import Outcome Array.
Import ListNotations.
Open Scope Z_scope.

Definition percent : Z := 37.
(** the characters of "diouxXeEfFgGaAcspnmZ", extend_printf.c:79 *)
Definition conversions : list Z :=
  [100; 105; 111; 117; 120; 88; 101; 69; 102; 70; 103; 71; 97; 65; 99; 115; 112; 110; 109; 90].
Definition is_conversion (c : Z) : bool := existsb (Z.eqb c) conversions.

Inductive parg := PElement (text : list Z)                 (* printed by element_snprint *)
                | PPointer (print : list Z -> list Z).     (* printed by gmp_snprintf(directive, p) *)

(** do_print, extend_printf.c:23-101, as the list of strings handed to the
    callbacks.  [pending] is the text from [start] to the current position;
    [dir] = Some d while scanning a directive, d being the text from its '%'. *)
Fixpoint do_print (fmt : list Z) (pending : list Z) (dir : bool) (args : list parg) : res (list (list Z)) :=
  match fmt with
  | [] => if dir then Ok [] else Ok [pending]
  | c :: fmt' =>
    if dir then
      if c =? 66 (* B *) then
        match args with
        | PElement t :: args' => r <- do_print fmt' [] false args' ;; Ok (t :: r)
        | _ => UB
        end
      else if is_conversion c then
        if c =? 90 (* Z *) then
          match fmt' with
          | [] => UB                       (* writes beyond the copy of the format *)
          | c2 :: fmt'' =>
            match args with
            | PPointer f :: args' => r <- do_print fmt'' [] false args' ;; Ok (f (pending ++ [c; c2]) :: r)
            | _ => UB
            end
          end
        else
          match args with
          | PPointer f :: args' => r <- do_print fmt' [] false args' ;; Ok (f (pending ++ [c]) :: r)
          | _ => UB
          end
      else do_print fmt' (pending ++ [c]) true args
    else if c =? percent then
      match fmt' with
      | [] => Ok []
      | c2 :: fmt'' =>
        if c2 =? percent then do_print fmt'' (pending ++ [c; c2]) false args
        else r <- do_print fmt' [c] true args ;; Ok (pending :: r)
      end
    else do_print fmt' (pending ++ [c]) false args
  end.

(** snprintf (buf + off, left, "%s", text): nothing is written when left = 0,
    otherwise at most left-1 characters and a terminator. *)
Definition snprintf_at (buf : list Z) (off left : nat) (text : list Z) : res (list Z) :=
  match left with
  | O => Ok buf
  | S l => splice buf off (firstn l text ++ [0])
  end.

(** string_cbv/format_cbv/element_cbv with next(), extend_printf.c:140-167. *)
Fixpoint print_chunks (buf : list Z) (size left result : nat) (chunks : list (list Z)) : res (list Z * nat) :=
  match chunks with
  | [] => Ok (buf, result)
  | t :: rest =>
    buf <- snprintf_at buf result left t ;;
    let result := (result + length t)%nat in
    print_chunks buf size (if (size <=? result)%nat then 0%nat else (size - result)%nat) result rest
  end.

(** element_vsnprintf, extend_printf.c:169-179: buffer afterwards and return
    value. *)
Definition element_vsnprintf (buf : list Z) (size : nat) (fmt : list Z) (args : list parg) : res (list Z * nat) :=
  chunks <- do_print fmt [] false args ;;
  print_chunks buf size size 0 chunks.
