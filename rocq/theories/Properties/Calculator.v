(** C77: the pairing-based calculator computes with values. *)
From Coq Require Import ZArith List Bool String Lia.
From Verif.Base Require Import Outcome.
From Verif.Spec Require Import Calculator.
From Verif.Model Require Import Calculator.
From Verif.Proofs Require Import CalculatorFacts CalculatorUse CalculatorWitness.
Import ListNotations.
Open Scope Z_scope.

(** A program none of whose assignments is an operand, an argument or a member
    of a list behaves as if every value were immutable: same variables, same
    output, same crashes, whatever the library does.  (Partial: without the
    condition it is false, see the refutations below.) *)
Theorem calculator_value_semantics_partial :
  forall (L : lib) (n : nat) (prog : list (tree (elem L))),
  forallb clean prog = true ->
  agree (fun s w => (forall x, look L s x = env w x) /\ sout s = out w)
    (eval_program L n prog (boot L)) (program_meaning L n prog (start L)).
Proof. exact value_semantics. Qed.
Print Assumptions calculator_value_semantics_partial.

Example calculator_value_semantics_nonvacuous :
  forallb clean session = true /\
  shows session =
  Some [int_line 10; int_line 10; mod_line 7 1;
        Shown (VDef "g" ["t"] [Assign "x" (add_ (Id "t") (n_ 1))]);
        int_line 21; Shown (VErr "undefined variable z"); Shown (VErr "M is reserved");
        Word "element"; int_line 21; mod_line 7 1]%string.
Proof. exact (conj session_clean session_w). Qed.

(** Evaluating an expression changes no variable. *)
Theorem calculator_expression_keeps_variables :
  forall (L : lib) (n : nat) (prog : list (tree (elem L))) (s : state L)
         (m : nat) (t : tree (elem L)) (s' : state L),
  forallb clean prog = true ->
  eval_program L n prog (boot L) = Ok s ->
  computes (look L s) t = true ->
  eval_stmt L m t s = Ok s' ->
  forall x, look L s' x = look L s x.
Proof. exact expression_keeps. Qed.
Print Assumptions calculator_expression_keeps_variables.

Example calculator_expression_nonvacuous :
  may_run [Assign "x" (n_ 3)]%string mixed = true /\
  shows [Assign "x" (n_ 3); mixed]%string = Some [mod_line 7 5].
Proof. exact mixed_w. Qed.

(** An integer expression with +, -, *, comparisons and ?: shows the integer it
    stands for; if a variable it needs has no integer value, it shows something
    that is not an element.  Either way it shows exactly one line, does not crash
    and changes no variable. *)
Theorem calculator_integer_expressions :
  forall (L : lib) (num : Z -> elem L), integers L num ->
  forall (rho : string -> option Z) (n : nat) (prog : list (tree (elem L))) (s : state L)
         (e : iexp) (m : nat),
  forallb clean prog = true ->
  eval_program L n prog (boot L) = Ok s ->
  (height e <= m)%nat ->
  (forall x, match rho x with
             | Some z => lookup L x (W (look L s) 0 []) = Some (VElem (num z))
             | None => forall v, lookup L x (W (look L s) 0 []) <> Some (VElem v)
             end) ->
  exists s' v, eval_stmt L m (itree num e) s = Ok s' /\
    sout s' = Shown v :: sout s /\ (forall x, look L s' x = look L s x) /\
    match ivalue rho e with
    | Some z => v = VElem (num z)
    | None => type_of v <> TElem
    end.
Proof. exact int_stmt. Qed.
Print Assumptions calculator_integer_expressions.

Example calculator_integers_nonvacuous :
  integers wlib wnum /\
  ivalue (fun x => if String.eqb x "x" then Some 3 else None)
    (ICond (ICmp RLt (IVar "x"%string) (INum 5))
           (IBin IMul (IVar "x"%string) (IBin ISub (IVar "x"%string) (INum 10)))
           (IVar "undefined"%string)) = Some (-21).
Proof. exact (conj wlib_integers eq_refl). Qed.

(** Whatever program has run, a reserved name still means what it meant at the start. *)
Theorem calculator_reserved_names_fixed :
  forall (L : lib) (n : nat) (prog : list (tree (elem L))) (s : state L) (x : string) (v : val L),
  eval_program L n prog (boot L) = Ok s ->
  assoc x (reserved_vals L) = Some v ->
  forall m, exists a, eval L (S m) (Id x) s = Ok (Some a, s) /\ nth_error (heap s) a = Some v.
Proof. exact reserved_fixed. Qed.
Print Assumptions calculator_reserved_names_fixed.

(** Assigning to a reserved name gives an error and binds no name. *)
Theorem calculator_reserved_assignment_refused :
  forall (L : lib) (n : nat) (prog : list (tree (elem L))) (s : state L) (x : string) (v : val L)
         (m : nat) (t : tree (elem L)) (r : option nat) (s' : state L),
  eval_program L n prog (boot L) = Ok s ->
  assoc x (reserved_vals L) = Some v ->
  eval L (S m) (Assign x t) s = Ok (r, s') ->
  exists a u s1, r = Some a /\ eval L m t s = Ok (u, s1) /\ tab s' = tab s1 /\
    nth_error (heap s') a = Some (VErr (message (x ++ " is reserved"))).
Proof. exact reserved_assign. Qed.
Print Assumptions calculator_reserved_assignment_refused.

Example calculator_reserved_nonvacuous :
  assoc "pairing" (reserved_vals wlib) = Some (VFun Pairing) /\
  assoc "M" (reserved_vals wlib) = Some (VField (l_ints wlib)) /\
  may_run (session ++ buried_cast)%list (Id "pairing"%string) = true.
Proof. exact (conj eq_refl (conj eq_refl long_w)). Qed.

(** Refuted for assignments inside operands: (x := 3) + 1 leaves x = 4,
    (x := 3) == 3 leaves x = 1, Zr(x := 9) leaves x in Zr. *)
Theorem calculator_buried_assignment_refuted :
  (shows buried_sum = Some [int_line 4; int_line 4] /\
   should_show buried_sum = Some [int_line 4; int_line 3]) /\
  (shows buried_test = Some [int_line 1; int_line 1] /\
   should_show buried_test = Some [int_line 1; int_line 3]) /\
  (shows buried_cast = Some [mod_line 7 2; mod_line 7 2] /\
   should_show buried_cast = Some [mod_line 7 2; int_line 9]).
Proof. exact (conj buried_sum_w (conj buried_test_w buried_cast_w)). Qed.
Print Assumptions calculator_buried_assignment_refuted.

(** Refuted: with a = 1 and b = 2, the call f(b, a) of a function with parameters
    a, b passes 2 and 2, and leaves the caller's variable a equal to 2. *)
Theorem calculator_call_by_value_refuted :
  shows swap_prog =
  Some [Shown (VDef "f" ["a"; "b"] [Assign "c" (Id "a"); Assign "d" (Id "b")]);
        int_line 2; int_line 2; int_line 2]%string.
Proof. exact swap_w. Qed.
Print Assumptions calculator_call_by_value_refuted.

(** Refuted: calling a number, using the result of a user function, converting
    nothing, and converting an undefined variable are undefined behaviour
    instead of reported errors. *)
Theorem calculator_errors_reported_refuted :
  eval_program wlib 20 crash1 (boot wlib) = UB /\
  eval_program wlib 20 crash2 (boot wlib) = UB /\
  eval_program wlib 20 crash3 (boot wlib) = UB /\
  eval_program wlib 20 crash4 (boot wlib) = UB.
Proof. exact crash_w. Qed.
Print Assumptions calculator_errors_reported_refuted.

(** Refuted: no call of extend ever yields a field; it yields an error or is
    undefined. *)
Theorem calculator_extend_refuted :
  forall (L : lib) (n : nat) (s : state L) (args : list (tree (elem L)))
         (r : option nat) (s' : state L),
  eval L n (Call (Fn Extend) args) s = Ok (r, s') ->
  exists a m, r = Some a /\ nth_error (heap s') a = Some (VErr m).
Proof. exact extend_fails. Qed.
Print Assumptions calculator_extend_refuted.

Example calculator_extend_cases :
  eval_program wlib 20 extend1 (boot wlib) = UB /\
  shows extend2 = Some [Shown (VErr "extend: wrong number of arguments")]%string.
Proof. exact extend_w. Qed.
