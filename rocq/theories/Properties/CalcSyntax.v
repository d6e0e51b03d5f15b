(** C78: the calculator reads programs as they are written. *)
From Coq Require Import ZArith List Bool String Ascii Lia.
From Verif.Base Require Import Outcome.
From Verif.Spec Require Import Calculator CalcSyntax.
From Verif.Model Require Import Calculator CalcParser CalcScanner.
From Verif.Proofs Require Import CalcParserFacts CalcParserWrite CalcParserComplete CalcScannerFacts CalcScannerWitness
  CalculatorWitness.
Import ListNotations.
Open Scope nat_scope.
Open Scope list_scope.

(** Every program, written with the parentheses the precedences call for and
    any others, and laid out with any blanks, line breaks and comments, is read as the syntax
    trees it stands for. *)
Theorem calculator_reads_what_is_written :
  forall (easy : bool) (n : nat) (text : string) (prog : list (stmt Z)),
  layout easy (List.concat (map wr_stmt prog)) (list_ascii_of_string text) ->
  11 * String.length text + 6 <= n ->
  read_program easy n text = Ok (Some (map stmt_tree prog)).
Proof. exact read_layout. Qed.
Print Assumptions calculator_reads_what_is_written.

Example calculator_reads_nonvacuous :
  layout false (List.concat (map wr_stmt wprog)) (list_ascii_of_string wtext) /\
  List.length (List.concat (map wr_stmt wprog)) = 29.
Proof. exact (conj wlayout eq_refl). Qed.

(** The same for tokens, whatever the constants are. *)
Theorem calculator_parser_reads_what_is_written :
  forall (E : Type) (prog : list (stmt E)) (n : nat),
  11 * List.length (List.concat (map wr_stmt prog)) + 6 <= n ->
  parse n (List.concat (map wr_stmt prog)) = Ok (Some (map stmt_tree prog)).
Proof. exact @parse_written. Qed.
Print Assumptions calculator_parser_reads_what_is_written.

(** The parser comes to an end on every sequence of tokens, and if it accepts,
    the trees are a reading of exactly these tokens. *)
Theorem calculator_parser_terminates :
  forall (E : Type) (ts : list (tok E)) (n : nat),
  11 * List.length ts + 6 <= n -> exists r, parse n ts = Ok r.
Proof. exact @parse_total. Qed.
Print Assumptions calculator_parser_terminates.

Theorem calculator_parser_accepts_only_readings :
  forall (E : Type) (n : nat) (ts : list (tok E)) (trees : list (tree E)),
  parse n ts = Ok (Some trees) -> reads_stmts ts trees.
Proof. exact @parse_sound. Qed.
Print Assumptions calculator_parser_accepts_only_readings.

(** It accepts exactly the texts that have some reading, and gives the one that
    follows the precedences. *)
Theorem calculator_parser_accepts_iff_grammatical :
  forall (E : Type) (ts : list (tok E)) (n : nat),
  11 * List.length ts + 6 <= n ->
  (forall trees, parse n ts = Ok (Some trees) <->
     exists prog : list (stmt E), List.concat (map wr_stmt prog) = ts /\ map stmt_tree prog = trees) /\
  (parse n ts = Ok None <-> ~ exists trees, reads_stmts ts trees).
Proof. exact @parse_decides. Qed.
Print Assumptions calculator_parser_accepts_iff_grammatical.

Example calculator_parser_nonvacuous :
  parse 100 [ID "f"%string; LPAR; NUM 1%Z; COMMA; OP (BArith Sub); NUM 2%Z; RPAR; OP (BArith Pow); NUM 3%Z; TERMINATOR] =
    Ok (Some [Call (Fn (Arith Pow)) [Call (Id "f"%string) [Lit 1%Z; Call (Fn Neg) [Lit 2%Z]]; Lit 3%Z]]) /\
  parse 100 [NUM 2%Z; OP (BArith Pow); OP (BArith Sub); ID "x"%string; ASSIGN; NUM 3%Z; OP (BArith Add); NUM 1%Z; OP (BOrder RLt); NUM 4%Z; TERMINATOR] =
    Ok (Some [Call (Fn (Order RLt)) [Call (Fn (Arith Pow)) [Lit 2%Z; Call (Fn Neg) [Assign "x"%string (Call (Fn (Arith Add)) [Lit 3%Z; Lit 1%Z])]]; Lit 4%Z]]) /\
  parse 100 [ID "f"%string; LPAR; NUM 1%Z; COMMA; RPAR; TERMINATOR] = Ok None.
Proof. exact (conj eq_refl (conj eq_refl eq_refl)). Qed.

(** The scanner alone: tokens are recovered from every layout. *)
Theorem calculator_scanner_recovers_tokens :
  forall (easy : bool) (n : nat) (ts : list (tok Z)) (text : list ascii),
  layout easy ts text -> List.length text < n -> scan easy n text = Ok ts.
Proof. exact scan_layout. Qed.
Print Assumptions calculator_scanner_recovers_tokens.

(** From text to output: an integer expression typed in any layout shows the
    integer it stands for. *)
Theorem calculator_typed_integer_expressions :
  forall (L : lib) (num : Z -> elem L), integers L num ->
  forall (rho : string -> option Z) (n : nat) (prog : list (tree (elem L))) (s : state L)
         (e : iexp) (m : nat) (easy : bool) (k : nat) (text : string),
  forallb clean prog = true ->
  eval_program L n prog (boot L) = Ok s ->
  (height e <= m)%nat ->
  (forall x, match rho x with
             | Some z => lookup L x (W (look L s) 0 []) = Some (VElem (num z))
             | None => forall v, lookup L x (W (look L s) 0 []) <> Some (VElem v)
             end) ->
  layout easy (wr_stmt (SExpr (isrc e))) (list_ascii_of_string text) ->
  11 * String.length text + 6 <= k ->
  exists s' v, run_text L num easy k m text s = Ok (Some s') /\
    sout s' = Shown v :: sout s /\ (forall x, look L s' x = look L s x) /\
    match ivalue rho e with
    | Some z => v = VElem (num z)
    | None => type_of v <> TElem
    end.
Proof. exact typed_int. Qed.
Print Assumptions calculator_typed_integer_expressions.

Example calculator_typed_nonvacuous :
  integers wlib wnum /\
  layout true (wr_stmt (SExpr (isrc wexp))) (list_ascii_of_string (String.append "(x+4)*2<x?1:0-21" (String lf ""))) /\
  ivalue (fun x => Some 3%Z) wexp = Some (-21)%Z.
Proof. exact (conj wlib_integers (conj wexp_layout eq_refl)). Qed.

(** An assignment takes in neither a condition nor a comparison: the program
    x := c ? a : b assigns c, and x := a == b assigns a. *)
Theorem calculator_assigns_condition_refuted :
  forall (x : string) (c a b : src Z) (n : nat),
  11 * List.length (ID x :: ASSIGN :: wr 3 1 c ++ QUESTION :: wr 0 0 a ++ COLON :: wr 1 0 b ++ [TERMINATOR]) + 6 <= n ->
  parse n (ID x :: ASSIGN :: wr 3 1 c ++ QUESTION :: wr 0 0 a ++ COLON :: wr 1 0 b ++ [TERMINATOR]) =
  Ok (Some [Tern (Assign x (tree_of c)) (tree_of a) (tree_of b)]).
Proof. exact assign_first. Qed.
Print Assumptions calculator_assigns_condition_refuted.

Theorem calculator_assigns_comparison_refuted :
  forall (x : string) (o : order) (a b : src Z) (n : nat),
  11 * List.length (ID x :: ASSIGN :: wr 3 2 a ++ OP (BOrder o) :: wr 3 0 b ++ [TERMINATOR]) + 6 <= n ->
  parse n (ID x :: ASSIGN :: wr 3 2 a ++ OP (BOrder o) :: wr 3 0 b ++ [TERMINATOR]) =
  Ok (Some [Call (Fn (Order o)) [Assign x (tree_of a); tree_of b]]).
Proof. exact compare_after_assign. Qed.
Print Assumptions calculator_assigns_comparison_refuted.

Example calculator_condition_nonvacuous :
  show_text "x := 0 ? 5 : 7; x;" = Some [int_line 7; int_line 0].
Proof. exact condition_lost. Qed.

(** A comment on a last line that lacks its line break is a syntax error. *)
Theorem calculator_last_comment_refuted :
  exists text, read_program false 200 text = Ok None /\
    read_program false 200 (String.append text (String lf "")) = Ok (Some [Lit 1%Z]).
Proof. exact (ex_intro _ "1; # one"%string last_comment). Qed.
Print Assumptions calculator_last_comment_refuted.
