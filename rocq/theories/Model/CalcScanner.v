(** The scanner of the calculator (pbc/parser.lex) and reading a program from
    text.  Flex picks the longest match, and among equally long ones the rule
    that comes first. *)
From Coq Require Import ZArith List Bool String Ascii Arith.
From Verif.Base Require Import Outcome.
From Verif.Spec Require Import Calculator CalcSyntax.
From Verif.Model Require Import Multiz IntText SetMultiz CalcParser Calculator.
Import ListNotations.
Open Scope char_scope.
Open Scope list_scope.

Definition code (c : ascii) : Z := Z.of_nat (nat_of_ascii c).
Definition newline : ascii := ascii_of_nat 10.
Definition between (a b c : ascii) : bool :=
  (nat_of_ascii a <=? nat_of_ascii c)%nat && (nat_of_ascii c <=? nat_of_ascii b)%nat.
(** parser.lex:26, 29, 30: the character classes *)
Definition is_blank (c : ascii) : bool :=
  (c =? " ") || (c =? ascii_of_nat 9) || (c =? ascii_of_nat 13).
Definition is_digit (c : ascii) : bool := between "0" "9" c.
Definition is_letter (c : ascii) : bool := between "a" "z" c || between "A" "Z" c || (c =? "_").
Definition is_word (c : ascii) : bool := is_letter c || is_digit c.

(** The longest prefix of characters of a class. *)
Fixpoint span (f : ascii -> bool) (l : list ascii) : list ascii * list ascii :=
  match l with
  | c :: r => if f c then let (w, r') := span f r in (c :: w, r') else ([], l)
  | [] => ([], [])
  end.

(** parser.lex:22-24: to the end of a comment, or of the text. *)
Fixpoint skip_comment (l : list ascii) : list ascii :=
  match l with
  | c :: ((d :: r') as r) => if (c =? "*") && (d =? "/") then r' else skip_comment r
  | _ => []
  end.

(** parser.lex:29, pbc/pbc.c:438-446: tree_new_z; the value of the constant. *)
Definition number (w : list ascii) : res Z :=
  r <- multiz_set_str (map code w ++ [0%Z]) 0 ;;
  match fst r with MZ z => Ok z | MA _ => UB end.

(** parser.lex:31-55: the symbols. *)
Definition symbol (easy : bool) (c : ascii) (r : list ascii) : option (tok Z) * list ascii :=
  let eq := match r with d :: _ => d =? "=" | [] => false end in
  if c =? ":" then (if eq then (Some ASSIGN, tl r) else (Some COLON, r))
  else if c =? "=" then
    (if eq then (Some (OP (BOrder REq)), tl r) else (Some (if easy then ASSIGN else UNKNOWN), r))
  else if c =? "!" then (if eq then (Some (OP (BOrder RNe)), tl r) else (Some UNKNOWN, r))
  else if c =? "<" then
    (if eq then (Some (OP (BOrder RLe)), tl r) else (Some (OP (BOrder RLt)), r))
  else if c =? ">" then
    (if eq then (Some (OP (BOrder RGe)), tl r) else (Some (OP (BOrder RGt)), r))
  else if c =? "+" then (Some (OP (BArith Add)), r)
  else if c =? "-" then (Some (OP (BArith Sub)), r)
  else if c =? "/" then (Some (OP (BArith Div)), r)
  else if c =? "*" then (Some (OP (BArith Mul)), r)
  else if c =? "^" then (Some (OP (BArith Pow)), r)
  else if c =? ";" then (Some TERMINATOR, r)
  else if c =? "," then (Some COMMA, r)
  else if c =? "?" then (Some QUESTION, r)
  else if c =? "(" then (Some LPAR, r)
  else if c =? ")" then (Some RPAR, r)
  else if c =? "[" then (Some LSQU, r)
  else if c =? "]" then (Some RSQU, r)
  else if c =? "{" then (Some LBRACE, r)
  else if c =? "}" then (Some RBRACE, r)
  else if c =? newline then ((if easy then Some TERMINATOR else None), r)
  else (Some UNKNOWN, r).

(** One match of parser.lex:21-55 at the non-empty text [c :: r]: the token it
    returns, if any, and the text left. *)
Definition lex (easy : bool) (c : ascii) (r : list ascii) : res (option (tok Z) * list ascii) :=
  if (c =? "/") && (match r with d :: _ => d =? "*" | [] => false end) then
    Ok (None, skip_comment (tl r))
  else if (c =? "#") && existsb (fun d => d =? newline) r then
    Ok (None, snd (span (fun d => negb (d =? newline)) r))
  else if is_blank c then Ok (None, snd (span is_blank r))
  else if is_digit c then
    let (w, r') := span is_digit (c :: r) in z <- number w ;; Ok (Some (NUM z), r')
  else if is_letter c then
    let (w, r') := span is_word (c :: r) in
    Ok (Some (if (string_of_list_ascii w =? "define")%string then DEFINE
              else ID (string_of_list_ascii w)), r')
  else Ok (symbol easy c r).

(** The tokens of a text, [n] matches at most. *)
Fixpoint scan (easy : bool) (n : nat) (text : list ascii) : res (list (tok Z)) :=
  match n with
  | O => OutOfFuel
  | S m =>
    match text with
    | [] => Ok []
    | c :: r =>
      x <- lex easy c r ;; ts <- scan easy m (snd x) ;;
      Ok (match fst x with Some t => t :: ts | None => ts end)
    end
  end.

(** pbc/pbc.c:938-945: the statements of a file, had they all been parsed
    before the first is run. *)
Definition read_program (easy : bool) (n : nat) (text : string) : res (option (list (tree Z))) :=
  ts <- scan easy n (list_ascii_of_string text) ;; parse n ts.

(** The constants of a tree as elements of the library; [num] is the element
    of an integer (pbc/pbc.c:438-446). *)
Fixpoint constants {E} (num : Z -> E) (t : tree Z) : tree E :=
  match t with
  | Lit z => Lit (num z)
  | ListOf l => ListOf (map (constants num) l)
  | Tern c a b => Tern (constants num c) (constants num a) (constants num b)
  | Id x => Id x
  | Call f l => Call (constants num f) (map (constants num) l)
  | Fn f => Fn f
  | Assign x a => Assign x (constants num a)
  | Define x ps body => Define x ps (map (constants num) body)
  end.

(** A text without syntax errors is run, statement by statement; [None] for the
    others (the statements before the error are run as well; not modelled). *)
Definition run_text (L : lib) (num : Z -> elem L) (easy : bool) (n m : nat) (text : string)
    (s : state L) : res (option (state L)) :=
  r <- read_program easy n text ;;
  match r with
  | Some ts => s' <- eval_program L m (map (constants num) ts) s ;; Ok (Some s')
  | None => Ok None
  end.
