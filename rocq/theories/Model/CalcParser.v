(** The parser of the calculator (pbc/parser.y).

    Bison turns the grammar and its precedence declarations into a shift-reduce
    automaton.  The automaton is modelled by its stack of grammar symbols: the
    stack and the next token determine the action, and where both a reduction
    and a shift are possible the precedences decide, as the bison manual
    specifies.  The reductions of multinomial to expr and of numlist to
    multinomial are merged with the one before them; semantic actions build trees as in pbc/pbc.c:455-573.  On a
    syntax error the outcome is [None] (yyerror and recovery are not modelled). *)
From Coq Require Import ZArith List Bool String Arith.
From Verif.Base Require Import Outcome.
From Verif.Spec Require Import Calculator CalcSyntax.
Import ListNotations.
Open Scope nat_scope.

(** pbc/parser.y:25-31: level of a token or rule, and whether the level is
    right-associative. *)
Definition op_prec (o : bop) : nat :=
  match o with
  | BOrder _ => 2
  | BArith Add | BArith Sub => 4
  | BArith Div | BArith Mul => 5
  | BArith Pow => 7
  end.
Definition prec_question : nat := 1.
Definition prec_assign : nat := 3.
Definition prec_uminus : nat := 6.
Definition right_assoc (n : nat) : bool :=
  match n with 1 | 3 | 6 | 7 => true | _ => false end.

Section Parser.
  Context {E : Type}.
  Notation tok := (tok E).
  Notation tree := (tree E).

  (** The tokens that may follow an expression inside a larger expression
      (pbc/parser.y:62-78), with their levels. *)
  Definition infix (la : option tok) : option nat :=
    match la with
    | Some (OP o) => Some (op_prec o)
    | Some QUESTION => Some prec_question
    | _ => None
    end.

  (** Rule of level [n] complete, next token [la]: reduce? *)
  Definition reduces (n : nat) (la : option tok) : bool :=
    match infix la with
    | Some m => (m <? n) || ((m =? n) && negb (right_assoc n))
    | None => true
    end.

  (** Grammar symbols on the stack, with their semantic values. *)
  Inductive sym :=
  | T (t : tok)
  | Ex (t : tree)                (* expr *)
  | Mo (t : tree)                (* molecule *)
  | Args (l : list tree)         (* exprlist *)
  | Args1 (l : list tree)        (* nonemptyexprlist *)
  | Seq (l : list tree)          (* sequence *)
  | Parms (l : list string)      (* parms *)
  | Parms1 (l : list string)     (* parms1 *)
  | Stmts (l : list tree)        (* stmtlist *)
  | Stm (t : tree)               (* stmt *)
  | In (l : list tree).          (* input *)

  Inductive action := Shift | Reduce (s : list sym) | Accept (l : list tree) | Error.

  Definition shift_if (b : bool) : action := if b then Shift else Error.
  Definition starts_expr (la : option tok) : bool :=
    match la with
    | Some (NUM _) | Some (ID _) | Some LPAR | Some LSQU => true
    | Some (OP (BArith Sub)) => true
    | _ => false
    end.
  Definition starts_stmt (la : option tok) : bool :=
    match la with Some DEFINE => true | _ => starts_expr la end.
  Definition is_infix (la : option tok) : bool :=
    match infix la with Some _ => true | None => false end.

  (** pbc/parser.y:41, 62-80, 94-97, 104-111: a complete expr [e] above [r]. *)
  Definition on_expr (e : tree) (r : list sym) (la : option tok) : action :=
    match r with
    | T (OP o) :: Ex a :: r' =>
      if reduces (op_prec o) la then Reduce (Ex (Call (Fn (bop_fn o)) [a; e]) :: r') else Shift
    | T (OP o) :: r' =>
      match o with
      | BArith Sub =>
        if reduces prec_uminus la then Reduce (Ex (Call (Fn Neg) [e]) :: r') else Shift
      | _ => Error
      end
    | T ASSIGN :: T (ID x) :: r' =>
      if reduces prec_assign la then Reduce (Ex (Assign x e) :: r') else Shift
    | T COLON :: Ex a :: T QUESTION :: Ex c :: r' =>
      if reduces prec_question la then Reduce (Ex (Tern c a e) :: r') else Shift
    | T COMMA :: Args1 l :: r' =>
      if is_infix la then Shift else Reduce (Args1 (l ++ [e]) :: r')
    | T COMMA :: Seq l :: r' =>
      if is_infix la then Shift else Reduce (Seq (l ++ [e]) :: r')
    | T LPAR :: Mo _ :: _ =>
      if is_infix la then Shift else Reduce (Args1 [e] :: r)
    | T LPAR :: _ =>
      shift_if (is_infix la || match la with Some RPAR => true | _ => false end)
    | T LSQU :: Mo _ :: _ =>
      shift_if (is_infix la || match la with Some RSQU => true | _ => false end)
    | T LSQU :: _ =>
      if is_infix la then Shift else Reduce (Seq [e] :: r)
    | T QUESTION :: Ex _ :: _ =>
      shift_if (is_infix la || match la with Some COLON => true | _ => false end)
    | In _ :: _ | Stmts _ :: _ =>
      shift_if (is_infix la || match la with Some TERMINATOR => true | _ => false end)
    | _ => Error
    end.

  (** pbc/parser.y:42, 57-60, 64, 86: an ID above [r]. *)
  Definition on_id (x : string) (r : list sym) (la : option tok) : action :=
    match r with
    | T DEFINE :: _ => shift_if (match la with Some LPAR => true | _ => false end)
    | T LPAR :: T (ID _) :: _ => Reduce (Parms1 [x] :: r)
    | T COMMA :: Parms1 l :: r' => Reduce (Parms1 (l ++ [x]) :: r')
    | _ => match la with
           | Some ASSIGN => Shift
           | _ => Reduce (Mo (Id x) :: r)
           end
    end.

  (** pbc/parser.y:42, 84-85: a RPAR above [r]. *)
  Definition on_rpar (r : list sym) (la : option tok) : action :=
    match r with
    | Args l :: T LPAR :: Mo m :: r' => Reduce (Mo (Call m l) :: r')
    | Ex e :: T LPAR :: r' => Reduce (Mo e :: r')
    | Parms _ :: _ => shift_if (match la with Some LBRACE => true | _ => false end)
    | _ => Error
    end.

  (** pbc/parser.y:67, 105: a RSQU above [r]. *)
  Definition on_rsqu (r : list sym) : action :=
    match r with
    | Ex i :: T LSQU :: Mo m :: r' => Reduce (Ex (Call (Fn Item) [m; i]) :: r')
    | Seq l :: T LSQU :: r' => Reduce (Ex (ListOf l) :: r')
    | _ => Error
    end.

  (** pbc/parser.y:42-44: a RBRACE above [r]. *)
  Definition on_rbrace (r : list sym) : action :=
    match r with
    | Stmts body :: T LBRACE :: T RPAR :: Parms ps :: T LPAR :: T (ID x) :: T DEFINE :: r' =>
      Reduce (Stm (Define x ps body) :: r')
    | _ => Error
    end.

  (** pbc/parser.y:35-105. *)
  Definition act (s : list sym) (la : option tok) : action :=
    match s with
    | [] => Reduce [In []]
    | In l :: _ =>
      match la with None => Accept l | _ => shift_if (starts_stmt la) end
    | Stm t :: In l :: r => Reduce (In (l ++ [t]) :: r)
    | Stm t :: Stmts l :: r => Reduce (Stmts (l ++ [t]) :: r)
    | Stm _ :: _ => Error
    | Stmts _ :: _ =>
      shift_if (starts_stmt la || match la with Some RBRACE => true | _ => false end)
    | Ex e :: r => on_expr e r la
    | Mo m :: r =>
      match la with Some LPAR | Some LSQU => Shift | _ => Reduce (Ex m :: r) end
    | Args _ :: _ | Parms _ :: _ =>
      shift_if (match la with Some RPAR => true | _ => false end)
    | Args1 l :: r =>
      match la with Some COMMA => Shift | _ => Reduce (Args l :: r) end
    | Parms1 l :: r =>
      match la with Some COMMA => Shift | _ => Reduce (Parms l :: r) end
    | Seq _ :: _ => shift_if (match la with Some COMMA | Some RSQU => true | _ => false end)
    | T t :: r =>
      match t with
      | NUM e => Reduce (Ex (Lit e) :: r)
      | ID x => on_id x r la
      | TERMINATOR => match r with Ex e :: r' => Reduce (Stm e :: r') | _ => Error end
      | RPAR => on_rpar r la
      | RSQU => on_rsqu r
      | RBRACE => on_rbrace r
      | LBRACE => Reduce (Stmts [] :: s)
      | DEFINE => shift_if (match la with Some (ID _) => true | _ => false end)
      | LPAR =>
        match r with
        | T (ID _) :: _ =>
          match la with
          | Some RPAR => Reduce (Parms [] :: s)
          | Some (ID _) => Shift
          | _ => Error
          end
        | Mo _ :: _ =>
          match la with
          | Some RPAR => Reduce (Args [] :: s)
          | _ => shift_if (starts_expr la)
          end
        | _ => shift_if (starts_expr la)
        end
      | COMMA =>
        match r with
        | Parms1 _ :: _ => shift_if (match la with Some (ID _) => true | _ => false end)
        | _ => shift_if (starts_expr la)
        end
      | LSQU | QUESTION | COLON | ASSIGN | OP _ => shift_if (starts_expr la)
      | UNKNOWN => Error
      end
    end.

  (** yyparse, [n] actions at most. *)
  Fixpoint drive (n : nat) (s : list sym) (input : list tok) : res (option (list tree)) :=
    match n with
    | O => OutOfFuel
    | S m =>
      match act s (hd_error input) with
      | Shift =>
        match input with
        | t :: rest => drive m (T t :: s) rest
        | [] => Ok None
        end
      | Reduce s' => drive m s' input
      | Accept l => Ok (Some l)
      | Error => Ok None
      end
    end.

  Definition parse (n : nat) (input : list tok) : res (option (list tree)) := drive n [] input.
End Parser.
