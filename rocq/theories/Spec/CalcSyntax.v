(** The concrete syntax of the calculator: tokens, source programs, the tree
    each one stands for, and how it is written with the parentheses that the
    precedences of the operators require and any others. *)
From Coq Require Import ZArith List Bool String Ascii.
From Verif.Spec Require Import Calculator.
Import ListNotations.
Open Scope nat_scope.

(** Binary operators. *)
Inductive bop := BArith (o : arith) | BOrder (o : order).

Section Syntax.
  Context {E : Type}.

  Inductive tok :=
  | DEFINE | TERMINATOR | NUM (e : E) | ID (x : string)
  | LPAR | RPAR | LSQU | RSQU | LBRACE | RBRACE | COMMA
  | QUESTION | COLON | ASSIGN | OP (o : bop)       (* - is also the sign *)
  | UNKNOWN.

  (** Source expressions and statements. *)
  Inductive src :=
  | SNum (e : E)
  | SId (x : string)
  | SList (a : src) (l : list src)                 (* [a, ...] *)
  | SCall (f : src) (l : list src)                 (* f(...) *)
  | SItem (a i : src)                              (* a[i] *)
  | SBin (o : bop) (a b : src)
  | SNeg (a : src)
  | SGroup (a : src)                               (* (a), needed or not *)
  | SAssign (x : string) (a : src)
  | STern (c a b : src).

  Inductive stmt :=
  | SExpr (a : src)
  | SDef (x : string) (ps : list string) (body : list stmt).

  Definition bop_fn (o : bop) : fn := match o with BArith o => Arith o | BOrder o => Order o end.

  (** Meaning: the syntax tree. *)
  Fixpoint tree_of (a : src) : tree E :=
    match a with
    | SNum e => Lit e
    | SId x => Id x
    | SList a l => ListOf (tree_of a :: map tree_of l)
    | SCall f l => Call (tree_of f) (map tree_of l)
    | SItem a i => Call (Fn Item) [tree_of a; tree_of i]
    | SBin o a b => Call (Fn (bop_fn o)) [tree_of a; tree_of b]
    | SNeg a => Call (Fn Neg) [tree_of a]
    | SGroup a => tree_of a
    | SAssign x a => Assign x (tree_of a)
    | STern c a b => Tern (tree_of c) (tree_of a) (tree_of b)
    end.
  Fixpoint stmt_tree (s : stmt) : tree E :=
    match s with
    | SExpr a => tree_of a
    | SDef x ps body => Define x ps (map stmt_tree body)
    end.

  (** How tightly an operator binds: ?: is loosest, then comparisons, :=,
      + and -, * and /, the sign, ^.  Everything else is tighter. *)
  Definition bop_level (o : bop) : nat :=
    match o with
    | BOrder _ => 2
    | BArith (Add | Sub) => 4
    | BArith (Mul | Div) => 5
    | BArith Pow => 7
    end.
  Definition level (a : src) : nat :=
    match a with
    | STern _ _ _ => 1
    | SBin o _ _ => bop_level o
    | SAssign _ _ => 3
    | SNeg _ => 6
    | SNum _ | SList _ _ | SItem _ _ => 8
    | SId _ | SCall _ _ | SGroup _ => 9
    end.
  (** ^ groups to the right, the other binary operators to the left. *)
  Definition left_level (o : bop) : nat :=
    match o with BArith Pow => 8 | _ => bop_level o end.
  Definition right_level (o : bop) : nat :=
    match o with BArith Pow => 7 | _ => S (bop_level o) end.

  (** A sign or an assignment goes before its operand: nothing to its left can
      tear it apart, and it ends before the first operator that binds less
      tightly. *)
  Definition prefixed (a : src) : bool :=
    match a with SNeg _ | SAssign _ _ => true | _ => false end.
  (** Does [a] need parentheses where one that binds at least as tightly as
      [p] is needed, before an operator of level [f] (0: none)? *)
  Definition needs (p f : nat) (a : src) : bool :=
    if prefixed a then level a <? f else level a <? p.

  (** [wr p f a]: the expression [a] as written in such a position. *)
  Definition commas (l : list (list tok)) : list tok :=
    match l with
    | [] => []
    | a :: r => a ++ List.concat (map (fun b => COMMA :: b) r)
    end.
  Definition paren (b : bool) (l : list tok) : list tok :=
    if b then LPAR :: l ++ [RPAR] else l.
  Fixpoint wr (p f : nat) (a : src) : list tok :=
    let g := if needs p f a then 0 else f in
    paren (needs p f a)
      match a with
      | SNum e => [NUM e]
      | SId x => [ID x]
      | SList a l => LSQU :: commas (wr 0 0 a :: map (wr 0 0) l) ++ [RSQU]
      | SCall f l => wr 9 9 f ++ LPAR :: commas (map (wr 0 0) l) ++ [RPAR]
      | SItem a i => wr 9 9 a ++ LSQU :: wr 0 0 i ++ [RSQU]
      | SBin o a b => wr (left_level o) (bop_level o) a ++ OP o :: wr (right_level o) g b
      | SNeg a => OP (BArith Sub) :: wr 6 g a
      | SGroup a => LPAR :: wr 0 0 a ++ [RPAR]
      | SAssign x a => ID x :: ASSIGN :: wr 3 g a
      | STern c a b => wr 2 1 c ++ QUESTION :: wr 0 0 a ++ COLON :: wr 1 g b
      end.
  Fixpoint wr_stmt (s : stmt) : list tok :=
    match s with
    | SExpr a => wr 0 0 a ++ [TERMINATOR]
    | SDef x ps body =>
      DEFINE :: ID x :: LPAR :: commas (map (fun p => [ID p]) ps) ++
      RPAR :: LBRACE :: List.concat (map wr_stmt body) ++ [RBRACE]
    end.
End Syntax.
Arguments tok : clear implicits.
Arguments src : clear implicits.
Arguments stmt : clear implicits.

(** Texts and trees, without regard to precedence: which trees a sequence of
    tokens may stand for if it is grouped in any way the grammar allows. *)
Section Readings.
  Context {E : Type}.
  Notation tok := (tok E).
  Notation tree := (tree E).

  Inductive reads : list tok -> tree -> Prop :=
  | r_num e : reads [NUM e] (Lit e)
  | r_list l ts : reads_list l ts -> reads (LSQU :: l ++ [RSQU]) (ListOf ts)
  | r_operand l t : reads_operand l t -> reads l t
  | r_item l m k i : reads_operand l m -> reads k i ->
      reads (l ++ LSQU :: k ++ [RSQU]) (Call (Fn Item) [m; i])
  | r_bin o l a k b : reads l a -> reads k b ->
      reads (l ++ OP o :: k) (Call (Fn (bop_fn o)) [a; b])
  | r_neg l a : reads l a -> reads (OP (BArith Sub) :: l) (Call (Fn Neg) [a])
  | r_assign x l a : reads l a -> reads (ID x :: ASSIGN :: l) (Assign x a)
  | r_tern l c k a j b : reads l c -> reads k a -> reads j b ->
      reads (l ++ QUESTION :: k ++ COLON :: j) (Tern c a b)
  (* what may be called or indexed *)
  with reads_operand : list tok -> tree -> Prop :=
  | r_id x : reads_operand [ID x] (Id x)
  | r_paren l t : reads l t -> reads_operand (LPAR :: l ++ [RPAR]) t
  | r_call0 l f : reads_operand l f -> reads_operand (l ++ [LPAR; RPAR]) (Call f [])
  | r_call l f k ts : reads_operand l f -> reads_list k ts ->
      reads_operand (l ++ LPAR :: k ++ [RPAR]) (Call f ts)
  (* one or more expressions with commas between them *)
  with reads_list : list tok -> list tree -> Prop :=
  | r_one l t : reads l t -> reads_list l [t]
  | r_more l ts k t : reads_list l ts -> reads k t ->
      reads_list (l ++ COMMA :: k) (ts ++ [t]).

  Inductive reads_stmt : list tok -> tree -> Prop :=
  | r_expr l t : reads l t -> reads_stmt (l ++ [TERMINATOR]) t
  | r_def x ps l ts : reads_stmts l ts ->
      reads_stmt (DEFINE :: ID x :: LPAR :: commas (map (fun p => [ID p]) ps) ++
                  RPAR :: LBRACE :: l ++ [RBRACE]) (Define x ps ts)
  with reads_stmts : list tok -> list tree -> Prop :=
  | r_nil : reads_stmts [] []
  | r_snoc l ts k t : reads_stmts l ts -> reads_stmt k t -> reads_stmts (l ++ k) (ts ++ [t]).
End Readings.

(** Integer expressions as the user types them. *)
Fixpoint isrc (e : iexp) : src Z :=
  match e with
  | INum z => SNum z
  | IVar x => SId x
  | INeg a => SNeg (isrc a)
  | IBin o a b => SBin (BArith (iop_fn o)) (isrc a) (isrc b)
  | ICmp o a b => SBin (BOrder o) (isrc a) (isrc b)
  | ICond c a b => STern (isrc c) (isrc a) (isrc b)
  end.

(** ** Layout of a program as text

    [easy]: lines end statements, and = assigns as well. *)
Definition char_code (c : ascii) : Z := Z.of_nat (nat_of_ascii c).
Definition lf : ascii := ascii_of_nat 10.
Definition digit (c : ascii) : Prop := (48 <= char_code c <= 57)%Z.
Definition letter (c : ascii) : Prop :=
  (65 <= char_code c <= 90)%Z \/ (97 <= char_code c <= 122)%Z \/ c = "_"%char.
Definition blank (c : ascii) : Prop := c = " "%char \/ c = ascii_of_nat 9 \/ c = ascii_of_nat 13.

(** Decimal numerals and names. *)
Definition decimal (w : list ascii) : Z :=
  fold_left (fun n c => (n * 10 + (char_code c - 48))%Z) w 0%Z.
Definition name (x : string) : Prop :=
  x <> "define"%string /\
  exists c w, list_ascii_of_string x = c :: w /\ letter c /\ Forall (fun d => letter d \/ digit d) w.

Definition bop_text (o : bop) : string :=
  match o with
  | BArith Add => "+" | BArith Sub => "-" | BArith Mul => "*" | BArith Div => "/" | BArith Pow => "^"
  | BOrder REq => "==" | BOrder RNe => "!=" | BOrder RLe => "<=" | BOrder RGe => ">="
  | BOrder RLt => "<" | BOrder RGt => ">"
  end.

Inductive written (easy : bool) : tok Z -> list ascii -> Prop :=
| w_define : written easy DEFINE (list_ascii_of_string "define")
| w_num w : w <> [] -> Forall digit w -> written easy (NUM (decimal w)) w
| w_id x : name x -> written easy (ID x) (list_ascii_of_string x)
| w_term : written easy TERMINATOR [";"%char]
| w_line : easy = true -> written easy TERMINATOR [lf]
| w_lpar : written easy LPAR ["("%char]
| w_rpar : written easy RPAR [")"%char]
| w_lsqu : written easy LSQU ["["%char]
| w_rsqu : written easy RSQU ["]"%char]
| w_lbrace : written easy LBRACE ["{"%char]
| w_rbrace : written easy RBRACE ["}"%char]
| w_comma : written easy COMMA [","%char]
| w_question : written easy QUESTION ["?"%char]
| w_colon : written easy COLON [":"%char]
| w_assign : written easy ASSIGN [":"; "="]%char
| w_assign_easy : easy = true -> written easy ASSIGN ["="%char]
| w_op o : written easy (OP o) (list_ascii_of_string (bop_text o)).

(** A token written [w] and the character after it do not run together. *)
Definition apart (t : tok Z) (w : list ascii) (next : option ascii) : Prop :=
  match next with
  | None => True
  | Some c =>
    match t with
    | DEFINE | ID _ => ~ letter c /\ ~ digit c
    | NUM _ => ~ digit c
    | COLON | ASSIGN | OP (BOrder _) => List.length w = 1 -> c <> "="%char
    | OP (BArith Div) => c <> "*"%char
    | _ => True
    end
  end.

(** [layout easy ts text]: the text is these tokens, with blanks, line breaks
    and comments between them as one likes. *)
Inductive layout (easy : bool) : list (tok Z) -> list ascii -> Prop :=
| l_end : layout easy [] []
| l_blank c ts text : blank c -> layout easy ts text -> layout easy ts (c :: text)
| l_line ts text : easy = false -> layout easy ts text -> layout easy ts (lf :: text)
| l_block body ts text :
    (forall u v, body <> app u ("*" :: "/" :: v)%char) ->
    layout easy ts text -> layout easy ts ("/" :: "*" :: app body ("*" :: "/" :: text))%char
| l_hash body ts text :
    Forall (fun c => c <> lf) body ->
    layout easy ts (lf :: text) -> layout easy ts ("#" :: app body (lf :: text))%char
| l_token t w ts text :
    written easy t w -> apart t w (hd_error text) ->
    layout easy ts text -> layout easy (t :: ts) (app w text).
