(** The pairing-based calculator: syntax, library interface and value semantics.

    A program is a list of statements.  Its meaning is given over an
    environment of *values*: no value ever changes once it exists, names are
    bound to values, and an assignment rebinds one name.  This is what a user
    of the calculator expects; Model/Calculator.v describes what pbc/pbc.c does,
    which is to pass mutable objects around. *)
From Coq Require Import ZArith List Bool String.
From Verif.Base Require Import Outcome.
Import ListNotations.
Open Scope Z_scope.

(** ** Syntax *)

(** The built-in operations. *)
Inductive arith := Add | Sub | Mul | Div | Pow.
Inductive order := REq | RNe | RLe | RGe | RLt | RGt.
Inductive kind := KA | KD | KE | KF | KG | KI.
Inductive fn :=
| Arith (o : arith) | Order (o : order) | Neg | Item
| NextPrime | Ord (long : bool) | Random (long : bool) | Sqrt | Inv | TypeOf
| Pairing | Zmod | Poly | PolyMod | Extend | Exit | Check | Init (k : kind).

Section Syntax.
  (** [E]: elements of the library's algebraic structures. *)
  Context {E : Type}.

  Inductive tree :=
  | Lit (e : E)                                  (* an integer constant *)
  | ListOf (l : list tree)                       (* [a, b, c] *)
  | Tern (c a b : tree)                          (* c ? a : b *)
  | Id (x : string)
  | Call (f : tree) (args : list tree)           (* f(args) *)
  | Fn (f : fn)                                  (* an operator symbol *)
  | Assign (x : string) (t : tree)               (* x := t *)
  | Define (x : string) (parms : list string) (body : list tree).
End Syntax.
Arguments tree : clear implicits.

(** ** The library the calculator drives *)

(** [l_int] is the structure of integer constants and lists of them.
    [l_random f n] is the result of the n-th call of the random generator. *)
Record lib := {
  elem : Type;
  fieldT : Type;
  l_field : elem -> fieldT;
  l_is_int : fieldT -> bool;
  l_arith : arith -> elem -> elem -> res elem;
  l_cmp : elem -> elem -> res Z;
  l_neg : elem -> res elem;
  l_sqrt : elem -> res elem;
  l_inv : elem -> res elem;
  l_nextprime : elem -> res elem;
  l_item : elem -> elem -> res elem;
  l_is0 : elem -> res bool;
  l_is1 : elem -> res bool;
  l_of_z : Z -> elem;
  l_list1 : elem -> res elem;
  l_append : elem -> elem -> res elem;
  l_set0 : fieldT -> elem;
  l_set1 : fieldT -> elem;
  l_convert : fieldT -> elem -> res elem;
  l_to_int : elem -> res elem;
  l_order : fieldT -> elem;
  l_random : fieldT -> nat -> elem;
  l_pairing : elem -> elem -> res elem;
  l_zmod : elem -> res fieldT;
  l_poly : fieldT -> res fieldT;
  l_polymod : elem -> res fieldT;
  l_group : kind -> string -> fieldT;
  l_ints : fieldT;                                (* M *)
  l_bigints : fieldT                              (* Z *)
}.

Section Values.
  Variable L : lib.

  Inductive val :=
  | VElem (e : elem L)
  | VField (f : fieldT L)
  | VFun (f : fn)
  | VDef (x : string) (parms : list string) (body : list (tree (elem L)))
  | VErr (msg : string).

  (** What is printed: a value, or the name of a type. *)
  Inductive line := Shown (v : val) | Word (s : string).
End Values.
Arguments VElem {L}. Arguments VField {L}. Arguments VFun {L}.
Arguments VDef {L}. Arguments VErr {L}. Arguments Shown {L}. Arguments Word {L}.

(** ** Names, arities and argument types of the built-in operations *)

Definition arith_name (o : arith) : string :=
  match o with Add => "add" | Sub => "sub" | Mul => "mul" | Div => "div" | Pow => "pow" end.
Definition order_name (o : order) : string :=
  match o with REq => "==" | RNe => "!=" | RLe => "<=" | RGe => ">=" | RLt => "<" | RGt => ">" end.
Definition init_name (k : kind) : string :=
  match k with
  | KA => "init_pairing_a" | KD => "init_pairing_d" | KE => "init_pairing_e"
  | KF => "init_pairing_f" | KG => "init_pairing_g" | KI => "init_pairing_i"
  end.
Definition fn_name (f : fn) : string :=
  match f with
  | Arith o => arith_name o | Order o => order_name o | Neg => "neg" | Item => "item"
  | NextPrime => "nextprime" | Ord b => if b then "order" else "ord"
  | Random b => if b then "random" else "rnd" | Sqrt => "sqrt" | Inv => "inv"
  | TypeOf => "type" | Pairing => "pairing" | Zmod => "zmod" | Poly => "poly"
  | PolyMod => "polymod" | Extend => "extend" | Exit => "exit" | Check => "CHECK"
  | Init k => init_name k
  end.

(** What the relation [o] says of the sign of a comparison. *)
Definition order_holds (o : order) (i : Z) : bool :=
  match o with
  | REq => i =? 0 | RNe => negb (i =? 0) | RLe => i <=? 0 | RGe => 0 <=? i
  | RLt => i <? 0 | RGt => 0 <? i
  end.

Inductive vtype := TElem | TField | TFun | TDef | TErr.
Definition type_of {L} (v : val L) : vtype :=
  match v with
  | VElem _ => TElem | VField _ => TField | VFun _ => TFun
  | VDef _ _ _ => TDef | VErr _ => TErr
  end.
Definition type_name (t : vtype) : string :=
  match t with
  | TElem => "element" | TField => "field" | TFun => "builtin"
  | TDef => "function" | TErr => "error"
  end.
Definition vtype_eqb (s t : vtype) : bool :=
  match s, t with
  | TElem, TElem | TField, TField | TFun, TFun | TDef, TDef | TErr, TErr => true
  | _, _ => false
  end.

(** The declared number of arguments, and the type demanded of each
    ([None]: any).  [extend] declares one argument and uses two. *)
Definition arity (f : fn) : nat :=
  match f with
  | Arith _ | Order _ | Item | Pairing => 2
  | Init _ => 0
  | _ => 1
  end.
Definition sig (f : fn) : list (option vtype) :=
  match f with
  | Arith _ | Order _ | Item | Pairing => [Some TElem; Some TElem]
  | Ord _ | Random _ | Poly => [Some TField]
  | TypeOf => [None]
  | Extend => [Some TField; Some TElem]
  | Init _ => []
  | _ => [Some TElem]
  end.

(** Error messages are cut to 79 characters. *)
Definition message (s : string) : string := substring 0 79 s.
Definition digit (i : nat) : string := match i with 0%nat => "1" | _ => "2" end.
Definition arity_error (name : string) : string :=
  message (name ++ ": wrong number of arguments").
Definition type_error (name : string) (i : nat) : string :=
  message (name ++ ": argument " ++ digit i ++ " type mismatch").

(** Names that cannot be assigned to. *)
Definition reserved_fns : list fn :=
  [Random false; Random true; Ord false; Ord true; NextPrime; Sqrt; Inv; TypeOf; Pairing;
   Zmod; Poly; PolyMod; Extend; Exit; Check;
   Init KA; Init KD; Init KE; Init KF; Init KG; Init KI].
Definition reserved_vals (L : lib) : list (string * val L) :=
  app (map (fun f => (fn_name f, VFun f)) reserved_fns)
      [("M"%string, VField (l_ints L)); ("Z"%string, VField (l_bigints L))].
Fixpoint assoc {A} (x : string) (l : list (string * A)) : option A :=
  match l with
  | [] => None
  | (y, a) :: t => if String.eqb x y then Some a else assoc x t
  end.

(** ** Value semantics *)

Section Semantics.
  Variable L : lib.
  Notation tree := (tree (elem L)).
  Notation val := (val L).

  (** Bindings of the names, calls of the random generator so far, output so
      far (latest first). *)
  Record world := W { env : string -> option val; rnd : nat; out : list (line L) }.

  Definition rebind (x : string) (v : option val) (w : world) : world :=
    W (fun y => if String.eqb y x then v else env w y) (rnd w) (out w).
  Definition say (l : line L) (w : world) : world := W (env w) (rnd w) (l :: out w).
  Definition draw (w : world) : world := W (env w) (S (rnd w)) (out w).

  (** The meaning of a name: reserved names first. *)
  Definition lookup (x : string) (w : world) : option val :=
    match assoc x (reserved_vals L) with
    | Some v => Some v
    | None => env w x
    end.

  (** Conversion of an element to a member of a field or group. *)
  Definition convert (f : fieldT L) (e : elem L) : res (elem L) :=
    if l_is_int L (l_field L e) then
      if l_is_int L f then Ok e
      else z <- l_is0 L e ;;
           if z then Ok (l_set0 L f)
           else o <- l_is1 L e ;;
                if o then Ok (l_set1 L f) else l_convert L f e
    else if l_is_int L f then l_to_int L e else Ok e.

  (** A built-in operation applied to values; [None] is the absence of a value. *)
  Definition value_of (f : fn) (args : list (option val)) (w : world)
    : res (option val * world) :=
    match f, args with
    | Arith o, [Some (VElem a); Some (VElem b)] =>
      e <- l_arith L o a b ;; Ok (Some (VElem e), w)
    | Order o, [Some (VElem a); Some (VElem b)] =>
      i <- l_cmp L a b ;;
      Ok (Some (VElem (l_of_z L (if order_holds o i then 1 else 0))), w)
    | Item, [Some (VElem a); Some (VElem b)] =>
      e <- l_item L a b ;; Ok (Some (VElem e), w)
    | Pairing, [Some (VElem a); Some (VElem b)] =>
      e <- l_pairing L a b ;; Ok (Some (VElem e), w)
    | Neg, [Some (VElem a)] => e <- l_neg L a ;; Ok (Some (VElem e), w)
    | Sqrt, [Some (VElem a)] => e <- l_sqrt L a ;; Ok (Some (VElem e), w)
    | Inv, [Some (VElem a)] => e <- l_inv L a ;; Ok (Some (VElem e), w)
    | NextPrime, [Some (VElem a)] => e <- l_nextprime L a ;; Ok (Some (VElem e), w)
    | Zmod, [Some (VElem a)] => k <- l_zmod L a ;; Ok (Some (VField k), w)
    | PolyMod, [Some (VElem a)] => k <- l_polymod L a ;; Ok (Some (VField k), w)
    | Check, [Some (VElem a)] =>
      z <- l_is0 L a ;; if z then Die else Ok (Some (VElem a), w)
    | Exit, [Some (VElem a)] => Die
    | Ord _, [Some (VField k)] => Ok (Some (VElem (l_order L k)), w)
    | Random _, [Some (VField k)] =>
      Ok (Some (VElem (l_random L k (rnd w))), draw w)
    | Poly, [Some (VField k)] => k' <- l_poly L k ;; Ok (Some (VField k'), w)
    | TypeOf, [Some v] => Ok (Some v, say (Word (type_name (type_of v))) w)
    | Init k, [] =>
      let put s w := rebind s (Some (VField (l_group L k s))) w in
      Ok (None, put "Zr" (put "GT" (put "G2" (put "G1" w))))%string
    | _, _ => UB
    end.

  (** Arguments from left to right; the first one of the wrong type ends the
      evaluation with an error. *)
  Fixpoint values (ev : tree -> world -> res (option val * world))
           (f : fn) (i : nat) (ts : list tree) (w : world)
    : res ((string + list (option val)) * world) :=
    match ts with
    | [] => Ok (inr [], w)
    | t :: ts' =>
      p <- ev t w ;;
      let '(v, w1) := p in
      match nth i (sig f) None with
      | None =>
        q <- values ev f (S i) ts' w1 ;;
        let '(r, w2) := q in
        Ok (match r with inl m => inl m | inr l => inr (v :: l) end, w2)
      | Some ty =>
        match v with
        | None => UB
        | Some v0 =>
          if vtype_eqb (type_of v0) ty then
            q <- values ev f (S i) ts' w1 ;;
            let '(r, w2) := q in
            Ok (match r with inl m => inl m | inr l => inr (v :: l) end, w2)
          else Ok (inl (type_error (fn_name f) i), w1)
        end
      end
    end.

  (** Parameters are bound one at a time, while the arguments are evaluated. *)
  Fixpoint bind_all (ev : tree -> world -> res (option val * world))
           (ps : list string) (ts : list tree) (w : world) : res world :=
    match ps, ts with
    | p :: ps', t :: ts' =>
      r <- ev t w ;; let '(v, w1) := r in bind_all ev ps' ts' (rebind p v w1)
    | _, _ => Ok w
    end.

  Fixpoint run_all (ev : tree -> world -> res (option val * world))
           (ts : list tree) (w : world) : res world :=
    match ts with
    | [] => Ok w
    | t :: ts' => r <- ev t w ;; run_all ev ts' (snd r)
    end.

  (** The members of a list, added to the list [acc] built so far. *)
  Fixpoint collect (ev : tree -> world -> res (option val * world))
           (acc : option (elem L)) (ts : list tree) (w : world)
    : res (option val * world) :=
    match ts with
    | [] => match acc with Some e => Ok (Some (VElem e), w) | None => UB end
    | t :: ts' =>
      r <- ev t w ;;
      let '(v, w1) := r in
      match v with
      | None => UB
      | Some (VErr m) => Ok (Some (VErr m), w1)
      | Some (VElem e) =>
        l <- match acc with None => l_list1 L e | Some a => l_append L a e end ;;
        collect ev (Some l) ts' w1
      | Some _ => Ok (Some (VErr "element expected in list"), w1)
      end
    end.

  (** [meaning n t w]: value of [t] and the world after it; [n] bounds the depth
      of the evaluation. *)
  Fixpoint meaning (n : nat) (t : tree) (w : world) : res (option val * world) :=
    match n with
    | O => OutOfFuel
    | S m =>
      match t with
      | Lit e => Ok (Some (VElem e), w)
      | Fn f => Ok (Some (VFun f), w)
      | Id x =>
        Ok (Some (match lookup x w with
                  | Some v => v
                  | None => VErr (message ("undefined variable " ++ x))
                  end), w)
      | ListOf l => collect (meaning m) None l w
      | Tern c a b =>
        r <- meaning m c w ;;
        let '(v, w1) := r in
        match v with
        | None => UB
        | Some (VErr s) => Ok (Some (VErr s), w1)
        | Some (VElem e) =>
          z <- l_is0 L e ;; if z then meaning m b w1 else meaning m a w1
        | Some _ => Ok (Some (VErr "element expected in ternary operator"), w1)
        end
      | Assign x t1 =>
        r <- meaning m t1 w ;;
        let '(v, w1) := r in
        match assoc x (reserved_vals L) with
        | Some _ => Ok (Some (VErr (message (x ++ " is reserved"))), w1)
        | None => Ok (v, rebind x v w1)
        end
      | Define x ps body =>
        Ok (Some (VDef x ps body), rebind x (Some (VDef x ps body)) w)
      | Call f args =>
        r <- meaning m f w ;;
        let '(v, w1) := r in
        match v with
        | None | Some (VElem _) => UB
        | Some (VErr s) => Ok (Some (VErr s), w1)
        | Some (VField k) =>
          match args with
          | [] => UB
          | t1 :: _ =>
            q <- meaning m t1 w1 ;;
            match q with
            | (Some (VElem e), w2) => e' <- convert k e ;; Ok (Some (VElem e'), w2)
            | _ => UB
            end
          end
        | Some (VFun g) =>
          if (List.length args =? arity g)%nat then
            q <- values (meaning m) g 0 args w1 ;;
            let '(r, w2) := q in
            match r with
            | inl s => Ok (Some (VErr s), w2)
            | inr l => value_of g l w2
            end
          else Ok (Some (VErr (arity_error (fn_name g))), w1)
        | Some (VDef x ps body) =>
          if (List.length args =? List.length ps)%nat then
            w2 <- bind_all (meaning m) ps args w1 ;;
            w3 <- run_all (meaning m) body w2 ;;
            Ok (None, w3)
          else Ok (Some (VErr (arity_error x)), w1)
        end
      end
    end%string.

  (** A statement at the prompt: errors are shown, and so is any value that is
      not the result of an assignment. *)
  Definition is_assign (t : tree) : bool := match t with Assign _ _ => true | _ => false end.
  Definition stmt_meaning (n : nat) (t : tree) (w : world) : res world :=
    r <- meaning n t w ;;
    let '(v, w1) := r in
    Ok (match v with
        | None => w1
        | Some (VErr m) => say (Shown (VErr m)) w1
        | Some v0 => if is_assign t then w1 else say (Shown v0) w1
        end).

  Fixpoint program_meaning (n : nat) (ts : list tree) (w : world) : res world :=
    match ts with
    | [] => Ok w
    | t :: ts' => w1 <- stmt_meaning n t w ;; program_meaning n ts' w1
    end.

  (** The world the calculator starts in: type A groups. *)
  Definition start : world :=
    W (fun s => if existsb (String.eqb s) ["G1"; "G2"; "GT"; "Zr"]%string
                then Some (VField (l_group L KA s)) else None) 0 [].
End Semantics.
Arguments W {L}. Arguments env {L}. Arguments rnd {L}. Arguments out {L}.

(** ** Programs whose assignments are not buried in operands *)

(** [t] may return the object that a name has just been bound to. *)
Fixpoint exposes {E} (t : tree E) : bool :=
  match t with
  | Assign _ _ => true
  | Tern _ a b => exposes a || exposes b
  | _ => false
  end.

(** No operand, argument or list member exposes an assignment. *)
Fixpoint clean {E} (t : tree E) : bool :=
  match t with
  | Lit _ | Fn _ | Id _ => true
  | ListOf l => forallb (fun x => clean x && negb (exposes x)) l
  | Tern c a b => clean c && clean a && clean b
  | Assign _ t1 => clean t1
  | Define _ _ body => forallb clean body
  | Call f args => clean f && forallb (fun x => clean x && negb (exposes x)) args
  end.

(** ** Vocabulary of the theorems *)

(** The two computations end the same way, with results related by [P]. *)
Definition agree {A B} (P : A -> B -> Prop) (m1 : res A) (m2 : res B) : Prop :=
  match m1, m2 with
  | Ok x, Ok y => P x y
  | UB, UB | Die, Die | OutOfFuel, OutOfFuel => True
  | _, _ => False
  end.

(** Expressions that only compute: no assignment or definition, and what is
    called is an operator, or a name that stands neither for a user function
    nor for init_pairing_*. *)
Definition harmless_fn (f : fn) : bool := match f with Init _ => false | _ => true end.
Definition harmless_val {L} (v : option (val L)) : bool :=
  match v with
  | Some (VDef _ _ _) => false
  | Some (VFun f) => harmless_fn f
  | _ => true
  end.
Fixpoint computes {L} (w : string -> option (val L)) (t : tree (elem L)) : bool :=
  match t with
  | Lit _ | Id _ | Fn _ => true
  | ListOf l => forallb (computes w) l
  | Tern c a b => computes w c && computes w a && computes w b
  | Call (Fn f) args => harmless_fn f && forallb (computes w) args
  | Call (Id x) args =>
    harmless_val (match assoc x (reserved_vals L) with Some v => Some v | None => w x end)
    && forallb (computes w) args
  | _ => false
  end.

(** Integer expressions. *)
Inductive iop := IAdd | ISub | IMul.
Inductive iexp :=
| INum (z : Z) | IVar (x : string) | INeg (e : iexp)
| IBin (o : iop) (a b : iexp) | ICmp (o : order) (a b : iexp) | ICond (c a b : iexp).

Definition iop_fn (o : iop) : arith := match o with IAdd => Add | ISub => Sub | IMul => Mul end.
Definition iop_z (o : iop) : Z -> Z -> Z :=
  match o with IAdd => Z.add | ISub => Z.sub | IMul => Z.mul end.
(** The integers satisfy the relation. *)
Definition relation_z (o : order) (a b : Z) : bool :=
  match o with
  | REq => a =? b | RNe => negb (a =? b) | RLe => a <=? b | RGe => b <=? a
  | RLt => a <? b | RGt => b <? a
  end.

(** The integer an expression stands for, when the variables it needs have one. *)
Fixpoint ivalue (rho : string -> option Z) (e : iexp) : option Z :=
  match e with
  | INum z => Some z
  | IVar x => rho x
  | INeg a => match ivalue rho a with Some x => Some (- x) | None => None end
  | IBin o a b =>
    match ivalue rho a, ivalue rho b with Some x, Some y => Some (iop_z o x y) | _, _ => None end
  | ICmp o a b =>
    match ivalue rho a, ivalue rho b with
    | Some x, Some y => Some (if relation_z o x y then 1 else 0)
    | _, _ => None
    end
  | ICond c a b =>
    match ivalue rho c with
    | Some x => if x =? 0 then ivalue rho b else ivalue rho a
    | None => None
    end
  end.

(** The statement the user types. *)
Fixpoint itree {E} (num : Z -> E) (e : iexp) : tree E :=
  match e with
  | INum z => Lit (num z)
  | IVar x => Id x
  | INeg a => Call (Fn Neg) [itree num a]
  | IBin o a b => Call (Fn (Arith (iop_fn o))) [itree num a; itree num b]
  | ICmp o a b => Call (Fn (Order o)) [itree num a; itree num b]
  | ICond c a b => Tern (itree num c) (itree num a) (itree num b)
  end.
Fixpoint height (e : iexp) : nat :=
  match e with
  | INum _ | IVar _ => 1
  | INeg a => S (height a)
  | IBin _ a b | ICmp _ a b => S (Nat.max (height a) (height b))
  | ICond c a b => S (Nat.max (height c) (Nat.max (height a) (height b)))
  end.

(** [num] embeds the integers in the library's structure of constants. *)
Record integers (L : lib) (num : Z -> elem L) : Prop := {
  in_add : forall o x y, l_arith L (iop_fn o) (num x) (num y) = Ok (num (iop_z o x y));
  in_neg : forall x, l_neg L (num x) = Ok (num (- x));
  in_cmp : forall x y, l_cmp L (num x) (num y) = Ok (Z.sgn (x - y));
  in_is0 : forall x, l_is0 L (num x) = Ok (x =? 0);
  in_of : forall x, l_of_z L x = num x
}.
