(** The pairing-based calculator (pbc/pbc.c): evaluation of syntax trees.

    Values are objects in memory, named by their addresses; the symbol tables
    hold addresses, and most built-in functions overwrite the object they are
    given as first argument.  The syntax, the shape of a value and the
    interface of the library (element_add etc., whose models are elsewhere in
    this development) come from Spec/Calculator.v.

    Simplifications: a value's element is stored in the value (no two values
    share one element_ptr); the members of a list are copied into it, although
    multiz_new_list and multiz_append share them (arith/multiz.c:42-53);
    the structures of an earlier init_pairing_* call stay usable, although the
    storage of the global pairing is reused (712-718); the numeric status given
    to exit (720-725) is dropped; printed text is a list of values and words.
    Scanning, parsing and line editing are not modelled. *)
From Coq Require Import ZArith List Bool String Arith.
From Verif.Base Require Import Outcome.
From Verif.Spec Require Import Calculator.
Import ListNotations.
Open Scope Z_scope.

(** pbc/pbc.c:78-84 struct fun_s (without the code, see [run]). *)
Record fun_s := { fs_name : string; fs_arity : nat; fs_sig : list (option vtype) }.

(** pbc/pbc.c:231-235 the signature constants. *)
Definition sig_field : list (option vtype) := [Some TField].
Definition sig_elem : list (option vtype) := [Some TElem].
Definition sig_any : list (option vtype) := [None].
Definition sig_elem_elem : list (option vtype) := [Some TElem; Some TElem].
Definition sig_field_elem : list (option vtype) := [Some TField; Some TElem].

(** pbc/pbc.c:285-289, 346-351, 416, 588, 623, 632-633, 641-642, 649, 656, 662,
    670, 682, 689, 697, 710, 726, 734, 808-860: the [fun_t] constants. *)
Definition table (f : fn) : fun_s :=
  match f with
  | Arith Add => Build_fun_s "add" 2 sig_elem_elem
  | Arith Sub => Build_fun_s "sub" 2 sig_elem_elem
  | Arith Mul => Build_fun_s "mul" 2 sig_elem_elem
  | Arith Div => Build_fun_s "div" 2 sig_elem_elem
  | Arith Pow => Build_fun_s "pow" 2 sig_elem_elem
  | Order REq => Build_fun_s "==" 2 sig_elem_elem
  | Order RNe => Build_fun_s "!=" 2 sig_elem_elem
  | Order RLe => Build_fun_s "<=" 2 sig_elem_elem
  | Order RGe => Build_fun_s ">=" 2 sig_elem_elem
  | Order RLt => Build_fun_s "<" 2 sig_elem_elem
  | Order RGt => Build_fun_s ">" 2 sig_elem_elem
  | Neg => Build_fun_s "neg" 1 sig_elem
  | Item => Build_fun_s "item" 2 sig_elem_elem
  | NextPrime => Build_fun_s "nextprime" 1 sig_elem
  | Ord false => Build_fun_s "ord" 1 sig_field
  | Ord true => Build_fun_s "order" 1 sig_field
  | Random false => Build_fun_s "rnd" 1 sig_field
  | Random true => Build_fun_s "random" 1 sig_field
  | Sqrt => Build_fun_s "sqrt" 1 sig_elem
  | Inv => Build_fun_s "inv" 1 sig_elem
  | TypeOf => Build_fun_s "type" 1 sig_any
  | Pairing => Build_fun_s "pairing" 2 sig_elem_elem
  | Zmod => Build_fun_s "zmod" 1 sig_elem
  | Poly => Build_fun_s "poly" 1 sig_field
  | PolyMod => Build_fun_s "polymod" 1 sig_elem
  | Extend => Build_fun_s "extend" 1 sig_field_elem
  | Exit => Build_fun_s "exit" 1 sig_elem
  | Check => Build_fun_s "CHECK" 1 sig_elem
  | Init KA => Build_fun_s "init_pairing_a" 0 []
  | Init KD => Build_fun_s "init_pairing_d" 0 []
  | Init KE => Build_fun_s "init_pairing_e" 0 []
  | Init KF => Build_fun_s "init_pairing_f" 0 []
  | Init KG => Build_fun_s "init_pairing_g" 0 []
  | Init KI => Build_fun_s "init_pairing_i" 0 []
  end%string.

(** pbc/pbc.c:300-322 is0, isnot0, isle, isge, islt, isgt. *)
Definition cmp_test (o : order) (i : Z) : bool :=
  match o with
  | REq => i =? 0
  | RNe => negb (i =? 0)
  | RLe => i <=? 0
  | RGe => i >=? 0
  | RLt => i <? 0
  | RGt => i >? 0
  end.

(** pbc/pbc.c:222-228 the member [name] of the type descriptors. *)
Definition vtype_name (t : vtype) : string :=
  match t with
  | TElem => "element" | TField => "field" | TFun => "builtin"
  | TDef => "function" | TErr => "error"
  end.

(** misc/symtab.c:29-50 symtab_put: replace, or append a new entry. *)
Fixpoint put {A} (t : list (string * A)) (a : A) (x : string) : list (string * A) :=
  match t with
  | [] => [(x, a)]
  | (y, b) :: t' => if String.eqb x y then (y, a) :: t' else (y, b) :: put t' a x
  end.

(** misc/symtab.c:52-62 symtab_at; a NULL stored in the table looks like
    a missing entry. *)
Fixpoint at_ {A} (t : list (string * option A)) (x : string) : option A :=
  match t with
  | [] => None
  | (y, b) :: t' => if String.eqb x y then b else at_ t' x
  end.

Fixpoint upd {A} (l : list A) (i : nat) (a : A) : list A :=
  match l, i with
  | [], _ => []
  | _ :: t, O => a :: t
  | x :: t, S j => x :: upd t j a
  end.

Section Calculator.
  Variable L : lib.
  Notation tree := (tree (elem L)).
  Notation val := (val L).

  (** Memory; the table of reserved names and the table of variables
      (pbc/pbc.c:33-35, [reserved] and [tab]); calls of the random generator;
      standard output, latest line first.  An address of a variable may be NULL. *)
  Record state := St {
    heap : list val;
    reserved : list (string * option nat);
    tab : list (string * option nat);
    rcount : nat;
    sout : list (line L)
  }.

  (** pbc/pbc.c:237-270 val_new_element, val_new_field, val_new_error,
      val_new_fun: a fresh object. *)
  Definition new (v : val) (s : state) : option nat * state :=
    (Some (List.length (heap s)), St (heap s ++ [v]) (reserved s) (tab s) (rcount s) (sout s)).

  (** The error messages are formatted into a buffer of 80 bytes (251-263). *)
  Definition new_error (msg : string) (s : state) : option nat * state :=
    new (VErr (substring 0 79 msg)) s.

  Definition store (a : nat) (v : val) (s : state) : state :=
    St (upd (heap s) a v) (reserved s) (tab s) (rcount s) (sout s).
  Definition set_tab (x : string) (a : option nat) (s : state) : state :=
    St (heap s) (reserved s) (put (tab s) a x) (rcount s) (sout s).
  Definition set_reserved (x : string) (a : option nat) (s : state) : state :=
    St (heap s) (put (reserved s) a x) (tab s) (rcount s) (sout s).
  Definition print (l : line L) (s : state) : state :=
    St (heap s) (reserved s) (tab s) (rcount s) (l :: sout s).

  (** Following a [val_ptr]; a null or wild pointer is undefined behaviour. *)
  Definition deref (a : option nat) (s : state) : res val :=
    match a with
    | None => UB
    | Some i => match nth_error (heap s) i with Some v => Ok v | None => UB end
    end.
  (** Reading the member [elem] or [field] of the union: undefined for a value
      of another kind. *)
  Definition get_elem (a : option nat) (s : state) : res (elem L) :=
    v <- deref a s ;; match v with VElem e => Ok e | _ => UB end.
  Definition get_field (a : option nat) (s : state) : res (fieldT L) :=
    v <- deref a s ;; match v with VField f => Ok f | _ => UB end.
  (** [v->elem] overwritten, or the element it points to. *)
  Definition set_elem (a : option nat) (e : elem L) (s : state) : res state :=
    match a with None => UB | Some i => Ok (store i (VElem e) s) end.

  (** pbc/pbc.c:428-430 assign_field; 712-718 init_pairing. *)
  Definition assign_field (f : fieldT L) (x : string) (s : state) : state :=
    let '(a, s1) := new (VField f) s in set_tab x a s1.
  Definition init_pairing (k : kind) (s : state) : state :=
    let s := assign_field (l_group L k "G1") "G1" s in
    let s := assign_field (l_group L k "G2") "G2" s in
    let s := assign_field (l_group L k "GT") "GT" s in
    assign_field (l_group L k "Zr") "Zr" s.

  (** In-place unary operation returning its argument. *)
  Definition in_place (op : elem L -> res (elem L)) (a : option nat) (s : state)
    : res (option nat * state) :=
    e <- get_elem a s ;; e' <- op e ;; s1 <- set_elem a e' s ;; Ok (a, s1).

  (** pbc/pbc.c:272-283 fun_bin, run_add..run_pow; 291-298 fun_cmp and 324-344;
      412-415 run_neg; 576-587 run_item; 614-622 run_nextprime; 625-631
      run_order; 635-640 run_random; 644-648 run_sqrt; 651-655 run_invert;
      658-661 run_type; 664-669 run_pairing; 672-681 run_zmod; 684-688 run_poly;
      691-696 run_polymod; 699-709 run_extend (arity 1: [v[1]] is not there);
      720-725 run_exit; 728-733 run_CHECK; 808-860 run_init_pairing_*. *)
  Definition run (f : fn) (v : list (option nat)) (s : state) : res (option nat * state) :=
    match f, v with
    | Arith o, [a; b] =>
      x <- get_elem a s ;; y <- get_elem b s ;;
      z <- l_arith L o x y ;;
      s1 <- set_elem a z s ;; Ok (a, s1)
    | Order o, [a; b] =>
      x <- get_elem a s ;; y <- get_elem b s ;;
      i <- l_cmp L x y ;;
      s1 <- set_elem a (l_of_z L (if cmp_test o i then 1 else 0)) s ;; Ok (a, s1)
    | Neg, [a] => in_place (l_neg L) a s
    | Sqrt, [a] => in_place (l_sqrt L) a s
    | Inv, [a] => in_place (l_inv L) a s
    | NextPrime, [a] => in_place (l_nextprime L) a s
    | Item, [a; b] =>
      x <- get_elem a s ;; y <- get_elem b s ;;
      z <- l_item L x y ;; Ok (new (VElem z) s)
    | Ord _, [a] => f <- get_field a s ;; Ok (new (VElem (l_order L f)) s)
    | Random _, [a] =>
      f <- get_field a s ;;
      Ok (new (VElem (l_random L f (rcount s)))
              (St (heap s) (reserved s) (tab s) (S (rcount s)) (sout s)))
    | TypeOf, [a] => x <- deref a s ;; Ok (a, print (Word (vtype_name (type_of x))) s)
    | Pairing, [a; b] =>
      x <- get_elem a s ;; y <- get_elem b s ;;
      z <- l_pairing L x y ;; Ok (new (VElem z) s)
    | Zmod, [a] => x <- get_elem a s ;; f <- l_zmod L x ;; Ok (new (VField f) s)
    | Poly, [a] => f <- get_field a s ;; g <- l_poly L f ;; Ok (new (VField g) s)
    | PolyMod, [a] => x <- get_elem a s ;; f <- l_polymod L x ;; Ok (new (VField f) s)
    | Exit, [a] => x <- get_elem a s ;; Die
    | Check, [a] =>
      x <- get_elem a s ;; z <- l_is0 L x ;; if z then Die else Ok (a, s)
    | Init k, [] => Ok (None, init_pairing k s)
    | _, _ => UB
    end.

  (** pbc/pbc.c:140-146, loop of v_builtin. *)
  Fixpoint eval_args (ev : tree -> state -> res (option nat * state))
           (fun_ : fun_s) (i : nat) (ts : list tree) (s : state)
    : res ((option nat + list (option nat)) * state) :=
    match ts with
    | [] => Ok (inr [], s)
    | t :: ts' =>
      p <- ev t s ;;
      let '(a, s1) := p in
      bad <- match nth i (fs_sig fun_) None with
             | None => Ok false
             | Some ty => x <- deref a s1 ;; Ok (negb (vtype_eqb (type_of x) ty))
             end ;;
      if (bad : bool) then
        let '(e, s2) := new_error (fs_name fun_ ++ ": argument "
                                   ++ (if (i =? 0)%nat then "1" else "2")
                                   ++ " type mismatch")%string s1 in
        Ok (inl e, s2)
      else
        q <- eval_args ev fun_ (S i) ts' s1 ;;
        let '(r, s2) := q in
        Ok (match r with inl e => inl e | inr l => inr (a :: l) end, s2)
    end.

  (** pbc/pbc.c:133-150 v_builtin. *)
  Definition v_builtin (ev : tree -> state -> res (option nat * state))
             (f : fn) (ts : list tree) (s : state) : res (option nat * state) :=
    let fun_ := table f in
    if (1 + fs_arity fun_ =? 1 + List.length ts)%nat then
      q <- eval_args ev fun_ 0 ts s ;;
      let '(r, s1) := q in
      match r with inl e => Ok (e, s1) | inr l => run f l s1 end
    else Ok (new_error (fs_name fun_ ++ ": wrong number of arguments")%string s).

  (** pbc/pbc.c:152-154, 170-172: the statements of a body, results dropped. *)
  Fixpoint eval_body (ev : tree -> state -> res (option nat * state))
           (ts : list tree) (s : state) : res state :=
    match ts with
    | [] => Ok s
    | t :: ts' => r <- ev t s ;; eval_body ev ts' (snd r)
    end.

  (** pbc/pbc.c:164-169: the parameters are entered in the table of variables. *)
  Fixpoint eval_parms (ev : tree -> state -> res (option nat * state))
           (ps : list string) (ts : list tree) (s : state) : res state :=
    match ps, ts with
    | p :: ps', t :: ts' =>
      r <- ev t s ;; let '(a, s1) := r in eval_parms ev ps' ts' (set_tab p a s1)
    | _, _ => Ok s
    end.

  (** pbc/pbc.c:156-174 v_def_call. *)
  Definition v_def_call (ev : tree -> state -> res (option nat * state))
             (x : string) (ps : list string) (body : list tree) (ts : list tree) (s : state)
    : res (option nat * state) :=
    if (1 + List.length ps =? 1 + List.length ts)%nat then
      s1 <- eval_parms ev ps ts s ;;
      s2 <- eval_body ev body s1 ;;
      Ok (None, s2)
    else Ok (new_error (x ++ ": wrong number of arguments")%string s).

  (** pbc/pbc.c:176-203 v_field_cast.  Without arguments the first child is the
      function itself, whose field is then read as an element. *)
  Definition v_field_cast (ev : tree -> state -> res (option nat * state))
             (f : fieldT L) (ts : list tree) (s : state) : res (option nat * state) :=
    match ts with
    | [] => UB
    | t :: _ =>
      r <- ev t s ;;
      let '(x, s1) := r in
      e <- get_elem x s1 ;;
      if l_is_int L (l_field L e) then
        if l_is_int L f then Ok (x, s1)
        else
          z <- l_is0 L e ;;
          e2 <- (if (z : bool) then Ok (l_set0 L f)
                 else o <- l_is1 L e ;;
                      if (o : bool) then Ok (l_set1 L f) else l_convert L f e) ;;
          s2 <- set_elem x e2 s1 ;; Ok (x, s2)
      else if l_is_int L f then
        e2 <- l_to_int L e ;; s2 <- set_elem x e2 s1 ;; Ok (x, s2)
      else Ok (x, s1)
    end.

  (** pbc/pbc.c:361-378 eval_list. *)
  Fixpoint eval_list (ev : tree -> state -> res (option nat * state))
           (e : option (elem L)) (ts : list tree) (s : state) : res (option nat * state) :=
    match ts with
    | [] => match e with Some l => Ok (new (VElem l) s) | None => UB end
    | t :: ts' =>
      r <- ev t s ;;
      let '(a, s1) := r in
      x <- deref a s1 ;;
      match x with
      | VErr _ => Ok (a, s1)
      | VElem y =>
        l <- match e with None => l_list1 L y | Some l => l_append L l y end ;;
        eval_list ev (Some l) ts' s1
      | _ => Ok (new_error "element expected in list" s1)
      end
    end.

  (** pbc/pbc.c:115-120 v_elem_eval, 209-211 v_self, 222-228: a variable read. *)
  Definition v_eval (a : option nat) (s : state) : res (option nat * state) :=
    x <- deref a s ;;
    match x with
    | VElem e => Ok (new (VElem e) s)
    | _ => Ok (a, s)
    end.

  (** pbc/pbc.c:107-109 tree_eval; 353-359 eval_elem; 380-392 eval_ternary;
      394-401 eval_id; 403-406 eval_funcall; 408-410 eval_fun; 418-426
      eval_assign; 465-471 eval_define.  [n] bounds the depth of the recursion.
      The function of a call is its last child; a value of kind element has no
      [funcall] (224), so calling one jumps to address 0. *)
  Fixpoint eval (n : nat) (t : tree) (s : state) : res (option nat * state) :=
    match n with
    | O => OutOfFuel
    | S m =>
      match t with
      | Lit e => Ok (new (VElem e) s)
      | Fn f => Ok (new (VFun f) s)
      | Id x =>
        match at_ (reserved s) x with
        | Some a => v_eval (Some a) s
        | None =>
          match at_ (tab s) x with
          | Some a => v_eval (Some a) s
          | None => Ok (new_error ("undefined variable " ++ x)%string s)
          end
        end
      | ListOf l => eval_list (eval m) None l s
      | Tern c a b =>
        r <- eval m c s ;;
        let '(x, s1) := r in
        v <- deref x s1 ;;
        match v with
        | VErr _ => Ok (x, s1)
        | VElem e => z <- l_is0 L e ;; if negb z then eval m a s1 else eval m b s1
        | _ => Ok (new_error "element expected in ternary operator" s1)
        end
      | Assign x t1 =>
        r <- eval m t1 s ;;
        let '(a, s1) := r in
        match at_ (reserved s1) x with
        | Some _ => Ok (new_error (x ++ " is reserved")%string s1)
        | None => Ok (a, set_tab x a s1)
        end
      | Define x ps body =>
        let '(a, s1) := new (VDef x ps body) s in Ok (a, set_tab x a s1)
      | Call f args =>
        r <- eval m f s ;;
        let '(x, s1) := r in
        v <- deref x s1 ;;
        match v with
        | VElem _ => UB
        | VErr _ => Ok (x, s1)
        | VField k => v_field_cast (eval m) k args s1
        | VFun g => v_builtin (eval m) g args s1
        | VDef y ps body => v_def_call (eval m) y ps body args s1
        end
      end
    end.

  (** pbc/pbc.c:603-612 tree_eval_stmt. *)
  Definition eval_stmt (n : nat) (t : tree) (s : state) : res state :=
    r <- eval n t s ;;
    let '(a, s1) := r in
    match a with
    | None => Ok s1
    | Some _ =>
      v <- deref a s1 ;;
      match v with
      | VErr m => Ok (print (Shown (VErr m)) s1)
      | _ => if match t with Assign _ _ => true | _ => false end then Ok s1
             else Ok (print (Shown v) s1)
      end
    end.

  (** The statements of the input, one after the other (pbc/parser.y:35-38). *)
  Fixpoint eval_program (n : nat) (ts : list tree) (s : state) : res state :=
    match ts with
    | [] => Ok s
    | t :: ts' => s1 <- eval_stmt n t s ;; eval_program n ts' s1
    end.

  (** Observation: the value a variable is bound to. *)
  Definition look (s : state) (x : string) : option val :=
    match at_ (tab s) x with Some a => nth_error (heap s) a | None => None end.

  (** pbc/pbc.c:862-864 builtin. *)
  Definition builtin (f : fn) (s : state) : state :=
    let '(a, s1) := new (VFun f) s in set_reserved (fs_name (table f)) a s1.
  Definition reserve_field (x : string) (f : fieldT L) (s : state) : state :=
    let '(a, s1) := new (VField f) s in set_reserved x a s1.

  (** pbc/pbc.c:908-936: what main does before it reads the input. *)
  Definition boot : state :=
    let s := fold_left (fun s f => builtin f s)
      [Random false; Random true; Ord false; Ord true; NextPrime; Sqrt; Inv; TypeOf;
       Pairing; Zmod; Poly; PolyMod; Extend; Exit; Check; Init KA; Init KD; Init KE;
       Init KF; Init KG; Init KI] (St [] [] [] 0 []) in
    let s := init_pairing KA s in
    let s := reserve_field "M" (l_ints L) s in
    reserve_field "Z" (l_bigints L) s.
End Calculator.
Arguments St {L}. Arguments heap {L}. Arguments reserved {L}. Arguments tab {L}.
Arguments rcount {L}. Arguments sout {L}.
