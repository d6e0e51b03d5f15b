(** ecc/param.c and the *_out_str / pbc_param_init_* functions of each pairing
    type: parameters as text.  Characters are their codes (list Z); a memory
    block read through a [const char *] is a list, and reading past its end is
    UB.  A parameter structure is its type and the value of each of its members,
    named by the key under which the code prints and looks it up. *)
From Coq Require Import ZArith List Bool String Ascii.
From Verif.Base Require Import Outcome Array.
From Verif.Model Require Import Memory Darray Symtab.
Import ListNotations.
Open Scope Z_scope.
Delimit Scope string_scope with string.

Definition txt (s : string) : list Z := map (fun c => Z.of_nat (nat_of_ascii c)) (list_ascii_of_string s).

(** * GMP text conversion *)
Fixpoint decimal_digits (fuel : nat) (n : Z) (acc : list Z) : list Z :=
  match fuel with
  | O => acc
  | S f => if n <? 10 then 48 + n :: acc else decimal_digits f (n / 10) (48 + n mod 10 :: acc)
  end.
(** GMP mpz_out_str (stream, 0, z): base 0 means base 10. *)
Definition mpz_out_str (z : Z) : list Z :=
  (if z <? 0 then [45] else []) ++ decimal_digits (S (Z.to_nat (Z.log2 (Z.abs z)))) (Z.abs z) [].

Definition isspace (c : Z) : bool := (c =? 32) || ((9 <=? c) && (c <=? 13)).
Definition digit_of (c : Z) : Z :=
  if (48 <=? c) && (c <=? 57) then c - 48
  else if (65 <=? c) && (c <=? 90) then c - 55
  else if (97 <=? c) && (c <=? 122) then c - 87 else 255.
Fixpoint digits_base (b : Z) (s : list Z) (acc : Z) : option Z :=
  match s with
  | [] => Some acc
  | c :: s' => if isspace c then digits_base b s' acc
               else if digit_of c <? b then digits_base b s' (acc * b + digit_of c) else None
  end.
Fixpoint skip_space (s : list Z) : list Z :=
  match s with c :: s' => if isspace c then skip_space s' else s | [] => [] end.
(** GMP mpz_set_str (z, s, 0), s without its terminator: the value, or None when
    the text is refused (-1 is returned and z keeps its value). *)
Definition mpz_set_str0 (s : list Z) : option Z :=
  let s := skip_space s in
  let '(neg, s) := match s with 45 :: s' => (true, s') | _ => (false, s) end in
  match s with
  | [] => None
  | c :: _ =>
    if 10 <=? digit_of c then None
    else
      let '(b, s) :=
        if c =? 48 then
          match tl s with
          | x :: s' => if (x =? 120) || (x =? 88) then (16, s')
                       else if (x =? 98) || (x =? 66) then (2, s') else (8, x :: s')
          | [] => (8, [])
          end
        else (10, s) in
      match digits_base b s 0 with
      | Some v => Some (if neg then - v else v)
      | None => None
      end
  end.
(** GMP mpz_get_si, 64-bit long *)
Definition mpz_get_si (z : Z) : Z :=
  if 0 <=? z then z mod 2 ^ 63 else - 1 - ((- z - 1) mod 2 ^ 63).
(** conversion of a long to int *)
Definition to_int (z : Z) : Z := (z + 2 ^ 31) mod 2 ^ 32 - 2 ^ 31.

(** * The tokeniser *)
Definition stream : Type := list Z * option nat.    (* memory at [input]; [end - input] if end is not NULL *)

(** param.c:46 the macro get(): None when it evaluates to 1 *)
Definition getc (st : stream) : res (option (Z * stream)) :=
  match snd st with
  | Some O => Ok None
  | e =>
    match fst st with
    | [] => UB
    | c :: s => if c =? 0 then Ok None
                else Ok (Some (c, (s, match e with Some n => Some (Nat.pred n) | None => None end)))
    end
  end.
(** param.c:54 *)
Definition blank (c : Z) : bool := (c =? 32) || (c =? 9) || (c =? 13) || (c =? 10).
(** param.c:74 *)
Definition delimiter (c : Z) : bool := blank c || (c =? 60) || (c =? 47) || (c =? 62).

(** param.c:48-63: skip white space and comments; [comment] tells which of the
    two inner loops is running.  None is end of input. *)
Fixpoint skip (fuel : nat) (comment : bool) (st : stream) : res (option (Z * stream)) :=
  match fuel with
  | O => OutOfFuel
  | S f =>
    r <- getc st ;;
    match r with
    | None => Ok None
    | Some (c, st) =>
      if comment then skip f (negb (c =? 10)) st
      else if blank c then skip f false st
      else if c =? 35 then skip f true st
      else Ok (Some (c, st))
    end
  end.
(** param.c:69-75.  The buffer grows with the word (pbc_realloc by 32), its
    contents are the accumulated characters. *)
Fixpoint word (fuel : nat) (buf : list Z) (c : Z) (st : stream) : res (list Z * stream) :=
  match fuel with
  | O => OutOfFuel
  | S f =>
    let buf := buf ++ [c] in
    r <- getc st ;;
    match r with
    | None => Ok (buf, st)
    | Some (c, st) => if delimiter c then Ok (buf, st) else word f buf c st
    end
  end.
(** param.c:41-81; the fuel bounds both loops, each consuming a character *)
Definition token_get (st : stream) : res (option (list Z * stream)) :=
  let fuel := S (List.length (fst st)) in
  r <- skip fuel false st ;;
  match r with
  | None => Ok None
  | Some (c, st) => ' w <- word fuel [] c st ;; Ok (Some w)
  end.

Section Param.
Variables (bl : build) (junk : nat -> list (list Z * list Z)).   (* build and fresh memory, for the symbol table *)
Notation table := (darray (list Z * list Z)).

(** param.c:92-111 *)
Fixpoint read_loop (fuel : nat) (tab : table) (st : stream) : res table :=
  match fuel with
  | O => OutOfFuel
  | S f =>
    k <- token_get st ;;
    match k with
    | None => Ok tab
    | Some (key, st) =>
      v <- token_get st ;;
      match v with
      | None => Ok tab
      | Some (val, st) => tab <- symtab_put bl junk tab val key ;; read_loop f tab st
      end
    end
  end.
(** :94 [inputend = limit ? input + limit : NULL] *)
Definition read_symtab (tab : table) (input : list Z) (limit : nat) : res table :=
  read_loop (S (List.length input)) tab (input, match limit with O => None | _ => Some limit end).

(** * Parameter structures *)
Inductive ptype := TA | TA1 | TD | TE | TF | TG | TI.
Inductive kind := Mpz | Int.
Definition member : Type := list Z * kind.
Definition values : Type := list Z -> Z.

Definition mz (s : string) : member := (txt s, Mpz).
Definition mi (s : string) : member := (txt s, Int).
(** sprintf (s, "coeff%d", i), d_param.c:88, :1220; g_param.c:80, :1396 *)
Definition coeff_key (i : nat) : list Z := txt "coeff" ++ mpz_out_str (Z.of_nat i).
Definition coeffs (d : nat) : list member := map (fun i => (coeff_key i, Mpz)) (seq 0 d).

Definition type_name (T : ptype) : list Z :=
  match T with
  | TA => txt "a" | TA1 => txt "a1" | TD => txt "d" | TE => txt "e" | TF => txt "f" | TG => txt "g" | TI => txt "i"
  end.
(** param.c:173-184 *)
Definition funtab : list ptype := [TA; TD; TE; TF; TG; TA1; TI].

(** the members in the order they are printed:
    a_param.c:36-46, :1587-1593; d_param.c:73-93 (d = k / 2); e_param.c:50-62;
    f_param.c:60-69; g_param.c:66-84; eta_T_3.c:738-746.
    d_out_str formats "coeff%d" into a buffer of 8 characters. *)
Definition out_members (T : ptype) (v : values) : res (list member) :=
  match T with
  | TA => Ok [mz "q"; mz "h"; mz "r"; mi "exp2"; mi "exp1"; mi "sign1"; mi "sign0"]
  | TA1 => Ok [mz "p"; mz "n"; mi "l"]
  | TD =>
    let d := Z.to_nat (Z.quot (v (txt "k")) 2) in
    if (100 <? d)%nat then UB
    else Ok ([mz "q"; mz "n"; mz "h"; mz "r"; mz "a"; mz "b"; mi "k"; mz "nk"; mz "hk"] ++ coeffs d ++ [mz "nqr"])
  | TE => Ok [mz "q"; mz "r"; mz "h"; mz "a"; mz "b"; mi "exp2"; mi "exp1"; mi "sign1"; mi "sign0"]
  | TF => Ok [mz "q"; mz "r"; mz "b"; mz "beta"; mz "alpha0"; mz "alpha1"]
  | TG => Ok ([mz "q"; mz "n"; mz "h"; mz "r"; mz "a"; mz "b"; mz "nk"; mz "hk"] ++ coeffs 5 ++ [mz "nqr"])
  | TI => Ok [mi "m"; mi "t"; mz "n"; mz "n2"]
  end.
(** param.c:120-133: "<key> <decimal>\n" *)
Definition out_member (v : values) (m : member) : list Z := fst m ++ [32] ++ mpz_out_str (v (fst m)) ++ [10].
(** pbc_param_out_str: param.c:115-117 then the members *)
Definition param_out_str (T : ptype) (v : values) : res (list Z) :=
  ms <- out_members T v ;;
  Ok (txt "type " ++ type_name T ++ [10] ++ flat_map (out_member v) ms).

(** param.c:135-141 lookup *)
Definition lookup (tab : table) (key : list Z) : res (option (list Z)) :=
  h <- symtab_has tab key ;; if h : bool then symtab_at tab key else Ok None.

(** [err += lookup_mpz (...)] / [err += lookup_int (...)], param.c:143-168.
    An mpz member was mpz_init'ed to 0 and keeps this value if the text is
    refused; lookup_int reads into a fresh mpz. *)
Definition read_member (tab : table) (m : member) (s : Z * values) : res (Z * values) :=
  let '(err, v) := s in
  d <- lookup tab (fst m) ;;
  match d with
  | None => Ok (err + 1, v)
  | Some w =>
    let z := match mpz_set_str0 w with Some z => z | None => match snd m with Mpz => v (fst m) | Int => 0 end end in
    let z := match snd m with Mpz => z | Int => to_int (mpz_get_si z) end in
    Ok (err, fun k => if key_eqb k (fst m) then z else v k)
  end.
Fixpoint read_members (tab : table) (ms : list member) (s : Z * values) : res (Z * values) :=
  match ms with [] => Ok s | m :: ms' => s <- read_member tab m s ;; read_members tab ms' s end.

(** the members in the order they are looked up, without type D's coefficients:
    a_param.c:1489-1502, :2289-2298; d_param.c:1203-1213; e_param.c:889-906;
    f_param.c:467-479; g_param.c:1378-1402; eta_T_3.c:748-767 *)
Definition in_members (T : ptype) : list member :=
  match T with
  | TA => [mz "q"; mz "r"; mz "h"; mi "exp2"; mi "exp1"; mi "sign1"; mi "sign0"]
  | TA1 => [mz "p"; mz "n"; mi "l"]
  | TD => [mz "q"; mz "n"; mz "h"; mz "r"; mz "a"; mz "b"; mi "k"; mz "nk"; mz "hk"; mz "nqr"]
  | TE => [mz "q"; mz "r"; mz "h"; mz "a"; mz "b"; mi "exp2"; mi "exp1"; mi "sign1"; mi "sign0"]
  | TF => [mz "q"; mz "r"; mz "b"; mz "beta"; mz "alpha0"; mz "alpha1"]
  | TG => [mz "q"; mz "n"; mz "h"; mz "r"; mz "a"; mz "b"; mz "nk"; mz "hk"; mz "nqr"] ++ coeffs 5
  | TI => [mi "m"; mi "t"; mz "n"; mz "n2"]
  end.
(** pbc_param_init_X: result err and the structure.  d_param_init clears
    the int member k; the int members of the other types' fresh structures are
    unspecified, here 0: they are observable only when err is not 0.
    d_param.c:1215-1224: d = k / 2 coefficients; pbc_realloc of a negative
    (hence enormous) size ends in pbc_die; malloc of 0 bytes succeeds. *)
Definition param_init (T : ptype) (tab : table) : res (Z * values) :=
  s <- read_members tab (in_members T) (0, fun _ => 0) ;;
  match T with
  | TD =>
    let d := Z.quot (snd s (txt "k")) 2 in
    if d <? 0 then Die else read_members tab (coeffs (Z.to_nat d)) s
  | _ => Ok s
  end.

Fixpoint find_type (l : list ptype) (s : list Z) : option ptype :=
  match l with [] => None | T :: l' => if key_eqb s (type_name T) then Some T else find_type l' s end.
Record outcome := { ret : Z; ptyp : option ptype; vals : values }.
(** param.c:170-200 *)
Definition param_set_tab (tab : table) : res outcome :=
  s <- lookup tab (txt "type") ;;
  match match s with Some s => find_type funtab s | None => None end with
  | None => Ok {| ret := 1; ptyp := None; vals := fun _ => 0 |}
  | Some T => ' (err, v) <- param_init T tab ;; Ok {| ret := err; ptyp := Some T; vals := v |}
  end.
(** param.c:204-224 *)
Definition param_init_set_buf (input : list Z) (len : nat) : res outcome :=
  tab <- read_symtab (symtab_init junk) input len ;; param_set_tab tab.
Definition param_init_set_str (input : list Z) : res outcome := param_init_set_buf input 0.
End Param.
