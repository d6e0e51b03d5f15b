(** Multinomials over the integers as objects in memory (arith/multiz.c):
    every node is a block of storage, an element points to one.  Model/Multiz.v
    has the values.

    Blocks are numbered in the order of their allocation and are never handed
    out again; the storage of the mpz or of the array inside a node goes with
    the node.  [n] bounds the depth of recursion. *)
From Coq Require Import ZArith List Bool.
From Verif.Base Require Import Outcome.
Import ListNotations.
Open Scope Z_scope.

(** arith/multiz.c:22-33 struct multiz_s; a list holds pointers. *)
Inductive cell := NZ (z : Z) | NA (l : list nat).
(** [None]: the block has been freed. *)
Definition heap := list (option cell).

Fixpoint update {A} (l : list A) (i : nat) (a : A) : list A :=
  match l, i with
  | [], _ => []
  | _ :: t, O => a :: t
  | x :: t, S j => x :: update t j a
  end.

(** Access to a block that is free or was never allocated, and freeing such a
    block, is undefined. *)
Definition read (h : heap) (a : nat) : res cell :=
  match nth_error h a with Some (Some c) => Ok c | _ => UB end.
Definition write (h : heap) (a : nat) (c : cell) : res heap :=
  _ <- read h a ;; Ok (update h a (Some c)).
Definition free (h : heap) (a : nat) : res heap :=
  _ <- read h a ;; Ok (update h a None).
(** arith/multiz.c:35-40 multiz_new_empty_list, 47-52 multiz_new. *)
Definition alloc (h : heap) (c : cell) : nat * heap := (length h, h ++ [Some c]).

(** misc/darray.c darray_append on the list of a node; on an integer the union
    is read as the wrong member. *)
Definition append_to (h : heap) (x y : nat) : res heap :=
  c <- read h x ;;
  match c with NA l => write h x (NA (l ++ [y])) | NZ _ => UB end.

(** arith/multiz.c:58-71 multiz_free: the members, then the node. *)
Fixpoint multiz_free (n : nat) (a : nat) (h : heap) : res heap :=
  match n with
  | O => OutOfFuel
  | S m =>
    c <- read h a ;;
    h1 <- match c with
          | NZ _ => Ok h
          | NA l => fold_left (fun r y => h <- r ;; multiz_free m y h) l (Ok h)
          end ;;
    free h1 a
  end.

(** arith/multiz.c:160-187 multiz_new_unary, add_to_x. *)
Fixpoint new_unary (n : nat) (f : Z -> Z) (y : nat) (h : heap) : res (nat * heap) :=
  match n with
  | O => OutOfFuel
  | S m =>
    c <- read h y ;;
    match c with
    | NZ z => Ok (alloc h (NZ (f z)))
    | NA l =>
      let '(x, h1) := alloc h (NA []) in
      h2 <- fold_left (fun r y' =>
              h <- r ;; p <- new_unary m f y' h ;; append_to (snd p) x (fst p)) l (Ok h1) ;;
      Ok (x, h2)
    end
  end.
(** arith/multiz.c:194-196 multiz_clone. *)
Definition new_clone (n : nat) (y : nat) (h : heap) : res (nat * heap) := new_unary n (fun z => z) y h.

(** arith/multiz.c:132-138, 209, 220: down the first members, to an integer. *)
Fixpoint leaf (n : nat) (a : nat) (h : heap) : res (nat * Z) :=
  match n with
  | O => OutOfFuel
  | S m =>
    c <- read h a ;;
    match c with
    | NZ z => Ok (a, z)
    | NA (x :: _) => leaf m x h
    | NA [] => UB
    end
  end.

(** arith/multiz.c:198-248 multiz_new_bin. *)
Fixpoint new_bin (n : nat) (f : Z -> Z -> Z) (a b : nat) (h : heap) : res (nat * heap) :=
  match n with
  | O => OutOfFuel
  | S m =>
    ca <- read h a ;; cb <- read h b ;;
    match ca, cb with
    | NZ x, NZ y => Ok (alloc h (NZ (f x y)))
    | NZ x, NA _ =>
      p <- new_clone n b h ;; let '(r, h1) := p in
      q <- leaf n r h1 ;; h2 <- write h1 (fst q) (NZ (f x (snd q))) ;; Ok (r, h2)
    | NA _, NZ y =>
      p <- new_clone n a h ;; let '(r, h1) := p in
      q <- leaf n r h1 ;; h2 <- write h1 (fst q) (NZ (f y (snd q))) ;; Ok (r, h2)
    | NA la, NA lb =>
      let '(x, h1) := alloc h (NA []) in
      (* the common part *)
      h2 <- fold_left (fun r p =>
              h <- r ;; q <- new_bin m f (fst p) (snd p) h ;; append_to (snd q) x (fst q))
              (combine la lb) (Ok h1) ;;
      (* the rest of the longer list, against a temporary zero *)
      let '(zero, h3) := alloc h2 (NZ 0) in
      h4 <- fold_left (fun r p =>
              h <- r ;; q <- new_bin m f (fst p) (snd p) h ;; append_to (snd q) x (fst q))
              (map (fun y => (y, zero)) (skipn (length lb) la) ++
               map (fun y => (zero, y)) (skipn (length la) lb)) (Ok h3) ;;
      h5 <- free h4 zero ;; Ok (x, h5)
    end
  end.

(** arith/multiz.c:268-305 multiz_new_mul. *)
Fixpoint new_mul (n : nat) (a b : nat) (h : heap) : res (nat * heap) :=
  match n with
  | O => OutOfFuel
  | S m =>
    ca <- read h a ;; cb <- read h b ;;
    match ca, cb with
    | NZ x, _ => new_unary n (fun z => z * x) b h
    | NA _, NZ y => new_unary n (fun z => z * y) a h
    | NA la, NA lb =>
      let '(x, h1) := alloc h (NA []) in
      let '(zero, h2) := alloc h1 (NZ 0) in
      h3 <- fold_left (fun r i =>
              h <- r ;;
              let '(z0, h) := alloc h (NZ 0) in
              p <- fold_left (fun r j =>
                     s <- r ;; let '(z, h) := s in
                     py <- new_mul m (nth j la zero) (nth (i - j) lb zero) h ;;
                     pt <- new_bin m Z.add z (fst py) (snd py) ;;
                     h <- multiz_free m (fst py) (snd pt) ;;
                     h <- multiz_free m z h ;;
                     Ok (fst pt, h)) (seq 0 (i + 1)) (Ok (z0, h)) ;;
              append_to (snd p) x (fst p)) (seq 0 (length la + length lb - 1)) (Ok h2) ;;
      h4 <- multiz_free m zero h3 ;; Ok (x, h4)
    end
  end.

(** Elements: [data] of the element in slot i, if it was initialised.  The
    pointer stays in a slot that is cleared, as in C. *)
Record mem := Mem { cells : heap; slots : nat -> option nat }.
Definition data (s : mem) (i : nat) : res nat :=
  match slots s i with Some a => Ok a | None => UB end.
Definition set_data (s : mem) (h : heap) (i a : nat) : mem :=
  Mem h (fun j => if Nat.eqb j i then Some a else slots s j).

(** The calls. *)
Inductive call :=
| CInit (i : nat)                    (* element_init *)
| CClear (i : nat)                   (* element_clear *)
| CSetZ (i : nat) (z : Z)            (* set_si, set_mpz, set0, set1, from_hash, set_str, random *)
| CSet (i j : nat)                   (* set, set_multiz *)
| CAdd (i j k : nat) | CSub (i j k : nat) | CMul (i j k : nat)
| CNeg (i j : nat) | CMulZ (i j : nat) (z : Z)
| CDiv (i j k : nat)
| CNewList (i j : nat)               (* multiz_new_list, the result in slot i *)
| CAppend (i j : nat)                (* multiz_append *)
| CItem (i j k : nat).               (* element_item, the result in slot i *)

(** [replace s i p]: the old data of slot i is freed after the new one is made. *)
Definition replace (n : nat) (s : mem) (i : nat) (p : nat * heap) : res mem :=
  d <- data s i ;; h <- multiz_free n d (snd p) ;; Ok (set_data s h i (fst p)).

Definition call_step (n : nat) (s : mem) (c : call) : res mem :=
  match c with
  (* 54-56 f_init *)
  | CInit i => let '(a, h) := alloc (cells s) (NZ 0) in Ok (set_data s h i a)
  (* 73-75 f_clear *)
  | CClear i => d <- data s i ;; h <- multiz_free n d (cells s) ;; Ok (Mem h (slots s))
  (* 86-109 f_set_si, f_set_mpz, f_set0, f_set1; 374-386 f_random, f_from_hash; 519-528 f_set_str *)
  | CSetZ i z =>
    d <- data s i ;; h <- multiz_free n d (cells s) ;;
    let '(a, h1) := alloc h (NZ z) in Ok (set_data s h1 i a)
  (* 339-343 f_set, 530-534 f_set_multiz *)
  | CSet i j => d <- data s j ;; p <- new_clone n d (cells s) ;; replace n s i p
  (* 253-266 f_add, f_sub; 306-310 f_mul *)
  | CAdd i j k => a <- data s j ;; b <- data s k ;; p <- new_bin n Z.add a b (cells s) ;; replace n s i p
  | CSub i j k => a <- data s j ;; b <- data s k ;; p <- new_bin n Z.sub a b (cells s) ;; replace n s i p
  | CMul i j k => a <- data s j ;; b <- data s k ;; p <- new_mul n a b (cells s) ;; replace n s i p
  (* 345-349 f_neg; 312-326 f_mul_mpz, f_mul_si *)
  | CNeg i j => d <- data s j ;; p <- new_unary n Z.opp d (cells s) ;; replace n s i p
  | CMulZ i j z => d <- data s j ;; p <- new_unary n (fun x => x * z) d (cells s) ;; replace n s i p
  (* 351-359 f_div; GMP traps division by zero *)
  | CDiv i j k =>
    b <- data s k ;; q <- leaf n b (cells s) ;;
    a <- data s j ;;
    if snd q =? 0 then Die
    else p <- new_unary n (fun x => Z.quot x (snd q)) a (cells s) ;; replace n s i p
  (* 77-84 multiz_new_list; 42-45 multiz_append: the member is not copied *)
  | CNewList i j =>
    d <- data s j ;;
    let '(a, h) := alloc (cells s) (NZ 0) in
    h1 <- multiz_free n a h ;;
    let '(x, h2) := alloc h1 (NA []) in
    h3 <- append_to h2 x d ;; Ok (set_data s h3 i x)
  | CAppend i j =>
    x <- data s i ;; d <- data s j ;; h <- append_to (cells s) x d ;; Ok (Mem h (slots s))
  (* 410-417 f_item: points into the list; a null pointer for an integer is
     not modelled further *)
  | CItem i j k =>
    d <- data s j ;; c <- read (cells s) d ;;
    match c with
    | NZ _ => UB
    | NA l => match nth_error l k with Some a => Ok (set_data s (cells s) i a) | None => UB end
    end
  end.

Fixpoint calls (n : nat) (s : mem) (l : list call) : res mem :=
  match l with
  | [] => Ok s
  | c :: r => s1 <- call_step n s c ;; calls n s1 r
  end.
Definition empty_mem : mem := Mem [] (fun _ => None).
