(** Multinomials over the integers (arith/multiz.c).

    A multiz is an integer or a list of multizes (the tagged union of 22-33);
    the value is copied on assignment (f_set clones), so a tree models it.
    Conversions to elements and text: SetMultiz.v.
    Sharing of sub-objects by multiz_append (42-45) and f_item: MultizHeap.v.
    The byte encodings (448-513): MultizBytes.v. *)
From Coq Require Import ZArith List Bool Lia.
From Verif.Base Require Import Outcome.
Import ListNotations.
Open Scope Z_scope.

(** arith/multiz.c:22-33 struct multiz_s. *)
Inductive mz := MZ (z : Z) | MA (l : list mz).

(** [traverse f l] runs [f] on the members of [l] in order. *)
Fixpoint traverse {A B : Type} (f : A -> res B) (l : list A) : res (list B) :=
  match l with
  | [] => Ok []
  | x :: t => y <- f x ;; r <- traverse f t ;; Ok (y :: r)
  end.

(** arith/multiz.c:160-187 multiz_new_unary, add_to_x. *)
Fixpoint unary (f : Z -> Z) (y : mz) : mz :=
  match y with
  | MZ z => MZ (f z)
  | MA l => MA (map (unary f) l)
  end.

(** arith/multiz.c:194-196 multiz_clone (189-192 mpzset). *)
Definition clone (y : mz) : mz := unary (fun z => z) y.

(** arith/multiz.c:134-138, 144-148: [while(z->type == T_ARR) z = darray_at(z->a, 0)];
    member 0 of an empty list is out of bounds. *)
Fixpoint first_leaf (a : mz) : res Z :=
  match a with
  | MZ z => Ok z
  | MA [] => UB
  | MA (x :: _) => first_leaf x
  end.

(** The same walk followed by an in-place update (arith/multiz.c:206-210, 217-221). *)
Fixpoint at_leaf (g : Z -> Z) (a : mz) : res mz :=
  match a with
  | MZ z => Ok (MZ (g z))
  | MA [] => UB
  | MA (x :: l) => y <- at_leaf g x ;; Ok (MA (y :: l))
  end.

(** arith/multiz.c:198-211 multiz_new_bin, first operand an integer. *)
Definition bin_int (f : Z -> Z -> Z) (x : Z) (b : mz) : res mz :=
  match b with
  | MZ y => Ok (MZ (f x y))
  | MA _ => at_leaf (fun z => f x z) (clone b)
  end.

(** arith/multiz.c:198-248 multiz_new_bin. *)
Fixpoint bin (f : Z -> Z -> Z) (a b : mz) {struct a} : res mz :=
  match a with
  | MZ x => bin_int f x b
  | MA la =>
    match b with
    | MZ y => at_leaf (fun z => f y z) (clone a)
    | MA lb =>
      l <- (fix go la lb {struct la} :=
             match la with
             | [] => traverse (bin_int f 0) lb
             | a' :: la' =>
               match lb with
               | [] => z <- bin f a' (MZ 0) ;; r <- go la' [] ;; Ok (z :: r)
               | b' :: lb' => z <- bin f a' b' ;; r <- go la' lb' ;; Ok (z :: r)
               end
             end) la lb ;;
      Ok (MA l)
    end
  end.

(** arith/multiz.c:249-257 multiz_new_add, f_add. *)
Definition mz_add (a b : mz) : res mz := bin Z.add a b.

(** arith/multiz.c:259-266 multiz_new_sub, f_sub. *)
Definition mz_sub (a b : mz) : res mz := bin Z.sub a b.

(** arith/multiz.c:268-305 mpzmul, multiz_new_mul; [j < m ? a[j] : zero] selects
    the partial application of the function to a[j]. *)
Fixpoint mz_mul (a b : mz) {struct a} : res mz :=
  match a with
  | MZ x => Ok (unary (fun z => z * x) b)
  | MA la =>
    match b with
    | MZ y => Ok (unary (fun z => z * y) a)
    | MA lb =>
      let fs := map (fun x => mz_mul x) la in
      l <- traverse (fun i =>
             fold_left (fun acc j =>
               z <- acc ;;
               y <- nth j fs (fun b => Ok (unary (fun z => z * 0) b)) (nth (i - j) lb (MZ 0)) ;;
               mz_add z y) (seq 0 (i + 1)) (Ok (MZ 0)))
             (seq 0 (length la + length lb - 1)) ;;
      Ok (MA l)
    end
  end.

(** arith/multiz.c:312-326 f_mul_mpz, mulsi, f_mul_si. *)
Definition mz_mul_z (a : mz) (k : Z) : mz := unary (fun z => z * k) a.

(** arith/multiz.c:328-335, 343-347 mpzneg, multiz_new_neg, f_neg. *)
Definition mz_neg (a : mz) : mz := unary Z.opp a.

(** arith/multiz.c:349-357 f_div: each coefficient is divided, rounding towards
    zero, by the first coefficient of the divisor; GMP traps division by 0. *)
Definition mz_div (a b : mz) : res mz :=
  d <- first_leaf b ;;
  if d =? 0 then Die else Ok (unary (fun z => Z.quot z d) a).

(** arith/multiz.c:365-374 f_is1, multiz_is0. *)
Definition mz_is1 (a : mz) : bool := match a with MZ z => z =? 1 | MA _ => false end.
Definition mz_is0 (a : mz) : bool := match a with MZ z => z =? 0 | MA _ => false end.

(** arith/multiz.c:398, 405: [while(T_ARR == b->type) b = darray_last(b->a)]. *)
Fixpoint last_leaf (a : mz) : res Z :=
  match a with
  | MZ z => Ok z
  | MA l => (fix go (l : list mz) := match l with
                       | [] => UB
                       | x :: t => match t with [] => last_leaf x | _ => go t end
                       end) l
  end.

(** arith/multiz.c:389-433 multiz_cmp, f_cmp. *)
Definition zcmp (x y : Z) : Z := Z.sgn (x - y).
Fixpoint mz_cmp (a b : mz) {struct a} : res Z :=
  match a with
  | MZ x =>
    match b with
    | MZ y => Ok (zcmp x y)
    | MA _ => z <- last_leaf b ;; Ok (- Z.sgn z)
    end
  | MA la =>
    match b with
    | MZ _ => z <- last_leaf a ;; Ok (Z.sgn z)
    | MA lb =>
      if (length lb <? length la)%nat then z <- last_leaf a ;; Ok (Z.sgn z)
      else if (length la <? length lb)%nat then z <- last_leaf b ;; Ok (- Z.sgn z)
      else (fix go la lb {struct la} :=
              match la, lb with
              | a' :: la', b' :: lb' =>
                i <- go la' lb' ;; if i =? 0 then mz_cmp a' b' else Ok i
              | _, _ => Ok 0
              end) la lb
    end
  end.
