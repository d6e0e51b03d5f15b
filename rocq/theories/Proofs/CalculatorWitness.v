(** A small library of integers, lists of integers and integers modulo a prime,
    and calculator sessions over it. *)
From Coq Require Import ZArith List Bool String Lia.
From Verif.Base Require Import Outcome.
From Verif.Spec Require Import Calculator.
From Verif.Model Require Import Multiz Calculator.
Import ListNotations.
Open Scope Z_scope.

(** [None]: the structure M of integers and lists; [Some p]: integers modulo p. *)
Definition welem : Type := option Z * mz.
Definition wfield : Type := option Z.

Definition wmod (f : wfield) (z : Z) : Z := match f with None => z | Some p => z mod p end.
Definition wz (a : welem) : res Z := first_leaf (snd a).
Definition wlift (a b : welem) (op : mz -> mz -> res mz) (opz : Z -> Z -> Z) : res welem :=
  match fst a, fst b with
  | None, None => z <- op (snd a) (snd b) ;; Ok (None, z)
  | Some p, Some q =>
    if p =? q then
      x <- wz a ;; y <- wz b ;; Ok (Some p, MZ (opz x y mod p))
    else UB
  | _, _ => UB
  end.

Definition wlib : lib := {|
  elem := welem; fieldT := wfield;
  l_field := fst;
  l_is_int f := match f with None => true | _ => false end;
  l_arith o a b :=
    match o with
    | Add => wlift a b mz_add Z.add
    | Sub => wlift a b mz_sub Z.sub
    | Mul => wlift a b mz_mul Z.mul
    | Div => wlift a b mz_div Z.quot
    | Pow => x <- wz a ;; y <- wz b ;; Ok (fst a, MZ (wmod (fst a) (x ^ y)))
    end;
  l_cmp a b :=
    match fst a, fst b with
    | None, None => mz_cmp (snd a) (snd b)
    | _, _ => x <- wz a ;; y <- wz b ;; Ok (zcmp x y)
    end;
  l_neg a := match fst a with
             | None => Ok (None, mz_neg (snd a))
             | Some p => x <- wz a ;; Ok (Some p, MZ ((- x) mod p))
             end;
  l_sqrt _ := UB;
  l_inv _ := UB;
  l_nextprime _ := UB;
  l_item a i := match snd a with
                | MA l => k <- wz i ;; match nth_error l (Z.to_nat k) with
                                       | Some x => Ok (None, x) | None => UB end
                | MZ _ => UB
                end;
  l_is0 a := Ok (mz_is0 (snd a));
  l_is1 a := Ok (mz_is1 (snd a));
  l_of_z z := (None, MZ z);
  l_list1 a := Ok (None, MA [snd a]);
  l_append l a := match snd l with MA m => Ok (None, MA (m ++ [snd a])) | _ => UB end;
  l_set0 f := (f, MZ 0);
  l_set1 f := (f, MZ 1);
  l_convert f a := x <- wz a ;; Ok (f, MZ (wmod f x));
  l_to_int a := x <- wz a ;; Ok (None, MZ x);
  l_order f := (None, MZ (match f with Some p => p | None => 0 end));
  l_random f n := (f, MZ (Z.of_nat n + 1));
  l_pairing a b := wlift a b mz_mul Z.mul;
  l_zmod a := x <- wz a ;; if x =? 0 then UB else Ok (Some x);
  l_poly f := Ok f;
  l_polymod a := Ok (fst a);
  l_group _ _ := Some 7;
  l_ints := None;
  l_bigints := None
|}.

Definition wnum (z : Z) : elem wlib := (None, MZ z).

Lemma wlib_integers : integers wlib wnum.
Proof.
  constructor; intros; try reflexivity.
  destruct o; simpl; unfold wlift, wnum; simpl; try reflexivity.
  unfold mz_mul. simpl. rewrite Z.mul_comm. reflexivity.
Qed.

Notation tr := (tree (elem wlib)).
Definition n_ (z : Z) : tr := Lit (wnum z).
Definition add_ (a b : tr) : tr := Call (Fn (Arith Add)) [a; b].
Definition eq_ (a b : tr) : tr := Call (Fn (Order REq)) [a; b].

(** (x := 3) + 1; x; *)
Definition buried_sum : list tr := [add_ (Assign "x" (n_ 3)) (n_ 1); Id "x"]%string.
(** (x := 3) == 3; x; *)
Definition buried_test : list tr := [eq_ (Assign "x" (n_ 3)) (n_ 3); Id "x"]%string.
(** Zr(x := 9); x; *)
Definition buried_cast : list tr := [Call (Id "Zr") [Assign "x" (n_ 9)]; Id "x"]%string.

Definition shows (p : list tr) : option (list (line wlib)) :=
  match eval_program wlib 20 p (boot wlib) with Ok s => Some (rev (sout s)) | _ => None end.
Definition should_show (p : list tr) : option (list (line wlib)) :=
  match program_meaning wlib 20 p (start wlib) with Ok w => Some (rev (out w)) | _ => None end.
Definition int_line (z : Z) : line wlib := Shown (VElem (wnum z)).
Definition mod_line (p z : Z) : line wlib := Shown (VElem ((Some p, MZ z) : elem wlib)).

Lemma buried_sum_w : shows buried_sum = Some [int_line 4; int_line 4] /\
  should_show buried_sum = Some [int_line 4; int_line 3].
Proof. split; reflexivity. Qed.
Lemma buried_test_w : shows buried_test = Some [int_line 1; int_line 1] /\
  should_show buried_test = Some [int_line 1; int_line 3].
Proof. split; reflexivity. Qed.
Lemma buried_cast_w :
  shows buried_cast = Some [mod_line 7 2; mod_line 7 2] /\
  should_show buried_cast = Some [mod_line 7 2; int_line 9].
Proof. split; reflexivity. Qed.

(** define f(a, b) { c := a; d := b; }  a := 1; b := 2; f(b, a); c; d; a; *)
Definition swap_prog : list tr :=
  [Define "f" ["a"; "b"] [Assign "c" (Id "a"); Assign "d" (Id "b")];
   Assign "a" (n_ 1); Assign "b" (n_ 2);
   Call (Id "f") [Id "b"; Id "a"];
   Id "c"; Id "d"; Id "a"]%string.
Lemma swap_w : shows swap_prog =
  Some [Shown (VDef "f" ["a"; "b"] [Assign "c" (Id "a"); Assign "d" (Id "b")]);
        int_line 2; int_line 2; int_line 2]%string.
Proof. reflexivity. Qed.

(** x := 5; x(1); and define f() {} f() + 1; and Zr(); and Zr(y); *)
Definition crash1 : list tr := [Assign "x" (n_ 5); Call (Id "x") [n_ 1]]%string.
Definition crash2 : list tr := [Define "f" [] []; add_ (Call (Id "f") []) (n_ 1)]%string.
Definition crash3 : list tr := [Call (Id "Zr") []]%string.
Definition crash4 : list tr := [Call (Id "Zr") [Id "y"]]%string.
Lemma crash_w :
  eval_program wlib 20 crash1 (boot wlib) = UB /\
  eval_program wlib 20 crash2 (boot wlib) = UB /\
  eval_program wlib 20 crash3 (boot wlib) = UB /\
  eval_program wlib 20 crash4 (boot wlib) = UB.
Proof. repeat split; reflexivity. Qed.

(** extend(Zr); is undefined and extend(Zr, [1,0,1]); is refused. *)
Definition extend1 : list tr := [Call (Id "extend") [Id "Zr"]]%string.
Definition extend2 : list tr := [Call (Id "extend") [Id "Zr"; ListOf [n_ 1; n_ 0; n_ 1]]]%string.
Lemma extend_w :
  eval_program wlib 20 extend1 (boot wlib) = UB /\
  shows extend2 = Some [Shown (VErr "extend: wrong number of arguments")]%string.
Proof. split; reflexivity. Qed.

(** A session that uses most of the language:
    x := 3; y := x * x + 1; x == 3 ? y : 0 - y; l := [x, y, 2]; l[1]; Zr(y) + Zr(5);
    define g(t) { x := t + 1; }  g(20); x; z; M := 1; type(x); rnd(Zr); *)
Definition session : list tr :=
  [Assign "x" (n_ 3);
   Assign "y" (add_ (Call (Fn (Arith Mul)) [Id "x"; Id "x"]) (n_ 1));
   Tern (eq_ (Id "x") (n_ 3)) (Id "y") (Call (Fn (Arith Sub)) [n_ 0; Id "y"]);
   Assign "l" (ListOf [Id "x"; Id "y"; n_ 2]);
   Call (Fn Item) [Id "l"; n_ 1];
   add_ (Call (Id "Zr") [Id "y"]) (Call (Id "Zr") [n_ 5]);
   Define "g" ["t"] [Assign "x" (add_ (Id "t") (n_ 1))];
   Call (Id "g") [n_ 20];
   Id "x"; Id "z"; Assign "M" (n_ 1);
   Call (Id "type") [Id "x"];
   Call (Id "rnd") [Id "Zr"]]%string.
Lemma session_clean : forallb clean session = true.
Proof. reflexivity. Qed.
Lemma session_w : shows session =
  Some [int_line 10; int_line 10; mod_line 7 1;
        Shown (VDef "g" ["t"] [Assign "x" (add_ (Id "t") (n_ 1))]);
        int_line 21; Shown (VErr "undefined variable z"); Shown (VErr "M is reserved");
        Word "element"; int_line 21; mod_line 7 1]%string.
Proof. reflexivity. Qed.

(** Zr(x) + Zr(2); *)
Definition mixed : tr := add_ (Call (Id "Zr") [Id "x"]) (Call (Id "Zr") [n_ 2])%string.
Definition may_run (p : list tr) (t : tr) : bool :=
  match eval_program wlib 20 p (boot wlib) with
  | Ok s => computes (look wlib s) t
  | _ => false
  end.
Lemma mixed_w : may_run [Assign "x" (n_ 3)]%string mixed = true /\
  shows [Assign "x" (n_ 3); mixed]%string = Some [mod_line 7 5].
Proof. split; [vm_compute; reflexivity|reflexivity]. Qed.
Lemma long_w : may_run (session ++ buried_cast)%list (Id "pairing"%string) = true.
Proof. vm_compute. reflexivity. Qed.
