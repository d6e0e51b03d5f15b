(** element_snprint, element_out_str and element_set_str of the composite
    fields, curves and pairing groups.  A string is the list of its character
    codes; reading past its end is undefined. *)
From Coq Require Import ZArith List Bool.
From Verif.Base Require Import Outcome Array Algebra.
From Verif.Spec Require ElementText.     (* only for the shape of towers *)
From Verif.Model Require Import IntText Printf CurveCodec.
Import ListNotations.
Open Scope Z_scope.

(** A call snprint(s + off, left, ...): the buffer afterwards and the value
    returned. *)
Definition printer := list Z -> nat -> nat -> res (list Z * nat).
(** snprintf(s + off, left, "%s", text) *)
Definition put_text (t : list Z) : printer := fun buf off left =>
  b <- snprintf_at buf off left t ;; Ok (b, length t).
(** Successive pieces with the macro clip_sub (curve.c:506-509,
    fieldquadratic.c:110-113, poly.c:381-384, 1228-1231). *)
Fixpoint pieces (n : nat) (off result left : nat) (ps : list printer) (buf : list Z) : res (list Z * nat) :=
  match ps with
  | [] => Ok (buf, result)
  | p :: ps' =>
    r <- p buf (off + result)%nat left ;;
    let '(buf, status) := r in
    let result := (result + status)%nat in
    pieces n off result (if (n <=? result)%nat then 0%nat else (n - result)%nat) ps' buf
  end.
Definition print_all (ps : list printer) : printer := fun buf off n => pieces n off 0 n ps buf.

(** What a field offers: snprint, out_str (characters written and value
    returned; the stream accepts everything), set_str (element afterwards and
    value returned) and the zero it stores first. *)
Record textual (A : Type) := mk_textual {
  t_snprint : A -> printer;
  t_out : Z -> A -> list Z * Z;
  t_set_str : list Z -> Z -> res (A * nat);
  t_zero : A }.
Arguments t_snprint {A}. Arguments t_out {A}. Arguments t_set_str {A}. Arguments t_zero {A}.

(** naivefp.c:44-56 and montfp.c:167-195 on the residue; [num base z] is the
    numeral GMP prints for z. *)
Definition fp_textual (p : Z) (num : Z -> Z -> list Z) : textual Z := {|
  t_snprint := fun x => put_text (num 10 x);
  t_out := fun base x => (num base x, Z.of_nat (length (num base x)));
  t_set_str := fun s base => r <- zp_set_str p s base ;; Ok (fst r, Z.to_nat (snd r));
  t_zero := 0 |}.
(** field.c:543-559, kept by fastfp and fasterfp; their out_str prints the
    numeral (fastfp.c:102-110, fasterfp.c:135-143). *)
Definition default_snprint : printer := fun buf off n =>
  match n with
  | O => Ok (buf, 1%nat)
  | S O => b <- splice buf off [48] ;; Ok (b, 1%nat)
  | _ => b <- splice buf off [63; 0] ;; Ok (b, 1%nat)
  end.
Definition default_textual (num : Z -> Z -> list Z) : textual Z := {|
  t_snprint := fun _ => default_snprint;
  t_out := fun base x => (num base x, Z.of_nat (length (num base x)));
  t_set_str := fun s base => r <- default_element_set_str s base ;; Ok (fst r, Z.to_nat (snd r));
  t_zero := 0 |}.

(** while ( *cp && isspace( *cp)) cp++ *)
Fixpoint skip (s : list Z) : res (list Z) :=
  match s with
  | [] => UB
  | c :: s' => if negb (c =? 0) && isspace c then skip s' else Ok s
  end.
(** *cp *)
Definition peek (s : list Z) : res Z := match s with [] => UB | c :: _ => Ok c end.
(** cp - s, where [rest] is what follows cp *)
Definition consumed (s rest : list Z) : nat := (length s - length rest)%nat.

Section Quad.
Context {A : Type} (T : textual A).
(** fieldquadratic.c:105-132 *)
Definition fq_snprint (e : A * A) : printer :=
  print_all [put_text [91]; t_snprint T (fst e); put_text [44; 32]; t_snprint T (snd e); put_text [93]].
(** fieldquadratic.c:92-103 *)
Definition fq_out_str (base : Z) (e : A * A) : list Z * Z :=
  let '(tx, result) := t_out T base (fst e) in
  if result =? 0 then (91 :: tx, 0) else
  let '(ty, status) := t_out T base (snd e) in
  if status =? 0 then (91 :: tx ++ [44; 32] ++ ty, 0) else
  (91 :: tx ++ [44; 32] ++ ty ++ [93], result + status).
(** fieldquadratic.c:145-157 *)
Definition fq_set_str (s : list Z) (base : Z) : res ((A * A) * nat) :=
  let z := t_zero T in
  cp <- skip s ;;
  c <- peek cp ;;
  if negb (c =? 91) then Ok ((z, z), 0%nat) else
  let cp := tl cp in
  r <- t_set_str T cp base ;;
  let '(vx, k) := r in
  cp <- skip (skipn k cp) ;;
  c <- peek cp ;;
  if negb (c =? 44) then Ok ((vx, z), 0%nat) else
  let cp := tl cp in
  r <- t_set_str T cp base ;;
  let '(vy, k) := r in
  let cp := skipn k cp in
  c <- peek cp ;;
  if negb (c =? 93) then Ok ((vx, vy), 0%nat) else
  Ok ((vx, vy), consumed s (tl cp)).
Definition quad_textual : textual (A * A) := {|
  t_snprint := fq_snprint; t_out := fq_out_str; t_set_str := fq_set_str; t_zero := (t_zero T, t_zero T) |}.
End Quad.

Section Poly.
Context {A : Type} (T : textual A).
(** The loop at poly.c:390-399 and 1237-1246. *)
Fixpoint coeff_printers (first : bool) (l : list A) : list printer :=
  match l with
  | [] => []
  | x :: l' => (if first then [] else [put_text [44; 32]]) ++ t_snprint T x :: coeff_printers false l'
  end.
(** poly.c:375-404 poly_snprint, 1221-1251 polymod_snprint *)
Definition coeffs_snprint (l : list A) : printer :=
  print_all (put_text [91] :: coeff_printers true l ++ [put_text [93]]).
(** The loop at poly.c:1208-1216; a zero status ends the printing. *)
Fixpoint coeffs_out (base : Z) (first : bool) (l : list A) : list Z * option Z :=
  match l with
  | [] => ([], Some 0)
  | x :: l' =>
    let sep := if first then [] else [44; 32] in
    let '(tx, status) := t_out T base x in
    if status =? 0 then (sep ++ tx, None) else
    let '(rest, r) := coeffs_out base false l' in
    (sep ++ tx ++ rest, match r with None => None | Some k => Some (Z.of_nat (length sep) + status + k) end)
  end.
(** poly.c:350-373 poly_out_str, 1201-1219 polymod_out_str *)
Definition coeffs_out_str (base : Z) (l : list A) : list Z * Z :=
  match coeffs_out base true l with
  | (t, None) => (91 :: t, 0)
  | (t, Some k) => (91 :: t ++ [93], 2 + k)
  end.
(** The loop at poly.c:1277-1281: [left] coefficients remain, [done] have been
    read.  The result also says whether the loop was left by return 0. *)
Fixpoint coeffs_set (left : nat) (done : list A) (cp : list Z) (base : Z) : res (list A * option (list Z)) :=
  match left with
  | O => Ok (done, Some cp)
  | S l =>
    r <- t_set_str T cp base ;;
    let '(v, k) := r in
    cp <- skip (skipn k cp) ;;
    match l with
    | O => Ok (done ++ [v], Some cp)
    | _ => c <- peek cp ;;
           if negb (c =? 44) then Ok (done ++ [v] ++ repeat (t_zero T) l, None)
           else coeffs_set l (done ++ [v]) (tl cp) base
    end
  end.
(** poly.c:1269-1284 *)
Definition polymod_set_str (n : nat) (s : list Z) (base : Z) : res (list A * nat) :=
  let z := repeat (t_zero T) n in
  cp <- skip s ;;
  c <- peek cp ;;
  if negb (c =? 91) then Ok (z, 0%nat) else
  r <- coeffs_set n [] (tl cp) base ;;
  match r with
  | (l, None) => Ok (l, 0%nat)
  | (l, Some cp) =>
    c <- peek cp ;;
    if negb (c =? 93) then Ok (l, 0%nat) else Ok (l, consumed s (tl cp))
  end.
Definition polymod_textual (n : nat) : textual (list A) := {|
  t_snprint := coeffs_snprint; t_out := coeffs_out_str; t_set_str := polymod_set_str n; t_zero := repeat (t_zero T) n |}.
End Poly.

(** Points.  The storage of a point: inf_flag and both coordinates, which keep
    their former values when the flag is set. *)
Section Curve.
Variable K : fld.
Variables a b : K.
Variable T : textual K.
Record stored := mk_stored { st_inf : bool; st_x : K; st_y : K }.
(** curve.c:501-533 *)
Definition curve_snprint (P : stored) : printer :=
  if st_inf P then fun buf off n => r <- put_text [79] buf off n ;; Ok (fst r, 1%nat)
  else print_all [put_text [91]; t_snprint T (st_x P); put_text [44; 32]; t_snprint T (st_y P); put_text [93]].
(** curve.c:484-499 *)
Definition curve_out_str (base : Z) (P : stored) : list Z * Z :=
  if st_inf P then ([79], 1) else
  let '(tx, result) := t_out T base (st_x P) in
  if result =? 0 then (91 :: tx, 0) else
  let '(ty, status) := t_out T base (st_y P) in
  if status =? 0 then (91 :: tx ++ [44; 32] ++ ty, 0) else
  (91 :: tx ++ [44; 32] ++ ty ++ [93], result + status + 4).
(** curve.c:57-77 *)
Definition stored_valid (P : stored) : bool :=
  if st_inf P then true else feqb (cubic K a b (st_x P)) (fmul (st_y P) (st_y P)).
(** curve.c:555-578 *)
Definition curve_set_str (P : stored) (s : list Z) (base : Z) : res (stored * nat) :=
  let P := mk_stored true (st_x P) (st_y P) in
  cp <- skip s ;;
  c <- peek cp ;;
  if c =? 79 then Ok (P, (consumed s cp + 1)%nat) else
  let P := mk_stored false (st_x P) (st_y P) in
  if negb (c =? 91) then Ok (P, 0%nat) else
  let cp := tl cp in
  r <- t_set_str T cp base ;;
  let '(vx, k) := r in
  let P := mk_stored false vx (st_y P) in
  cp <- skip (skipn k cp) ;;
  c <- peek cp ;;
  if negb (c =? 44) then Ok (P, 0%nat) else
  let cp := tl cp in
  r <- t_set_str T cp base ;;
  let '(vy, k) := r in
  let P := mk_stored false vx vy in
  let cp := skipn k cp in
  c <- peek cp ;;
  if negb (c =? 93) then Ok (P, 0%nat) else
  if stored_valid P then Ok (P, (consumed s cp + 1)%nat) else Ok (mk_stored true vx vy, 0%nat).
End Curve.
Arguments mk_stored {K}. Arguments st_inf {K}. Arguments st_x {K}. Arguments st_y {K}.

(** The multiplicative group GT passes these calls on (pairing.c:155-165,
    187-189). *)
Definition mulg_textual {A} (T : textual A) : textual A := {|
  t_snprint := fun e => t_snprint T e; t_out := fun base e => t_out T base e;
  t_set_str := fun s base => t_set_str T s base; t_zero := t_zero T |}.

(** The fields made by field_init_quadratic/field_init_fi and
    field_init_polymod over each other, ending in F_p. *)
Fixpoint tower_textual (p : Z) (num : Z -> Z -> list Z) (t : Spec.ElementText.tower) : textual (Spec.ElementText.carrier t) :=
  match t with
  | Spec.ElementText.TFp => fp_textual p num
  | Spec.ElementText.TQuad t' => quad_textual (tower_textual p num t')
  | Spec.ElementText.TPoly n t' => polymod_textual (tower_textual p num t') n
  end.
