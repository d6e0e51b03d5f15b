(** Type I pairings, the eta_T pairing over GF(3^m) (ecc/eta_T_3.c).

    Everything works on the element interface [gfops] of the field GF(3^m)
    (Model/GF3Tower.v); [m] is the extension degree, PARAM(e)->m.  GT holds
    elements of gf36m (pairing_apply passes the gf36m element inside the GT
    element), written here as three pairs. *)
From Coq Require Import ZArith List Bool.
From Verif.Base Require Import Outcome.
From Verif.Model Require Import GF3m GF3Tower.
Open Scope Z_scope.

Section E.
Variable F : gfops.
Variable m : Z.
(** A point: None if isinf, the coordinates otherwise (the coordinates of
    infinity are never read). *)
Definition pt : Type := option (car F * car F).

(** point_cmp: 70-79. *)
Definition point_cmp (a b : pt) : res Z :=
  match a, b with
  | None, None => Ok 0
  | Some (xa, ya), Some (xb, yb) =>
    c <- o_cmp xa xb ;;
    if negb (c =? 0) then Ok 1 else
    c <- o_cmp ya yb ;;
    Ok (if negb (c =? 0) then 1 else 0)
  | _, _ => Ok 1
  end.
(** point_set0: 81-83, point_is0: 85-87. *)
Definition point_set0 : pt := None.
Definition point_is0 (a : pt) : bool := match a with None => true | _ => false end.

(** point_add: 120-177.  Only the coordinates p3->x, p3->y of the result are
    written before the end, p3->x when x1 and x2 are no longer needed. *)
Definition point_add (a b : pt) : res pt :=
  match a, b with
  | None, _ => Ok b
  | _, None => Ok a
  | Some (x1, y1), Some (x2, y2) =>
    let chord :=
      v0 <- o_sub x2 x1 ;;
      v1 <- o_invert v0 ;;
      v0 <- o_sub y2 y1 ;;
      v2 <- o_mul v0 v1 ;;
      v3 <- o_mul v2 v2 ;;
      v4 <- o_cubic v2 ;;
      v0 <- o_add x1 x2 ;;
      v3 <- o_sub v3 v0 ;;
      v0 <- o_add y1 y2 ;;
      v4 <- o_sub v0 v4 ;;
      Ok (Some (v3, v4)) in
    c <- o_cmp x1 x2 ;;
    if negb (c =? 0) then chord else
    ny2 <- o_neg false y2 ;;
    c <- o_cmp y1 ny2 ;;
    if c =? 0 then Ok None else
    c <- o_cmp y1 y2 ;;
    if negb (c =? 0) then chord else
    v0 <- o_invert y1 ;;
    v1 <- o_mul v0 v0 ;;
    x3 <- o_add v1 x1 ;;
    v2 <- o_cubic v0 ;;
    v2 <- o_add v2 y1 ;;
    y3 <- o_neg false v2 ;;
    Ok (Some (x3, y3))
  end.
(** point_invert: 179-186. *)
Definition point_invert (a : pt) : res pt :=
  match a with
  | None => Ok None
  | Some (x, y) => y' <- o_neg false y ;; Ok (Some (x, y'))
  end.

(** * GF(3^6m): ITEM(e,i,j) is component j of component i *)
Definition gf6 : Type := car (gf36m_ops F).
Definition mk6 (u0 u1 u2 u3 u4 u5 : car F) : gf6 := @G3 (gf32m_ops F) (u0, u1) (u2, u3) (u4, u5).

(** algorithm4a: 225-258. *)
Definition algorithm4a (t u : car F) : res gf6 :=
  e1 <- o_set1 ;;
  c0 <- o_cubic t ;;
  c1 <- o_cubic u ;;
  c1 <- o_neg true c1 ;;
  m0 <- o_mul c0 c0 ;;
  v0 <- o_neg false m0 ;;
  v0 <- o_sub v0 c0 ;;
  v0 <- o_sub v0 e1 ;;
  v2 <- o_set1 ;;
  v2 <- o_sub v2 c0 ;;
  z <- o_set0 ;;
  n1 <- o_neg false e1 ;;
  Ok (mk6 v0 c1 v2 z n1 z).

(** The common first part of algorithm5 (288-327) and algorithm4 (404-444):
    xp + 1, yp, xq^3, yq^3 and R = a1 a2.  The components of a1 and a2 that
    are not assigned are those of a new element, 0 (gf3m_init, arith/ternary_extension_field.c:78-81). *)
Record start := Start { s_xp : car F; s_yp : car F; s_xq : car F; s_yq : car F; s_R : gf6 }.
Definition begin (xp yp xq yq : car F) : res start :=
  let re := m mod 12 in
  e1 <- o_set1 ;;
  xp <- o_add xp e1 ;;
  yp <- (if (re =? 1) || (re =? 11) then o_neg true yp else Ok yp) ;;
  xq <- o_cubic xq ;;
  yq <- o_cubic yq ;;
  t <- o_add xp xq ;;
  nt <- o_neg false t ;;
  nt2 <- o_mul t nt ;;
  v2 <- o_mul yp yq ;;
  v1 <- o_mul yp t ;;
  z <- o_set0 ;;
  a1 <- (if (re =? 7) || (re =? 11) then
           nyp <- o_neg false yp ;;
           nyq <- o_neg false yq ;;
           Ok (mk6 v1 nyq nyp z z z)
         else
           v1 <- o_neg true v1 ;;
           Ok (mk6 v1 yq yp z z z)) ;;
  n1 <- o_neg false e1 ;;
  R <- @o_mul (gf36m_ops F) a1 (mk6 nt2 v2 nt z n1 z) ;;
  Ok (Start xp yp xq yq R).
(** xq <= xq^9 - 1. *)
Definition next_x (e1 xq : car F) : res (car F) := xq <- o_cubic xq ;; xq <- o_cubic xq ;; o_sub xq e1.
(** S = -t^2 + u s - t p - p^2. *)
Definition tangent (e1 t u : car F) : res gf6 :=
  nt <- o_neg false t ;;
  nt2 <- o_mul t nt ;;
  z <- o_set0 ;;
  n1 <- o_neg false e1 ;;
  Ok (mk6 nt2 u nt z n1 z).

(** algorithm5: 260-376, the loop 329-357. *)
Fixpoint loop5 (n : nat) (e1 xp yp xq yq : car F) (R : gf6) : res gf6 :=
  match n with
  | O => Ok R
  | S n' =>
    R <- @o_cubic (gf36m_ops F) R ;;
    R <- @o_cubic (gf36m_ops F) R ;;
    xq <- next_x e1 xq ;;
    yq <- o_cubic yq ;;
    yq <- o_cubic yq ;;
    t <- o_add xp xq ;;
    u <- o_mul yp yq ;;
    nu <- o_neg false u ;;
    S <- algorithm4a t nu ;;
    xq <- next_x e1 xq ;;
    yq <- o_cubic yq ;;
    yq <- o_cubic yq ;;
    t <- o_add xp xq ;;
    u <- o_mul yp yq ;;
    S2 <- tangent e1 t u ;;
    S <- @o_mul (gf36m_ops F) S S2 ;;
    R <- @o_mul (gf36m_ops F) R S ;;
    loop5 n' e1 xp yp xq yq R
  end.
Definition algorithm5 (xp yp xq yq : car F) : res gf6 :=
  st <- begin xp yp xq yq ;;
  e1 <- o_set1 ;;
  loop5 (Z.to_nat (Z.quot (m - 1) 4)) e1 (s_xp st) (s_yp st) (s_xq st) (s_yq st) (s_R st).

(** algorithm4: 380-479, the loop 446-463. *)
Fixpoint loop4 (n : nat) (e1 xp yp xq yq : car F) (R : gf6) : res gf6 :=
  match n with
  | O => Ok R
  | S n' =>
    R <- @o_cubic (gf36m_ops F) R ;;
    xq <- next_x e1 xq ;;
    yq <- o_cubic yq ;;
    yq <- o_cubic yq ;;
    yq <- o_neg true yq ;;
    t <- o_add xp xq ;;
    u <- o_mul yp yq ;;
    S <- tangent e1 t u ;;
    R <- @o_mul (gf36m_ops F) R S ;;
    loop4 n' e1 xp yp xq yq R
  end.
Definition algorithm4 (xp yp xq yq : car F) : res gf6 :=
  st <- begin xp yp xq yq ;;
  e1 <- o_set1 ;;
  loop4 (Z.to_nat (Z.quot (m - 1) 2)) e1 (s_xp st) (s_yp st) (s_xq st) (s_yq st) (s_R st).

(** algorithm6: 483-527. *)
Definition algorithm6 (u : gf6) : res gf6 :=
  let '(u0, u1) := g_0 u in let '(u2, u3) := g_1 u in let '(u4, u5) := g_2 u in
  let v0 := @G3 F u0 u2 u4 in
  let v1 := @G3 F u1 u3 u5 in
  m0 <- gf33m_mult F v0 v0 ;;
  m1 <- gf33m_mult F v1 v1 ;;
  m2 <- gf33m_mult F v0 v1 ;;
  a0 <- gf33m_sub F m0 m1 ;;
  a1 <- gf33m_add F m0 m1 ;;
  i <- gf33m_invert F a1 ;;
  v0 <- gf33m_mult F a0 i ;;
  v1 <- gf33m_mult F m2 i ;;
  Ok (mk6 (g_0 v0) (g_0 v1) (g_1 v0) (g_1 v1) (g_2 v0) (g_2 v1)).

(** algorithm7: 531-636. *)
Definition algorithm7 (u : gf6) : res gf6 :=
  let '(u0, u1) := g_0 u in let '(u2, u3) := g_1 u in let '(u4, u5) := g_2 u in
  e1 <- o_set1 ;;
  a0 <- o_add u0 u1 ;;
  a1 <- o_add u2 u3 ;;
  a2 <- o_sub u4 u5 ;;
  m0 <- o_mul u0 u4 ;;
  m1 <- o_mul u1 u5 ;;
  m2 <- o_mul u2 u4 ;;
  m3 <- o_mul u3 u5 ;;
  m4 <- o_mul a0 a2 ;;
  m5 <- o_mul u1 u2 ;;
  m6 <- o_mul u0 u3 ;;
  m7 <- o_mul a0 a1 ;;
  m8 <- o_mul a1 a2 ;;
  a3 <- o_add m5 m6 ;;
  a3 <- o_sub a3 m7 ;;
  a4 <- o_neg false m2 ;;
  a4 <- o_sub a4 m3 ;;
  a5 <- o_sub m3 m2 ;;
  a6 <- o_sub m1 m0 ;;
  a6 <- o_add a6 m4 ;;
  if m mod 6 =? 1 then
    v0 <- o_add m0 m1 ;;
    v0 <- o_add v0 a4 ;;
    v0 <- o_add e1 v0 ;;
    v1 <- o_sub m5 m6 ;;
    v1 <- o_add v1 a6 ;;
    v2 <- o_sub a4 a3 ;;
    v3 <- o_add m8 a5 ;;
    v3 <- o_sub v3 a6 ;;
    v4 <- o_add a3 a4 ;;
    v4 <- o_neg true v4 ;;
    v5 <- o_add m8 a5 ;;
    Ok (mk6 v0 v1 v2 v3 v4 v5)
  else
    v0 <- o_add m0 m1 ;;
    v0 <- o_sub v0 a4 ;;
    v0 <- o_add e1 v0 ;;
    v1 <- o_sub m6 m5 ;;
    v1 <- o_add v1 a6 ;;
    v3 <- o_add m8 a5 ;;
    v3 <- o_add v3 a6 ;;
    v4 <- o_add a3 a4 ;;
    v4 <- o_neg true v4 ;;
    v5 <- o_add m8 a5 ;;
    v5 <- o_neg true v5 ;;
    Ok (mk6 v0 v1 a3 v3 v4 v5).

(** algorithm8: 640-665. *)
Fixpoint cubes (n : nat) (w : gf6) : res gf6 :=
  match n with O => Ok w | S n' => w <- @o_cubic (gf36m_ops F) w ;; cubes n' w end.
Definition algorithm8 (u : gf6) : res gf6 :=
  v <- algorithm6 u ;;
  v <- algorithm7 v ;;
  w <- cubes (Z.to_nat (Z.quot (m + 1) 2)) v ;;
  v <- algorithm7 v ;;
  w <- (if (m mod 12 =? 1) || (m mod 12 =? 11) then
          n0 <- o_neg true (snd (g_0 w)) ;;
          n1 <- o_neg true (snd (g_1 w)) ;;
          n2 <- o_neg true (snd (g_2 w)) ;;
          Ok (mk6 (fst (g_0 w)) n0 (fst (g_1 w)) n1 (fst (g_2 w)) n2)
        else Ok w) ;;
  @o_mul (gf36m_ops F) v w.

(** eta_T_pairing: 668-681. *)
Definition eta_T_pairing (P R : pt) : res gf6 :=
  match P, R with
  | Some (x1, y1), Some (x2, y2) =>
    c <- (if Z.rem (Z.quot (m - 1) 2) 2 =? 0 then algorithm5 x1 y1 x2 y2 else algorithm4 x1 y1 x2 y2) ;;
    algorithm8 c
  | _, _ => @o_set1 (gf36m_ops F)
  end.
End E.
