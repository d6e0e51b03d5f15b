(** Dynamic storage of pairings, fields, elements and pre-processed tables:
    which blocks the initialisation functions allocate, which of them the
    clearing functions release, and which of them they read on the way.

    A heap is the collection of allocated blocks.  A block is named by the
    place that holds the pointer to it: the object of the user (its number is
    the last component of the name) and the position inside the object.  An
    [mpz_t] counts as one block, which [mpz_init] allocates and [mpz_clear]
    releases.  Releasing a block that is not allocated and reading a block
    that is not allocated are undefined behaviour.

    Simplifications: contents are not modelled.  Temporaries which one and the
    same function of arith/ both initialises and clears (inside element_mul,
    element_random, element_invert, ...) are left out.  Those of the
    initialisation functions of pairings and of tables are kept. *)
From Coq Require Import List ZArith Bool Arith.
From Verif.Base Require Import Outcome Gmp.
From Verif.Model Require Import Mnt Miller PairingD.
Import ListNotations.

Local Open Scope nat_scope.

Definition path := list nat.
Definition path_dec : forall a b : path, {a = b} + {a <> b} := list_eq_dec Nat.eq_dec.
Definition heap := list path.
Definition prog := heap -> res heap.

(** misc/memory.c:8-56 (pbc_malloc, pbc_free) and GMP's mpz_init, mpz_clear. *)
Definition alloc (p : path) : prog := fun h => Ok (p :: h).
Fixpoint remove (p : path) (h : heap) : res heap :=
  match h with
  | [] => UB
  | q :: h' => if path_dec p q then Ok h' else bind (remove p h') (fun h'' => Ok (q :: h''))
  end.
Definition release (p : path) : prog := remove p.
(** A read through a pointer to the block. *)
Definition need (p : path) : prog := fun h => if in_dec path_dec p h then Ok h else UB.
Definition skip : prog := fun h => Ok h.
Definition andthen (m k : prog) : prog := fun h => bind (m h) k.
Notation "m >> k" := (andthen m k) (at level 61, right associativity).
Fixpoint upto (n : nat) (f : nat -> prog) : prog := match n with O => skip | S n' => upto n' f >> f n' end.
Fixpoint each {A} (l : list A) (f : A -> prog) : prog := match l with [] => skip | a :: l' => f a >> each l' f end.

(** ** Fields

    [s] names the [field_t]; [h] is the block that contains it, if it lives
    inside a block: the fields of a pairing lie inside pairing->data.
    - [Fp]: field_init_fp and its five back-ends.
    - [Gf3m]: arith/ternary_extension_field.c.
    - [Quad]: field_init_quadratic, field_init_fi, field_init_gf32m.
    - [Cubic]: field_init_gf33m.
    - [Poly]: field_init_poly.
    - [PolyMod s h n rs rh b]: field_init_polymod over the ring [rs] (inside
      the block [rh]) of polynomials over [b], [n] the degree.
    - [Curve s h b cf qc]: field_init_curve_ab; [cf]: a cofactor was given;
      [qc]: field_curve_set_quotient_cmp was called.
    - [Eta]: field_init_eta_T_3.
    - [MulG]: pairing_GT_init. *)
Inductive impl := Mont | Fast | Faster | Naive | Tiny.
Inductive field :=
| Fp (im : impl) (s : path) (h : option path)
| Gf3m (s : path) (h : option path)
| Quad (s : path) (h : option path) (b : field)
| Cubic (s : path) (h : option path) (b : field)
| Poly (s : path) (h : option path) (b : field)
| PolyMod (s : path) (h : option path) (n : nat) (rs : path) (rh : option path) (b : field)
| Curve (s : path) (h : option path) (b : field) (cf qc : bool)
| Eta (s : path) (h : option path) (b : field)
| MulG (s : path) (h : option path) (b : field).

Definition name_of (f : field) : path :=
  match f with Fp _ s _ | Gf3m s _ | Quad s _ _ | Cubic s _ _ | Poly s _ _ | PolyMod s _ _ _ _ _ | Curve s _ _ _ _ | Eta s _ _ | MulG s _ _ => s end.
Definition home_of (f : field) : option path :=
  match f with Fp _ _ h | Gf3m _ h | Quad _ h _ | Cubic _ h _ | Poly _ h _ | PolyMod _ h _ _ _ _ | Curve _ h _ _ _ | Eta _ h _ | MulG _ h _ => h end.
(** Every operation through a [field_t] reads that structure. *)
Definition touch (h : option path) : prog := match h with Some b => need b | None => skip end.

(** ** Elements: element_init (include/pbc_field.h:174-184) calls f->init,
    element_clear (:227-231) calls f->clear.
    - montfp.c:30-50, fasterfp.c:30-51 (fp_init reads p->bytes): a structure and its limbs;
    - fastfp.c:30-44: the limbs (fp_init reads p->bytes);
    - naivefp.c:30-40: the [mpz_t] and its limbs;  tinyfp.c:40-50: one block;
    - fieldquadratic.c:39-49, ternary_extension_field.c (gf3m_init reads the
      length from the parameters; gf32m_init, gf33m_init);
    - poly.c:71-82: the structure and the array of a polynomial without
      coefficients;  poly.c:754-774: polymod_init and polymod_clear read n;
    - curve.c:42-55: curve_init reads the data of the curve, curve_clear does not;
    - eta_T_3.c:53-66;  pairing.c:136-147. *)
Fixpoint elem_init (f : field) (e : path) {struct f} : prog :=
  touch (home_of f) >>
  match f with
  | Fp Mont s _ | Fp Faster s _ => need (1 :: s) >> alloc (0 :: e) >> alloc (1 :: e)
  | Fp Fast s _ => need (1 :: s) >> alloc (0 :: e)
  | Fp Naive s _ => alloc (0 :: e) >> alloc (1 :: e)
  | Fp Tiny s _ => alloc (0 :: e)
  | Gf3m s _ => need (1 :: s) >> alloc (0 :: e)
  | Quad _ _ b | Eta _ _ b => alloc (0 :: e) >> elem_init b (1 :: e) >> elem_init b (2 :: e)
  | Cubic _ _ b => alloc (0 :: e) >> elem_init b (1 :: e) >> elem_init b (2 :: e) >> elem_init b (3 :: e)
  | Poly _ _ _ => alloc (0 :: e) >> alloc (1 :: e)
  | PolyMod s _ n _ _ b => need (1 :: s) >> alloc (0 :: e) >> upto n (fun i => elem_init b (S i :: e))
  | Curve s _ b _ _ => need (1 :: s) >> alloc (0 :: e) >> elem_init b (1 :: e) >> elem_init b (2 :: e)
  | MulG _ _ b => alloc (0 :: e) >> elem_init b (1 :: e)
  end.

Fixpoint elem_clear (f : field) (e : path) {struct f} : prog :=
  touch (home_of f) >>
  match f with
  | Fp Mont _ _ | Fp Faster _ _ | Fp Naive _ _ => release (1 :: e) >> release (0 :: e)
  | Fp Fast _ _ | Fp Tiny _ _ | Gf3m _ _ => release (0 :: e)
  | Quad _ _ b | Eta _ _ b => elem_clear b (1 :: e) >> elem_clear b (2 :: e) >> release (0 :: e)
  | Cubic _ _ b => elem_clear b (1 :: e) >> elem_clear b (2 :: e) >> elem_clear b (3 :: e) >> release (0 :: e)
  | Poly _ _ _ => release (1 :: e) >> release (0 :: e)
  | PolyMod s _ n _ _ b => need (1 :: s) >> upto n (fun i => elem_clear b (S i :: e)) >> release (0 :: e)
  | Curve _ _ b _ _ => elem_clear b (1 :: e) >> elem_clear b (2 :: e) >> release (0 :: e)
  | MulG _ _ b => elem_clear b (1 :: e) >> release (0 :: e)
  end.

(** poly_alloc, poly.c:49-69, on the polynomial [e] of the ring [rs]: from no
    coefficient to [n], and back to none.  Each coefficient is an allocated
    [element_t]. *)
Definition poly_grow (rs : path) (rh : option path) (b : field) (e : path) (n : nat) : prog :=
  touch rh >> need (1 :: rs) >> upto n (fun i => alloc (2 * i + 2 :: e) >> elem_init b (2 * i + 3 :: e)).
Definition poly_shrink (b : field) (e : path) (n : nat) : prog :=
  upto n (fun i => elem_clear b (2 * i + 3 :: e) >> release (2 * i + 2 :: e)).

(** ** field_init_*: field.c:569-573 (the order) and
    - montfp.c:563-584: data, primelimbs, R, R3;  fastfp.c, fasterfp.c: data,
      primelimbs;  tinyfp.c: data;  naivefp.c: nothing;
    - ternary_extension_field.c:476-491: the parameters, p->p and its data;
    - poly.c:1435-1475: data;
    - poly.c:1476-1544: data, the polynomial (element_set gives it n + 1
      coefficients), the array xpwr; compute_x_powers (1302-1333): the powers;
    - curve.c:688-762: data, a, b, gen_no_cofac, gen and the cofactor.
    curve_random_no_cofac_solvefory may generate the quadratic nonresidue of
    the base field: that is the separate [gen_nqr] below. *)
Definition fp_blocks (im : impl) (s : path) : list path :=
  match im with Mont => [1 :: s; 2 :: s; 3 :: s; 4 :: s] | Fast | Faster => [1 :: s; 2 :: s] | Tiny => [1 :: s] | Naive => [] end.
Definition field_init (f : field) : prog :=
  let s := name_of f in
  touch (home_of f) >>
  match f with
  | Gf3m _ _ => alloc (1 :: s) >> alloc (2 :: s) >> alloc (3 :: s) >> alloc (0 :: s)
  | Fp im _ _ => alloc (0 :: s) >> each (fp_blocks im s) alloc
  | Quad _ _ _ | Cubic _ _ _ | Eta _ _ _ | MulG _ _ _ => alloc (0 :: s)
  | Poly _ _ _ => alloc (0 :: s) >> alloc (1 :: s)
  | PolyMod _ _ n rs rh b =>
      alloc (0 :: s) >> alloc (1 :: s) >> elem_init (Poly rs rh b) (2 :: s) >> poly_grow rs rh b (2 :: s) (n + 1) >>
      alloc (3 :: s) >> elem_init f (4 :: s) >> upto n (fun i => elem_init f (i :: 3 :: s)) >> elem_clear f (4 :: s)
  | Curve _ _ b cf _ =>
      alloc (0 :: s) >> alloc (1 :: s) >> elem_init b (2 :: s) >> elem_init b (3 :: s) >> elem_init f (4 :: s) >> elem_init f (5 :: s) >>
      (if cf then alloc (6 :: s) >> alloc (7 :: s) else skip)
  end.

(** field_curve_set_quotient_cmp, curve.c:903-909. *)
Definition set_quotient_cmp (f : field) : prog :=
  let s := name_of f in touch (home_of f) >> need (1 :: s) >> alloc (10 :: s) >> alloc (11 :: s).

(** field_gen_nqr, field.c:370-376 (and the assignments of d_param.c:1033,
    f_param.c:345, g_param.c:1283). *)
Definition gen_nqr (f : field) : prog :=
  let s := name_of f in touch (home_of f) >> alloc (8 :: s) >> elem_init f (9 :: s).
(** field_get_nqr, field.c:378-381; [nq]: f->nqr is not NULL. *)
Definition get_nqr (f : field) (nq : bool) : prog := touch (home_of f) >> (if nq then skip else gen_nqr f).

(** field_clear, field.c:620-627, and the hooks montfp.c:519-524,
    fastfp.c, fasterfp.c, tinyfp.c, naivefp.c (fp_field_clear),
    ternary_extension_field.c:468-473, poly.c (field_clear_poly), poly.c:604-615,
    curve.c:580-596, pairing.c:131-133. *)
Definition field_clear (f : field) (nq : bool) : prog :=
  let s := name_of f in
  touch (home_of f) >>
  (if nq then elem_clear f (9 :: s) >> release (8 :: s) else skip) >>
  release (0 :: s) >>
  match f with
  | Fp Mont _ _ => need (1 :: s) >> release (2 :: s) >> release (3 :: s) >> release (4 :: s) >> release (1 :: s)
  | Fp Fast _ _ | Fp Faster _ _ => need (1 :: s) >> release (2 :: s) >> release (1 :: s)
  | Fp Tiny _ _ => release (1 :: s)
  | Fp Naive _ _ => skip
  | Gf3m _ _ => need (1 :: s) >> need (2 :: s) >> release (3 :: s) >> release (2 :: s) >> release (1 :: s)
  | Quad _ _ _ | Cubic _ _ _ | Eta _ _ _ | MulG _ _ _ => skip
  | Poly _ _ _ => release (1 :: s)
  | PolyMod _ _ n rs rh b =>
      need (1 :: s) >> upto n (fun i => elem_clear f (i :: 3 :: s)) >> release (3 :: s) >>
      touch rh >> poly_shrink b (2 :: s) (n + 1) >> release (1 :: 2 :: s) >> release (0 :: 2 :: s) >> release (1 :: s)
  | Curve _ _ b cf qc =>
      need (1 :: s) >> elem_clear f (5 :: s) >> elem_clear f (4 :: s) >>
      (if cf then release (7 :: s) >> release (6 :: s) else skip) >>
      (if qc then release (11 :: s) >> release (10 :: s) else skip) >>
      elem_clear b (2 :: s) >> elem_clear b (3 :: s) >> release (1 :: s)
  end.

Definition inits (l : list (field * path)) : prog := each l (fun '(f, e) => elem_init f e).
Definition clears (l : list (field * path)) : prog := each l (fun '(f, e) => elem_clear f e).

(** ** Pairings

    [zi], [qi]: the back-ends of Zr and of the base field (field_init_fp).
    [TD n]: embedding degree 2n.  [exp1], [exp2] matter for the tables only. *)
Inductive ptype := TA (exp1 exp2 : nat) | TA1 | TD (n : nat) | TE | TF | TG | TI.
Record pinfo := { ty : ptype; zi : impl; qi : impl; rr : Z }.

(** The parts of the pairing named [P]: r, phikonr, data, the fields. *)
Definition c_r (P : path) := 0 :: P.
Definition c_phikonr (P : path) := 1 :: P.
Definition c_data (P : path) := 2 :: P.
Definition c_tateexp (P : path) := 17 :: P.
Definition c_n2 (P : path) := 19 :: P.
Section Fields.
Variables (p : pinfo) (P : path).
Let dat := Some (c_data P).
Definition Zr := Fp (zi p) (3 :: P) None.
Definition Fq := Fp (qi p) (5 :: P) dat.
Definition gf3 := Gf3m (5 :: P) dat.
(** The field that GT lives in, and the field below it. *)
Definition Fd : field :=
  match ty p with TD n => PolyMod (8 :: P) dat n (9 :: P) dat Fq | TG => PolyMod (8 :: P) dat 5 (9 :: P) dat Fq | _ => Fq end.
Definition Fx : field :=
  match ty p with TI => Quad (7 :: P) dat gf3 | TD _ | TG => Quad (7 :: P) dat Fd | _ => Quad (7 :: P) dat Fq end.
Definition Fring : field := match ty p with TF => Poly (9 :: P) dat Fx | _ => Poly (9 :: P) dat Fq end.
Definition Ftop : field :=
  match ty p with TF => PolyMod (8 :: P) dat 6 (9 :: P) dat Fx | TI => Cubic (8 :: P) dat Fx | TE => Fq | _ => Fx end.
Definition GT := MulG (4 :: P) None Ftop.
Definition Eq : field :=
  match ty p with TI => Eta (6 :: P) (Some (18 :: P)) gf3 | TF => Curve (6 :: P) dat Fq false false | _ => Curve (6 :: P) dat Fq true false end.
Definition Etwist : field :=
  match ty p with TD _ | TG => Curve (10 :: P) dat Fd false true | _ => Curve (10 :: P) dat Fx false true end.
Definition la := 20 :: P.
Definition lb := 21 :: P.
Definition lc := 22 :: P.

(** a_init_pairing, a_param.c:1431-1472 *)
Definition a_init_pairing : prog :=
  alloc (c_data P) >> alloc (c_r P) >> field_init Zr >> field_init Fq >> inits [(Fq, la); (Fq, lb)] >>
  field_init Eq >> clears [(Fq, la); (Fq, lb)] >> field_init Fx >> alloc (c_phikonr P) >> field_init GT.
(** a1_init_pairing, a_param.c:2230-2273 *)
Definition a1_init_pairing : prog :=
  alloc (c_r P) >> field_init Zr >> alloc (c_data P) >> alloc (c_phikonr P) >> field_init Fq >> inits [(Fq, la); (Fq, lb)] >>
  field_init Eq >> clears [(Fq, la); (Fq, lb)] >> field_init Fx >> field_init GT.
(** field_init_curve_ab_map, curve.c:867-883 *)
Definition init_twist : prog :=
  inits [(Fd, 23 :: P); (Fd, 24 :: P)] >> field_init Etwist >> clears [(Fd, 23 :: P); (Fd, 24 :: P)].
(** The polynomial [irred] of degree [d]: d_param.c:1023-1031, f_param.c:348-369, g_param.c:1270-1281. *)
Definition poly_degree_init (b : field) (e : path) (d : nat) : prog := elem_init Fring e >> poly_grow (9 :: P) dat b e (d + 1).
Definition poly_degree_clear (b : field) (e : path) (d : nat) : prog :=
  touch dat >> poly_shrink b e (d + 1) >> release (1 :: e) >> release (0 :: e).
(** d_init_pairing, d_param.c:995-1095 *)
Definition d_init_pairing (n : nat) : prog :=
  alloc (c_r P) >> field_init Zr >> alloc (c_data P) >> field_init Fq >> inits [(Fq, la); (Fq, lb)] >> field_init Eq >>
  field_init Fring >> poly_degree_init Fq lc n >> field_init Fd >> poly_degree_clear Fq lc n >>
  gen_nqr Fd >> field_init Fx >>
  (if n =? 3 then alloc (c_phikonr P) >> inits [(Fd, 11 :: P); (Fd, 12 :: P)] else alloc (c_tateexp P)) >>
  init_twist >> get_nqr Fd true >> alloc (25 :: P) >> set_quotient_cmp Etwist >> release (25 :: P) >>
  inits [(Fd, 15 :: P)] >> get_nqr Fd true >> inits [(Fd, 16 :: P)] >> field_init GT >> clears [(Fq, la); (Fq, lb)].
(** e_init_pairing, e_param.c:832-872 *)
Definition e_init_pairing : prog :=
  alloc (c_r P) >> field_init Zr >> alloc (c_data P) >> field_init Fq >> inits [(Fq, la); (Fq, lb)] >> field_init Eq >>
  alloc (c_phikonr P) >> field_init GT >> inits [(Eq, 11 :: P)] >> clears [(Fq, la); (Fq, lb)].
(** f_init_pairing, f_param.c:335-447 *)
Definition f_init_pairing : prog :=
  alloc (c_data P) >> alloc (c_r P) >> field_init Zr >> field_init Fq >> gen_nqr Fq >> field_init Fx >> field_init Fring >>
  poly_degree_init Fx lc 6 >> inits [(Fx, 15 :: P); (Fx, 16 :: P)] >> field_init Ftop >> poly_degree_clear Fx lc 6 >>
  inits [(Fq, la); (Fq, lb); (Fx, 23 :: P)] >> field_init Eq >> clears [(Fq, la)] >> inits [(Fx, la)] >> field_init Etwist >>
  clears [(Fx, la); (Fq, lb); (Fx, 23 :: P)] >> alloc (25 :: P) >> set_quotient_cmp Etwist >> release (25 :: P) >> field_init GT >>
  alloc (c_tateexp P) >> inits [(Fx, 11 :: P); (Fx, 12 :: P); (Fx, 13 :: P)] >> inits [(Ftop, 24 :: P)] >> clears [(Ftop, 24 :: P)].
(** g_init_pairing, g_param.c:1248-1354 *)
Definition g_init_pairing : prog :=
  alloc (c_r P) >> field_init Zr >> alloc (c_data P) >> field_init Fq >> inits [(Fq, la); (Fq, lb)] >> field_init Eq >>
  field_init Fring >> poly_degree_init Fq lc 5 >> field_init Fd >> poly_degree_clear Fq lc 5 >>
  gen_nqr Fd >> field_init Fx >> alloc (c_phikonr P) >> alloc (25 :: P) >> release (25 :: P) >>
  inits [(Fd, 11 :: P); (Fd, 12 :: P); (Fd, 13 :: P); (Fd, 14 :: P)] >>
  init_twist >> get_nqr Fd true >> inits [(Fd, 15 :: P)] >> get_nqr Fd true >> inits [(Fd, 16 :: P)] >>
  alloc (25 :: P) >> set_quotient_cmp Etwist >> release (25 :: P) >> field_init GT >> clears [(Fq, la); (Fq, lb)].
(** eta_T_3_init_pairing, eta_T_3.c:714-736; [18 :: P] is the block of pairing->G1. *)
Definition i_init_pairing : prog :=
  alloc (c_r P) >> field_init Zr >> alloc (c_data P) >> alloc (c_n2 P) >> field_init gf3 >> field_init Fx >> field_init Ftop >>
  field_init GT >> alloc (18 :: P) >> field_init Eq.

(** pairing_init_pbc_param, pairing.c:74-86 *)
Definition pairing_init : prog :=
  match ty p with
  | TA _ _ => a_init_pairing | TA1 => a1_init_pairing | TD n => d_init_pairing n | TE => e_init_pairing
  | TF => f_init_pairing | TG => g_init_pairing | TI => i_init_pairing
  end.

(** The fields whose nonresidue is generated on demand. *)
Inductive slot := SZr | SFq | SFx | SFd.
Definition slot_field (s : slot) : field :=
  match s with SZr => Zr | SFq => match ty p with TI => gf3 | _ => Fq end | SFx => Fx | SFd => match ty p with TF | TI => Ftop | _ => Fd end end.
Definition slot_eqb (a b : slot) : bool :=
  match a, b with SZr, SZr | SFq, SFq | SFx, SFx | SFd, SFd => true | _, _ => false end.
(** Which pairings have these fields. *)
Definition has_slot (s : slot) : bool :=
  match s, ty p with
  | SZr, _ | SFq, _ => true
  | SFx, TE => false | SFx, _ => true
  | SFd, (TD _ | TG | TF | TI) => true | SFd, _ => false
  end.
(** The nonresidues that initialisation sets. *)
Definition init_nq (s : slot) : bool :=
  match s, ty p with SFd, (TD _ | TG) => true | SFq, TF => true | _, _ => false end.

Variable nq : slot -> bool.
(** a_pairing_clear, a_param.c:1385-1397 *)
Definition a_pairing_clear : prog :=
  field_clear GT false >> need (c_data P) >> field_clear Eq false >> field_clear Fq (nq SFq) >> field_clear Fx (nq SFx) >>
  release (c_data P) >> release (c_r P) >> release (c_phikonr P) >> field_clear Zr (nq SZr).
(** a1_pairing_clear, a_param.c:2195-2207 *)
Definition a1_pairing_clear : prog :=
  field_clear GT false >> need (c_data P) >> field_clear Eq false >> field_clear Fx (nq SFx) >> field_clear Fq (nq SFq) >>
  release (c_data P) >> release (c_phikonr P) >> release (c_r P) >> field_clear Zr (nq SZr).
(** d_pairing_clear, d_param.c:968-990 *)
Definition d_pairing_clear (n : nat) : prog :=
  field_clear GT false >> need (c_data P) >>
  (if n =? 3 then clears [(Fd, 11 :: P); (Fd, 12 :: P)] >> release (c_phikonr P) else release (c_tateexp P)) >>
  field_clear Etwist false >> field_clear Eq false >> clears [(Fd, 15 :: P); (Fd, 16 :: P)] >>
  field_clear Fx (nq SFx) >> field_clear Fd (nq SFd) >> field_clear Fring false >> field_clear Fq (nq SFq) >>
  field_clear Zr (nq SZr) >> release (c_r P) >> release (c_data P).
(** e_pairing_clear, e_param.c:815-826 *)
Definition e_pairing_clear : prog :=
  field_clear GT false >> need (c_data P) >> field_clear Fq (nq SFq) >> field_clear Eq false >> clears [(Eq, 11 :: P)] >>
  release (c_data P) >> release (c_phikonr P) >> release (c_r P) >> field_clear Zr (nq SZr).
(** f_pairing_clear, f_param.c:313-333 *)
Definition f_pairing_clear : prog :=
  field_clear GT false >> need (c_data P) >> clears [(Fx, 15 :: P); (Fx, 16 :: P)] >> release (c_tateexp P) >>
  clears [(Fx, 11 :: P); (Fx, 12 :: P); (Fx, 13 :: P)] >> field_clear Etwist false >> field_clear Eq false >>
  field_clear Ftop (nq SFd) >> field_clear Fring false >> field_clear Fx (nq SFx) >> field_clear Fq (nq SFq) >>
  release (c_data P) >> release (c_r P) >> field_clear Zr (nq SZr).
(** g_pairing_clear, g_param.c:1126-1147 *)
Definition g_pairing_clear : prog :=
  field_clear GT false >> need (c_data P) >> clears [(Fd, 11 :: P); (Fd, 12 :: P); (Fd, 13 :: P); (Fd, 14 :: P)] >>
  release (c_phikonr P) >> field_clear Etwist false >> field_clear Eq false >> clears [(Fd, 15 :: P); (Fd, 16 :: P)] >>
  field_clear Fx (nq SFx) >> field_clear Fd (nq SFd) >> field_clear Fring false >> field_clear Fq (nq SFq) >>
  field_clear Zr (nq SZr) >> release (c_r P) >> release (c_data P).
(** eta_T_3_pairing_clear, eta_T_3.c:700-712 *)
Definition i_pairing_clear : prog :=
  release (c_r P) >> field_clear Zr (nq SZr) >> field_clear GT false >> field_clear Eq false >> release (18 :: P) >>
  need (c_data P) >> field_clear gf3 (nq SFq) >> field_clear Fx (nq SFx) >> field_clear Ftop (nq SFd) >>
  release (c_n2 P) >> release (c_data P).
(** pairing_clear, pairing.c:104-106 *)
Definition pairing_clear : prog :=
  match ty p with
  | TA _ _ => a_pairing_clear | TA1 => a1_pairing_clear | TD n => d_pairing_clear n | TE => e_pairing_clear
  | TF => f_pairing_clear | TG => g_pairing_clear | TI => i_pairing_clear
  end.

(** The groups of a pairing: pairing->Zr, G1, G2, GT. *)
Inductive grp := GZr | G1 | G2 | GTt.
Definition group (g : grp) : field :=
  match g with GZr => Zr | G1 => Eq | G2 => match ty p with TD _ | TG | TF => Etwist | _ => Eq end | GTt => GT end.

(** ** Parameters: pbc_param_init_X stores [mpz_count] integers in an allocated
    structure, and for types D and G an array of [coeff_count] more:
    a_param.c:1474-1486, 48-54; 2275-2285, 1580-1585; d_param.c:1176-1226,
    53-71; e_param.c:874-887, 40-48; f_param.c (f_init), 49-58; g_param.c:1356-1405,
    47-64; eta_T_3.c:746-757, 683-687. *)
Definition mpz_count : nat := match ty p with TA _ _ => 3 | TA1 => 2 | TD _ | TG => 9 | TE => 5 | TF => 6 | TI => 2 end.
Definition coeff_count : option nat := match ty p with TD n => Some n | TG => Some 5 | _ => None end.
Definition param_init (K : path) : prog :=
  alloc (0 :: K) >> upto mpz_count (fun i => alloc (S i :: K)) >>
  match coeff_count with Some d => alloc (20 :: K) >> upto d (fun i => alloc (21 + i :: K)) | None => skip end.
(** pbc_param_clear, include/pbc_param.h, and the X_clear functions. *)
Definition param_clear (K : path) : prog :=
  need (0 :: K) >> upto mpz_count (fun i => release (S i :: K)) >>
  match coeff_count with Some d => upto d (fun i => release (21 + i :: K)) >> release (20 :: K) | None => skip end >> release (0 :: K).

(** pairing_init_set_buf, pairing.c:88-98, on a text of a known type.
    [complete]: no key is missing. *)
Definition pairing_init_text (K : path) (complete : bool) : prog :=
  param_init K >> if complete then pairing_init >> param_clear K else skip.

(** ** Tables of pairing_pp_init: [K] names the table. *)
Inductive method := Miller | Net.
Definition rbits : nat := Z.to_nat (sizeinbase2 (rr p)).
(** An entry of an array of [size] entries: pp_coeff_set, a_param.c:121-130;
    store_abc, d_param.c:808-816. *)
Definition entry3 (size : nat) (K : path) (i : nat) : prog :=
  if i <? size then inits [(Fq, 1 :: S i :: K); (Fq, 2 :: S i :: K); (Fq, 3 :: S i :: K)] else fun _ => UB.
Definition entry3_clear (K : path) (i : nat) : prog :=
  clears [(Fq, 1 :: S i :: K); (Fq, 2 :: S i :: K); (Fq, 3 :: S i :: K)].
(** a_pairing_pp_init, a_param.c:149-205; a_pairing_pp_clear, 207-218.  The
    two loops and the last line write the entries [0 .. max exp1 exp2]. *)
Definition a_pp_init (e1 e2 : nat) (K : path) : prog :=
  need (c_data P) >> alloc (0 :: K) >>
  inits [(Eq, la); (Eq, lb); (Fq, lc); (Fq, 23 :: P); (Fq, 24 :: P); (Fq, 25 :: P)] >>
  upto e1 (entry3 (e2 + 1) K) >> upto (e2 - e1) (fun i => entry3 (e2 + 1) K (e1 + i)) >> entry3 (e2 + 1) K (e1 + (e2 - e1)) >>
  clears [(Fq, lc); (Fq, 23 :: P); (Fq, 24 :: P); (Fq, 25 :: P); (Eq, la); (Eq, lb)].
Definition a_pp_clear (e2 : nat) (K : path) : prog :=
  need (c_data P) >> upto (e2 + 1) (entry3_clear K) >> release (0 :: K).
(** a_pairing_ellnet_pp_init, a_param.c:687-910 (15 temporaries: cm3..c4, C,
    sm2, s3, tm2, t3, e0, e1), a_pairing_ellnet_pp_clear, 912-930. *)
Definition entry8 (K : path) (i : nat) : list (field * path) := map (fun j => (Fq, j :: 4 + i :: K)) [0; 1; 2; 3; 4; 5; 6; 7].
Definition net_temps : list (field * path) := map (fun j => (Fq, j :: P)) [20; 21; 22; 23; 24; 25; 26; 27; 28; 29; 30; 31; 32; 33; 34].
Definition net_pp_init (K : path) : prog :=
  alloc (0 :: K) >> alloc (1 :: K) >> inits [(Fq, 2 :: K); (Fq, 3 :: K)] >> upto rbits (fun i => inits (entry8 K i)) >>
  inits net_temps >> clears net_temps.
Definition net_pp_clear (K : path) : prog :=
  need (0 :: K) >> upto rbits (fun i => clears (entry8 K i)) >> clears [(Fq, 2 :: K); (Fq, 3 :: K)] >> release (1 :: K) >> release (0 :: K).
(** a1_pairing_pp_init, a_param.c:1632-1721: one block of three or six elements
    for each bit below the top one.  a1_pairing_pp_clear, 1623-1630, releases
    the blocks without clearing the elements in them. *)
Definition a1_entry (K : path) (i : nat) (two : bool) : list (field * path) :=
  map (fun j => (Fq, j :: 2 + i :: K)) (if two then [1; 2; 3; 4; 5; 6] else [1; 2; 3]).
Fixpoint a1_pp_loop (K : path) (i m : nat) : prog :=
  match m with
  | O => alloc (0 :: 2 + i :: K) >> inits (a1_entry K i false)
  | S m' => alloc (0 :: 2 + i :: K) >> inits (a1_entry K i (mpz_tstbit (rr p) (Z.of_nat m))) >> a1_pp_loop K (S i) m'
  end.
Definition a1_temps : list (field * path) := (Eq, 20 :: P) :: map (fun j => (Fq, j :: P)) [21; 22; 23; 24; 25; 26; 27; 28; 29].
Definition a1_pp_init (K : path) : prog :=
  need (c_data P) >> alloc (0 :: K) >> inits a1_temps >> a1_pp_loop K 0 (start_bit (rr p)) >> clears a1_temps.
Definition a1_pp_clear (K : path) : prog :=
  need (0 :: K) >> upto (S (start_bit (rr p))) (fun i => release (0 :: 2 + i :: K)) >> release (0 :: K).
(** d_pairing_pp_init, d_param.c:783-901 (g_param.c:619-737): the array has
    twice the index of the top bit to process as its size; one entry for each
    tangent and one for each line.  d_pairing_pp_clear, d_param.c:903-919
    (g_param.c:739-755). *)
Fixpoint d_pp_loop (size : nat) (K : path) (i m : nat) : prog :=
  entry3 size K i >>
  match m with
  | O => skip
  | S m' => if mpz_tstbit (rr p) (Z.of_nat m) then entry3 size K (S i) >> d_pp_loop size K (S (S i)) m' else d_pp_loop size K (S i) m'
  end.
Definition d_temps : list (field * path) := (Eq, 20 :: P) :: map (fun j => (Fq, j :: P)) [21; 22; 23; 24].
Definition d_pp_init (K : path) : prog :=
  need (c_data P) >> inits d_temps >> alloc (0 :: K) >> d_pp_loop (2 * start_bit (rr p)) K 0 (start_bit (rr p)) >> clears d_temps.
Definition d_pp_clear (K : path) : prog := upto (d_pp_clear_count (rr p)) (entry3_clear K) >> release (0 :: K).
(** pairing_pp_init and pairing_pp_clear, include/pbc_pairing.h:54-72, on a
    point other than O; the functions are those the last option selected
    (a_param.c:1399-1422, 2209-2228), default_pp_init and default_pp_clear
    (pairing.c) store nothing but a pointer to the point. *)
Definition pp_init (m : method) (K : path) : prog :=
  match ty p, m with
  | TA e1 e2, Miller => a_pp_init e1 e2 K
  | TA1, Miller => a1_pp_init K
  | TA _ _, Net | TA1, Net => net_pp_init K
  | TD _, _ | TG, _ => d_pp_init K
  | _, _ => skip
  end.
Definition pp_clear (m : method) (K : path) : prog :=
  match ty p, m with
  | TA _ e2, Miller => a_pp_clear e2 K
  | TA1, Miller => a1_pp_clear K
  | TA _ _, Net | TA1, Net => net_pp_clear K
  | TD _, _ | TG, _ => d_pp_clear K
  | _, _ => skip
  end.
End Fields.

(** ** Tables of element_pp_init: element_build_base_table, field.c:251-286
    with windows of 5 bits (:333-336), default_element_pp_clear, :342-360.
    [bits] is the bit length of the order of the field of the base. *)
Definition lookups (bits : nat) : nat := bits / 5 + 1.
Definition table_init (f : field) (bits : nat) (K : path) : prog :=
  alloc (0 :: K) >> alloc (1 :: K) >> elem_init f (2 :: K) >>
  upto (lookups bits) (fun i => alloc (0 :: 3 + i :: K) >> upto 32 (fun j => elem_init f (S j :: 3 + i :: K))) >>
  elem_clear f (2 :: K).
Definition table_clear (f : field) (bits : nat) (K : path) : prog :=
  need (0 :: K) >>
  upto (lookups bits) (fun i => upto 32 (fun j => elem_clear f (S j :: 3 + i :: K)) >> release (0 :: 3 + i :: K)) >>
  release (1 :: K) >> release (0 :: K).
(** element_pp_init, element_pp_clear; mulg_pp_init, mulg_pp_clear (pairing.c:219-227)
    hand the element below over to its own field. *)
Definition element_pp_init (f : field) (bits : nat) (K : path) : prog :=
  touch (home_of f) >> match f with MulG _ _ b => alloc (0 :: K) >> touch (home_of b) >> table_init b bits (1 :: K) | _ => table_init f bits K end.
Definition element_pp_clear (f : field) (bits : nat) (K : path) : prog :=
  touch (home_of f) >> match f with MulG _ _ b => touch (home_of b) >> table_clear b bits (1 :: K) >> release (0 :: K) | _ => table_clear f bits K end.

(** ** Programs of the user

    The user's objects have numbers.  Of each, what its own structure records:
    an element and its table record their field, a pairing_pp_t its pairing. *)
(** Which nonresidues have been generated. *)
Record nqs := { nZr : bool; nFq : bool; nFx : bool; nFd : bool }.
Definition nq_get (n : nqs) (s : slot) : bool := match s with SZr => nZr n | SFq => nFq n | SFx => nFx n | SFd => nFd n end.
Definition nq_of (f : slot -> bool) : nqs := {| nZr := f SZr; nFq := f SFq; nFx := f SFx; nFd := f SFd |}.
Definition nq_set (n : nqs) (s : slot) : nqs := nq_of (fun t => slot_eqb t s || nq_get n t).
Inductive obj :=
| OParam (p : pinfo)
| OPair (p : pinfo) (m : method) (nq : nqs)
| OElem (i : nat) (f : field)
| OPp (i : nat) (p : pinfo) (m : option method)  (* None: made from the point O *)
| OTab (i : nat) (f : field) (bits : nat).
Definition objs := list (nat * obj).
Fixpoint look (k : nat) (o : objs) : option obj :=
  match o with [] => None | (j, x) :: o' => if j =? k then Some x else look k o' end.
Definition drop (k : nat) (o : objs) : objs := filter (fun x => negb (fst x =? k)) o.

Inductive call :=
| CParam (k : nat) (p : pinfo)            (* pbc_param_init_set_str *)
| CParamClear (k : nat)
| CPairing (i k : nat)                    (* pairing_init_pbc_param(i, k) *)
| CPairingText (i : nat) (p : pinfo) (complete : bool)   (* pairing_init_set_str *)
| CPairingClear (i : nat)
| COption (i : nat) (m : method)          (* pairing_option_set(i, "method", ...) *)
| CNqr (i : nat) (s : slot)               (* any operation that calls field_get_nqr *)
| CElem (e i : nat) (g : grp)             (* element_init_Zr, _G1, _G2, _GT *)
| CElemClear (e : nat)
| CPp (k e : nat) (zero : bool)           (* pairing_pp_init on the element e; zero: it is O *)
| CPpClear (k : nat)
| CTable (k e bits : nat)                 (* element_pp_init on the element e *)
| CTableClear (k : nat).

Definition fail : res (objs * heap) := UB.
Definition exec (c : call) (st : objs * heap) : res (objs * heap) :=
  let '(o, h) := st in
  let put k x m := h' <- m h ;; Ok ((k, x) :: o, h') in
  let del k m := h' <- m h ;; Ok (drop k o, h') in
  match c with
  | CParam k p => put k (OParam p) (param_init p [k])
  | CParamClear k => match look k o with Some (OParam p) => del k (param_clear p [k]) | _ => fail end
  | CPairing i k => match look k o with Some (OParam p) => put i (OPair p Miller (nq_of (init_nq p))) (need [0; k] >> pairing_init p [i]) | _ => fail end
  | CPairingText i p complete =>
      h' <- pairing_init_text p [i] [40; i] complete h ;;
      Ok (if complete then (i, OPair p Miller (nq_of (init_nq p))) :: o else o, h')
  | CPairingClear i => match look i o with Some (OPair p _ nq) => del i (pairing_clear p [i] (nq_get nq)) | _ => fail end
  | COption i m => match look i o with Some (OPair p _ nq) => Ok ((i, OPair p m nq) :: drop i o, h) | _ => fail end
  | CNqr i s =>
      match look i o with
      | Some (OPair p m nq) =>
          h' <- get_nqr (slot_field p [i] s) (nq_get nq s) h ;;
          Ok ((i, OPair p m (nq_set nq s)) :: drop i o, h')
      | _ => fail end
  | CElem e i g => match look i o with Some (OPair p _ _) => put e (OElem i (group p [i] g)) (elem_init (group p [i] g) [e]) | _ => fail end
  | CElemClear e => match look e o with Some (OElem _ f) => del e (elem_clear f [e]) | _ => fail end
  | CPp k e zero =>
      match look e o with
      | Some (OElem i _) =>
          match look i o with
          | Some (OPair p m _) => if zero then put k (OPp i p None) skip else put k (OPp i p (Some m)) (pp_init p [i] m [k])
          | _ => fail end
      | _ => fail end
  | CPpClear k =>
      match look k o with
      | Some (OPp i _ None) => del k skip
      | Some (OPp i _ (Some _)) => match look i o with Some (OPair p m _) => del k (pp_clear p [i] m [k]) | _ => fail end
      | _ => fail end
  | CTable k e bits => match look e o with Some (OElem i f) => put k (OTab i f bits) (element_pp_init f bits [k]) | _ => fail end
  | CTableClear k => match look k o with Some (OTab _ f bits) => del k (element_pp_clear f bits [k]) | _ => fail end
  end.
Fixpoint execs (cs : list call) (st : objs * heap) : res (objs * heap) :=
  match cs with [] => Ok st | c :: cs' => st' <- exec c st ;; execs cs' st' end.
