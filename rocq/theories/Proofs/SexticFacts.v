(** A field L with basis 1, w, ..., w^5 over M, w^6 = N: sparse
    multiplication and endomorphisms over M. *)
From Coq Require Import ZArith List Bool Lia Ring Field Arith.
From Verif.Base Require Import Outcome Algebra Slots.
From Verif.Spec Require Import Quadratic Curve Twist.
From Verif.Proofs Require Import PowFacts FieldFacts Embed.

Section G.
Variables M L : fld.
Hypothesis HM : fld_laws M.
Hypothesis HL : fld_laws L.
Add Field MFx6 : (fl_field M HM).
Add Field LFx6 : (fl_field L HL).
Variable cv : M -> L.
Hypothesis Hcv : embedding M L cv.
Variable w : L.
Variable N : M.
Local Notation "x + y" := (fadd x y). Local Notation "x * y" := (fmul x y).
Local Notation w2 := (w * w). Local Notation w3 := (w * w * w). Local Notation w4 := (w * w * (w * w)). Local Notation w5 := (w * w * (w * w) * w).
Hypothesis Hw : w3 * w3 = cv N.
Variable mk : (nat -> M) -> L.
Variable co : L -> nat -> M.
Hypothesis mk_eq : forall f, mk f = cv (f 0%nat) + cv (f 1%nat) * w + cv (f 2%nat) * w2 + cv (f 3%nat) * w3 + cv (f 4%nat) * w4 + cv (f 5%nat) * w5.
Hypothesis mk_co : forall x, mk (co x) = x.
Let ca := em_add _ _ _ Hcv.
Let cm := em_mul _ _ _ Hcv.
Lemma sparse_ok : forall v a b c Qx Qy,
  mk (fun i => match i with
    | 0%nat => (co v 3%nat * Qy * b + co v 2%nat * Qx * a) * N + co v 0%nat * c
    | 1%nat => (co v 4%nat * Qy * b + co v 3%nat * Qx * a) * N + co v 1%nat * c
    | 2%nat => (co v 5%nat * Qy * b + co v 4%nat * Qx * a) * N + co v 2%nat * c
    | 3%nat => co v 0%nat * Qy * b + co v 5%nat * Qx * N * a + co v 3%nat * c
    | 4%nat => co v 1%nat * Qy * b + co v 0%nat * Qx * a + co v 4%nat * c
    | _ => co v 2%nat * Qy * b + co v 1%nat * Qx * a + co v 5%nat * c
    end) = v * (cv a * (cv Qx * w4) + cv b * (cv Qy * w3) + cv c).
Proof.
  intros. match goal with |- _ = _ * ?z => transitivity (mk (co v) * z); [|rewrite mk_co; reflexivity] end. rewrite !mk_eq. cbv beta iota. repeat (rewrite ca || rewrite cm). rewrite <- Hw. ring.
Qed.
Lemma endo_ok : forall (phi : L -> L) e, embedding L L phi -> (forall c, phi (cv c) = cv c) -> phi w = cv e * w ->
  forall x, mk (fun i => match i with
    | 0%nat => co x 0%nat
    | 1%nat => co x 1%nat * e
    | 2%nat => co x 2%nat * (e * e)
    | 3%nat => co x 3%nat * (e * e * e)
    | 4%nat => co x 4%nat * (e * e * e * e)
    | _ => co x 5%nat * (e * e * e * e * e)
    end) = phi x.
Proof.
  intros phi e Hp F W x. transitivity (phi (mk (co x))); [|rewrite mk_co; reflexivity]. rewrite !mk_eq. cbv beta iota. repeat (rewrite (em_add _ _ _ Hp) || rewrite (em_mul _ _ _ Hp)).
  rewrite !F, !W. repeat rewrite cm. ring.
Qed.
End G.
