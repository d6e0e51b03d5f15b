(** Miller's function of a point of odd order is a polynomial in x and y, of
    bounded degree, that vanishes at the point and not at its opposite. *)
From Coq Require Import ZArith List Bool Lia Ring Field.
From Verif.Base Require Import Outcome Algebra Slots.
From Verif.Spec Require Import Curve Tate Twist.
From Verif.Proofs Require Import FieldFacts SlotFacts CurveGroup CurveFacts LineAlgebra TateFacts Embed.
Import ListNotations.

(** lists of coefficients *)
Section P.
Variable K : fld.
Hypothesis HK : fld_laws K.
Add Field KFmp : (fl_field K HK).
Local Notation "0" := f0. Local Notation "1" := f1.
Local Notation "x + y" := (fadd x y). Local Notation "x - y" := (fsub x y). Local Notation "x * y" := (fmul x y). Local Notation "- x" := (fopp x).
Local Notation ev := (peval K).
Fixpoint ladd (p q : list K) : list K := match p, q with [], _ => q | _, [] => p | c :: p', d :: q' => c + d :: ladd p' q' end.
Definition lscale (c : K) (p : list K) : list K := map (fun x => c * x) p.
Fixpoint lmul' (p q : list K) : list K := match p with [] => [] | c :: p' => ladd (lscale c q) (0 :: lmul' p' q) end.
Definition lmul (p q : list K) : list K := match q with [] => [] | _ => lmul' p q end.
Lemma ladd_ev : forall p q x, ev (ladd p q) x = ev p x + ev q x.
Proof. induction p as [ | c p IH]; intros [ | d q] x; cbn [ladd peval]; try ring. rewrite IH. ring. Qed.
Lemma lscale_ev : forall c p x, ev (lscale c p) x = c * ev p x.
Proof. induction p as [ | d p IH]; intro x; cbn [lscale map peval]; [ring | ]. unfold lscale in IH. rewrite IH. ring. Qed.
Lemma lmul'_ev : forall p q x, ev (lmul' p q) x = ev p x * ev q x.
Proof. induction p as [ | c p IH]; intros q x; cbn [lmul' peval]; [ring | ]. rewrite ladd_ev, lscale_ev. cbn [peval]. rewrite IH. ring. Qed.
Lemma lmul_ev : forall p q x, ev (lmul p q) x = ev p x * ev q x.
Proof. intros p [ | d q] x; unfold lmul; [cbn [peval]; ring | apply lmul'_ev]. Qed.
Lemma ladd_len : forall p q, length (ladd p q) = Nat.max (length p) (length q).
Proof. induction p as [ | c p IH]; intros [ | d q]; cbn [ladd length]; auto. rewrite IH. reflexivity. Qed.
Lemma lmul'_len : forall p q, (0 < length q)%nat -> (length (lmul' p q) <= pred (length p + length q))%nat.
Proof.
  induction p as [ | c p IH]; intros q H; cbn [lmul' length]; [lia | ]. rewrite ladd_len. unfold lscale. rewrite map_length. cbn [length].
  specialize (IH q H). destruct p as [ | d p]; [cbn [lmul' length] in *; lia | ]. cbn [length] in *. lia.
Qed.
Lemma lmul_len : forall p q, (length (lmul p q) <= pred (length p + length q))%nat.
Proof. intros p [ | d q]; unfold lmul; [cbn [length]; lia | ]. apply lmul'_len. cbn [length]. lia. Qed.
Lemma lmul_l : forall q, lmul [] q = []. Proof. intros [ | d q]; reflexivity. Qed.
Lemma lmul_r : forall p, lmul p [] = []. Proof. reflexivity. Qed.

(** derivative *)
Fixpoint pder (p : list K) (c : K) : K := match p with [] => 0 | _ :: p' => ev p' c + c * pder p' c end.
Lemma pquot_der : forall p c, ev (pquot K p c) c = pder p c.
Proof.
  induction p as [ | d p IH]; intro c; [reflexivity | ]. destruct p as [ | d' p]; [cbn; ring | ].
  change (pquot K (d :: d' :: p) c) with (ev (d' :: p) c :: pquot K (d' :: p) c). cbn [pder]. cbn [peval]. rewrite IH. cbn [pder peval]. ring.
Qed.
Lemma ladd_der : forall p q c, pder (ladd p q) c = pder p c + pder q c.
Proof. induction p as [ | x p IH]; intros [ | y q] c; cbn [ladd pder]; try ring. rewrite IH, ladd_ev. ring. Qed.
Lemma lscale_der : forall k p c, pder (lscale k p) c = k * pder p c.
Proof. induction p as [ | x p IH]; intro c; cbn [lscale map pder]; [ring | ]. fold (lscale k p). rewrite IH, lscale_ev. ring. Qed.
Lemma lmul'_der : forall p q c, pder (lmul' p q) c = pder p c * ev q c + ev p c * pder q c.
Proof.
  induction p as [ | x p IH]; intros q c; cbn [lmul' pder peval]; [ring | ].
  rewrite ladd_der, lscale_der. cbn [pder]. rewrite IH, lmul'_ev. ring.
Qed.
Lemma lmul_der : forall p q c, pder (lmul p q) c = pder p c * ev q c + ev p c * pder q c.
Proof. intros p [ | d q] c; unfold lmul; [cbn [pder peval]; ring | apply lmul'_der]. Qed.
(** enough roots *)
Lemma many_roots : forall p l, NoDup l -> (length p <= length l)%nat -> (forall x, In x l -> ev p x = 0) -> forall x, ev p x = 0.
Proof.
  intro p. remember (length p) as n eqn:E. revert p E. induction n; intros p E l N H R x.
  - destruct p; [reflexivity | discriminate].
  - destruct l as [ | c l]; [cbn [length] in H; lia | ]. inversion N; subst.
    assert (Q : forall z, ev (pquot K p c) z = 0).
    { apply (IHn (pquot K p c)) with (l := l); auto.
      - rewrite (pquot_length K). lia.
      - cbn [length] in H. lia.
      - intros z I. pose proof (R z (or_intror I)) as Z. rewrite (pquot_spec K HK p c z), (R c (or_introl eq_refl)) in Z.
        assert (Z' : (z - c) * ev (pquot K p c) z = 0) by (rewrite <- Z; ring).
        destruct (f_integral K HK _ _ Z') as [Y | Y]; auto. apply (f_sub_0 K HK) in Y. subst. tauto. }
    rewrite (pquot_spec K HK p c x), (R c (or_introl eq_refl)), Q. ring.
Qed.
End P.
Lemma pquot_map : forall (K F : fld) (HK : fld_laws K) (HF : fld_laws F) (g : K -> F), embedding K F g -> 
  (forall p x, peval F (map g p) (g x) = g (peval K p x)) /\ (forall p c, map g (pquot K p c) = pquot F (map g p) (g c)).
Proof.
  intros K F HK HF g Hg. assert (E : forall p x, peval F (map g p) (g x) = g (peval K p x)).
  { induction p as [ | c p IH]; intro x; cbn [map peval]; [symmetry; apply Hg | ]. rewrite IH, (em_add _ _ _ Hg), (em_mul _ _ _ Hg). reflexivity. }
  split; auto. induction p as [ | d p IH]; intro c; [reflexivity | ]. destruct p as [ | d' p]; [reflexivity | ].
  change (pquot K (d :: d' :: p) c) with (peval K (d' :: p) c :: pquot K (d' :: p) c).
  change (map g (d :: d' :: p)) with (g d :: g d' :: map g p). change (pquot F (g d :: g d' :: map g p) (g c)) with (peval F (map g (d' :: p)) (g c) :: pquot F (map g (d' :: p)) (g c)).
  rewrite <- IH, E. reflexivity.
Qed.

Section LR.
Variable F : fld.
Hypothesis HF : fld_laws F.
Add Field FFlr : (fl_field F HF).
Lemma line_ring : forall l n X Y : F,
  fadd (fadd (fopp n) (fmul X (fadd (fopp l) (fmul X f0)))) (fmul (fadd f1 (fmul X f0)) Y) = fsub (fsub Y (fmul l X)) n.
Proof. intros. ring. Qed.
End LR.

(** functions A(x) + B(x) y on the curve, with bounded pole at infinity *)
Definition fn (K : fld) : Type := (list K * list K)%type.
Definition inL {K : fld} (n : nat) (f : fn K) : Prop := (2 * length (fst f) <= n + 2)%nat /\ (snd f = [] \/ (2 * length (snd f) + 1 <= n)%nat).
Definition fev {K F : fld} (g : K -> F) (f : fn K) (X Y : F) : F := fadd (peval F (map g (fst f)) X) (fmul (peval F (map g (snd f)) X) Y).
Section C.
Variable K : fld.
Hypothesis HK : fld_laws K.
Add Field KFmc : (fl_field K HK).
Local Notation "0" := f0. Local Notation "1" := f1.
Local Notation "x + y" := (fadd x y). Local Notation "x - y" := (fsub x y). Local Notation "x * y" := (fmul x y). Local Notation "- x" := (fopp x).
Variables a b : K.
Definition cubic_l : list K := [b; a; 0; 1].
Definition fnmul (f g : fn K) : fn K :=
  (ladd K (lmul K (fst f) (fst g)) (lmul K (lmul K (snd f) (snd g)) cubic_l), ladd K (lmul K (fst f) (snd g)) (lmul K (fst g) (snd f))).
Definition fnone : fn K := ([1], []).
Fixpoint fnpow (f : fn K) (n : nat) : fn K := match n with O => fnone | S k => fnmul f (fnpow f k) end.
Lemma inL_mul : forall m n f g, inL m f -> inL n g -> inL (m + n) (fnmul f g).
Proof.
  intros m n [A B] [A' B'] [H1 H2] [H3 H4]. cbn [fst snd] in *. unfold inL, fnmul. cbn [fst snd]. rewrite ladd_len. split.
  - pose proof (lmul_len K A A') as E1. apply Nat.max_case_strong; intros _; [lia | ].
    destruct H2 as [-> | H2]; [rewrite lmul_l, lmul_l; cbn [length]; lia | ]. destruct H4 as [-> | H4]; [rewrite lmul_r, lmul_l; cbn [length]; lia | ].
    pose proof (lmul_len K B B') as E2. pose proof (lmul_len K (lmul K B B') cubic_l) as E3. change (length cubic_l) with 4%nat in E3.
    destruct B as [ | d B]; [rewrite lmul_l, lmul_l; cbn [length]; lia | ]. destruct B' as [ | d' B']; [rewrite lmul_r, lmul_l; cbn [length]; lia | ]. cbn [length] in *. lia.
  - pose proof (lmul_len K A B') as E1. pose proof (lmul_len K A' B) as E2.
    destruct H2 as [-> | H2], H4 as [-> | H4]; rewrite ?lmul_r; [left; reflexivity | right | right | right]; rewrite ?ladd_len; cbn [length] in *; try lia.
Qed.
Lemma inL_pow : forall m f n, inL m f -> inL (n * m) (fnpow f n).
Proof. induction n; intro H; cbn [fnpow]; [split; [cbn; lia | left; reflexivity] | ]. cbn [Nat.mul]. apply inL_mul; auto. Qed.

Section F.
Variable F : fld.
Hypothesis HF : fld_laws F.
Add Field FFmc : (fl_field F HF).
Variable g : K -> F.
Hypothesis Hg : embedding K F g.
Lemma map_ladd : forall p q, map g (ladd K p q) = ladd F (map g p) (map g q).
Proof. induction p as [ | c p IH]; intros [ | d q]; cbn [ladd map]; auto. rewrite IH, (em_add _ _ _ Hg). reflexivity. Qed.
Lemma map_lmul' : forall p q, map g (lmul' K p q) = lmul' F (map g p) (map g q).
Proof.
  induction p as [ | c p IH]; intro q; cbn [lmul' map]; auto. rewrite map_ladd. cbn [map]. rewrite IH, (em_0 _ _ _ Hg). f_equal.
  unfold lscale. rewrite !map_map. apply map_ext. intro x. apply (em_mul _ _ _ Hg).
Qed.
Lemma map_lmul : forall p q, map g (lmul K p q) = lmul F (map g p) (map g q).
Proof. intros p [ | d q]; unfold lmul; [reflexivity | ]. cbn [map]. apply (map_lmul' p (d :: q)). Qed.
Local Notation on X Y := (fmul Y Y = fadd (fadd (fmul (fmul X X) X) (fmul (g a) X)) (g b)).
Lemma fev_mul : forall f k X Y, on X Y -> fev g (fnmul f k) X Y = fmul (fev g f X Y) (fev g k X Y).
Proof.
  intros [A B] [A' B'] X Y O. unfold fev, fnmul. cbn [fst snd]. rewrite !map_ladd, !map_lmul, !(ladd_ev F HF), !(lmul_ev F HF).
  set (u := peval F (map g A) X). set (v := peval F (map g B) X). set (u' := peval F (map g A') X). set (v' := peval F (map g B') X).
  cbn [cubic_l map peval]. rewrite (em_0 _ _ _ Hg), (em_1 _ _ _ Hg).
  transitivity (fadd (fadd (fmul u u') (fmul (fmul v v') (fmul Y Y))) (fmul (fadd (fmul u v') (fmul u' v)) Y)); [rewrite O; ring | ring].
Qed.
Lemma fev_one : forall X Y, fev g fnone X Y = f1.
Proof. intros. unfold fev, fnone. cbn [fst snd map peval]. rewrite (em_1 _ _ _ Hg). ring. Qed.
Lemma fev_pow : forall f n X Y, on X Y -> fev g (fnpow f n) X Y = npow (G := mul_monoid F) (fev g f X Y) n.
Proof. induction n; intros X Y O; cbn [fnpow npow]; [apply fev_one | ]. rewrite fev_mul, IHn by exact O. reflexivity. Qed.
(** division by x - c *)
Definition fnquot (f : fn K) (c : K) : fn K := (pquot K (fst f) c, pquot K (snd f) c).
Lemma fev_quot : forall f c X Y, peval K (fst f) c = 0 -> peval K (snd f) c = 0 ->
  fev g f X Y = fmul (fsub X (g c)) (fev g (fnquot f c) X Y).
Proof.
  intros [A B] c X Y E1 E2. destruct (pquot_map K F HK HF g Hg) as [M1 M2]. unfold fev, fnquot. cbn [fst snd] in *. rewrite !M2.
  rewrite (pquot_spec F HF (map g A) (g c) X), (pquot_spec F HF (map g B) (g c) X), !M1, E1, E2, (em_0 _ _ _ Hg). ring.
Qed.
End F.
Lemma inL_quot : forall n f c, inL (S (S n)) f -> inL n (fnquot f c).
Proof.
  intros n [A B] c [H1 H2]. cbn [fst snd] in *. unfold inL, fnquot. cbn [fst snd]. rewrite !pquot_length. split; [lia | ].
  destruct H2 as [-> | H2]; [left; reflexivity | ]. destruct B as [ | d [ | d' B]]; [left; reflexivity | left; reflexivity | right; cbn [length] in *; lia].
Qed.

(** values at points of E(K) *)
Local Notation evK := (fev (fun x : K => x)).
Lemma id_emb : embedding K K (fun x => x). Proof. split; reflexivity. Qed.
Local Notation onK := (on_curve K a b).
Lemma on_eq : forall x y, onK (Some (x, y)) -> y * y = x * x * x + a * x + b.
Proof. intros x y H. cbn [on_curve] in H. unfold rhs in H. rewrite H. ring. Qed.
Lemma vanish_both : forall f x y, f2 K <> 0 -> y <> 0 -> evK f x y = 0 -> evK f x (- y) = 0 -> peval K (fst f) x = 0 /\ peval K (snd f) x = 0.
Proof.
  intros [A B] x y N2 Ny E1 E2. unfold fev in *. cbn [fst snd] in *. rewrite !map_id in *. set (u := peval K A x) in *. set (v := peval K B x) in *.
  assert (U : u = 0). { apply (f_cancel K HK (f2 K)); auto. transitivity ((u + v * y) + (u + v * (- y))); [unfold f2; ring | rewrite E1, E2; ring]. }
  split; auto. apply (f_cancel K HK y); auto. rewrite U in E1. transitivity (0 + v * y); [ring | rewrite E1; ring].
Qed.

(** the line y - l x - n *)
Definition fnline (l n : K) : fn K := ([- n; - l], [1]).
Lemma inL_line : forall l n, inL 3 (fnline l n). Proof. intros. split; cbn; lia. Qed.
Lemma fev_line : forall (F : fld) (HF : fld_laws F) g, embedding K F g -> forall l n X Y, fev g (fnline l n) X Y = fsub (fsub Y (fmul (g l) X)) (g n).
Proof.
  intros F HF g Hg l n X Y. unfold fev, fnline. cbn [fst snd map peval]. rewrite (em_1 _ _ _ Hg), !(e_opp K F HK HF g Hg).
  apply (line_ring F HF).
Qed.
End C.

Lemma line_emb : forall (K F : fld) (HK : fld_laws K) (HF : fld_laws F) g, embedding K F g -> forall (a b x1 y1 x2 y2 x3 y3 l n : K),
  line K a b x1 y1 x2 y2 x3 y3 l n -> line F (g a) (g b) (g x1) (g y1) (g x2) (g y2) (g x3) (g y3) (g l) (g n).
Proof.
  intros K F HK HF g Hg a b x1 y1 x2 y2 x3 y3 l n [A1 A2 A3 A4 A5 A6].
  assert (EO := e_opp K F HK HF g Hg). assert (ES := e_sub K F HK HF g Hg).
  constructor; rewrite <- ?(em_1 _ _ _ Hg), <- ?(em_mul _ _ _ Hg), <- ?(em_add _ _ _ Hg), <- ?EO, <- ?(em_mul _ _ _ Hg), <- ?(em_add _ _ _ Hg), <- ?ES; f_equal; auto.
Qed.

Section M.
Variable K : fld.
Hypothesis HK : fld_laws K.
Add Field KFmm : (fl_field K HK).
Local Notation "0" := f0. Local Notation "1" := f1.
Local Notation "x + y" := (fadd x y). Local Notation "x - y" := (fsub x y). Local Notation "x * y" := (fmul x y). Local Notation "- x" := (fopp x).
Variables a b : K.
Hypothesis HE : elliptic K a b.
Let C2 : f2 K <> 0 := proj1 HE.
Variables px py : K.
Local Notation P := (Some (px, py)).
Local Notation on := (on_curve K a b).
Hypothesis HP : on P.
Variable N : nat.
Local Notation pt k := (pmul K a k P).
Hypothesis HN : (2 < N)%nat.
Hypothesis Hfin : forall k, (0 < k < N)%nat -> pt k <> None.
Hypothesis Hodd : forall k, (0 < k < N)%nat -> pt (2 * k) <> None.
Hypothesis Hord : pt N = None.
Local Notation evK := (fev (fun x : K => x)).

Lemma pt_on : forall k, on (pt k). Proof. intro k. apply (pmul_on K HK a b C2). exact HP. Qed.
Lemma pt_S : forall k, pt (S k) = padd K a (pt k) P.
Proof. intro k. cbn [pmul]. apply (add_comm K HK). Qed.
Lemma pt_plus : forall i k, pt (i + k) = padd K a (pt i) (pt k).
Proof. induction i; intro k; cbn [Nat.add pmul]; [symmetry; apply add_0_l | ].
  rewrite IHi. symmetry. apply (add_assoc K HK a b C2 (proj2 HE)); auto using pt_on. Qed.
Lemma neg_sum : forall A B, on A -> on B -> A = pneg B -> padd K a A B = None.
Proof. intros A B HA HB ->. rewrite (add_comm K HK). apply (add_neg_r K HK a C2). Qed.
Lemma pt_inj : forall i k, (i < k < i + N)%nat -> pt i <> pt k.
Proof.
  intros i k H E. apply (Hfin (k - i)); [lia | ]. replace k with (i + (k - i))%nat in E by lia. rewrite pt_plus in E.
  assert (O1 := pt_on i). assert (O2 := pt_on (k - i)).
  assert (Z : padd K a (pneg (pt i)) (pt i) = padd K a (pneg (pt i)) (padd K a (pt i) (pt (k - i)))) by (rewrite <- E; reflexivity).
  rewrite <- (add_assoc K HK a b C2 (proj2 HE)) in Z by (auto; apply (neg_on K HK); auto).
  rewrite (add_comm K HK a (pneg (pt i))), (add_neg_r K HK a C2) in Z. rewrite add_0_l in Z. auto.
Qed.
Lemma pt_opp : forall i k, pt (i + k) <> None -> pt i <> pneg (pt k).
Proof. intros i k H E. apply H. rewrite pt_plus. apply neg_sum; auto using pt_on. Qed.
Lemma y_nz : forall k x y, (0 < k < N)%nat -> pt k = Some (x, y) -> y <> 0.
Proof.
  intros k x y H E Y. apply (Hodd k H). replace (2 * k)%nat with (k + k)%nat by lia. rewrite pt_plus. apply neg_sum; auto using pt_on.
  rewrite E. cbn [pneg]. subst y. repeat f_equal. ring.
Qed.
Lemma x_neq : forall i k x y x' y', (i < k < i + N)%nat -> pt (i + k) <> None -> pt i = Some (x, y) -> pt k = Some (x', y') -> x <> x'.
Proof.
  intros i k x y x' y' H1 H2 E1 E2 X. subst x'. assert (O1 := pt_on i). assert (O2 := pt_on k). rewrite E1 in O1. rewrite E2 in O2.
  destruct (same_x K HK a b x y y' O1 O2) as [-> | ->].
  - apply (pt_inj i k H1). congruence.
  - apply (pt_opp i k H2). rewrite E1, E2. reflexivity.
Qed.

(** f is the product of Miller's function of index m and x - x_m *)
Record built (m : nat) (f : fn K) : Prop := {
  bl_deg : inL (S m) f;
  bl_val : forall xm ym, pt m = Some (xm, ym) -> forall (F : fld), fld_laws F -> forall g, embedding K F g -> forall X Y : F, on_curve F (g a) (g b) (Some (X, Y)) ->
    (forall k x y, (0 < k <= m)%nat -> pt k = Some (x, y) -> X <> g x) ->
    fev g f X Y = fmul (miller F (g a) m (epoint g P) (Some (X, Y))) (fsub X (g xm));
  bl_opp : forall xm ym, pt m = Some (xm, ym) -> evK f xm (- ym) = 0;
  bl_zero : evK f px py = 0;
  bl_nz : evK f px (- py) <> 0 }.
Lemma py_nz : py <> 0.
Proof. apply (y_nz 1 px py); [lia | ]. cbn [pmul]. apply add_0_r. Qed.
Lemma opp2 : - py - py <> 0.
Proof. intro E. apply py_nz. apply (f_cancel K HK (f2 K)); auto. transitivity (- (- py - py)); [unfold f2; ring | rewrite E; ring]. Qed.
Lemma pt1 : pt 1 = P. Proof. cbn [pmul]. apply add_0_r. Qed.
Lemma miller_S : forall (F : fld) (g : K -> F) m X Y, fld_laws F -> embedding K F g -> miller F (g a) (S m) (epoint g P) (Some (X, Y)) =
  fmul (miller F (g a) m (epoint g P) (Some (X, Y))) (miller_step F (g a) (epoint g (pt m)) (epoint g P) (Some (X, Y))).
Proof. intros F g m X Y HF Hg. cbn [miller]. rewrite <- (e_pmul K F HK HF g Hg a C2). reflexivity. Qed.
Section StepF.
Variable F : fld.
Hypothesis HF : fld_laws F.
Add Field FFst : (fl_field F HF).
Variable g : K -> F.
Hypothesis Hg : embedding K F g.
Lemma step_val : forall A x1 y1 x3 y3 l n X Y, A = Some (x1, y1) -> on A -> padd K a A P = Some (x3, y3) -> line K a b x1 y1 px py x3 y3 l n -> X <> g x3 ->
  fmul (miller_step F (g a) (epoint g A) (epoint g P) (Some (X, Y))) (fsub X (g x3)) = fsub (fsub Y (fmul (g l) X)) (g n).
Proof.
  intros A x1 y1 x3 y3 l n X Y -> HA E L NX. cbn [epoint].
  rewrite (step_line F HF (g a) (g b) (e_elliptic K F HK HF g Hg a C2 b HE) (g x1) (g y1) (g px) (g py) (g x3) (g y3) (g l) (g n)).
  - field. intro Z. apply NX. apply (f_sub_0 F HF). exact Z.
  - exact (e_on K F g Hg a b _ HA).
  - exact (e_on K F g Hg a b _ HP).
  - pose proof (e_padd K F HK HF g Hg a C2 (Some (x1, y1)) P) as Q. rewrite E in Q. cbn [epoint] in Q. symmetry. exact Q.
  - apply (line_emb K F HK HF g Hg). exact L.
Qed.
Lemma ring_a : forall u v w z : F, v <> f0 -> fmul u v = fmul (fmul w v) z -> u = fmul w z.
Proof. intros u v w z H E. apply (f_cancel F HF v); auto. transitivity (fmul u v); [ring | rewrite E; ring]. Qed.
Lemma ring_b : forall u v w : F, fmul (fmul u v) w = fmul u (fmul v w). Proof. intros. ring. Qed.
Lemma ring_c : forall u v : F, fmul u v = fmul v u. Proof. intros. ring. Qed.
Lemma ring_d : forall u : F, fmul f1 u = u. Proof. intros. ring. Qed.
Lemma ring_e : forall u v w z : F, fmul (fmul u v) (fmul w z) = fmul v (fmul (fmul u w) z). Proof. intros. ring. Qed.
End StepF.
Lemma build_2 : exists f, built 2 f.
Proof.
  assert (F2 := Hfin 2 ltac:(lia)). rewrite pt_S, pt1 in F2. destruct (padd K a P P) as [[x2 y2] | ] eqn:E2; [ | congruence].
  pose proof (line_ex K HK a b HE _ _ _ _ _ _ HP HP E2) as L. set (l := slope K a px py px py) in *. set (n := (py - l * px)) in *.
  assert (EL : forall x y, evK (fnline K l n) x y = y - l * x - n) by (intros; apply (fev_line K HK K HK); apply id_emb).
  assert (P2 : pt 2 = Some (x2, y2)) by (rewrite pt_S, pt1; exact E2).
  exists (fnline K l n). split.
  - apply inL_line.
  - intros xm ym EM F HF g Hg X Y OF Hx. rewrite P2 in EM. injection EM as <- <-. rewrite (fev_line K HK F HF g Hg).
    rewrite !miller_S by auto. rewrite pt1. cbn [miller pmul]. change (miller_step F (g a) (epoint g None) (epoint g P) (Some (X, Y))) with (f1 : F).
    rewrite !(ring_d F HF). symmetry. apply (step_val F HF g Hg P px py x2 y2 l n X Y eq_refl HP E2 L). apply (Hx 2%nat x2 y2); auto.
  - intros xm ym EM. rewrite P2 in EM. injection EM as <- <-. rewrite EL. destruct L as [_ _ L3 _ _ _]. rewrite L3. ring.
  - rewrite EL. unfold n. ring.
  - rewrite EL. replace (- py - l * px - n) with (- py - py) by (unfold n; ring). apply opp2.
Qed.
Lemma build_S : forall m f, (2 <= m)%nat -> (S m < N)%nat -> built m f -> exists f', built (S m) f'.
Proof.
  intros m f M1 M2 [D V OP Z NZ].
  assert (F1 := Hfin m ltac:(lia)). destruct (pt m) as [[xm ym] | ] eqn:Em; [ | congruence].
  assert (F2 := Hfin (S m) ltac:(lia)). rewrite pt_S, Em in F2. destruct (padd K a (Some (xm, ym)) P) as [[x' y'] | ] eqn:Es; [ | congruence].
  assert (ES : pt (S m) = Some (x', y')) by (rewrite pt_S, Em; exact Es).
  assert (Om : on (Some (xm, ym))) by (rewrite <- Em; apply pt_on).
  assert (O' : on (Some (x', y'))) by (rewrite <- ES; apply pt_on).
  pose proof (line_ex K HK a b HE _ _ _ _ _ _ Om HP Es) as L. set (l := slope K a xm ym px py) in *. set (n := (ym - l * xm)) in *.
  assert (Ym : ym <> 0) by (apply (y_nz m xm ym); [lia | exact Em]).
  specialize (OP xm ym eq_refl).
  assert (EL : forall x y, evK (fnline K l n) x y = y - l * x - n) by (intros; apply (fev_line K HK K HK); apply id_emb).
  set (k := fnmul K a b f (fnline K l n)).
  assert (Ek : forall x y, on (Some (x, y)) -> evK k x y = evK f x y * (y - l * x - n)).
  { intros x y H. unfold k. rewrite (fev_mul K a b K HK _ (id_emb K)) by (apply (on_eq K HK a b); exact H). rewrite EL. reflexivity. }
  assert (On : on (Some (xm, - ym))) by (exact (neg_on K HK a b (Some (xm, ym)) Om)).
  destruct (vanish_both K HK k xm ym C2 Ym) as [V1 V2].
  { rewrite Ek by exact Om. unfold n. ring. }
  { rewrite Ek by exact On. rewrite OP. ring. }
  assert (R : forall (F : fld) (HF : fld_laws F) g (Hg : embedding K F g) X Y, on_curve F (g a) (g b) (Some (X, Y)) ->
    fmul (fev g f X Y) (fsub (fsub Y (fmul (g l) X)) (g n)) = fmul (fsub X (g xm)) (fev g (fnquot K k xm) X Y)).
  { intros F HF g Hg X Y H. rewrite <- (fev_quot K HK F HF g Hg k xm X Y V1 V2). unfold k.
    rewrite (fev_mul K a b F HF g Hg) by (apply (on_eq F HF (g a) (g b)); exact H). rewrite (fev_line K HK F HF g Hg). reflexivity. }
  assert (RK : forall x y, on (Some (x, y)) -> evK f x y * (y - l * x - n) = (x - xm) * evK (fnquot K k xm) x y) by (intros x y H; apply (R K HK _ (id_emb K) x y H)).
  assert (NX : xm <> px).
  { intro X. exact (x_neq 1 m px py xm ym ltac:(lia) (Hfin (1 + m) ltac:(lia)) pt1 Em (eq_sym X)). }
  exists (fnquot K k xm). split.
  - apply inL_quot. unfold k. replace (S (S (S (S m))))%nat with (S m + 3)%nat by lia. apply inL_mul; auto. apply inL_line.
  - intros x0 y0 E0 F HF g Hg X Y OF Hx. rewrite ES in E0. injection E0 as <- <-.
    assert (A : X <> g xm) by (apply (Hx m xm ym); [lia | exact Em]). assert (B : X <> g x') by (apply (Hx (S m) x' y'); [lia | exact ES]).
    pose proof (R F HF g Hg X Y OF) as R'. rewrite (V xm ym eq_refl F HF g Hg X Y OF) in R' by (intros k0 u0 v0 H0 Q0; apply (Hx k0 u0 v0); [lia | exact Q0]).
    rewrite miller_S by auto. rewrite Em.
    apply (f_cancel F HF (fsub X (g xm))); [intro Q; apply A; apply (f_sub_0 F HF); exact Q | ]. rewrite <- R'.
    rewrite <- (step_val F HF g Hg (Some (xm, ym)) xm ym x' y' l n X Y eq_refl Om Es L B). apply (ring_e F HF).
  - intros x0 y0 E0. rewrite ES in E0. injection E0 as <- <-.
    destruct (f_eq_dec K HK x' xm) as [X | X].
    + assert (Y : y' = - ym).
      { subst x'. destruct (same_x K HK a b xm y' ym O' Om) as [Q | Q]; auto. exfalso. apply (pt_inj m (S m)); [lia | ]. rewrite ES, Q. exact Em. }
      subst x' y'. replace (- - ym) with ym by ring.
      unfold fev, fnquot. cbn [fst snd]. rewrite !map_id, !(pquot_der K HK). unfold k, fnmul, fnline, cubic_l. cbn [fst snd].
      rewrite !(ladd_der K HK), !(lmul_der K HK), !(lmul_ev K HK). cbn [pder peval].
      unfold fev in OP. rewrite !map_id in OP. set (A := peval K (fst f) xm) in *. set (B := peval K (snd f) xm) in *.
      set (A' := pder K (fst f) xm). set (B' := pder K (snd f) xm).
      assert (EA : A = B * ym) by (transitivity ((A + B * (- ym)) + B * ym); [ring | rewrite OP; ring]). rewrite EA.
      destruct L as [L1 L2 L3 L4 L5 L6].
      assert (Epx : px = l * l - xm - xm) by (rewrite L4; ring).
      assert (Ea : a = (xm * px + xm * xm + px * xm) + (1 + 1) * (l * n)) by (rewrite <- L5; ring).
      assert (Eb : b = ym * ym - xm * xm * xm - a * xm) by (rewrite (on_eq K HK a b xm ym Om); ring).
      rewrite Eb, Ea, Epx. unfold n. ring.
    + apply (f_cancel K HK (x' - xm)); [intro Q; apply X; apply (f_sub_0 K HK); exact Q | ].
      assert (On' : on (Some (x', - y'))) by (exact (neg_on K HK a b (Some (x', y')) O')).
      rewrite <- (RK x' (- y') On'). destruct L as [_ _ L3 _ _ _]. rewrite L3. ring.
  - apply (f_cancel K HK (px - xm)); [intro Q; apply NX; symmetry; apply (f_sub_0 K HK); exact Q | ]. rewrite <- (RK px py HP), Z. ring.
  - intro Q. assert (On' : on (Some (px, - py))) by (exact (neg_on K HK a b P HP)).
    pose proof (RK px (- py) On') as R'. rewrite Q in R'. destruct L as [_ L2 _ _ _ _].
    replace (- py - l * px - n) with (- py - py) in R' by (rewrite L2 at 2; ring).
    destruct (f_integral K HK (evK f px (- py)) (- py - py)) as [I | I]; [rewrite R'; ring | exact (NZ I) | exact (opp2 I)].
Qed.
Lemma build_all : forall m, (2 <= m < N)%nat -> exists f, built m f.
Proof.
  intros m H. induction m; [lia | ]. destruct (Nat.eq_dec m 1) as [-> | M]; [apply build_2 | ].
  destruct IHm as [f B]; [lia | ]. apply (build_S m f); auto; lia.
Qed.
(** the function with divisor N (P) - N (O) *)
Theorem miller_poly : exists f : fn K, inL N f /\ evK f px py = 0 /\ evK f px (- py) <> 0 /\
  forall (F : fld), fld_laws F -> forall g, embedding K F g -> forall X Y : F, on_curve F (g a) (g b) (Some (X, Y)) ->
    (forall k x y, (0 < k < N)%nat -> pt k = Some (x, y) -> X <> g x) -> fev g f X Y = miller F (g a) N (epoint g P) (Some (X, Y)).
Proof.
  destruct (build_all (N - 1)) as [f B]; [lia | ]. destruct B as [D V _ Z NZ]. exists f.
  split; [replace N with (S (N - 1)) by lia; exact D | ]. split; [exact Z | ]. split; [exact NZ | ].
  intros F HF g Hg X Y OF Hx. assert (F1 := Hfin (N - 1) ltac:(lia)). destruct (pt (N - 1)) as [[x y] | ] eqn:E; [ | congruence].
  rewrite (V x y eq_refl F HF g Hg X Y OF) by (intros k0 u0 v0 H0 Q0; apply (Hx k0 u0 v0); [lia | exact Q0]).
  transitivity (miller F (g a) (S (N - 1)) (epoint g P) (Some (X, Y))); [ | replace (S (N - 1)) with N by lia; reflexivity]. rewrite miller_S by auto. rewrite E. f_equal.
  assert (S0 : padd K a (Some (x, y)) P = None) by (rewrite <- E, <- pt_S; replace (S (N - 1)) with N by lia; exact Hord).
  unfold miller_step. cbn [epoint]. pose proof (e_padd K F HK HF g Hg a C2 (Some (x, y)) P) as Q. rewrite S0 in Q. cbn [epoint] in Q. rewrite <- Q. reflexivity.
Qed.
End M.
