(** Text of the elements of any tower; what out_str returns; witnesses. *)
From Coq Require Import ZArith List Bool Lia.
From Verif.Base Require Import Outcome Array Algebra.
From Verif.Model Require Import IntText Printf CurveCodec ElementText.
From Verif.Spec Require Import Numerals Printf ElementText.
From Verif.Proofs Require Import IntTextFacts PrintfFacts ElementTextFacts.
Import ListNotations.
Open Scope Z_scope.

Lemma tower_print : forall p num t e, is_elem p t e -> prints_as (t_snprint (tower_textual p num t) e) (elem_text (num 10) t e).
Proof.
  intros p num. induction t; intros e He; cbn [is_elem tower_textual elem_text] in *.
  - apply put_ok.
  - destruct e as [x y]. cbn [fst snd] in *. destruct He. apply quad_print; auto.
  - destruct He as [_ F]. apply coeffs_print. induction F; cbn [map]; constructor; auto.
Qed.
Lemma tower_read : forall p num b t e, 1 < p -> 2 <= b <= 36 -> (forall x, 0 <= x < p -> is_numeral b x (num b x)) ->
  is_elem p t e -> reads_as (t_set_str (tower_textual p num t)) b (elem_text (num b) t e) e.
Proof.
  intros p num b t e Hp Hb N. revert e. induction t; intros e He; cbn [is_elem tower_textual elem_text] in *.
  - apply fp_read; auto.
  - destruct e as [x y]. cbn [fst snd] in *. destruct He. apply quad_read; auto.
  - destruct He as [L F]. cbn [carrier] in e. cbn [t_set_str polymod_textual]. rewrite <- L. apply polymod_read. clear L. induction F; cbn [map]; constructor; auto.
Qed.
Lemma tower_safe : forall p num t, reads_safely (t_set_str (tower_textual p num t)).
Proof. intros p num. induction t; cbn [tower_textual]; [apply fp_safe | apply quad_safe; auto | apply polymod_safe; auto]. Qed.
Lemma tower_trip : forall p num t e buf size, 1 < p -> (forall x, 0 <= x < p -> is_numeral 10 x (num 10 x)) -> is_elem p t e ->
  (length (elem_text (num 10%Z) t e) < size <= length buf)%nat ->
  exists buf' n, t_snprint (tower_textual p num t) e buf 0%nat size = Ok (buf', n) /\ t_set_str (tower_textual p num t) buf' 10 = Ok (e, n).
Proof.
  intros p num t e buf size Hp N He H.
  destruct (trip _ (tower_textual p num t) _ e buf size (tower_print p num t e He) (tower_read p num 10 t e Hp ltac:(lia) N He) H) as (buf' & A & B). eauto.
Qed.
Lemma gt_trip : forall p num t e buf size, 1 < p -> (forall x, 0 <= x < p -> is_numeral 10 x (num 10 x)) -> is_elem p t e ->
  (length (elem_text (num 10%Z) t e) < size <= length buf)%nat ->
  exists buf' n, t_snprint (mulg_textual (tower_textual p num t)) e buf 0%nat size = Ok (buf', n) /\ t_set_str (mulg_textual (tower_textual p num t)) buf' 10 = Ok (e, n).
Proof. exact tower_trip. Qed.
Lemma point_trip : forall K a b (T : textual (fcar K)) x y tx ty P buf size,
  prints_as (t_snprint T x) tx -> prints_as (t_snprint T y) ty -> reads_as (t_set_str T) 10 tx x -> reads_as (t_set_str T) 10 ty y ->
  stored_valid K a b (mk_stored false x y) = true -> (length (bracket [tx; ty]) < size <= length buf)%nat ->
  exists buf' n, curve_snprint K T (mk_stored false x y) buf 0%nat size = Ok (buf', n) /\ curve_set_str K a b T P buf' 10 = Ok (mk_stored false x y, n).
Proof.
  intros K a b T x y tx ty P buf size Px Py Rx Ry V H. exists (truncated buf size (bracket [tx; ty])), (length (bracket [tx; ty])). split.
  - rewrite (curve_print K T x y tx ty Px Py) by (intros; lia). reflexivity.
  - destruct size as [ | n]; [lia | ]. cbn [truncated]. rewrite firstn_all2 by lia.
    pose proof (curve_read K a b T 10 x y tx ty P [] 0 (skipn (S (Nat.min n (length (bracket [tx; ty])))) buf) Rx Ry (Forall_nil _)) as E. cbn [app length Nat.add] in E. rewrite E, V. reflexivity.
Qed.
Lemma infinity_trip : forall K a b (T : textual (fcar K)) x y P buf size, (1 < size <= length buf)%nat ->
  exists buf' n, curve_snprint K T (mk_stored true x y) buf 0%nat size = Ok (buf', n) /\ curve_set_str K a b T P buf' 10 = Ok (mk_stored true (st_x P) (st_y P), n).
Proof.
  intros K a b T x y P buf size H. exists (truncated buf size [79]), 1%nat. split.
  - rewrite (curve_print_inf K T x y) by (intros; lia). reflexivity.
  - destruct size as [ | n]; [lia | ]. cbn [truncated]. rewrite firstn_all2 by (cbn; lia). apply (curve_read_inf K a b T 10 P [] _ (Forall_nil _)).
Qed.
(** A text that is not a point of the curve. *)
Lemma off_curve : forall K a b (T : textual (fcar K)) base x y tx ty P ws c rest,
  reads_as (t_set_str T) base tx x -> reads_as (t_set_str T) base ty y -> Forall white ws ->
  stored_valid K a b (mk_stored false x y) = false ->
  exists P', curve_set_str K a b T P (ws ++ bracket [tx; ty] ++ c :: rest) base = Ok (P', 0%nat) /\ st_inf P' = true.
Proof. intros K a b T base x y tx ty P ws c rest Hx Hy W V. rewrite (curve_read K a b T base x y tx ty P ws c rest Hx Hy W), V. eexists. split; reflexivity. Qed.
(** Anything that does not begin with "O" or "[". *)
Lemma garbage : forall K a b (T : textual (fcar K)) P ws c rest base, Forall white ws -> ~ white c -> c <> 79 -> c <> 91 ->
  curve_set_str K a b T P (ws ++ c :: rest) base = Ok (mk_stored false (st_x P) (st_y P), 0%nat).
Proof.
  intros K a b T P ws c rest base W N1 N2 N3. unfold curve_set_str. rewrite skip_white by auto. cbn [bind peek].
  destruct (Z.eqb_spec c 79); [tauto | ]. destruct (Z.eqb_spec c 91); [tauto | ]. reflexivity.
Qed.
Lemma garbage_invalid : forall K, fld_laws K -> forall a b : K, b <> f0 -> forall T : textual (fcar K), exists P s, stored_valid K a b P = true /\ In 0 s /\
  exists P', curve_set_str K a b T P s 10 = Ok (P', 0%nat) /\ stored_valid K a b P' = false.
Proof.
  intros K HK a b Nb T. exists (mk_stored true f0 f0), [120; 0]. split; [reflexivity | ]. split; [right; left; reflexivity | ].
  exists (mk_stored false f0 f0). split; [apply (garbage K a b T (mk_stored true f0 f0) [] 120 [0] 10); [constructor | unfold white; lia | lia | lia] | ].
  unfold stored_valid, cubic. cbn [st_inf st_x st_y]. destruct HK as [FT EQ]. destruct FT as [RT _ _ _]. 
  destruct (feqb _ _) eqn:E; auto. exfalso. apply Nb. apply EQ in E.
  pose proof (Ring_theory.Rmul_comm RT) as MC.
  assert (Z0 : forall u : K, fmul u f0 = f0).
  { intro u. assert (Rg : ring_theory f0 f1 fadd fmul fsub fopp (@eq K)) by exact RT.
    assert (X : fadd (fmul u f0) (fmul u f0) = fmul u f0).
    { rewrite !(MC u). rewrite <- (Ring_theory.Rdistr_l RT), (Ring_theory.Radd_0_l RT). reflexivity. }
    assert (Y : fadd (fadd (fmul u f0) (fmul u f0)) (fopp (fmul u f0)) = fadd (fmul u f0) (fopp (fmul u f0))) by (rewrite X; reflexivity).
    rewrite <- (Ring_theory.Radd_assoc RT), (Ring_theory.Ropp_def RT), (Ring_theory.Radd_comm RT), (Ring_theory.Radd_0_l RT) in Y. exact Y. }
  rewrite !Z0, (Ring_theory.Radd_0_l RT) in E. exact E.
Qed.

(** out_str *)
Lemma curve_out : forall K (T : textual (fcar K)) base x y tx ty, counts (t_out T) base x tx -> counts (t_out T) base y ty ->
  curve_out_str K T base (mk_stored false x y) = (bracket [tx; ty], Z.of_nat (length (bracket [tx; ty]))).
Proof.
  intros K T base x y tx ty [Ex Nx] [Ey Ny]. unfold curve_out_str. cbn [st_inf st_x st_y]. rewrite Ex, Ey.
  destruct tx as [ | u tx]; [congruence | ]. destruct ty as [ | v ty]; [congruence | ].
  destruct (Z.eqb_spec (Z.of_nat (length (u :: tx))) 0) as [E | _]; [cbn [length] in E; lia | ].
  destruct (Z.eqb_spec (Z.of_nat (length (v :: ty))) 0) as [E | _]; [cbn [length] in E; lia | ].
  unfold bracket. cbn [commas]. rewrite <- !app_assoc. f_equal. repeat (rewrite app_length; cbn [length]). lia.
Qed.
Lemma coeffs_out_ok : forall A (T : textual A) base l ts, Forall2 (counts (t_out T) base) l ts -> forall first,
  coeffs_out T base first l = ((if first then [] else match ts with [] => [] | _ => [44; 32] end) ++ commas ts, Some (Z.of_nat (length ((if first then [] else match ts with [] => [] | _ => [44; 32] end) ++ commas ts)))).
Proof.
  intros A T base l ts F. induction F as [ | x t l ts [Hx Nx] F IH]; intros first.
  - destruct first; reflexivity.
  - cbn [coeffs_out]. rewrite Hx. destruct t as [ | u t]; [congruence | ].
    destruct (Z.eqb_spec (Z.of_nat (length (u :: t))) 0) as [E | _]; [cbn [length] in E; lia | ].
    rewrite (IH false). destruct ts as [ | v ts].
    + cbn [commas]. rewrite !app_nil_r. f_equal. f_equal. repeat (rewrite app_length; cbn [length]). destruct first; cbn [length Z.of_nat]; lia.
    + rewrite commas_cons. f_equal. f_equal. repeat (rewrite app_length; cbn [length]). destruct first; cbn [length]; lia.
Qed.
Lemma coeffs_out_count : forall A (T : textual A) base l ts, Forall2 (counts (t_out T) base) l ts ->
  coeffs_out_str T base l = (bracket ts, Z.of_nat (length (bracket ts))).
Proof.
  intros A T base l ts F. unfold coeffs_out_str. rewrite (coeffs_out_ok A T base l ts F true). cbn [app]. unfold bracket. f_equal.
  repeat (rewrite app_length; cbn [length]). lia.
Qed.
Lemma quad_out_count : forall A (T : textual A) base x y tx ty, counts (t_out T) base x tx -> counts (t_out T) base y ty ->
  fq_out_str T base (x, y) = (bracket [tx; ty], Z.of_nat (length (bracket [tx; ty])) - 4).
Proof.
  intros A T base x y tx ty [Ex Nx] [Ey Ny]. unfold fq_out_str. cbn [fst snd]. rewrite Ex, Ey.
  destruct tx as [ | u tx]; [congruence | ]. destruct ty as [ | v ty]; [congruence | ].
  destruct (Z.eqb_spec (Z.of_nat (length (u :: tx))) 0) as [E | _]; [cbn [length] in E; lia | ].
  destruct (Z.eqb_spec (Z.of_nat (length (v :: ty))) 0) as [E | _]; [cbn [length] in E; lia | ].
  unfold bracket. cbn [commas]. rewrite <- !app_assoc. f_equal. repeat (rewrite app_length; cbn [length]). lia.
Qed.

(** The default functions. *)
Lemma default_unterminated : forall num x, t_snprint (default_textual num) x [7] 0%nat 1%nat = Ok ([48], 1%nat).
Proof. reflexivity. Qed.
Lemma default_text : forall num x buf, (2 <= length buf)%nat -> exists buf',
  t_snprint (default_textual num) x buf 0%nat (length buf) = Ok (buf', 1%nat) /\ firstn 2 buf' = [63; 0] /\ t_set_str (default_textual num) buf' 10 = Ok (0, 0%nat).
Proof.
  intros num x buf H. destruct buf as [ | u [ | v buf]]; cbn [length] in H; try lia. exists (63 :: 0 :: buf). split; [ | split; reflexivity].
  cbn [t_snprint default_textual default_snprint length]. unfold splice. reflexivity.
Qed.

(** A type D pairing's GT over F_7: (F_{7^3})^2. *)
Definition num7 (b x : Z) : list Z := [48 + x].
Lemma num7_ok : forall x, 0 <= x < 7 -> is_numeral 10 x (num7 10 x).
Proof.
  intros x Hx. exists [x]. split; [unfold num7, digit_char; cbn [map]; replace (x <? 10) with true by (symmetry; apply Z.ltb_lt; lia); reflexivity | ].
  split; [repeat constructor; lia | ]. split; [discriminate | ]. split; [cbn; intros ->; reflexivity | reflexivity].
Qed.
Lemma tower7 : is_elem 7 (TQuad (TPoly 3 TFp)) ([1; 2; 3], [4; 0; 6]) /\
  elem_text (num7 10) (TQuad (TPoly 3 TFp)) ([1; 2; 3], [4; 0; 6]) =
  [91; 91; 49; 44; 32; 50; 44; 32; 51; 93; 44; 32; 91; 52; 44; 32; 48; 44; 32; 54; 93; 93].
Proof. split; [ | reflexivity]. cbn. repeat split; repeat constructor; lia. Qed.
(** Residues modulo 7, and the point (2, 3) of y^2 = x^3 + 1. *)
Definition raw7 : fld := {|
  fcar := Z; f0 := 0; f1 := 1; fadd := fun x y => (x + y) mod 7; fsub := fun x y => (x - y) mod 7; fmul := fun x y => (x * y) mod 7;
  fopp := fun x => (- x) mod 7; finv := fun x => x ^ 5 mod 7; fdiv := fun x y => (x * y ^ 5) mod 7; feqb := Z.eqb |}.
Lemma point7 : stored_valid raw7 0 1 (@mk_stored raw7 false 2 3) = true /\
  prints_as (t_snprint (fp_textual 7 num7) 2) [50] /\ reads_as (t_set_str (fp_textual 7 num7)) 10 [50] 2 /\
  prints_as (t_snprint (fp_textual 7 num7) 3) [51] /\ reads_as (t_set_str (fp_textual 7 num7)) 10 [51] 3.
Proof.
  split; [reflexivity | ]. split; [apply (put_ok (num7 10 2)) | ]. split; [apply (fp_read 7 num7 10 2); try lia; apply num7_ok; lia | ].
  split; [apply (put_ok (num7 10 3)) | apply (fp_read 7 num7 10 3); try lia; apply num7_ok; lia].
Qed.
