(** Witnesses for the curve theorems, on y^2 = x^3 + 3x + 8 over F_13 (nine
    points) and y^2 = x^3 + x (twenty points). *)
From Coq Require Import ZArith Znumtheory List Bool Lia.
From Verif.Base Require Import Outcome Algebra Slots.
From Verif.Spec Require Import FiniteField Curve CurveCalls HashToCurve.
From Verif.Model Require Import Tonelli Curve CurveCodec.
From Verif.Proofs Require Import FieldFacts ZpField FpWitness RootFacts RootWitness SlotFacts CurveGroup CurveFacts CurveBatch CodecFacts.
Import ListNotations.
Open Scope Z_scope.

Notation F := (Zp 13 lt13).
Definition c13 (n : Z) : F := zmk 13 lt13 n.
Lemma F_laws : fld_laws F. Proof. apply Zp_laws. exact prime13. Qed.
Definition P15 : point F := Some (c13 1, c13 5).
Definition show (P : point F) : option (Z * Z) := match P with None => None | Some (x, y) => Some (zval 13 x, zval 13 y) end.
Definition st13 : cst F := {| sl := fun l => match l with (_, O) => c13 1 | _ => c13 5 end; inf := fun o => obj_eqb o (Reg 9) |}.
Lemma F_neq : forall x y : F, zval 13 x <> zval 13 y -> x <> y. Proof. intros x y H E. apply H. congruence. Qed.
Lemma ell13 : elliptic F (c13 3) (c13 8).
Proof. repeat split; apply F_neq; vm_compute; discriminate. Qed.
Lemma P15_on : on_curve F (c13 3) (c13 8) P15. Proof. apply zval_inj. vm_compute. reflexivity. Qed.

Definition v13 (n : nat) : point F := if Nat.eqb n 9 then None else P15.
Lemma history_witness : elliptic F (c13 3) (c13 8) /\ (forall n, on_curve F (c13 3) (c13 8) (v13 n)) /\
  (forall n, cval st13 (Reg n) = v13 n) /\
  match c_run F (c13 3) (Some 3) st13 [CAdd 0 0 1; CAdd 0 0 0; CSub 0 0 1; CValue 0; CMulZ 2 1 6; CNeg 2 2; CAdd 2 2 0; CCmp 0 2; CIs0 9; CMulZ 3 0 9; CIs0 3] with
  | Ok [Datatypes.inr P; Datatypes.inl false; Datatypes.inl true; Datatypes.inl true] => show P = Some (9, 7)
  | _ => False end.
Proof.
  split; [apply ell13 | split; [ | split]].
  - intro n. unfold v13. destruct (Nat.eqb n 9); [exact I | apply P15_on].
  - intro n. unfold cval, v13, st13. cbn. destruct (Nat.eqb n 9); reflexivity.
  - vm_compute. reflexivity.
Qed.

(** negative scalars *)
Lemma negative_refuted : exists (K : fld) (a b : K) (P : point K) (st : cst K), fld_laws K /\ elliptic K a b /\ on_curve K a b P /\
  cval st (Reg 0) = P /\ exists st', curve_pow_mpz K a (Reg 1) (Reg 0) (-1) st = Ok st' /\ cval st' (Reg 1) <> pneg P /\ cval st' (Reg 1) = P.
Proof.
  exists F, (c13 3), (c13 8), P15, st13. split; [apply F_laws | split; [apply ell13 | split; [apply P15_on | split; [reflexivity | ]]]].
  assert (E : match curve_pow_mpz F (c13 3) (Reg 1) (Reg 0) (-1) st13 with Ok st' => show (cval st' (Reg 1)) = Some (1, 5) | _ => False end) by (vm_compute; reflexivity).
  destruct (curve_pow_mpz F (c13 3) (Reg 1) (Reg 0) (-1) st13) as [st' | | | ]; try contradiction. exists st'. split; auto.
  destruct (cval st' (Reg 1)) as [[x y] | ]; [ | discriminate]. cbn [show] in E. assert (EX : zval 13 x = 1) by congruence. assert (EY : zval 13 y = 5) by congruence.
  split.
  - intro H. unfold P15, pneg in H. assert (EQ : y = fopp (c13 5)) by congruence. rewrite EQ in EY. vm_compute in EY. discriminate.
  - unfold P15. do 2 f_equal; apply zval_inj; [rewrite EX | rewrite EY]; vm_compute; reflexivity.
Qed.

(** mul_si and halve do nothing *)
Section S.
Variable K : fld.
Variable a : K.
Lemma mul_one : forall c p (st : cst K), inf st t8 = true ->
  exists st', curve_mul K a (Reg c) (Reg p) t8 st = Ok st' /\ cval st' (Reg c) = cval st (Reg p).
Proof.
  intros c p st I. unfold curve_mul. rewrite I.
  destruct (inf st (Reg p)) eqn:Ip.
  - unfold curve_set. rewrite I. eexists. split; [reflexivity | ]. unfold cval. cbn. rewrite Nat.eqb_refl, Ip. auto.
  - destruct (set_ok K (Reg c) (Reg p) st) as (st' & -> & V & _); [apply user_reg | apply user_reg | ]. exists st'. auto.
Qed.
Theorem mul_si_nothing : forall c p n (st : cst K),
  exists st', curve_mul_si K a (Reg c) (Reg p) n st = Ok st' /\ cval st' (Reg c) = cval st (Reg p).
Proof. intros c p n st. unfold curve_mul_si, curve_set1. cbn [bind]. destruct (mul_one c p (set_inf t8 true st)) as (st' & E & V); [reflexivity | ]. exists st'. split; auto. Qed.
Theorem halve_nothing : forall c p (st : cst K),
  exists st', curve_halve K a (Reg c) (Reg p) st = Ok st' /\ cval st' (Reg c) = cval st (Reg p).
Proof.
  intros c p st. unfold curve_halve, curve_set1, curve_invert. cbn [bind].
  replace (inf (set_inf t8 true st) t8) with true by reflexivity. cbn [bind].
  destruct (mul_one c p (set_inf t8 true (set_inf t8 true st))) as (st' & E & V); [reflexivity | ]. exists st'. split; auto.
Qed.
End S.
Lemma si_witness : show (pzmul F (c13 3) 2 P15) = Some (2, 10) /\ show P15 = Some (1, 5) /\ show (padd F (c13 3) P15 P15) <> show P15.
Proof. vm_compute. repeat split; discriminate. Qed.
Lemma mul_si_refuted_w : exists (K : fld) (a b : K) (P : point K) (st : cst K), fld_laws K /\ elliptic K a b /\ on_curve K a b P /\
  cval st (Reg 0) = P /\ exists st', curve_mul_si K a (Reg 1) (Reg 0) 2 st = Ok st' /\ cval st' (Reg 1) <> pzmul K a 2 P.
Proof.
  exists F, (c13 3), (c13 8), P15, st13. split; [apply F_laws | split; [apply ell13 | split; [apply P15_on | split; [reflexivity | ]]]].
  destruct (mul_si_nothing F (c13 3) 1 0 2 st13) as (st' & E & V). exists st'. split; auto. rewrite V.
  change (cval st13 (Reg 0)) with P15. intro H. destruct si_witness as (A & B & _). rewrite H, A in B. discriminate.
Qed.
Lemma halve_refuted_w : exists (K : fld) (a b : K) (P : point K) (st : cst K), fld_laws K /\ elliptic K a b /\ on_curve K a b P /\
  cval st (Reg 0) = P /\ exists st', curve_halve K a (Reg 1) (Reg 0) st = Ok st' /\
    padd K a (cval st' (Reg 1)) (cval st' (Reg 1)) <> P.
Proof.
  exists F, (c13 3), (c13 8), P15, st13. split; [apply F_laws | split; [apply ell13 | split; [apply P15_on | split; [reflexivity | ]]]].
  destruct (halve_nothing F (c13 3) 1 0 st13) as (st' & E & V). exists st'. split; auto. rewrite V.
  change (cval st13 (Reg 0)) with P15. intro H. destruct si_witness as (A & B & C). apply C. rewrite H. reflexivity.
Qed.

(** is_sqr on a group of even order *)
Definition show_dec : forall u v : option (Z * Z), {u = v} + {u <> v}.
Proof. decide equality. decide equality; apply Z.eq_dec. Defined.
Lemma nodup_show : forall l, nodup show_dec (map show l) = map show l -> NoDup l.
Proof. intros l E. apply (NoDup_map_inv show). rewrite <- E. apply NoDup_nodup. Qed.
Definition D97 : point F := Some (c13 9, c13 7).
Lemma even_is_sqr_w : exists (K : fld) (a b : K) (order : Z) (R : point K), fld_laws K /\ elliptic K a b /\ on_curve K a b R /\
  (exists l, NoDup l /\ (forall P, In P l <-> on_curve K a b P) /\ Z.of_nat (length l) = order) /\
  point_is_sqr K a order (padd K a R R) = Ok false.
Proof.
  exists F, (c13 1), (c13 0), 20, (Some (c13 2, c13 6)).
  split; [apply F_laws | split; [repeat split; apply F_neq; vm_compute; discriminate | split; [apply zval_inj; vm_compute; reflexivity | split]]].
  - set (cand := None :: map Some (list_prod (zp_elems 13 lt13) (zp_elems 13 lt13)) : list (point F)).
    set (t := fun P : point F => match P with None => true | Some (x, y) => feqb (fmul y y) (rhs F (c13 1) (c13 0) x) end).
    exists (filter t cand). split; [ | split].
    + apply nodup_show. vm_compute. reflexivity.
    + intro P. rewrite filter_In. destruct P as [[x y] | ]; unfold t; cbn [on_curve].
      * rewrite (fl_eqb F F_laws). split; [tauto | ]. intro H. split; auto. right. apply in_map_iff. exists (x, y). split; auto.
        apply in_prod; apply zp_elems_in.
      * split; auto. intros _. split; auto. left. auto.
    + vm_compute. reflexivity.
  - vm_compute. reflexivity.
Qed.

(** encodings over F_13 *)
Definition enc13 (x : F) : list Z := [zval 13 x].
Definition dec13 (l : list Z) : F := match l with z :: _ => c13 z | [] => c13 0 end.
Definition sign13 (x : F) : Z := if zval 13 x =? 0 then 0 else if 2 * zval 13 x <? 13 then 1 else -1.
Definition sqrt13 (x : F) : res F := element_tonelli F 13 (c13 2) x.
Definition is_sqr13 (x : F) : bool := existsb (fun y => feqb (fmul y y) x) (zp_elems 13 lt13).
Lemma code13 : is_code F 1 enc13 dec13.
Proof. split; [reflexivity | ]. intro x. apply zmk_zval. Qed.
Lemma sign13_ok : is_sign F sign13.
Proof.
  assert (A : forall x : F, sign13 (fopp x) = (- sign13 x)%Z /\ (sign13 x = 0 -> zval 13 x = 0)).
  { intro x. assert (I := zp_elems_in 13 lt13 x). revert x I. apply Forall_forall. vm_compute. repeat constructor; discriminate. }
  split; intro x; [apply A | ]. intro H. apply zval_inj. apply A in H. rewrite H. reflexivity.
Qed.
Lemma roots13 : good_roots F is_sqr13 sqrt13.
Proof.
  assert (A : forall x : F, is_sqr13 x = true <-> is_square x).
  { intro x. unfold is_sqr13. rewrite existsb_exists. split.
    - intros (y & _ & E). apply (fl_eqb F F_laws) in E. exists y. auto.
    - intros [y E]. exists y. split; [apply zp_elems_in | ]. apply (fl_eqb F F_laws). auto. }
  split; auto. intros x H. apply A in H. revert H. assert (I := zp_elems_in 13 lt13 x). revert x I.
  assert (B : forallb (fun x : F => implb (is_sqr13 x) (match sqrt13 x with Ok r => feqb (fmul r r) x | _ => false end)) (zp_elems 13 lt13) = true) by (vm_compute; reflexivity).
  intros x I H. rewrite forallb_forall in B. specialize (B x I). rewrite H in B. cbn [implb] in B.
  destruct (sqrt13 x) as [r | | | ]; try discriminate. exists r. split; auto. apply (fl_eqb F F_laws). auto.
Qed.
(** O keeps its coordinates and is written as them *)
Definition st13' : cst F := set_inf (Reg 0) true st13.
Lemma bytes_infinity_refuted_w : exists (K : fld) (a b : K) blen enc dec (st st' : cst K),
  fld_laws K /\ elliptic K a b /\ is_code K blen enc dec /\ cval st (Reg 0) = None /\
  curve_from_bytes K a b blen dec (Reg 1) (curve_to_bytes K enc st (Reg 0)) st = Ok st' /\ cval st' (Reg 1) <> None.
Proof.
  exists F, (c13 3), (c13 8), 1%nat, enc13, dec13, st13'.
  destruct (bytes_infinity F F_laws (c13 3) (c13 8) 1%nat enc13 dec13 (proj1 code13) (proj2 code13) (Reg 0) (Reg 1) st13' st13') as (st' & E & V); [reflexivity | ].
  exists st'. split; [apply F_laws | split; [apply ell13 | split; [apply code13 | split; [reflexivity | split; [exact E | ]]]]].
  rewrite V. intro N. apply N. apply P15_on.
Qed.
(** decoding a compressed point is not checked *)
Lemma compressed_off_curve_w : exists (K : fld) (a b : K) blen enc dec sign is_sqr sqrt (data : list Z) (st st' : cst K),
  fld_laws K /\ elliptic K a b /\ is_code K blen enc dec /\ is_sign K sign /\ good_roots K is_sqr sqrt /\
  length data = compressed_length blen /\
  from_bytes_compressed K a b blen dec sign sqrt (Reg 0) data st = Ok st' /\ ~ on_curve K a b (cval st' (Reg 0)).
Proof.
  exists F, (c13 3), (c13 8), 1%nat, enc13, dec13, sign13, is_sqr13, sqrt13, [0; 1], st13.
  assert (E : match from_bytes_compressed F (c13 3) (c13 8) 1 dec13 sign13 sqrt13 (Reg 0) [0; 1] st13 with
    | Ok st' => curve_is_valid_point F (c13 3) (c13 8) st' (Reg 0) = false | _ => False end) by (vm_compute; reflexivity).
  destruct (from_bytes_compressed F (c13 3) (c13 8) 1 dec13 sign13 sqrt13 (Reg 0) [0; 1] st13) as [st' | | | ]; try contradiction.
  exists st'. split; [apply F_laws | split; [apply ell13 | split; [apply code13 | split; [apply sign13_ok | split; [apply roots13 | split; [reflexivity | split; [reflexivity | ]]]]]]].
  intro H. apply (is_valid_ok F F_laws) in H. congruence.
Qed.
Lemma x_only_off_curve_w : exists (K : fld) (a b : K) blen enc dec is_sqr sqrt (data : list Z) (st st' : cst K),
  fld_laws K /\ elliptic K a b /\ is_code K blen enc dec /\ good_roots K is_sqr sqrt /\
  length data = x_only_length blen /\
  from_bytes_x_only K a b blen dec sqrt (Reg 0) data st = Ok st' /\ ~ on_curve K a b (cval st' (Reg 0)).
Proof.
  exists F, (c13 3), (c13 8), 1%nat, enc13, dec13, is_sqr13, sqrt13, [0], st13.
  assert (E : match from_bytes_x_only F (c13 3) (c13 8) 1 dec13 sqrt13 (Reg 0) [0] st13 with
    | Ok st' => curve_is_valid_point F (c13 3) (c13 8) st' (Reg 0) = false | _ => False end) by (vm_compute; reflexivity).
  destruct (from_bytes_x_only F (c13 3) (c13 8) 1 dec13 sqrt13 (Reg 0) [0] st13) as [st' | | | ]; try contradiction.
  exists st'. split; [apply F_laws | split; [apply ell13 | split; [apply code13 | split; [apply roots13 | split; [reflexivity | split; [reflexivity | ]]]]]].
  intro H. apply (is_valid_ok F F_laws) in H. congruence.
Qed.
Lemma codec_witness : elliptic F (c13 3) (c13 8) /\ is_code F 1 enc13 dec13 /\ is_sign F sign13 /\ good_roots F is_sqr13 sqrt13 /\
  on_curve F (c13 3) (c13 8) P15 /\ to_bytes_compressed F enc13 sign13 st13 (Reg 0) = [1; 1] /\
  match curve_from_hash F (c13 3) (c13 8) sign13 is_sqr13 sqrt13 dec13 20 (Some 3) [7] with Ok P => show P = Some (9, 7) | _ => False end.
Proof.
  split; [apply ell13 | split; [apply code13 | split; [apply sign13_ok | split; [apply roots13 | split; [apply P15_on | split; [reflexivity | ]]]]]].
  vm_compute. reflexivity.
Qed.
(** the batch functions *)
Lemma batch_witness : let l := [(0, (1, 2)); (3, (1, 2))]%nat in
  let st := {| sl := fun l => match l with (Reg 1, O) => c13 1 | (Reg 1, _) => c13 5 | (Reg 2, O) => c13 2 | (Reg 2, _) => c13 10 | _ => c13 0 end; inf := fun o => negb (obj_eqb o (Reg 1) || obj_eqb o (Reg 2)) |} in
  independent (map add_inputs l) /\ (forall c p q, In (c, (p, q)) l -> sl st (Reg p, 0%nat) <> sl st (Reg q, 0%nat)) /\
  match multi_add F (c13 3) (map (fun e => (Reg (fst e), (Reg (fst (snd e)), Reg (snd (snd e))))) l) st with
  | Ok st' => show (cval st' (Reg 0)) = Some (9, 7) | _ => False end.
Proof.
  cbv zeta. split; [ | split].
  - split; [intros d ps [E | []]; inversion E; cbn; intuition discriminate | split; [intros d ps [] | exact I]].
  - intros c p q [E | [E | []]]; inversion E; subst; apply F_neq; vm_compute; discriminate.
  - vm_compute. reflexivity.
Qed.
(** the loop of the hash may never end *)
Lemma hash_diverges_w : exists (K : fld) (a b : K) sign is_sqr sqrt (hash : list Z -> K) (data : list Z),
  fld_laws K /\ elliptic K a b /\ is_sign K sign /\ good_roots K is_sqr sqrt /\
  forall fuel cofac, curve_from_hash K a b sign is_sqr sqrt hash fuel cofac data = OutOfFuel.
Proof.
  exists F, (c13 3), (c13 8), sign13, is_sqr13, sqrt13, dec13, [4].
  split; [apply F_laws | split; [apply ell13 | split; [apply sign13_ok | split; [apply roots13 | ]]]].
  intros fuel cofac. unfold curve_from_hash.
  replace (hash_loop F (c13 3) (c13 8) is_sqr13 fuel (dec13 [4])) with (@OutOfFuel (F * F)); [reflexivity | ].
  induction fuel as [ | fuel IH]; [reflexivity | ]. cbn [hash_loop]. cbv zeta.
  replace (is_sqr13 (cubic F (c13 3) (c13 8) (dec13 [4]))) with false by (vm_compute; reflexivity).
  replace (fadd (fmul (dec13 [4]) (dec13 [4])) f1 : F) with (dec13 [4]); [exact IH | ]. apply zval_inj. vm_compute. reflexivity.
Qed.
