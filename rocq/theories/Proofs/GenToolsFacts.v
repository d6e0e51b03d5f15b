(** The programs genaparam and gena1param. *)
From Coq Require Import ZArith Znumtheory List Bool String Lia.
From Verif.Base Require Import Outcome Algebra.
From Verif.Spec Require Import ParamText ParamEqs FiniteField Quadratic Curve PairingValue GenTools.
From Verif.Model Require Import Pairing PairingA PairingA1 Param ParamGen GenTools.
From Verif.Proofs Require Import ParamGenFacts ParamMain NonDegenA PerfectA PairingAApi PairingA1Facts CurveFacts RootWitness.
Import ListNotations.
Open Scope Z_scope.

Lemma solinas_bits : forall rbits rands s r rest, rand_ok rands -> 4 <= rbits -> solinas_gen rbits rands = Ok (s, r, rest) ->
  2 ^ (rbits - 1) - 1 <= r < 2 ^ rbits.
Proof.
  intros rbits rands s r rest HR B H. unfold solinas_gen in H. unfold rand_ok in *.
  destruct rands as [|c1 rands]; [discriminate|]. inversion HR as [|? ? R1 HR1]; subst. cbn [take bind] in H.
  assert (2 ^ rbits = 2 * 2 ^ (rbits - 1)) as P2 by (rewrite <- Z.pow_succ_r by lia; f_equal; lia).
  assert (2 ^ (rbits - 1) = 2 * 2 ^ (rbits - 2)) as P3 by (rewrite <- Z.pow_succ_r by lia; f_equal; lia).
  assert (2 ^ 2 <= 2 ^ (rbits - 2)) as P4 by (apply Z.pow_le_mono_r; lia). change (2 ^ 2) with 4 in P4.
  destruct (Z.rem c1 2 =? 0); unfold setbit0 in H.
  - destruct (Z.ltb_spec rbits 0); [discriminate|]. cbn [bind] in H.
    destruct rands as [|c2 rands]; [discriminate|]. inversion HR1 as [|? ? R2 HR2]; subst. cbn [take bind] in H.
    unfold int_rem in H. destruct (Z.eqb_spec (rbits - 1) 0) as [E0|E0]; [discriminate|]. cbn [bind] in H.
    pose proof (Z.rem_bound_pos c2 (rbits - 1) R2 ltac:(lia)) as M. set (m := Z.rem c2 (rbits - 1)) in *. clearbody m.
    destruct (Z.ltb_spec (m + 1) 0); [discriminate|]. cbn [bind] in H.
    assert (2 ^ 1 <= 2 ^ (m + 1) <= 2 ^ (rbits - 1)) as P5 by (split; apply Z.pow_le_mono_r; lia). change (2 ^ 1) with 2 in P5.
    destruct rands as [|c3 rands]; [discriminate|]. cbn [take bind] in H. change (-1 >? 0) with false in H. cbv iota in H.
    destruct (Z.rem c3 2 =? 0); injection H as <- <- <-; lia.
  - destruct (Z.ltb_spec (rbits - 1) 0); [discriminate|]. cbn [bind] in H.
    destruct rands as [|c2 rands]; [discriminate|]. inversion HR1 as [|? ? R2 HR2]; subst. cbn [take bind] in H.
    unfold int_rem in H. destruct (Z.eqb_spec (rbits - 1 - 1) 0) as [E0|E0]; [discriminate|]. cbn [bind] in H.
    pose proof (Z.rem_bound_pos c2 (rbits - 1 - 1) R2 ltac:(lia)) as M. set (m := Z.rem c2 (rbits - 1 - 1)) in *. clearbody m.
    destruct (Z.ltb_spec (m + 1) 0); [discriminate|]. cbn [bind] in H.
    assert (2 ^ 1 <= 2 ^ (m + 1) <= 2 ^ (rbits - 2)) as P5 by (split; apply Z.pow_le_mono_r; lia). change (2 ^ 1) with 2 in P5.
    destruct rands as [|c3 rands]; [discriminate|]. cbn [take bind] in H. change (1 >? 0) with true in H. cbv iota in H.
    destruct (Z.rem c3 2 =? 0); injection H as <- <- <-; lia.
Qed.
Lemma a_gen_bits : forall isprime fuel rbits rands hs p, rand_ok rands -> 4 <= rbits -> a_gen isprime fuel rbits rands hs = Ok p ->
  2 ^ (rbits - 1) - 1 <= a_r p < 2 ^ rbits /\ rbits - 1 <= exp2 (a_s p) <= rbits.
Proof.
  intros ip. induction fuel as [|k IH]; intros rbits rands hs p HR B H; [discriminate|]. cbn [a_gen] in H.
  destruct (solinas_gen rbits rands) as [[[s r] rest]| | |] eqn:E; try discriminate. cbn [bind] in H.
  pose proof (solinas_bits _ _ _ _ _ HR B E) as Bt. apply solinas_ok in E; auto. destruct E as (E1 & E2 & E3 & E4).
  destruct (ip r) eqn:P; [|eapply IH; eauto].
  destruct (a_inner ip 10 r hs) as [[o hs']| | |] eqn:E; try discriminate. cbn [bind] in H. destruct o as [[h q]|]; [|eapply IH; eauto].
  injection H as <-. cbn [a_s a_r]. auto.
Qed.

Lemma a_int32 : forall p, int32 (exp2 (a_s p)) -> int32 (exp1 (a_s p)) -> int32 (sign1 (a_s p)) -> int32 (sign0 (a_s p)) ->
  forall key, has_key A (a_values p (chars "k")) key true -> int32 (a_values p key).
Proof.
  intros p H1 H2 H3 H4 key [(s & Hs & ->)|(? & _)]; [|discriminate]. cbn [plain_keys In] in Hs.
  repeat (destruct Hs as [Hs|Hs]; [injection Hs as <-; try discriminate; cbv [a_values key_is]; assumption|]). destruct Hs.
Qed.
Lemma a1_int32 : forall a, int32 (a1_l a) -> forall key, has_key A1 (a1_values a (chars "k")) key true -> int32 (a1_values a key).
Proof.
  intros a H1 key [(s & Hs & ->)|(? & _)]; [|discriminate]. cbn [plain_keys In] in Hs.
  repeat (destruct Hs as [Hs|Hs]; [injection Hs as <-; try discriminate; cbv [a1_values key_is]; assumption|]). destruct Hs.
Qed.
Lemma plain : forall T k s int, In (s, int) (plain_keys T) -> has_key T k (chars s) int.
Proof. intros. left. eauto. Qed.

Lemma a_is_a1 : forall K q r h e2 e1 s1 s0, type_a K q r h e2 e1 s1 s0 -> type_a1 K q r h.
Proof.
  intros K q r h e2 e1 s1 s0 [? ? ? ? R B ? ? ? ? ?]. constructor; auto; [lia|].
  rewrite <- Z.negb_even. destruct (Z.even r) eqn:E; [|reflexivity]. apply Z.even_spec in E. destruct E as [c ->].
  exfalso. destruct (prime_divisors _ R 2) as [|[|[|]]]; try lia. exists c. lia.
Qed.
Lemma a1_mul_on : forall K p n l, type_a1 K p n l -> forall k Q, on_curve K f1 f0 Q -> on_curve K f1 f0 (pzmul K f1 k Q).
Proof. intros K p n l T k Q H. apply (pzmul_on K (t1_field _ _ _ _ T) f1 f0 (proj1 (ell1 K p n l T))). exact H. Qed.

Lemma a_works : forall K q r h e2 e1 s1 s0, type_a K q r h e2 e1 s1 s0 ->
  curve_size K (q + 1) /\ forall j m, let e := pairing_apply (a_pairing K (Ok j) (a_info_of h e2 e1 s1) m) in
  bilinear K (Quad K (fopp f1)) r (torsion K f1 f0 r) e /\ nondegenerate K (Quad K (fopp f1)) (torsion K f1 f0 r) e.
Proof.
  intros K q r h e2 e1 s1 s0 T. split.
  { rewrite <- (ta_h _ _ _ _ _ _ _ _ T). exact (a_points K q r h e2 e1 s1 s0 T). }
  intros j m. cbv zeta. split.
  - intros P Q HP HQ. exists (type_a_value K q r P Q). split; [exact (apply_value K q r h e2 e1 s1 s0 T j m P Q HP HQ)|].
    split; [exact (PairingAApi.value_r K q r h e2 e1 s1 s0 T P Q HP HQ)|].
    intros i k HI. rewrite <- (PairingAApi.value_bilinear K q r h e2 e1 s1 s0 T i k P Q HP HQ).
    apply (apply_value K q r h e2 e1 s1 s0 T j m); [exact HI|]. exact (a1_mul_on K q r h (a_is_a1 _ _ _ _ _ _ _ _ T) k Q HQ).
  - intros P HP NP. exact (a_nondeg_api K q r h e2 e1 s1 s0 T j m P HP NP).
Qed.
Lemma a1_works : forall K p n l, type_a1 K p n l ->
  curve_size K (p + 1) /\ forall m, let e := pairing_apply (a1_pairing K n l m) in
  bilinear K (Quad K (fopp f1)) n (a1_input K n) e /\ nondegenerate K (Quad K (fopp f1)) (a1_input K n) e.
Proof.
  intros K p n l T. split.
  { rewrite <- (t1_l _ _ _ _ T). exact (a1_points K p n l T). }
  intros m. cbv zeta. split.
  - intros P Q HP HQ. exists (type_a_value K p n P Q). split; [exact (a1_apply K p n l T m P Q HP HQ)|].
    split; [exact (a1_value_r K p n l T P Q (proj1 HP) HQ)|].
    intros i k HI. rewrite <- (a1_bilinear K p n l T i k P Q (proj1 HP) HQ).
    apply (a1_apply K p n l T m); [exact HI|]. exact (a1_mul_on K p n l T k Q HQ).
  - intros P HP NP. exact (a1_nondeg_api K p n l T m P HP NP).
Qed.

Theorem genaparam_ok : forall isprime fuel rbits rands hs text,
  (forall n, isprime n = true -> prime n) -> rand_ok rands -> 4 <= rbits < 2 ^ 31 ->
  genaparam isprime fuel rbits rands hs = Ok text ->
  forall bl junk t, (forall n, List.length (junk n) = n) ->
  exists v, param_init_set_str bl junk (text ++ 0 :: t) = Ok {| ret := 0; ptyp := Some TA; vals := v |} /\
  let q := v (chars "q") in let r := v (chars "r") in
  prime q /\ prime r /\ 2 ^ (rbits - 1) - 1 <= r < 2 ^ rbits /\ r * v (chars "h") = q + 1 /\
  forall K : fld, fld_laws K -> has_order K q -> curve_size K (q + 1) /\
  forall j m, let e := pairing_apply (a_pairing K (Ok j) (a_info_of (v (chars "h")) (v (chars "exp2")) (v (chars "exp1")) (v (chars "sign1"))) m) in
  bilinear K (Quad K (fopp f1)) r (torsion K f1 f0 r) e /\ nondegenerate K (Quad K (fopp f1)) (torsion K f1 f0 r) e.
Proof.
  intros ip fuel rbits rands hs text HP HR B H bl junk t HJ. unfold genaparam in H.
  destruct (a_gen ip fuel rbits rands hs) as [p| | |] eqn:E; try discriminate. cbn [bind] in H.
  destruct (a_gen_ok _ _ _ _ _ _ HR E) as ((S1 & S2 & S3 & S4 & S5) & X & Q & _ & Q4 & P1 & P2).
  destruct (a_gen_bits _ _ _ _ _ _ HR (proj1 B) E) as (BR & BE). specialize (X ltac:(lia)).
  assert (forall key, has_key A (a_values p (chars "k")) key true -> int32 (a_values p key)) as I32.
  { apply a_int32; unfold int32; lia. }
  destruct (round_trip bl junk HJ A (a_values p) t I32 ltac:(discriminate)) as (text' & v & O1 & O2 & _ & V).
  cbn [code] in O1, O2. rewrite H in O1. injection O1 as <-. exists v. split; [exact O2|]. cbv zeta.
  assert (forall s int, In (s, int) (plain_keys A) -> v (chars s) = a_values p (chars s)) as W by (intros s int HI; exact (V _ int (plain A _ s int HI))).
  rewrite (W "q"%string false), (W "r"%string false), (W "h"%string false), (W "exp2"%string true), (W "exp1"%string true), (W "sign1"%string true) by (cbn; auto 10).
  change (a_values p (chars "q")) with (a_q p). change (a_values p (chars "r")) with (a_r p). change (a_values p (chars "h")) with (a_h p).
  change (a_values p (chars "exp2")) with (exp2 (a_s p)). change (a_values p (chars "exp1")) with (exp1 (a_s p)). change (a_values p (chars "sign1")) with (sign1 (a_s p)).
  split; [auto|]. split; [auto|]. split; [exact BR|]. split; [lia|]. intros K HK HO. apply (a_works K _ _ _ _ _ _ (sign0 (a_s p))).
  assert (2 ^ 3 <= 2 ^ (rbits - 1)) as P3 by (apply Z.pow_le_mono_r; lia). change (2 ^ 3) with 8 in P3.
  constructor; auto; lia.
Qed.
Theorem gena1param_ok : forall isprime fuel N text,
  (forall n, isprime n = true -> prime n) -> 2 < N -> Z.odd N = true -> Z.of_nat fuel < 2 ^ 29 ->
  gena1param isprime fuel N = Ok text ->
  forall bl junk t, (forall n, List.length (junk n) = n) ->
  exists v, param_init_set_str bl junk (text ++ 0 :: t) = Ok {| ret := 0; ptyp := Some TA1; vals := v |} /\
  let p := v (chars "p") in
  prime p /\ v (chars "n") = N /\ N * v (chars "l") = p + 1 /\
  forall K : fld, fld_laws K -> has_order K p -> curve_size K (p + 1) /\
  forall m, let e := pairing_apply (a1_pairing K (v (chars "n")) (v (chars "l")) m) in
  bilinear K (Quad K (fopp f1)) N (a1_input K N) e /\ nondegenerate K (Quad K (fopp f1)) (a1_input K N) e.
Proof.
  intros ip fuel N text HP N2 NO HF H bl junk t HJ. unfold gena1param in H.
  destruct (a1_gen ip fuel N) as [a| | |] eqn:E; try discriminate. cbn [bind] in H.
  destruct (a1_gen_ok _ _ _ _ E) as (P1 & EN & l & [c ->] & Bl & EL & L1 & _). specialize (L1 ltac:(lia)).
  assert (forall key, has_key A1 (a1_values a (chars "k")) key true -> int32 (a1_values a key)) as I32.
  { apply a1_int32. unfold int32. rewrite L1. lia. }
  destruct (round_trip bl junk HJ A1 (a1_values a) t I32 ltac:(discriminate)) as (text' & v & O1 & O2 & _ & V).
  cbn [code] in O1, O2. rewrite H in O1. injection O1 as <-. exists v. split; [exact O2|]. cbv zeta.
  assert (forall s int, In (s, int) (plain_keys A1) -> v (chars s) = a1_values a (chars s)) as W by (intros s int HI; exact (V _ int (plain A1 _ s int HI))).
  rewrite (W "p"%string false), (W "n"%string false), (W "l"%string true) by (cbn; auto 10).
  change (a1_values a (chars "p")) with (a1_p a). change (a1_values a (chars "n")) with (a1_n a). change (a1_values a (chars "l")) with (a1_l a).
  rewrite EN, L1. split; [auto|]. split; [reflexivity|]. split; [lia|]. intros K HK HO. apply a1_works.
  constructor; auto; try lia. replace (a1_p a) with (3 + (c * N - 1) * 4) by lia. rewrite Z_mod_plus_full. reflexivity.
Qed.
(** a field with q elements *)
Lemma field_exists : forall q, prime q -> exists K : fld, fld_laws K /\ has_order K q.
Proof. intros q H. assert (1 < q) as L by (destruct H; lia). exists (ZpField.Zp q L). apply Zp_instance. exact H. Qed.

(** ** Cases that miss the documentation *)
Definition text83 : list Z := chars "type a" ++ 10 :: chars "q 83" ++ 10 :: chars "h 12" ++ 10 :: chars "r 7" ++ 10 ::
  chars "exp2 4" ++ 10 :: chars "exp1 3" ++ 10 :: chars "sign1 -1" ++ 10 :: chars "sign0 -1" ++ [10].
Lemma run83 : genaparam MntMain.isprime 1 4 [0; 2; 0] [1] = Ok text83.
Proof. vm_compute. reflexivity. Qed.
Definition text_a1 : list Z := chars "type a1" ++ 10 :: chars "p 59" ++ 10 :: chars "n 15" ++ 10 :: chars "l 4" ++ [10].
Lemma run_a1 : gena1param MntMain.isprime 1 15 = Ok text_a1.
Proof. vm_compute. reflexivity. Qed.
Lemma two_bits : forall isprime fuel c rands hs, Z.odd c = true -> 0 <= c -> rands <> [] -> genaparam isprime (S fuel) 2 (c :: rands) hs = UB.
Proof.
  intros ip fuel c rands hs O C N. unfold genaparam. cbn [a_gen]. unfold solinas_gen. cbn [take bind].
  destruct (Z.eqb_spec (Z.rem c 2) 0) as [E|E].
  - exfalso. rewrite Z.rem_mod_nonneg in E by lia. rewrite Zmod_odd, O in E. discriminate.
  - change (setbit0 (2 - 1)) with (Ok (2 ^ 1) : res Z). cbn [bind]. destruct rands as [|d rands]; [congruence|]. reflexivity.
Qed.
Lemma short_r : exists fuel rands hs text, rand_ok rands /\ genaparam MntMain.isprime fuel 4 rands hs = Ok text /\
  forall bl junk, (forall n, List.length (junk n) = n) -> exists v, param_init_set_str bl junk (text ++ [0]) = Ok {| ret := 0; ptyp := Some TA; vals := v |} /\
  v (chars "r") < 2 ^ (4 - 1).
Proof.
  exists 1%nat, [0; 2; 0], [1], text83. split; [repeat constructor; lia|]. split; [exact run83|]. intros bl junk HJ.
  set (p := {| a_s := {| exp2 := 4; exp1 := 3; sign1 := -1; sign0 := -1 |}; a_r := 7; a_h := 12; a_q := 83 |}).
  assert (forall key, has_key A (a_values p (chars "k")) key true -> int32 (a_values p key)) as I32 by (apply a_int32; unfold int32; cbn; lia).
  destruct (round_trip bl junk HJ A (a_values p) [] I32 ltac:(discriminate)) as (text' & v & O1 & O2 & _ & V).
  replace text83 with text'. 2:{ assert (param_out_str (code A) (a_values p) = Ok text83) as X by (vm_compute; reflexivity). congruence. }
  exists v. split; [exact O2|]. rewrite (V _ false (plain A _ "r"%string false ltac:(cbn; auto))). vm_compute. reflexivity.
Qed.

(** ** The size of q *)
Lemma a_inner_h : forall isprime n r hs h q rest, a_inner isprime n r hs = Ok (Some (h, q), rest) -> exists x, In x hs /\ h = x * 12.
Proof.
  intros ip. induction n as [|n IH]; intros r hs h q rest H; cbn [a_inner] in H; [discriminate|].
  destruct hs as [|x hs]; [discriminate|]. cbn [take bind] in H. destruct (ip (x * 12 * r - 1)).
  - injection H as <- <- <-. exists x. split; [left; reflexivity|reflexivity].
  - destruct (IH _ _ _ _ _ H) as (y & Hy & E). exists y. split; [right; exact Hy|exact E].
Qed.
Lemma a_inner_rest : forall isprime n r hs o rest, a_inner isprime n r hs = Ok (o, rest) -> incl rest hs.
Proof.
  intros ip. induction n as [|n IH]; intros r hs o rest H; cbn [a_inner] in H. { injection H as _ <-. apply incl_refl. }
  destruct hs as [|x hs]; [discriminate|]. cbn [take bind] in H. destruct (ip (x * 12 * r - 1)).
  - injection H as _ <-. apply incl_tl, incl_refl.
  - apply incl_tl. eapply IH; eauto.
Qed.
Lemma a_gen_h : forall isprime fuel rbits rands hs p, a_gen isprime fuel rbits rands hs = Ok p -> exists x, In x hs /\ a_h p = x * 12.
Proof.
  intros ip. induction fuel as [|k IH]; intros rbits rands hs p H; [discriminate|]. cbn [a_gen] in H.
  destruct (solinas_gen rbits rands) as [[[s r] rest]| | |] eqn:E; try discriminate. cbn [bind] in H.
  destruct (ip r) eqn:P; [|eapply IH; eauto].
  destruct (a_inner ip 10 r hs) as [[o hs']| | |] eqn:E'; try discriminate. cbn [bind] in H. destruct o as [[h q]|].
  - injection H as <-. cbn [a_h]. eapply a_inner_h; eauto.
  - destruct (IH _ _ _ _ H) as (x & Hx & EH). exists x. split; [|exact EH]. eapply a_inner_rest; eauto.
Qed.
Theorem a_gen_q : forall isprime fuel rbits qbits rands hs p, rand_ok rands -> cofactors_ok rbits qbits hs -> 4 <= rbits -> rbits + 6 <= qbits ->
  a_gen isprime fuel rbits rands hs = Ok p -> a_q p < 2 ^ (qbits + 1).
Proof.
  intros ip fuel rbits qbits rands hs p HR HC B4 B6 H. destruct (a_gen_h _ _ _ _ _ _ H) as (x & Ix & EH).
  destruct (a_gen_bits _ _ _ _ _ _ HR B4 H) as (BR & _). destruct (a_gen_ok _ _ _ _ _ _ HR H) as (_ & _ & EQ & _).
  unfold cofactors_ok in HC. rewrite Forall_forall in HC. specialize (HC x Ix). rewrite Z.max_r in HC by lia.
  assert (2 ^ (qbits + 1) = 2 ^ 4 * (2 ^ (qbits - rbits - 3) * 2 ^ rbits)) as E by (rewrite <- !Z.pow_add_r by lia; f_equal; lia).
  change (2 ^ 4) with 16 in E. assert (0 < 2 ^ (rbits - 1)) by (apply Z.pow_pos_nonneg; lia).
  assert (x * a_r p <= 2 ^ (qbits - rbits - 3) * 2 ^ rbits) by (apply Z.mul_le_mono_nonneg; lia).
  assert (0 < 2 ^ (qbits - rbits - 3) * 2 ^ rbits) by (apply Z.mul_pos_pos; apply Z.pow_pos_nonneg; lia). rewrite EH in EQ. lia.
Qed.
Lemma q_long : exists rands hs p, rand_ok rands /\ cofactors_ok 4 10 hs /\ a_gen MntMain.isprime 1 4 rands hs = Ok p /\ 2 ^ 10 <= a_q p.
Proof.
  exists [0; 0; 0], [7]. eexists. split; [repeat constructor; lia|]. split; [repeat constructor; cbn; lia|]. split; [vm_compute; reflexivity|]. vm_compute. congruence.
Qed.
Lemma q_short : exists rands hs p, rand_ok rands /\ cofactors_ok 4 10 hs /\ a_gen MntMain.isprime 1 4 rands hs = Ok p /\ a_q p < 2 ^ (10 - 3).
Proof.
  exists [0; 2; 0], [1]. eexists. split; [repeat constructor; lia|]. split; [repeat constructor; cbn; lia|]. split; [vm_compute; reflexivity|]. vm_compute. reflexivity.
Qed.
