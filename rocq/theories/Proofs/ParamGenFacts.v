(** Generated parameters satisfy their equations. *)
From Coq Require Import ZArith Znumtheory List Bool Lia.
From Verif.Base Require Import Outcome.
From Verif.Model Require Import ParamGen.
From Verif.Spec Require Import ParamEqs.
Import ListNotations.
Open Scope Z_scope.


Lemma solinas_ok : forall rbits rands s r rest, rand_ok rands -> solinas_gen rbits rands = Ok (s, r, rest) ->
  solinas_form r (exp2 s) (exp1 s) (sign1 s) (sign0 s) /\ rand_ok rest /\ (rbits - 1 <= exp2 s <= rbits) /\ (3 <= rbits -> exp1 s < exp2 s).
Proof.
  intros rbits rands s r rest HR H. unfold solinas_gen in H. unfold rand_ok in *.
  destruct rands as [|c1 rands]; [discriminate|]. inversion HR as [|? ? R1 HR1]; subst. cbn [take bind] in H.
  set (b1 := Z.rem c1 2 =? 0) in *. clearbody b1.
  assert (exists e2 s1, (if b1 then (rbits, -1) else (rbits - 1, 1)) = (e2, s1) /\ (s1 = 1 \/ s1 = -1) /\ rbits - 1 <= e2 <= rbits) as (e2 & s1 & E1 & S1 & B2).
  { destruct b1; eexists; eexists; (split; [reflexivity|]); lia. }
  rewrite E1 in H. clear E1. unfold setbit0 in H. destruct (Z.ltb_spec e2 0); [discriminate|]. cbn [bind] in H.
  destruct rands as [|c2 rands]; [discriminate|]. inversion HR1 as [|? ? R2 HR2]; subst. cbn [take bind] in H.
  unfold int_rem in H. destruct (Z.eqb_spec (e2 - 1) 0) as [E0|E0]; [discriminate|]. cbn [bind] in H.
  pose proof (Z.rem_nonneg c2 (e2 - 1) E0 R2) as M0.
  assert (3 <= rbits -> Z.rem c2 (e2 - 1) + 1 < e2) as M1.
  { intros. pose proof (Z.rem_bound_pos c2 (e2 - 1) R2 ltac:(lia)). lia. }
  set (m := Z.rem c2 (e2 - 1)) in *. clearbody m. destruct (Z.ltb_spec (m + 1) 0); [discriminate|]. cbn [bind] in H.
  destruct rands as [|c3 rands]; [discriminate|]. inversion HR2 as [|? ? R3 HR3]; subst. cbn [take bind] in H.
  destruct (Z.rem c3 2 =? 0); injection H as <- <- <-; cbn [exp2 exp1 sign1 sign0];
    (split; [|split; [assumption|split; [assumption|auto]]]); unfold solinas_form; destruct S1 as [-> | ->]; cbn -[Z.pow Z.mul Z.add]; repeat split; auto; lia.
Qed.
Lemma a_inner_ok : forall isprime n r hs h q rest, a_inner isprime n r hs = Ok (Some (h, q), rest) ->
  q + 1 = h * r /\ (12 | h) /\ isprime q = true.
Proof.
  intros ip. induction n as [|n IH]; intros r hs h q rest H; cbn [a_inner] in H; [discriminate|].
  destruct hs as [|x hs]; [discriminate|]. cbn [take bind] in H. destruct (ip (x * 12 * r - 1)) eqn:P; [|eapply IH; eauto].
  injection H as <- <- <-. split; [lia|]. split; [exists x; reflexivity|exact P].
Qed.
Lemma a_gen_ok : forall isprime fuel rbits rands hs p, rand_ok rands -> a_gen isprime fuel rbits rands hs = Ok p ->
  solinas_form (a_r p) (exp2 (a_s p)) (exp1 (a_s p)) (sign1 (a_s p)) (sign0 (a_s p)) /\ (3 <= rbits -> exp1 (a_s p) < exp2 (a_s p)) /\
  a_q p + 1 = a_h p * a_r p /\ (12 | a_h p) /\ a_q p mod 4 = 3 /\ isprime (a_r p) = true /\ isprime (a_q p) = true.
Proof.
  intros ip. induction fuel as [|k IH]; intros rbits rands hs p HR H; [discriminate|]. cbn [a_gen] in H.
  destruct (solinas_gen rbits rands) as [[[s r] rest]| | |] eqn:E; try discriminate. cbn [bind] in H. apply solinas_ok in E; auto. destruct E as (E1 & E2 & E3 & E4).
  destruct (ip r) eqn:P; [|eapply IH; eauto].
  destruct (a_inner ip 10 r hs) as [[o hs']| | |] eqn:E; try discriminate. cbn [bind] in H. destruct o as [[h q]|]; [|eapply IH; eauto].
  injection H as <-. cbn [a_s a_r a_h a_q]. apply a_inner_ok in E. destruct E as (A1 & A2 & A3). repeat (split; [assumption|]). split; [|split; assumption].
  destruct A2 as [x ->]. replace q with (3 + (3 * x * r - 1) * 4) by lia. rewrite Z_mod_plus_full. reflexivity.
Qed.
Lemma e_inner_ok : forall isprime n r hs h q rest, e_inner isprime n r hs = Ok (Some (h, q), rest) ->
  q = h * r ^ 2 + 1 /\ (exists s, h = 3 * s ^ 2) /\ isprime q = true.
Proof.
  intros ip. induction n as [|n IH]; intros r hs h q rest H; cbn [e_inner] in H; [discriminate|].
  destruct hs as [|x hs]; [discriminate|]. cbn [take bind] in H. destruct (ip (r * r * (x * x * 3) + 1)) eqn:P; [|eapply IH; eauto].
  injection H as <- <- <-. split; [ring|]. split; [exists x; ring|exact P].
Qed.
Lemma e_gen_ok : forall isprime fuel rbits rands hs p, rand_ok rands -> e_gen isprime fuel rbits rands hs = Ok p ->
  solinas_form (a_r p) (exp2 (a_s p)) (exp1 (a_s p)) (sign1 (a_s p)) (sign0 (a_s p)) /\ (3 <= rbits -> exp1 (a_s p) < exp2 (a_s p)) /\
  a_q p = a_h p * a_r p ^ 2 + 1 /\ (exists s, a_h p = 3 * s ^ 2) /\ isprime (a_r p) = true /\ isprime (a_q p) = true.
Proof.
  intros ip. induction fuel as [|k IH]; intros rbits rands hs p HR H; [discriminate|]. cbn [e_gen] in H.
  destruct (solinas_gen rbits rands) as [[[s r] rest]| | |] eqn:E; try discriminate. cbn [bind] in H. apply solinas_ok in E; auto. destruct E as (E1 & E2 & E3 & E4).
  destruct (ip r) eqn:P; [|eapply IH; eauto].
  destruct (e_inner ip 10 r hs) as [[o hs']| | |] eqn:E; try discriminate. cbn [bind] in H. destruct o as [[h q]|]; [|eapply IH; eauto].
  injection H as <-. cbn [a_s a_r a_h a_q]. apply e_inner_ok in E. destruct E as (A1 & A2 & A3). auto 10.
Qed.
Lemma f_loop_ok : forall isprime fuel x0 q r, 0 <= x0 -> f_loop isprime fuel x0 = Ok (q, r) ->
  isprime q = true /\ isprime r = true /\ exists x, x0 <= Z.abs x /\ q = bn_q x /\ r = bn_r x /\ r = q + 1 - bn_t x.
Proof.
  intros ip. induction fuel as [|k IH]; intros x0 q r H0 H; [discriminate|]. cbn [f_loop] in H.
  destruct (ip (tryminusx x0) && ip (tryminusx x0 - (x0 * x0 * 6 + 1) + 1)) eqn:P1.
  { apply andb_true_iff in P1. injection H as <- <-. destruct P1 as [-> ->]. do 2 (split; [reflexivity|]). exists (- x0). unfold tryminusx, bn_q, bn_r, bn_t. split; [lia|repeat split; ring]. }
  destruct (ip (tryplusx x0) && ip (tryplusx x0 - (x0 * x0 * 6 + 1) + 1)) eqn:P2.
  { apply andb_true_iff in P2. injection H as <- <-. destruct P2 as [-> ->]. do 2 (split; [reflexivity|]). exists x0. unfold tryplusx, bn_q, bn_r, bn_t. split; [lia|repeat split; ring]. }
  apply IH in H; [|lia]. destruct H as (A & B & x & C & D). do 2 (split; [assumption|]). exists x. split; [lia|exact D].
Qed.
Lemma f_gen_ok : forall isprime fuel bits q r, f_gen isprime fuel bits = Ok (q, r) ->
  isprime q = true /\ isprime r = true /\ exists x, 2 ^ ((bits - 6) / 4) <= Z.abs x /\ q = bn_q x /\ r = bn_r x /\ r = q + 1 - bn_t x.
Proof.
  intros ip fuel bits q r H. unfold f_gen, setbit0 in H. destruct (Z.ltb_spec (Z.quot (bits - 6) 4) 0) as [|N]; [discriminate|]. cbn [bind] in H.
  apply f_loop_ok in H; [|apply Z.pow_nonneg; lia]. destruct H as (A & B & x & C & D). do 2 (split; [assumption|]). exists x. split; [|exact D].
  destruct (Z.le_gt_cases 6 bits). { rewrite <- Z.quot_div_nonneg by lia. exact C. }
  rewrite Z.pow_neg_r; [lia|]. apply Z.div_lt_upper_bound; lia.
Qed.

Lemma a1_loop_ok : forall isprime fuel n p l p' l', a1_loop isprime fuel n p l = Ok (p', l') ->
  isprime p' = true /\ exists i, 0 <= i < Z.of_nat fuel /\ p' = p + i * n /\ l' mod 2 ^ 32 = (l + 4 * i) mod 2 ^ 32 /\ (0 <= l < 2 ^ 32 -> 0 <= l' < 2 ^ 32).
Proof.
  intros ip. induction fuel as [|k IH]; intros n p l p' l' H; [discriminate|]. cbn [a1_loop] in H. destruct (ip p) eqn:P.
  - injection H as <- <-. split; [exact P|]. exists 0. split; [lia|]. split; [lia|]. split; [f_equal; lia|auto].
  - apply IH in H. destruct H as (A & i & B & C & D & E). split; [exact A|]. exists (i + 1). split; [lia|]. split; [lia|]. split.
    + rewrite D, Zplus_mod_idemp_l. f_equal. lia.
    + intros _. apply E. apply Z.mod_pos_bound. reflexivity.
Qed.
Lemma a1_gen_ok : forall isprime fuel order a, a1_gen isprime fuel order = Ok a ->
  isprime (a1_p a) = true /\ a1_n a = order /\ exists l, (4 | l) /\ 0 < l <= 4 * Z.of_nat fuel /\ a1_p a + 1 = l * order /\ (l < 2 ^ 31 -> a1_l a = l) /\
    a1_l a = (l + 2 ^ 31) mod 2 ^ 32 - 2 ^ 31.
Proof.
  intros ip fuel order a H. unfold a1_gen in H. destruct (a1_loop ip fuel (order * 4) (order * 4 - 1) 4) as [[p l]| | |] eqn:E; try discriminate. cbn [bind] in H.
  injection H as <-. apply a1_loop_ok in E. destruct E as (A & i & B & C & D & E). cbn [a1_p a1_n a1_l]. split; [exact A|]. split; [reflexivity|].
  specialize (E ltac:(split; [lia|reflexivity])). exists (4 * (i + 1)).
  assert ((l + 2 ^ 31) mod 2 ^ 32 - 2 ^ 31 = (4 * (i + 1) + 2 ^ 31) mod 2 ^ 32 - 2 ^ 31) as EL.
  { rewrite <- Zplus_mod_idemp_l, D, Zplus_mod_idemp_l. do 2 f_equal. lia. }
  split; [exists (i + 1); lia|]. split; [lia|]. split; [lia|]. split; [|exact EL].
  intros L. etransitivity; [exact EL|]. rewrite Z.mod_small; lia.
Qed.
(** the int field l overflows when the first prime comes after 2^29 steps *)
Lemma a1_loop_skip : forall ip n j fuel p l, (forall i, 0 <= i < Z.of_nat j -> ip (p + i * n) = false) ->
  a1_loop ip (j + fuel) n p l = a1_loop ip fuel n (p + Z.of_nat j * n) (match j with O => l | _ => (l + 4 * Z.of_nat j) mod 2 ^ 32 end).
Proof.
  intros ip n. induction j as [|j IH]; intros fuel p l H. { cbn [Nat.add Z.of_nat]. f_equal. lia. }
  cbn [Nat.add a1_loop]. pose proof (H 0 ltac:(lia)) as H0. rewrite Z.add_0_r in H0. rewrite H0.
  rewrite IH. 2:{ intros i Hi. specialize (H (i + 1) ltac:(lia)). rewrite <- H. f_equal. lia. }
  f_equal; [lia|]. destruct j as [|j]. { f_equal. }
  rewrite Zplus_mod_idemp_l. f_equal. lia.
Qed.
Lemma a1_overflow : exists fuel a, a1_gen (fun p => p =? 2 ^ 31 * 3 - 1) fuel 3 = Ok a /\ a1_p a = 2 ^ 31 * 3 - 1 /\ a1_l a = - 2 ^ 31.
Proof.
  set (J := 2 ^ 29 - 1). exists (Z.to_nat J + 1)%nat. unfold a1_gen.
  assert (0 < J) as HJ by reflexivity.
  rewrite a1_loop_skip.
  - rewrite Z2Nat.id by lia. replace (match Z.to_nat J with O => 4 | _ => (4 + 4 * J) mod 2 ^ 32 end) with (2 ^ 31).
    + cbn [a1_loop]. replace (3 * 4 - 1 + J * (3 * 4) =? 2 ^ 31 * 3 - 1) with true by reflexivity. cbn [bind].
      eexists. split; [reflexivity|]. split; reflexivity.
    + destruct (Z.to_nat J) eqn:E; [lia|]. reflexivity.
  - intros i Hi. rewrite Z2Nat.id in Hi by lia. apply Z.eqb_neq. unfold J in Hi. lia.
Qed.

Lemma a1_refuted : exists isprime fuel a, a1_gen isprime fuel 3 = Ok a /\ a1_p a + 1 <> a1_l a * a1_n a.
Proof.
  destruct a1_overflow as (fuel & a & E & P & L). eexists. exists fuel, a. split; [exact E|].
  assert (a1_n a = 3) as N by (apply a1_gen_ok in E; apply E). rewrite P, L, N. discriminate.
Qed.

Lemma i_table_ok : forallb (fun bp => let p := snd bp in
  (i_n p * i_n2 p =? ternary_order (i_m p)) && (i_m p mod 2 =? 1) && negb (i_m p mod 3 =? 0) && (0 <? i_t p) && (i_t p <? i_m p) && (fst bp <=? Z.log2 (i_n p))) i_table = true.
Proof. vm_compute. reflexivity. Qed.
Lemma i_gen_ok : forall g p, i_gen g = Ok p ->
  i_n p * i_n2 p = ternary_order (i_m p) /\ i_m p mod 2 = 1 /\ i_m p mod 3 <> 0 /\ 0 < i_t p < i_m p /\ 2 ^ g <= i_n p.
Proof.
  intros g p H. unfold i_gen in H. assert (exists b, In (b, p) i_table /\ g <= b) as (b & I & G).
  { revert H. generalize i_table. induction l as [|[b p'] l IH]; cbn [i_pick]; [discriminate|]. destruct (Z.leb_spec g b).
    - intros H'. injection H' as <-. exists b. split; [left; reflexivity|assumption].
    - intros H'. destruct (IH H') as (b' & I & G). exists b'. split; [right; exact I|exact G]. }
  pose proof i_table_ok as T. rewrite forallb_forall in T. specialize (T _ I). cbn [fst snd] in T.
  repeat (apply andb_true_iff in T; destruct T as [T ?]). rewrite Z.eqb_eq in *. repeat match goal with H : (_ <? _) = true |- _ => apply Z.ltb_lt in H | H : (_ <=? _) = true |- _ => apply Z.leb_le in H | H : negb _ = true |- _ => apply negb_true_iff in H; apply Z.eqb_neq in H end.
  repeat (split; [first [assumption|split; assumption|lia]|]).
  destruct (Z.le_gt_cases 0 g). 2:{ rewrite Z.pow_neg_r by lia. destruct (Z.le_gt_cases 0 (i_n p)); [assumption|]. exfalso.
    rewrite Z.log2_nonpos in * by lia. assert (forallb (fun bp => 0 <? i_n (snd bp)) i_table = true) as T2 by (vm_compute; reflexivity).
    rewrite forallb_forall in T2. specialize (T2 _ I). cbn [snd] in T2. apply Z.ltb_lt in T2. lia. }
  assert (0 < i_n p) as PN.
  { assert (forallb (fun bp => 0 <? i_n (snd bp)) i_table = true) as T2 by (vm_compute; reflexivity).
    rewrite forallb_forall in T2. specialize (T2 _ I). cbn [snd] in T2. apply Z.ltb_lt in T2. exact T2. }
  transitivity (2 ^ Z.log2 (i_n p)); [apply Z.pow_le_mono_r; lia|]. apply Z.log2_spec in PN. lia.
Qed.
Lemma i_gen_total : forall g, g <= 892 <-> exists p, i_gen g = Ok p.
Proof.
  intros g. unfold i_gen, i_table. cbn [i_pick]. split.
  - intros H. repeat (match goal with |- context [?a <=? ?b] => destruct (Z.leb_spec a b); [eexists; reflexivity|] end). lia.
  - intros [p H]. repeat (match type of H with context [?a <=? ?b] => destruct (Z.leb_spec a b); [lia|] end). discriminate.
Qed.
