(** Discrete logarithms. *)
From Coq Require Import ZArith Znumtheory List Bool Lia.
From Verif.Base Require Import Outcome Gmp Algebra.
From Verif.Model Require Import Dlog.
From Verif.Proofs Require Import GmpFacts PowFacts.
Import ListNotations.
Open Scope Z_scope.

Section D.
Variable G : monoid.
Hypothesis L : monoid_laws G.
Hypothesis C : m_commutative G.
Variable eqb : G -> G -> bool.
Hypothesis Heqb : forall x y, eqb x y = true <-> x = y.
Variable r : Z.
Hypothesis Hr : 1 < r.
Variables g h : G.
Hypothesis gr : zpow g r = mone G.
Declare Scope mon_scope.
Notation "x * y" := (mmul G x y) (only parsing) : mon_scope.
Delimit Scope mon_scope with M.

Lemma pow_mod : forall x : G, zpow x r = mone G -> forall n, 0 <= n -> zpow x (n mod r) = zpow x n.
Proof.
  intros x Hx n Hn. pose proof (Z.div_mod n r ltac:(lia)) as E. pose proof (Z.mod_pos_bound n r ltac:(lia)).
  assert (0 <= n / r) by (apply Z.div_pos; lia).
  rewrite E at 2. rewrite (zpow_add G L) by nia. rewrite (zpow_mul G L) by lia. rewrite Hx, (zpow_one G L). symmetry. apply L.
Qed.

(** ** Brute force *)
Lemma brute_loop_sound : forall fuel c g0 x, 0 <= c -> g0 = zpow g c ->
  brute_loop G eqb r fuel g h g0 c = Ok x -> 0 <= x < r /\ zpow g x = h.
Proof.
  induction fuel; intros c g0 x Hc Hg E; [discriminate|]. cbn [brute_loop] in E.
  destruct (eqb g0 h) eqn:Q.
  - apply Heqb in Q. injection E as <-. split; [apply Z.mod_pos_bound; lia|]. rewrite pow_mod by auto. congruence.
  - apply IHfuel in E; auto; [lia|]. subst. rewrite (zpow_succ_r G L) by lia. reflexivity.
Qed.
Lemma brute_sound : forall fuel x, dlog_brute_force G eqb r fuel g h = Ok x -> 0 <= x < r /\ zpow g x = h.
Proof. intros fuel x. apply brute_loop_sound; [lia|]. symmetry. apply (zpow_1 G L). Qed.

Lemma brute_loop_complete : forall n fuel c g0, 0 <= c -> g0 = zpow g c -> h = zpow g (c + Z.of_nat n) -> (n < fuel)%nat ->
  exists x, brute_loop G eqb r fuel g h g0 c = Ok x.
Proof.
  induction n; intros fuel c g0 Hc Hg Hh Hf; (destruct fuel; [lia|]); cbn [brute_loop]; destruct (eqb g0 h) eqn:Q; eauto.
  - exfalso. assert (g0 = h) by (rewrite Hg, Hh; f_equal; lia). apply Heqb in H. congruence.
  - apply IHn; try lia.
    + subst. rewrite (zpow_succ_r G L) by lia. reflexivity.
    + rewrite Hh. f_equal. lia.
Qed.
(** It finds every logarithm there is, in at most r iterations. *)
Lemma brute_complete : forall y, 0 <= y -> zpow g y = h -> exists x, dlog_brute_force G eqb r (Z.to_nat r) g h = Ok x.
Proof.
  intros y Hy E. unfold dlog_brute_force.
  set (z := (y - 1) mod r). pose proof (Z.mod_pos_bound (y - 1) r ltac:(lia)) as B. fold z in B.
  apply brute_loop_complete with (n := Z.to_nat z); try lia.
  - symmetry. apply (zpow_1 G L).
  - rewrite Z2Nat.id by lia. rewrite <- E, <- (pow_mod g gr y), <- (pow_mod g gr (1 + z)) by lia. f_equal.
    unfold z. rewrite Zplus_mod_idemp_r. f_equal. lia.
Qed.

(** ** Pollard's rho *)
Hypothesis hr : zpow h r = mone G.
Variable to_bytes : G -> list Z.
Variable probab_prime : Z -> bool.

Definition good (a b : Z) (x : G) : Prop := 0 <= a /\ 0 <= b /\ x = (zpow h b * zpow g a)%M.
Definition good_ss (ss : snapshot G) : Prop := good (sa G ss) (sb G ss) (snark G ss).

Lemma shuffle : forall a b c d : G, ((a * b) * (c * d) = (a * c) * (b * d))%M.
Proof.
  intros. rewrite <- !(m_assoc G L). f_equal. rewrite !(m_assoc G L). f_equal. apply C.
Qed.

Lemma good_step : forall a b x a' b', good a b x -> 0 <= a' -> 0 <= b' ->
  good ((a + a') mod r) ((b + b') mod r) (x * (zpow h b' * zpow g a'))%M.
Proof.
  intros a b x a' b' (Ha & Hb & ->) Ha' Hb'.
  split; [apply Z.mod_pos_bound; lia|]. split; [apply Z.mod_pos_bound; lia|].
  rewrite !pow_mod by (auto; lia). rewrite !(zpow_add G L) by auto. apply shuffle.
Qed.

Lemma collision : forall a b a' b', 0 <= a -> 0 <= b -> 0 <= a' -> 0 <= b' ->
  (zpow h b * zpow g a = zpow h b' * zpow g a')%M ->
  zpow h ((b - b') mod r) = zpow g ((a' - a) mod r).
Proof.
  intros a b a' b' Ha Hb Ha' Hb' E.
  (* multiply by h^(r b' - b') g^(r a - a) *)
  assert (M : ((zpow h b * zpow g a) * (zpow h (b' * (r - 1)) * zpow g (a * (r - 1)))
             = (zpow h b' * zpow g a') * (zpow h (b' * (r - 1)) * zpow g (a * (r - 1))))%M) by (rewrite E; reflexivity).
  rewrite (shuffle (zpow h b)), (shuffle (zpow h b')) in M. rewrite <- !(zpow_add G L) in M by nia.
  replace (a + a * (r - 1))%Z with (r * a)%Z in M by ring. replace (b' + b' * (r - 1))%Z with (r * b')%Z in M by ring.
  rewrite (zpow_mul G L g r a), (zpow_mul G L h r b') in M by lia. rewrite gr, hr, !(zpow_one G L) in M.
  rewrite (m_1_r G L), (m_1_l G L) in M.
  assert (B1 : ((b - b') mod r = (b + b' * (r - 1)) mod r)%Z).
  { replace (b + b' * (r - 1))%Z with ((b - b') + b' * r)%Z by ring. rewrite Z.mod_add by lia. reflexivity. }
  assert (B2 : ((a' - a) mod r = (a' + a * (r - 1)) mod r)%Z).
  { replace (a' + a * (r - 1))%Z with ((a' - a) + a * r)%Z by ring. rewrite Z.mod_add by lia. reflexivity. }
  rewrite B1, B2, !pow_mod by (auto; nia). exact M.
Qed.

Lemma try_roots_sound : forall d zb zm x, 0 <= zb -> 0 <= zm -> try_roots G eqb r g h zb zm d = Some x ->
  0 <= x < r /\ zpow g x = h.
Proof.
  induction d; intros zb zm x Hb Hm E; [discriminate|]. cbn [try_roots] in E.
  destruct (eqb (zpow g zb) h) eqn:Q.
  - injection E as <-. apply Heqb in Q. split; [apply Z.mod_pos_bound; lia|]. rewrite pow_mod by auto. exact Q.
  - apply IHd in E; auto; lia.
Qed.
Lemma try_roots_complete : forall d zb zm k, 0 <= k < Z.of_nat d -> zpow g (zb + k * zm) = h ->
  exists x, try_roots G eqb r g h zb zm d = Some x.
Proof.
  induction d; intros zb zm k Hk E; [lia|]. cbn [try_roots]. destruct (eqb (zpow g zb) h) eqn:Q; eauto.
  destruct (Z.eq_dec k 0) as [->|N].
  - exfalso. assert (zpow g zb = h) by (rewrite <- E; f_equal; lia). apply Heqb in H. congruence.
  - apply IHd with (k - 1)%Z; [lia|]. rewrite <- E. f_equal. ring.
Qed.

Lemma invert_bound : forall a n x, 0 < n -> mpz_invert a n = Some x -> 0 <= x < n.
Proof.
  intros a n x Hn. rewrite mpz_invert_egcd. destruct (egcd _ _ _ _ _) as [y d]. destruct (d =? 1); [|discriminate].
  intros H. injection H as <-. apply Z.mod_pos_bound. lia.
Qed.

Lemma solve_sound : forall a b ss x, good a b (snark G ss) -> good_ss ss ->
  solve G eqb r probab_prime g h a b ss = Ok (Some x) -> 0 <= x < r /\ zpow g x = h.
Proof.
  intros a b ss x (Ha & Hb & E1) (Ha' & Hb' & E2) E. unfold solve in E.
  pose proof (collision a b (sa G ss) (sb G ss) Ha Hb Ha' Hb' ltac:(congruence)) as K.
  set (u := ((b - sb G ss) mod r)%Z) in *. set (v := ((sa G ss - a) mod r)%Z) in *.
  pose proof (Z.mod_pos_bound (b - sb G ss) r ltac:(lia)) as Bu. fold u in Bu.
  pose proof (Z.mod_pos_bound (sa G ss - a) r ltac:(lia)) as Bv. fold v in Bv.
  destruct (probab_prime r) eqn:PP; cbn [negb] in E.
  - destruct (mpz_invert u r) as [i|] eqn:I; [|discriminate]. injection E as <-.
    destruct (mpz_invert_some u r i Hr I) as [Bi Ui].
    split; [apply Z.mod_pos_bound; lia|]. rewrite pow_mod by (auto; nia).
    rewrite (zpow_mul G L), <- K, <- (zpow_mul G L) by lia. rewrite <- pow_mod by (auto; nia).
    rewrite Ui. apply (zpow_1 G L).
  - destruct (negb (v mod Z.gcd u r =? 0)); [discriminate|].
    destruct (mpz_invert (u / Z.gcd u r) (r / Z.gcd u r)) as [i|] eqn:I; [|discriminate]. injection E as E.
    assert (G0 : 0 < Z.gcd u r). { pose proof (Z.gcd_nonneg u r). destruct (Z.eq_dec (Z.gcd u r) 0) as [Z0|]; [|lia]. apply Z.gcd_eq_0_r in Z0. lia. }
    assert (M0 : 0 < r / Z.gcd u r).
    { destruct (Z.gcd_divide_r u r) as [q Q]. rewrite Q at 1. rewrite Z.div_mul by lia. nia. }
    apply try_roots_sound in E; auto; try lia. apply Z.mod_pos_bound. lia.
Qed.

(** When g generates a group of exactly r elements containing h, the search
    among the candidates succeeds. *)
Lemma solve_complete : (forall k, 0 <= k -> zpow g k = mone G -> (r | k)) -> (exists y, 0 <= y /\ zpow g y = h) ->
  forall a b ss, good a b (snark G ss) -> good_ss ss ->
  probab_prime r = false -> exists x, solve G eqb r probab_prime g h a b ss = Ok (Some x).
Proof.
  intros Hg [y [Hy Ey]] a b ss (Ha & Hb & E1) (Ha' & Hb' & E2) PP. unfold solve. rewrite PP. cbn [negb].
  pose proof (collision a b (sa G ss) (sb G ss) Ha Hb Ha' Hb' ltac:(congruence)) as K.
  set (u := ((b - sb G ss) mod r)%Z) in *. set (v := ((sa G ss - a) mod r)%Z) in *.
  pose proof (Z.mod_pos_bound (b - sb G ss) r ltac:(lia)) as Bu. fold u in Bu.
  pose proof (Z.mod_pos_bound (sa G ss - a) r ltac:(lia)) as Bv. fold v in Bv.
  assert (KY : (r | y * u - v)).
  { rewrite <- Ey, <- (zpow_mul G L) in K by lia.
    assert (D : (r | y * u + v * (r - 1))).
    { apply Hg; [nia|]. rewrite (zpow_add G L), K, <- (zpow_add G L) by nia.
      replace (v + v * (r - 1))%Z with (r * v)%Z by ring. rewrite (zpow_mul G L), gr by lia. apply (zpow_one G L). }
    replace (y * u - v)%Z with (y * u + v * (r - 1) - v * r)%Z by ring. apply Z.divide_sub_r; auto. apply Z.divide_factor_r. }
  set (d := Z.gcd u r).
  assert (G0 : 0 < d). { unfold d. pose proof (Z.gcd_nonneg u r). destruct (Z.eq_dec (Z.gcd u r) 0) as [Z0|]; [|lia]. apply Z.gcd_eq_0_r in Z0. lia. }
  destruct (Z.gcd_divide_r u r) as [m Hm]. destruct (Z.gcd_divide_l u r) as [u' Hu]. fold d in Hm, Hu.
  assert (Em : (r / d = m)%Z) by (rewrite Hm; apply Z.div_mul; lia).
  assert (Eu : (u / d = u')%Z) by (rewrite Hu at 1; apply Z.div_mul; lia).
  assert (M0 : 0 < m) by nia.
  assert (Dv : (d | v)).
  { replace v with (y * u - (y * u - v))%Z by ring. apply Z.divide_sub_r.
    - apply Z.divide_mul_r. exists u'; auto.
    - apply Z.divide_trans with r; auto. exists m; auto. }
  destruct Dv as [v' Hv].
  assert (Ev : (v mod d = 0)%Z) by (rewrite Hv; apply Z.mod_mul; lia).
  assert (Evd : (v / d = v')%Z) by (rewrite Hv; apply Z.div_mul; lia).
  rewrite Ev, Z.eqb_refl. cbn [negb]. rewrite Em, Eu, Evd.
  assert (RP : Z.gcd u' m = 1).
  { assert (X : Z.gcd u r = Z.gcd (u' * d) (m * d)) by (rewrite <- Hu, <- Hm; reflexivity).
    rewrite Z.gcd_mul_mono_r_nonneg in X by lia. fold d in X. nia. }
  assert (LK : (m | y * u' - v')).
  { destruct KY as [q Q]. exists q. rewrite Hu, Hv, Hm in Q. apply Z.mul_reg_r with d; [lia|]. rewrite <- Z.mul_assoc, <- Q. ring. }
  assert (IV : exists i, mpz_invert u' m = Some i /\ 0 <= i < m /\ (m | u' * i - 1)).
  { destruct (Z.eq_dec m 1) as [->|N1].
    - exists 0. split; [|split; [lia|apply Z.divide_1_l]]. unfold mpz_invert. rewrite Z.mod_1_r. reflexivity.
    - destruct (mpz_invert_exists u' m ltac:(lia) RP) as [i I]. exists i. split; auto.
      destruct (mpz_invert_some u' m i ltac:(lia) I) as [B1 B2]. split; auto.
      apply Zmod_divide; [lia|]. rewrite Zminus_mod, B2. rewrite (Z.mod_small 1 m) by lia. apply Z.mod_0_l. lia. }
  destruct IV as [i [-> [Bi Di]]].
  set (z0 := ((v' * i) mod m)%Z). pose proof (Z.mod_pos_bound (v' * i) m ltac:(lia)) as Bz. fold z0 in Bz.
  assert (Dz : (m | y - z0)).
  { assert (D1 : (m | v' * i - z0)). { apply Zmod_divide; [lia|]. unfold z0. rewrite Zminus_mod_idemp_r, Z.sub_diag. apply Z.mod_0_l. lia. }
    replace (y - z0)%Z with ((v' * i - z0) + i * (y * u' - v') - y * (u' * i - 1))%Z by ring.
    apply Z.divide_sub_r; [apply Z.divide_add_r; auto; apply Z.divide_mul_r; auto|apply Z.divide_mul_r; auto]. }
  set (Y := (y mod r)%Z). pose proof (Z.mod_pos_bound y r ltac:(lia)) as BY. fold Y in BY.
  assert (DY : (m | Y - z0)).
  { replace (Y - z0)%Z with ((y - z0) - r * (y / r))%Z by (unfold Y; rewrite (Z.mod_eq y r) by lia; ring).
    apply Z.divide_sub_r; auto. rewrite Hm at 1. rewrite <- Z.mul_assoc. apply Z.divide_factor_l. }
  destruct DY as [k Hk].
  assert (0 <= k < d) by nia.
  destruct (try_roots_complete (Z.to_nat d) z0 m k) as [x X]; [lia| |].
  - replace (z0 + k * m)%Z with Y by lia. unfold Y. rewrite pow_mod by auto. exact Ey.
  - exists x. rewrite X. reflexivity.
Qed.

Lemma rho_loop_sound : forall fuel a b hole x asum bsum counter interval y,
  (forall i, 0 <= a i) -> (forall i, 0 <= b i) -> Forall good_ss hole -> good asum bsum x ->
  rho_loop G eqb r to_bytes probab_prime fuel g h a b (fun i => zpow h (b i) * zpow g (a i))%M hole x asum bsum counter interval = Ok (Some y) ->
  0 <= y < r /\ zpow g y = h.
Proof.
  induction fuel; intros a b hole x asum bsum counter interval y Ha Hb Hh Hg E; [discriminate|]. cbn [rho_loop] in E.
  set (i := step_index G to_bytes x) in *.
  pose proof (good_step asum bsum x (a i) (b i) Hg (Ha i) (Hb i)) as Hg'.
  destruct (find_snapshot G eqb hole _) as [ss|] eqn:F.
  - apply find_some in F. destruct F as [F1 F2]. apply Heqb in F2.
    apply solve_sound in E; auto.
    + rewrite <- F2. exact Hg'.
    + rewrite Forall_forall in Hh. apply Hh; auto.
  - destruct (Z.testbit _ _); apply IHfuel in E; auto.
    apply Forall_app. split; auto.
Qed.
Lemma rho_sound : forall fuel a b asum0 bsum0 y,
  (forall i, 0 <= a i) -> (forall i, 0 <= b i) -> 0 <= asum0 -> 0 <= bsum0 ->
  dlog_pollard_rho G eqb r to_bytes probab_prime fuel g h a b asum0 bsum0 = Ok (Some y) -> 0 <= y < r /\ zpow g y = h.
Proof.
  intros fuel a b asum0 bsum0 y Ha Hb H1 H2 E. unfold dlog_pollard_rho in E.
  assert (GG : good asum0 bsum0 (zpow h bsum0 * zpow g asum0)%M) by (split; [|split]; auto).
  apply rho_loop_sound in E; auto.
Qed.

(** For composite r and a generator it never leaves the answer unset and
    never divides inexactly. *)
Lemma rho_loop_total : (forall k, 0 <= k -> zpow g k = mone G -> (r | k)) -> (exists y, 0 <= y /\ zpow g y = h) -> probab_prime r = false ->
  forall fuel a b hole x asum bsum counter interval,
  (forall i, 0 <= a i) -> (forall i, 0 <= b i) -> Forall good_ss hole -> good asum bsum x ->
  let o := rho_loop G eqb r to_bytes probab_prime fuel g h a b (fun i => zpow h (b i) * zpow g (a i))%M hole x asum bsum counter interval in
  o = OutOfFuel \/ exists y, o = Ok (Some y).
Proof.
  intros Hgen Hy PP. induction fuel; intros a b hole x asum bsum counter interval Ha Hb Hh Hg; [left; reflexivity|]. cbn [rho_loop].
  set (i := step_index G to_bytes x) in *.
  pose proof (good_step asum bsum x (a i) (b i) Hg (Ha i) (Hb i)) as Hg'.
  destruct (find_snapshot G eqb hole _) as [ss|] eqn:F.
  - apply find_some in F. destruct F as [F1 F2]. apply Heqb in F2. right.
    apply solve_complete; auto.
    + rewrite <- F2. exact Hg'.
    + rewrite Forall_forall in Hh. apply Hh; auto.
  - destruct (Z.testbit _ _); apply IHfuel; auto. apply Forall_app. split; auto.
Qed.
Lemma rho_total : (forall k, 0 <= k -> zpow g k = mone G -> (r | k)) -> (exists y, 0 <= y /\ zpow g y = h) -> probab_prime r = false ->
  forall fuel a b asum0 bsum0, (forall i, 0 <= a i) -> (forall i, 0 <= b i) -> 0 <= asum0 -> 0 <= bsum0 ->
  let o := dlog_pollard_rho G eqb r to_bytes probab_prime fuel g h a b asum0 bsum0 in
  o = OutOfFuel \/ exists y, o = Ok (Some y).
Proof.
  intros Hgen Hy PP fuel a b asum0 bsum0 Ha Hb H1 H2. unfold dlog_pollard_rho.
  assert (GG : good asum0 bsum0 (zpow h bsum0 * zpow g asum0)%M) by (split; [|split]; auto).
  apply rho_loop_total; auto.
Qed.
End D.
