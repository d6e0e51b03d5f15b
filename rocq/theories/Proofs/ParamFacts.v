(** Facts about the parameter text model. *)
From Coq Require Import ZArith List Bool Lia String Ascii.
From Verif.Base Require Import Outcome Array.
From Verif.Model Require Import Memory Darray Symtab Param.
From Verif.Spec Require Import Sequences ParamText.
From Verif.Proofs Require Import ArrayFacts DarrayFacts.
Import ListNotations.
Open Scope Z_scope.

(** * Decimal text *)
Lemma horner_app : forall a b acc, horner (a ++ b) acc = horner b (horner a acc).
Proof. induction a as [|x a IH]; intros b acc; [reflexivity|]. apply IH. Qed.

Lemma decimal_digits_spec : forall fuel n acc, 0 <= n < 10 ^ Z.of_nat fuel ->
  exists ds, decimal_digits fuel n acc = map (Z.add 48) ds ++ acc /\ (fuel <> O -> ds <> []) /\
    Forall (fun d => 0 <= d < 10) ds /\ (n = 0 -> fuel <> O -> ds = [0]) /\ (0 < n -> hd 0 ds <> 0) /\ horner ds 0 = n.
Proof.
  induction fuel as [|f IH]; intros n acc H.
  - change (10 ^ Z.of_nat 0) with 1 in H. exists []. cbn. repeat split; auto; try lia; try congruence.
  - cbn [decimal_digits]. destruct (Z.ltb_spec n 10) as [L|L].
    + exists [n]. split; [reflexivity|]. split; [discriminate|]. split; [repeat constructor; lia|].
      split; [intros; subst; reflexivity|]. cbn [hd horner]. split; intros; lia.
    + rewrite Nat2Z.inj_succ, Z.pow_succ_r in H by lia.
      pose proof (Z.div_mod n 10 ltac:(lia)) as E. pose proof (Z.mod_pos_bound n 10 ltac:(lia)) as B.
      destruct (IH (n / 10) (48 + n mod 10 :: acc)) as (ds & -> & Hne & Hd & Hz & Hp & Hv).
      { split; [apply Z.div_pos; lia|apply Z.div_lt_upper_bound; lia]. }
      assert (0 < n / 10) by (apply Z.div_str_pos; lia). specialize (Hp H0).
      exists (ds ++ [n mod 10]). rewrite map_app, <- app_assoc. repeat split; auto.
      * intros _. destruct ds; discriminate.
      * apply Forall_app. auto.
      * intros. lia.
      * intros _. destruct ds; [exfalso; apply Hp; reflexivity|]. exact Hp.
      * rewrite horner_app, Hv. cbn [horner]. lia.
Qed.

Lemma pow2_10 : forall n, 0 <= n -> 2 ^ n <= 10 ^ n.
Proof. intros. apply Z.pow_le_mono_l. lia. Qed.

Lemma out_decimal : forall z, is_decimal z (mpz_out_str z).
Proof.
  intros z. unfold mpz_out_str.
  destruct (decimal_digits_spec (S (Z.to_nat (Z.log2 (Z.abs z)))) (Z.abs z) []) as (ds & E & Hne & Hd & Hz & Hp & Hv).
  { split; [lia|]. destruct (Z.eq_dec z 0) as [->|N]; [reflexivity|].
    pose proof (Z.log2_spec (Z.abs z) ltac:(lia)) as [_ L]. pose proof (Z.log2_nonneg (Z.abs z)).
    rewrite Nat2Z.inj_succ, Z2Nat.id by lia.
    eapply Z.lt_le_trans; [exact L|]. apply pow2_10. lia. }
  rewrite E, app_nil_r. specialize (Hne ltac:(discriminate)).
  exists ds. split; [exact Hne|]. split; [exact Hd|]. split.
  - intros H0. destruct (Z.eq_dec z 0) as [->|N]; [apply Hz; auto; discriminate|]. exfalso. apply Hp; [lia|exact H0].
  - destruct (Z.ltb_spec z 0); [right|left]; repeat split; auto; lia.
Qed.

Lemma digit_of_dec : forall d, 0 <= d < 10 -> digit_of (48 + d) = d.
Proof. intros. unfold digit_of. destruct (Z.leb_spec 48 (48 + d)), (Z.leb_spec (48 + d) 57); cbn [andb]; lia. Qed.
Lemma isspace_dec : forall d, 0 <= d < 10 -> isspace (48 + d) = false.
Proof. intros. unfold isspace. destruct (Z.eqb_spec (48 + d) 32), (Z.leb_spec 9 (48 + d)), (Z.leb_spec (48 + d) 13); try lia; reflexivity. Qed.

Lemma digits_base_dec : forall ds acc, Forall (fun d => 0 <= d < 10) ds ->
  digits_base 10 (map (Z.add 48) ds) acc = Some (horner ds acc).
Proof.
  induction ds as [|d ds IH]; intros acc H; [reflexivity|]. inversion H as [|? ? B H']; subst.
  cbn [map digits_base horner]. rewrite isspace_dec, digit_of_dec by auto.
  destruct (Z.ltb_spec d 10); [|lia]. apply IH. exact H'.
Qed.

Lemma unsigned_value : forall ds, ds <> [] -> Forall (fun d => 0 <= d < 10) ds -> (hd 0 ds = 0 -> ds = [0]) ->
  match map (Z.add 48) ds with
  | [] => None
  | c :: _ =>
    if 10 <=? digit_of c then None
    else
      let '(b, s) :=
        if c =? 48 then
          match tl (map (Z.add 48) ds) with
          | x :: s' => if (x =? 120) || (x =? 88) then (16, s')
                       else if (x =? 98) || (x =? 66) then (2, s') else (8, x :: s')
          | [] => (8, [])
          end
        else (10, map (Z.add 48) ds) in
      digits_base b s 0
  end = Some (horner ds 0).
Proof.
  intros ds Hne Hd Hz. destruct ds as [|d ds]; [congruence|]. cbn [map]. inversion Hd; subst.
  rewrite digit_of_dec by auto. destruct (Z.leb_spec 10 d); [lia|].
  destruct (Z.eqb_spec (48 + d) 48) as [E|N].
  - assert (d = 0) by lia. subst d. specialize (Hz eq_refl). injection Hz as ->. reflexivity.
  - apply (digits_base_dec (d :: ds)). exact Hd.
Qed.

Lemma set_str_decimal : forall n t, is_decimal n t -> mpz_set_str0 t = Some n.
Proof.
  intros n t (ds & Hne & Hd & Hz & H).
  pose proof (unsigned_value ds Hne Hd Hz) as U.
  destruct H as [[Hn [Hv ->]]|[Hn [Hv ->]]]; unfold mpz_set_str0.
  - destruct ds as [|d ds]; [congruence|]. inversion Hd as [|? ? B ?]; subst. cbn [map] in *. cbn [skip_space]. rewrite isspace_dec by auto.
    replace (match 48 + d :: map (Z.add 48) ds with 45 :: s' => (true, s') | _ => (false, 48 + d :: map (Z.add 48) ds) end)
      with (false, 48 + d :: map (Z.add 48) ds).
    + destruct (10 <=? digit_of (48 + d)); [discriminate|].
      destruct (if 48 + d =? 48 then _ else _) as [b s]. rewrite U. reflexivity.
    + assert (exists p, 48 + d = Zpos p /\ (p <> 45)%positive) as (p & -> & P).
      { exists (Z.to_pos (48 + d)). split; lia. }
      destruct p; try reflexivity. destruct p; try reflexivity. destruct p; try reflexivity. destruct p; try reflexivity.
      destruct p; try reflexivity. destruct p; try reflexivity. congruence.
  - cbn [skip_space]. change (isspace 45) with false. cbn beta iota.
    destruct (map (Z.add 48) ds) as [|c s] eqn:E; [discriminate|].
    destruct (10 <=? digit_of c); [discriminate|].
    destruct (if c =? 48 then _ else _) as [b s']. rewrite U, Hv. f_equal. lia.
Qed.

Lemma decimal_unique : forall n t n', is_decimal n t -> is_decimal n' t -> n = n'.
Proof. intros n t n' H H'. apply set_str_decimal in H, H'. congruence. Qed.

Lemma horner_bound : forall ds acc, Forall (fun d => 0 <= d < 10) ds -> 0 <= acc ->
  acc * 10 ^ Z.of_nat (List.length ds) <= horner ds acc < (acc + 1) * 10 ^ Z.of_nat (List.length ds).
Proof.
  induction ds as [|d ds IH]; intros acc H Ha. { cbn [horner List.length]. change (10 ^ Z.of_nat 0) with 1. lia. }
  inversion H as [|? ? B H']; subst. cbn [horner List.length]. rewrite Nat2Z.inj_succ, Z.pow_succ_r by lia.
  specialize (IH (acc * 10 + d) H' ltac:(lia)). set (P := 10 ^ Z.of_nat (List.length ds)) in *.
  assert (0 < P) by (apply Z.pow_pos_nonneg; lia). nia.
Qed.

Lemma horner_inj : forall a b x y, Forall (fun d => 0 <= d < 10) a -> Forall (fun d => 0 <= d < 10) b ->
  List.length a = List.length b -> 0 <= x -> 0 <= y -> horner a x = horner b y -> x = y /\ a = b.
Proof.
  induction a as [|d a IH]; intros [|e b] x y Ha Hb L Hx Hy H; try discriminate; [auto|].
  inversion Ha; inversion Hb; subst. cbn in H. injection L as L.
  destruct (IH b (x * 10 + d) (y * 10 + e)) as [E ->]; auto; try lia.
  assert (x = y) by lia. subst. split; auto. f_equal. lia.
Qed.

Lemma decimal_text_unique : forall n t t', is_decimal n t -> is_decimal n t' -> t = t'.
Proof.
  assert (forall a b, a <> [] -> b <> [] -> Forall (fun d => 0 <= d < 10) a -> Forall (fun d => 0 <= d < 10) b ->
    (hd 0 a = 0 -> a = [0]) -> (hd 0 b = 0 -> b = [0]) -> horner a 0 = horner b 0 -> a = b) as K.
  { intros a b Na Nb Ha Hb Za Zb E.
    assert (forall x, x <> [] -> Forall (fun d => 0 <= d < 10) x -> (hd 0 x = 0 -> x = [0]) -> x = [0] \/
       10 ^ (Z.of_nat (List.length x) - 1) <= horner x 0 < 10 ^ Z.of_nat (List.length x)) as R.
    { intros [|d x] N Hx Zx; [congruence|]. inversion Hx; subst. destruct (Z.eq_dec d 0) as [->|]; [left; auto|right].
      cbn [List.length horner]. rewrite Nat2Z.inj_succ.
      pose proof (horner_bound x (0 * 10 + d) ltac:(auto) ltac:(lia)) as B. replace (Z.succ (Z.of_nat (List.length x)) - 1) with (Z.of_nat (List.length x)) by lia.
      rewrite Z.pow_succ_r by lia. set (P := 10 ^ Z.of_nat (List.length x)) in *. assert (0 < P) by (apply Z.pow_pos_nonneg; lia). nia. }
    assert (forall x y : list Z, (List.length x < List.length y)%nat -> 10 ^ Z.of_nat (List.length x) <= 10 ^ (Z.of_nat (List.length y) - 1)) as M.
    { intros. apply Z.pow_le_mono_r; lia. }
    assert (forall x : list Z, x <> [] -> 0 < 10 ^ (Z.of_nat (List.length x) - 1)) as Pz.
    { intros [|? x] N; [congruence|]. apply Z.pow_pos_nonneg; cbn [List.length]; lia. }
    destruct (R a Na Ha Za) as [->|Ra], (R b Nb Hb Zb) as [->|Rb]; auto.
    - exfalso. specialize (Pz b Nb). cbn in E. lia.
    - exfalso. specialize (Pz a Na). cbn in E. lia.
    - destruct (Nat.lt_trichotomy (List.length a) (List.length b)) as [L|[L|L]].
      + specialize (M a b L). lia.
      + apply (horner_inj a b 0 0); auto; lia.
      + specialize (M b a L). lia. }
  intros n t t' (a & Na & Ha & Za & Ca) (b & Nb & Hb & Zb & Cb).
  destruct Ca as [[? [? ->]]|[? [? ->]]], Cb as [[? [? ->]]|[? [? ->]]]; try lia.
  - rewrite (K a b); auto. congruence.
  - rewrite (K a b); auto. congruence.
Qed.

Lemma to_int_small : forall n, - 2 ^ 31 <= n < 2 ^ 31 -> to_int (mpz_get_si n) = n.
Proof.
  intros n H. unfold mpz_get_si, to_int. change (2 ^ 31) with 2147483648 in *. change (2 ^ 63) with 9223372036854775808. change (2 ^ 32) with 4294967296.
  destruct (Z.leb_spec 0 n).
  - rewrite (Z.mod_small n) by lia. rewrite Z.mod_small by lia. lia.
  - rewrite (Z.mod_small (- n - 1)) by lia. rewrite Z.mod_small by lia. lia.
Qed.

Lemma decimal_word : forall n t, is_decimal n t -> word_ok t.
Proof.
  assert (forall ds, Forall (fun d => 0 <= d < 10) ds -> Forall (fun c => c <> 0 /\ ~ white c /\ ~ In c [60; 47; 62]) (map (Z.add 48) ds)) as K.
  { intros ds H. apply Forall_map. eapply Forall_impl; [|exact H]. intros d B. cbn beta in *. unfold white. cbn [In]. lia. }
  intros n t (ds & Hne & Hd & Hz & H). destruct H as [[Hn [Hv ->]]|[Hn [Hv ->]]].
  - split; [|split]; auto. + destruct ds; [congruence|discriminate].
    + destruct ds as [|d ds]; [congruence|]. inversion Hd; subst. cbn [map hd]. lia.
  - split; [discriminate|]. split; [cbn; lia|]. constructor; auto. unfold white. cbn [In]. lia.
Qed.

(** * Streams *)
Inductive sees : stream -> list Z -> Prop :=
| sees_nil : forall st, getc st = Ok None -> sees st []
| sees_cons : forall st c st' l, getc st = Ok (Some (c, st')) -> sees st' l -> sees st (c :: l).

Lemma getc_shorter : forall st c st', getc st = Ok (Some (c, st')) -> fst st = c :: fst st' /\ c <> 0.
Proof.
  intros [s e] c st' H. unfold getc in H. cbn [fst snd] in *.
  destruct e as [[|n]|]; [discriminate| |]; destruct s as [|x s]; try discriminate;
    destruct (Z.eqb_spec x 0); try discriminate; injection H as <- <-; split; auto.
Qed.
Lemma sees_length : forall st l, sees st l -> (List.length l <= List.length (fst st))%nat.
Proof. induction 1; cbn [List.length]; [lia|]. apply getc_shorter in H. destruct H as [-> _]. cbn [List.length]. lia. Qed.

(** what the given length, or the terminator, lets the parser see *)
Fixpoint upto (s : list Z) : list Z := match s with [] => [] | c :: s' => if c =? 0 then [] else c :: upto s' end.
Lemma sees_limit : forall n s, (n <= List.length s)%nat -> sees (s, Some n) (upto (firstn n s)).
Proof.
  induction n as [|n IH]; intros s H. { constructor. reflexivity. }
  destruct s as [|c s]; cbn [List.length] in H; [lia|]. cbn [firstn upto].
  destruct (Z.eqb_spec c 0) as [->|N].
  - constructor. reflexivity.
  - econstructor; [|apply (IH s); lia]. unfold getc. cbn [fst snd]. rewrite (proj2 (Z.eqb_neq _ _) N). reflexivity.
Qed.
Lemma sees_string : forall s t, sees (s ++ 0 :: t, None) (upto s).
Proof.
  induction s as [|c s IH]; intros t. { constructor. reflexivity. }
  cbn [app upto]. destruct (Z.eqb_spec c 0) as [->|N].
  - constructor. reflexivity.
  - econstructor; [|apply (IH t)]. unfold getc. cbn [fst snd]. rewrite (proj2 (Z.eqb_neq _ _) N). reflexivity.
Qed.
Lemma upto_id : forall s, Forall (fun c => c <> 0) s -> upto s = s.
Proof. induction 1 as [|c s H _ IH]; [reflexivity|]. cbn. rewrite (proj2 (Z.eqb_neq _ _) H), IH. reflexivity. Qed.

(** * The tokeniser on what it sees *)
Fixpoint pskip (comment : bool) (l : list Z) : option (Z * list Z) :=
  match l with
  | [] => None
  | c :: l' =>
    if comment then pskip (negb (c =? 10)) l'
    else if blank c then pskip false l'
    else if c =? 35 then pskip true l'
    else Some (c, l')
  end.
Fixpoint pword (buf : list Z) (l : list Z) : list Z * list Z :=
  match l with
  | [] => (buf, [])
  | c :: l' => if delimiter c then (buf, l') else pword (buf ++ [c]) l'
  end.
Definition ptoken (l : list Z) : option (list Z * list Z) :=
  match pskip false l with None => None | Some (c, l') => Some (pword [c] l') end.
Fixpoint ptokens (fuel : nat) (l : list Z) : list (list Z) :=
  match fuel with
  | O => []
  | S f => match ptoken l with None => [] | Some (w, l') => w :: ptokens f l' end
  end.

Lemma skip_sees : forall l st fuel cm, sees st l -> (List.length l < fuel)%nat ->
  match pskip cm l with
  | None => skip fuel cm st = Ok None
  | Some (c, l') => exists st', skip fuel cm st = Ok (Some (c, st')) /\ sees st' l' /\ (List.length l' < List.length l)%nat
  end.
Proof.
  induction l as [|c l IH]; intros st fuel cm S F; (destruct fuel as [|f]; [cbn in F; lia|]); cbn [skip pskip].
  - inversion S as [? G|]; subst. rewrite G. reflexivity.
  - inversion S as [|? ? st' ? G S']; subst. rewrite G. cbn [bind]. cbn [List.length] in F.
    assert (forall cm', match pskip cm' l with None => skip f cm' st' = Ok None
      | Some (c', l') => exists st0, skip f cm' st' = Ok (Some (c', st0)) /\ sees st0 l' /\ (List.length l' < List.length (c :: l))%nat end) as R.
    { intros cm'. specialize (IH st' f cm' S' ltac:(lia)). destruct (pskip cm' l) as [[c' l']|]; auto.
      destruct IH as (st0 & E & S0 & L). exists st0. cbn [List.length]. repeat split; auto. }
    destruct cm; [apply R|]. destruct (blank c); [apply R|]. destruct (c =? 35); [apply R|].
    exists st'. cbn [List.length]. repeat split; auto.
Qed.

Lemma word_sees : forall l st fuel buf c, sees st l -> (List.length l < fuel)%nat ->
  exists st', word fuel buf c st = Ok (fst (pword (buf ++ [c]) l), st') /\ sees st' (snd (pword (buf ++ [c]) l)) /\
              (List.length (snd (pword (buf ++ [c]) l)) <= List.length l)%nat.
Proof.
  induction l as [|x l IH]; intros st fuel buf c S F; (destruct fuel as [|f]; [cbn in F; lia|]); cbn [word pword].
  - inversion S as [? G|]; subst. rewrite G. exists st. auto.
  - inversion S as [|? ? st' ? G S']; subst. rewrite G. cbn [bind]. cbn [List.length] in F.
    destruct (delimiter x).
    + exists st'. cbn [fst snd List.length]. auto.
    + destruct (IH st' f (buf ++ [c]) x S' ltac:(lia)) as (st0 & E & S0 & L). exists st0. cbn [List.length]. auto.
Qed.

Lemma token_sees : forall l st, sees st l ->
  match ptoken l with
  | None => token_get st = Ok None
  | Some (w, l') => exists st', token_get st = Ok (Some (w, st')) /\ sees st' l' /\ (List.length l' < List.length l)%nat
  end.
Proof.
  intros l st S. unfold token_get, ptoken. pose proof (sees_length st l S) as L.
  pose proof (skip_sees l st (Datatypes.S (List.length (fst st))) false S ltac:(lia)) as K.
  destruct (pskip false l) as [[c l']|]; [|rewrite K; reflexivity].
  destruct K as (st' & E & S' & L'). rewrite E. cbn [bind].
  destruct (word_sees l' st' (Datatypes.S (List.length (fst st))) [] c S' ltac:(lia)) as (st'' & E' & S'' & L'').
  rewrite E'. cbn [bind app] in *. destruct (pword [c] l') as [w l0] eqn:P. cbn [fst snd] in *. exists st''. repeat split; auto. lia.
Qed.

(** * Key-value pairs and the table *)
Section Tab.
Variables (bl : build) (junk : nat -> list (list Z * list Z)).
Hypothesis Hj : forall n, List.length (junk n) = n.

Definition get_of (l : list (list Z * list Z)) (acc : list Z -> option (list Z)) (k : list Z) : option (list Z) :=
  match value_for l k with Some v => Some v | None => acc k end.

Lemma read_loop_spec : forall fuel l st tab es, sees st l -> (List.length l < fuel)%nat -> rep tab es ->
  exists tab' es', read_loop bl junk fuel tab st = Ok tab' /\ rep tab' es' /\
    forall k, DarrayFacts.lookup es' k = get_of (pairs (ptokens (S (List.length l)) l)) (DarrayFacts.lookup es) k.
Proof.
  assert (forall f l g, (List.length l < f)%nat -> (List.length l < g)%nat -> ptokens f l = ptokens g l) as PF.
  { induction f as [|f IH]; intros l g H H'; [lia|]. destruct g as [|g]; [lia|]. cbn [ptokens].
    destruct (ptoken l) as [[w l']|] eqn:E; auto. f_equal.
    assert (List.length l' < List.length l)%nat.
    { clear -E. unfold ptoken in E.
      assert (forall l cm c l', pskip cm l = Some (c, l') -> (List.length l' < List.length l)%nat) as A.
      { induction l0 as [|x l0 IH]; intros cm c l1 H; [discriminate|]. cbn [pskip] in H. cbn [List.length].
        destruct cm; [apply IH in H; lia|]. destruct (blank x); [apply IH in H; lia|]. destruct (x =? 35); [apply IH in H; lia|].
        injection H as <- <-. lia. }
      assert (forall l buf, (List.length (snd (pword buf l)) <= List.length l)%nat) as B.
      { induction l0 as [|x l0 IH]; intros buf; [cbn; lia|]. cbn [pword List.length]. destruct (delimiter x); [cbn [snd]; lia|]. specialize (IH (buf ++ [x])). lia. }
      destruct (pskip false l) as [[c l1]|] eqn:P; [|discriminate]. apply A in P. injection E as E. specialize (B l1 [c]). rewrite E in B. cbn [snd] in B. lia. }
    apply IH; lia. }
  induction fuel as [|f IH]; intros l st tab es S F R; [lia|]. cbn [read_loop].
  cbn [ptokens]. pose proof (token_sees l st S) as T. destruct (ptoken l) as [[key l1]|].
  2:{ rewrite T. cbn [bind]. exists tab, es. split; [reflexivity|]. split; [exact R|]. intros k. reflexivity. }
  destruct T as (st1 & -> & S1 & L1). cbn [bind].
  pose proof (token_sees l1 st1 S1) as T. destruct (ptoken l1) as [[val l2]|] eqn:E2.
  2:{ rewrite T. cbn [bind]. exists tab, es. split; [reflexivity|]. split; [exact R|]. intros k.
      destruct (List.length l); [lia|]. cbn [ptokens]. rewrite E2. reflexivity. }
  destruct T as (st2 & -> & S2 & L2). cbn [bind].
  destruct (put_spec junk Hj bl tab es key val R) as (tab' & es' & -> & R' & Lk). cbn [bind].
  destruct (IH l2 st2 tab' es' S2 ltac:(lia) R') as (tab'' & es'' & -> & R'' & Lk').
  exists tab'', es''. split; [reflexivity|]. split; [exact R''|]. intros k. rewrite Lk'. clear Lk'.
  destruct (List.length l) as [|n] eqn:En; [lia|]. cbn [ptokens]. rewrite E2.
  rewrite (PF n l2 (Datatypes.S (List.length l2))) by lia.
  cbn [ptokens] in Lk |- *. set (q := match ptoken l2 with Some _ => _ | None => _ end). unfold get_of. cbn [pairs value_for].
  destruct (value_for (pairs q) k); auto. rewrite Lk. destruct (list_eq_dec Z.eq_dec k key); auto.
Qed.

Definition table_is (tab : darray (list Z * list Z)) (m : list Z -> option (list Z)) : Prop :=
  forall k, Param.lookup tab k = Ok (m k).

Lemma lookup_rep : forall tab es k, rep tab es -> Param.lookup tab k = Ok (DarrayFacts.lookup es k).
Proof.
  intros tab es k R. unfold Param.lookup, symtab_has, symtab_at. rewrite (find_spec tab es k R). cbn [bind].
  destruct (position (fun e => key_eqb (fst e) k) es) eqn:P.
  - destruct (lookup_position _ _ _ P) as (d & r1 & r2 & E & E2 & L).
    destruct R as [H1 [H2 [rest H3]]]. rewrite H3, E, <- app_assoc. cbn [app]. rewrite get_app by auto. cbn [bind snd]. rewrite E in L. rewrite L. reflexivity.
  - rewrite (lookup_none _ _ P). reflexivity.
Qed.

Lemma read_symtab_spec : forall input limit l,
  sees (input, match limit with O => None | _ => Some limit end) l ->
  exists tab, read_symtab bl junk (symtab_init junk) input limit = Ok tab /\
    table_is tab (value_for (pairs (ptokens (S (List.length l)) l))).
Proof.
  intros input limit l S. pose proof (sees_length _ _ S) as L. cbn [fst] in L.
  destruct (read_loop_spec (Datatypes.S (List.length input)) l _ (symtab_init junk) [] S ltac:(lia) (rep_init junk Hj)) as (tab & es & E & R & Lk).
  exists tab. split; [exact E|]. intros k. rewrite (lookup_rep tab es k R), Lk. unfold get_of. cbn [DarrayFacts.lookup].
  destruct (value_for _ k); reflexivity.
Qed.
End Tab.

(** the outcome depends on the table only through its contents *)
Lemma read_members_ext : forall t1 t2, (forall k, Param.lookup t1 k = Param.lookup t2 k) ->
  forall ms s, read_members t1 ms s = read_members t2 ms s.
Proof.
  intros t1 t2 H. induction ms as [|m ms IH]; intros s; [reflexivity|]. cbn [read_members].
  unfold read_member. destruct s as [e v]. rewrite H.
  destruct (Param.lookup t2 (fst m)) as [[w|]| | |]; cbn [bind]; auto.
Qed.
Lemma param_init_ext : forall T t1 t2, (forall k, Param.lookup t1 k = Param.lookup t2 k) -> param_init T t1 = param_init T t2.
Proof.
  intros T t1 t2 H. unfold param_init. rewrite (read_members_ext t1 t2 H).
  destruct (read_members t2 (in_members T) _) as [s| | |]; cbn [bind]; auto. destruct T; auto.
  destruct (_ <? 0); auto. apply read_members_ext. exact H.
Qed.
Lemma set_tab_ext : forall t1 t2, (forall k, Param.lookup t1 k = Param.lookup t2 k) -> param_set_tab t1 = param_set_tab t2.
Proof.
  intros t1 t2 H. unfold param_set_tab. rewrite H. destruct (Param.lookup t2 (txt "type")) as [[s|]| | |]; cbn [bind]; auto.
  destruct (find_type funtab s); auto. rewrite (param_init_ext p t1 t2 H). reflexivity.
Qed.

(** * Files are read as their words *)
Lemma white_blank : forall c, white c -> blank c = true.
Proof. intros c H. unfold white in H. cbn [In] in H. unfold blank. repeat (destruct H as [<-|H]; [reflexivity|]). destruct H. Qed.
Lemma blank_white : forall c, blank c = true -> white c.
Proof.
  intros c H. unfold blank in H. unfold white. cbn [In].
  destruct (Z.eqb_spec c 32), (Z.eqb_spec c 9), (Z.eqb_spec c 13), (Z.eqb_spec c 10); try discriminate; auto.
Qed.
Lemma not_delimiter : forall c, ~ white c -> ~ In c [60; 47; 62] -> delimiter c = false.
Proof.
  intros c H1 H2. unfold delimiter. destruct (blank c) eqn:E; [exfalso; apply H1, blank_white, E|]. cbn [In] in H2.
  destruct (Z.eqb_spec c 60), (Z.eqb_spec c 47), (Z.eqb_spec c 62); try reflexivity; exfalso; apply H2; auto.
Qed.

Lemma pskip_comment : forall t l, Forall (fun c => c <> 0 /\ c <> 10) t -> pskip true (t ++ 10 :: l) = pskip false l.
Proof.
  induction t as [|c t IH]; intros l H; [reflexivity|]. inversion H as [|? ? [_ B] H']; subst. cbn [app pskip].
  rewrite (proj2 (Z.eqb_neq _ _) B). apply IH. exact H'.
Qed.
Lemma pskip_comment_end : forall t, Forall (fun c => c <> 0 /\ c <> 10) t -> pskip true t = None.
Proof.
  induction t as [|c t IH]; intros H; [reflexivity|]. inversion H as [|? ? [_ B] H']; subst. cbn [pskip].
  rewrite (proj2 (Z.eqb_neq _ _) B). apply IH. exact H'.
Qed.
Lemma pskip_layout : forall ps l, Forall piece_ok ps -> pskip false (layout ps ++ l) = pskip false l.
Proof.
  induction ps as [|p ps IH]; intros l H; [reflexivity|]. inversion H as [|? ? B H']; subst.
  unfold layout. cbn [flat_map]. fold (layout ps). rewrite <- app_assoc. destruct p as [c|t]; cbn [piece_text piece_ok app] in *.
  - cbn [pskip]. rewrite (white_blank c B). apply IH. exact H'.
  - cbn [pskip]. change (blank 35) with false. cbn [Z.eqb Pos.eqb]. rewrite <- app_assoc. cbn [app].
    rewrite pskip_comment by exact B. apply IH. exact H'.
Qed.
Lemma pword_plain : forall w buf l, Forall (fun c => c <> 0 /\ ~ white c /\ ~ In c [60; 47; 62]) w ->
  pword buf (w ++ l) = pword (buf ++ w) l.
Proof.
  induction w as [|c w IH]; intros buf l H. { rewrite app_nil_r. reflexivity. }
  inversion H as [|? ? [_ [A B]] H']; subst. cbn [app pword]. rewrite not_delimiter by auto.
  rewrite IH by auto. rewrite <- app_assoc. reflexivity.
Qed.

Lemma token_word : forall w ps l, word_ok w -> Forall piece_ok ps ->
  ((exists c ps', ps = Space c :: ps') \/ (ps = [] /\ l = [])) ->
  forall ps0, Forall piece_ok ps0 ->
  exists ps', ptoken (layout ps0 ++ (w ++ layout ps) ++ l) = Some (w, layout ps' ++ l) /\ Forall piece_ok ps'.
Proof.
  intros w ps l [Hne [Hh Hw]] Hps Hs ps0 H0. unfold ptoken. rewrite pskip_layout by exact H0. rewrite <- app_assoc.
  destruct w as [|c w]; [congruence|]. cbn [app pskip hd] in *. inversion Hw as [|? ? [_ [A B]] Hw']; subst.
  destruct (blank c) eqn:E; [exfalso; apply A, blank_white, E|]. rewrite (proj2 (Z.eqb_neq _ _) Hh).
  rewrite pword_plain by auto. destruct Hs as [(x & ps' & ->)|[-> ->]].
  - inversion Hps; subst. exists ps'. split; auto. unfold layout. cbn [flat_map piece_text app pword]. fold (layout ps').
    unfold delimiter. rewrite (white_blank x) by auto. reflexivity.
  - exists []. cbn. auto.
Qed.

Lemma flat_length : forall (l : list (list Z * list piece)) o, body_ok l o ->
  (List.length l <= List.length (flat_map (fun wp => fst wp ++ layout (snd wp)) l))%nat.
Proof.
  induction l as [|[w ps] l IH]; intros o H; [cbn; lia|]. destruct H as [[Hne _] [_ [_ H]]]. cbn [flat_map fst snd]. rewrite !app_length.
  specialize (IH o H). cbn [List.length]. destruct w; [congruence|]. cbn [List.length]. lia.
Qed.

Lemma body_tokens : forall l o ps0 fuel, body_ok l o -> Forall piece_ok ps0 ->
  match o with Some t => Forall (fun c => c <> 0 /\ c <> 10) t | None => True end ->
  (List.length l < fuel)%nat ->
  ptokens fuel (layout ps0 ++ flat_map (fun wp => fst wp ++ layout (snd wp)) l ++ comment_text o) = map fst l.
Proof.
  induction l as [|[w ps] l IH]; intros o ps0 fuel H H0 Ho F; (destruct fuel as [|f]; [cbn [List.length] in F; lia|]).
  - cbn [flat_map app ptokens map]. unfold ptoken. rewrite pskip_layout by exact H0. destruct o as [t|]; [|reflexivity].
    cbn [comment_text pskip]. change (blank 35) with false. cbn [Z.eqb Pos.eqb]. rewrite pskip_comment_end by exact Ho. reflexivity.
  - destruct H as [Hw [Hps [Hs H]]]. cbn [flat_map fst snd ptokens map]. rewrite <- !app_assoc.
    destruct (token_word w ps (flat_map (fun wp => fst wp ++ layout (snd wp)) l ++ comment_text o) Hw Hps) with (ps0 := ps0) as (ps' & E & Hp); auto.
    { destruct Hs as [Hs|[-> [-> ->]]]; auto. }
    rewrite <- app_assoc in E. rewrite E. f_equal. apply IH; auto. cbn [List.length] in F. lia.
Qed.

Lemma file_tokens : forall f, file_ok f -> ptokens (S (List.length (file_text f))) (file_text f) = words f.
Proof.
  intros [ld b o] [H0 [H Ho]]. unfold file_text, words. cbn [lead body last_comment] in *. apply body_tokens; auto.
  pose proof (flat_length b o H). rewrite !app_length. lia.
Qed.

Lemma white_nz : forall c, white c -> c <> 0.
Proof. intros c H. unfold white in H. cbn [In] in H. lia. Qed.
Lemma layout_nz : forall ps, Forall piece_ok ps -> Forall (fun c => c <> 0) (layout ps).
Proof.
  induction 1 as [|p ps H _ IH]; [constructor|]. unfold layout. cbn [flat_map]. apply Forall_app. split; auto.
  destruct p as [c|t]; cbn [piece_text piece_ok] in *. { constructor; auto. apply white_nz; auto. }
  constructor; [lia|]. apply Forall_app. split; [|constructor; auto; lia]. eapply Forall_impl; [|exact H]. intros c [A _]. exact A.
Qed.
Lemma file_nz : forall f, file_ok f -> Forall (fun c => c <> 0) (file_text f).
Proof.
  intros [ld b o] [H0 [H Ho]]. unfold file_text. cbn [lead body last_comment] in *. apply Forall_app. split; [apply layout_nz; auto|].
  apply Forall_app. split.
  - clear Ho H0. revert H. induction b as [|[w ps] b IH]; intros H; [constructor|]. destruct H as [[_ [_ Hw]] [Hps [_ H]]]. cbn [flat_map fst snd].
    apply Forall_app. split; auto. apply Forall_app. split; [|apply layout_nz; auto]. eapply Forall_impl; [|exact Hw]. intros c [A _]. exact A.
  - destruct o as [t|]; [|constructor]. constructor; [lia|]. eapply Forall_impl; [|exact Ho]. intros c [A _]. exact A.
Qed.

(** * Outcomes *)
Section Out.
Variables (bl : build) (junk : nat -> list (list Z * list Z)).
Hypothesis Hj : forall n, List.length (junk n) = n.

Lemma parse_sees : forall input limit l,
  sees (input, match limit with O => None | _ => Some limit end) l ->
  exists tab, param_init_set_buf bl junk input limit = param_set_tab tab /\ table_is tab (value_for (pairs (ptokens (S (List.length l)) l))).
Proof.
  intros input limit l S. destruct (read_symtab_spec bl junk Hj input limit l S) as (tab & E & T). exists tab. split; auto.
  unfold param_init_set_buf. rewrite E. reflexivity.
Qed.

Lemma parse_string : forall s t, exists tab, param_init_set_str bl junk (s ++ 0 :: t) = param_set_tab tab /\
  table_is tab (value_for (pairs (ptokens (S (List.length (upto s))) (upto s)))).
Proof. intros. apply parse_sees. apply sees_string. Qed.
Lemma parse_buffer : forall s n, (0 < n <= List.length s)%nat -> exists tab, param_init_set_buf bl junk s n = param_set_tab tab /\
  table_is tab (value_for (pairs (ptokens (S (List.length (upto (firstn n s)))) (upto (firstn n s))))).
Proof. intros s n H. apply parse_sees. destruct n; [lia|]. apply sees_limit. lia. Qed.

Lemma parse_file : forall f t, file_ok f -> exists tab, param_init_set_str bl junk (file_text f ++ 0 :: t) = param_set_tab tab /\
  table_is tab (value_for (pairs (words f))).
Proof.
  intros f t H. destruct (parse_string (file_text f) t) as (tab & E & T). exists tab. split; auto.
  rewrite (upto_id _ (file_nz f H)), file_tokens in T by exact H. exact T.
Qed.
Lemma parse_file_buf : forall f t, file_ok f -> file_text f <> [] ->
  exists tab, param_init_set_buf bl junk (file_text f ++ t) (List.length (file_text f)) = param_set_tab tab /\
  table_is tab (value_for (pairs (words f))).
Proof.
  intros f t H N. destruct (parse_buffer (file_text f ++ t) (List.length (file_text f))) as (tab & E & T).
  { rewrite app_length. destruct (file_text f); [congruence|]. cbn [List.length]. lia. }
  exists tab. split; auto. rewrite firstn_app, Nat.sub_diag, firstn_all, app_nil_r in T.
  rewrite (upto_id _ (file_nz f H)), file_tokens in T by exact H. exact T.
Qed.
End Out.

Section Members.
Variables (tab : darray (list Z * list Z)) (m : list Z -> option (list Z)).
Hypothesis T : table_is tab m.

Lemma read_members_total : forall ms s, exists s', read_members tab ms s = Ok s' /\ fst s <= fst s' /\
  ((exists x, In x ms /\ m (fst x) = None) -> fst s < fst s').
Proof.
  induction ms as [|x ms IH]; intros [e v]. { exists (e, v). cbn. repeat split; try lia. intros (y & [] & _). }
  cbn [read_members]. unfold read_member. rewrite T. cbn [bind]. destruct (m (fst x)) as [w|] eqn:E; cbn [bind].
  - destruct (IH (e, fun k => if key_eqb k (fst x) then
      match snd x with Mpz => match mpz_set_str0 w with Some z => z | None => match snd x with Mpz => v (fst x) | Int => 0 end end
      | Int => to_int (mpz_get_si match mpz_set_str0 w with Some z => z | None => match snd x with Mpz => v (fst x) | Int => 0 end end) end else v k)) as (s' & -> & A & B).
    exists s'. cbn [fst] in *. repeat split; auto. intros (y & [<-|I] & N); [congruence|]. apply B. exists y. auto.
  - destruct (IH (e + 1, v)) as (s' & -> & A & _). exists s'. cbn [fst] in *. repeat split; auto; intros; lia.
Qed.

(** number read into a member *)
Definition good (x : member) (n : Z) : Prop :=
  (exists t, m (fst x) = Some t /\ is_decimal n t) /\ (snd x = Int -> - 2 ^ 31 <= n < 2 ^ 31).

Lemma read_members_good : forall ms e v, Forall (fun x => exists n, good x n) ms ->
  exists v', read_members tab ms (e, v) = Ok (e, v') /\
    (forall x n, In x ms -> good x n -> NoDup (map fst ms) -> v' (fst x) = n) /\
    (forall k, ~ In k (map fst ms) -> v' k = v k).
Proof.
  induction ms as [|x ms IH]; intros e v H. { exists v. repeat split; auto. intros ? ? []. }
  inversion H as [|? ? (n & (t & E & D) & R) H']; subst. cbn [read_members]. unfold read_member. rewrite T, E. cbn [bind].
  rewrite (set_str_decimal n t D).
  assert ((match snd x with Mpz => n | Int => to_int (mpz_get_si n) end) = n) as EQ.
  { destruct (snd x); auto. apply to_int_small. auto. }
  rewrite EQ. destruct (IH e (fun k => if key_eqb k (fst x) then n else v k) H') as (v' & E' & V & K).
  exists v'. split; [exact E'|]. split.
  - intros y p I G N. cbn [map] in N. inversion N as [|? ? N1 N2]; subst. destruct I as [<-|I]; [|apply V; auto].
    rewrite K by exact N1. rewrite (proj2 (key_eqb_spec (fst x) (fst x)) eq_refl).
    destruct G as [(t' & E2 & D2) _]. rewrite E in E2. injection E2 as <-. eapply decimal_unique; eauto.
  - intros k N. cbn [map In] in N. rewrite K by auto. destruct (key_eqb k (fst x)) eqn:Q; auto.
    apply key_eqb_spec in Q. subst. exfalso. apply N. auto.
Qed.
End Members.
