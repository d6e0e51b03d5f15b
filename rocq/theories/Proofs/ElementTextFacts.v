(** Printing and reading composite elements. *)
From Coq Require Import ZArith List Bool Lia.
From Verif.Base Require Import Outcome Array Algebra.
From Verif.Model Require Import IntText Printf CurveCodec ElementText.
From Verif.Spec Require Import Numerals Printf ElementText.
From Verif.Proofs Require Import IntTextFacts PrintfFacts.
Import ListNotations.
Open Scope Z_scope.

(** ** Printing *)
Definition write (buf : list Z) (off left : nat) (t : list Z) : list Z := firstn off buf ++ truncated (skipn off buf) left t.
Lemma write_len : forall buf off left t, (left <> 0 -> off + left <= length buf)%nat -> length (write buf off left t) = length buf.
Proof.
  intros buf off left t H. unfold write, truncated. destruct left as [ | l]; [ | specialize (H ltac:(lia))]; rewrite app_length, firstn_length.
  - rewrite skipn_length. lia.
  - rewrite app_length, firstn_length. cbn [length]. rewrite !skipn_length. lia.
Qed.
Lemma put_ok : forall t, prints_as (put_text t) t.
Proof.
  intros t buf off left H. unfold put_text, snprintf_at, truncated. destruct left as [ | l].
  - cbn [bind]. rewrite firstn_skipn. reflexivity.
  - specialize (H ltac:(lia)). unfold splice. rewrite app_length, firstn_length. cbn [length].
    replace (off + (Nat.min l (length t) + 1) <=? length buf)%nat with true by (symmetry; apply Nat.leb_le; lia).
    cbn [bind]. rewrite <- app_assoc. cbn [app]. rewrite skipn_skipn'. do 6 f_equal. lia.
Qed.
Lemma write_write : forall buf off left t u, (left <> 0 -> off + left <= length buf)%nat ->
  write (write buf off left t) (off + length t) (if (left <=? length t)%nat then 0 else left - length t)%nat u = write buf off left (t ++ u).
Proof.
  intros buf off left t u H. destruct left as [ | l].
  - cbn [Nat.leb]. unfold write, truncated. rewrite !firstn_skipn. reflexivity.
  - specialize (H ltac:(lia)). destruct (Nat.leb_spec (S l) (length t)) as [L | L].
    + unfold write at 1. cbn [truncated]. rewrite firstn_skipn. unfold write, truncated. rewrite firstn_app, app_length.
      replace (l - length t)%nat with 0%nat by lia. cbn [firstn]. rewrite app_nil_r.
      replace (Nat.min l (length t + length u)) with (Nat.min l (length t)) by lia. reflexivity.
    + unfold write, truncated. destruct (S l - length t)%nat as [ | m] eqn:E; [lia | ].
      rewrite (firstn_all2 t) by lia. replace (Nat.min l (length t)) with (length t) by lia.
      assert (LF : length (firstn off buf) = off) by (rewrite firstn_length; lia).
      replace (firstn (off + length t) (firstn off buf ++ t ++ 0 :: skipn (S (length t)) (skipn off buf))) with (firstn off buf ++ t).
      2:{ rewrite app_assoc, firstn_app. replace (off + length t - length (firstn off buf ++ t))%nat with 0%nat by (rewrite app_length; lia).
          cbn [firstn]. rewrite app_nil_r, (firstn_all2 (firstn off buf ++ t)) by (rewrite app_length; lia). reflexivity. }
      replace (skipn (off + length t) (firstn off buf ++ t ++ 0 :: skipn (S (length t)) (skipn off buf))) with (0 :: skipn (S (length t)) (skipn off buf)).
      2:{ rewrite app_assoc, skipn_app. replace (off + length t - length (firstn off buf ++ t))%nat with 0%nat by (rewrite app_length; lia).
          cbn [skipn]. rewrite (skipn_all2 (firstn off buf ++ t)) by (rewrite app_length; lia). reflexivity. }
      rewrite skipn_cons, <- app_assoc. f_equal. rewrite firstn_app, (firstn_all2 t) by lia. replace (l - length t)%nat with m by lia.
      rewrite <- app_assoc. f_equal. f_equal. f_equal. rewrite !skipn_skipn', app_length. f_equal. lia.
Qed.
Lemma pieces_ok : forall ps ts, Forall2 prints_as ps ts -> forall n off buf done,
  (n <> 0 -> off + n <= length buf)%nat ->
  pieces n off (length done) (if (n <=? length done)%nat then 0 else n - length done)%nat ps (write buf off n done) =
  Ok (write buf off n (done ++ concat ts), length (done ++ concat ts)).
Proof.
  intros ps ts F. induction F as [ | p t ps ts Hp F IH]; intros n off buf done H.
  - cbn [pieces concat]. rewrite app_nil_r. reflexivity.
  - cbn [pieces concat]. rewrite Hp.
    2:{ rewrite write_len by auto. destruct (Nat.leb_spec n (length done)); lia. }
    cbn [bind]. change (firstn ?o ?b ++ truncated (skipn ?o ?b) ?l ?t) with (write b o l t).
    rewrite write_write by auto. rewrite <- (app_length done t). rewrite IH by auto. rewrite <- app_assoc. reflexivity.
Qed.
Lemma print_all_ok : forall p t ps ts, prints_as p t -> Forall2 prints_as ps ts -> prints_as (print_all (p :: ps)) (t ++ concat ts).
Proof.
  intros p t ps ts Hp F buf off left H. unfold print_all. cbn [pieces]. rewrite Nat.add_0_r, Hp by auto. cbn [bind Nat.add].
  change (firstn ?o ?b ++ truncated (skipn ?o ?b) ?l ?t) with (write b o l t). apply pieces_ok; auto.
Qed.
Lemma quad_print : forall A (T : textual A) x y tx ty, prints_as (t_snprint T x) tx -> prints_as (t_snprint T y) ty ->
  prints_as (fq_snprint T (x, y)) (bracket [tx; ty]).
Proof.
  intros A T x y tx ty Hx Hy. unfold fq_snprint. cbn [fst snd].
  replace (bracket [tx; ty]) with ([91] ++ concat [tx; [44; 32]; ty; [93]]) by (unfold bracket; cbn; rewrite ?app_nil_r, <- ?app_assoc; reflexivity).
  apply print_all_ok; [apply put_ok | ]. repeat constructor; auto using put_ok.
Qed.
Lemma commas_cons : forall t u ts, commas (t :: u :: ts) = t ++ [44; 32] ++ commas (u :: ts).
Proof. reflexivity. Qed.
Lemma coeffs_pieces : forall A (T : textual A) l ts, Forall2 (fun x t => prints_as (t_snprint T x) t) l ts ->
  forall first, exists us, Forall2 prints_as (coeff_printers T first l) us /\ concat us = (if first then [] else match ts with [] => [] | _ => [44; 32] end) ++ commas ts.
Proof.
  intros A T l ts F. induction F as [ | x t l ts Hx F IH]; intros first.
  - exists []. split; [constructor | ]. destruct first; reflexivity.
  - destruct (IH false) as (us & Fu & E). exists ((if first then [] else [[44; 32]]) ++ t :: us). split.
    + cbn [coeff_printers]. apply Forall2_app; [destruct first; repeat constructor; apply put_ok | constructor; auto].
    + rewrite concat_app. cbn [concat]. rewrite E. destruct ts as [ | u ts].
      * destruct first; cbn; rewrite ?app_nil_r; reflexivity.
      * rewrite commas_cons. destruct first; cbn [concat app]; reflexivity.
Qed.
Lemma coeffs_print : forall A (T : textual A) l ts, Forall2 (fun x t => prints_as (t_snprint T x) t) l ts ->
  prints_as (coeffs_snprint T l) (bracket ts).
Proof.
  intros A T l ts F. destruct (coeffs_pieces A T l ts F true) as (us & Fu & E). unfold coeffs_snprint.
  replace (bracket ts) with ([91] ++ concat (us ++ [[93]])) by (unfold bracket; rewrite concat_app, E; cbn; rewrite ?app_nil_r; reflexivity).
  apply print_all_ok; [apply put_ok | ]. apply Forall2_app; auto. repeat constructor. apply put_ok.
Qed.
Lemma curve_print : forall K (T : textual (fcar K)) x y tx ty, prints_as (t_snprint T x) tx -> prints_as (t_snprint T y) ty ->
  prints_as (curve_snprint K T (mk_stored false x y)) (bracket [tx; ty]).
Proof. intros K T x y tx ty Hx Hy. exact (quad_print K T x y tx ty Hx Hy). Qed.
Lemma curve_print_inf : forall K (T : textual (fcar K)) x y, prints_as (curve_snprint K T (mk_stored true x y)) [79].
Proof. intros K T x y buf off left H. unfold curve_snprint. cbn [st_inf]. rewrite (put_ok [79] buf off left H). reflexivity. Qed.

(** ** Reading *)
Lemma skip_white : forall ws c rest, Forall white ws -> ~ white c -> skip (ws ++ c :: rest) = Ok (c :: rest).
Proof.
  induction ws as [ | w ws IH]; intros c rest F N; cbn [app skip].
  - destruct (isspace c) eqn:E; [apply isspace_spec in E; tauto | ]. rewrite andb_false_r. reflexivity.
  - inversion F as [ | ? ? Fw F']. subst. replace (w =? 0) with false by (symmetry; apply Z.eqb_neq; unfold white in Fw; lia).
    rewrite (proj2 (isspace_spec w) Fw). cbn [negb andb]. auto.
Qed.
Lemma skip_stop : forall c rest, ~ white c -> skip (c :: rest) = Ok (c :: rest).
Proof. intros c rest N. apply (skip_white [] c rest); auto. Qed.
Lemma stops_punct : forall base c, c = 44 \/ c = 93 -> stops base c.
Proof. intros base c H. split; [unfold white; lia | ]. intros d [_ D]. lia. Qed.
Lemma skipn_len : forall (u v : list Z), skipn (length u) (u ++ v) = v.
Proof. intros. rewrite skipn_app, skipn_all, Nat.sub_diag. reflexivity. Qed.
Lemma fp_read : forall p num b x, 1 < p -> 2 <= b <= 36 -> 0 <= x < p -> is_numeral b x (num b x) ->
  reads_as (t_set_str (fp_textual p num)) b (num b x) x.
Proof.
  intros p num b x Hp Hb Hx N ws c rest W Sc. cbn [t_set_str fp_textual].
  pose proof (set_str_round_trip b x ws (num b x) c rest Hb N W Sc) as E. unfold z_set_str in E. unfold zp_set_str. rewrite E. cbn [bind fst snd].
  rewrite Z.mod_small by auto. rewrite Nat2Z.id. reflexivity.
Qed.
Ltac at_end := rewrite ?app_length; cbn [length]; lia.
Lemma quad_read : forall A (T : textual A) b x y tx ty, reads_as (t_set_str T) b tx x -> reads_as (t_set_str T) b ty y ->
  reads_as (fq_set_str T) b (bracket [tx; ty]) (x, y).
Proof.
  intros A T b x y tx ty Hx Hy ws c rest W Sc. unfold fq_set_str, bracket. cbn [commas].
  rewrite <- !app_assoc. cbn [app]. rewrite skip_white by (auto; unfold white; lia). cbn [bind peek Z.eqb negb tl Pos.eqb].
  pose proof (Hx [] 44 (32 :: ty ++ 93 :: c :: rest) (Forall_nil _) (stops_punct b 44 ltac:(auto))) as E1. cbn [app length Nat.add] in E1.
  rewrite E1. cbn [bind]. rewrite skipn_len. rewrite skip_stop by (unfold white; lia). cbn [bind peek Z.eqb negb tl Pos.eqb].
  pose proof (Hy [32] 93 (c :: rest) ltac:(repeat constructor; left; reflexivity) (stops_punct b 93 ltac:(auto))) as E2. cbn [app length Nat.add] in E2.
  rewrite E2. cbn [bind]. change (skipn (S (length ty)) (32 :: ty ++ 93 :: c :: rest)) with (skipn (length ty) (ty ++ 93 :: c :: rest)). rewrite skipn_len.
  cbn [peek bind Z.eqb negb Pos.eqb tl]. unfold consumed. do 2 f_equal. repeat (rewrite app_length; cbn [length]). lia.
Qed.
Lemma coeffs_read : forall A (T : textual A) b l ts, Forall2 (fun x t => reads_as (t_set_str T) b t x) l ts ->
  forall done ws c rest, Forall white ws -> coeffs_set T (length l) done (match l with [] => [] | _ => ws end ++ commas ts ++ 93 :: c :: rest) b = Ok (done ++ l, Some (93 :: c :: rest)).
Proof.
  intros A T b l ts F. induction F as [ | x t l ts Hx F IH]; intros done ws c rest W.
  - cbn [length coeffs_set commas app]. rewrite app_nil_r. reflexivity.
  - cbn [length coeffs_set]. destruct F as [ | x2 t2 l2 ts2 Hx2 F2].
    + cbn [commas]. rewrite (Hx ws 93 (c :: rest) W (stops_punct b 93 ltac:(auto))). cbn [bind]. rewrite <- app_length, app_assoc, skipn_len.
      rewrite skip_stop by (unfold white; lia). reflexivity.
    + rewrite commas_cons. rewrite <- !app_assoc. cbn [app]. rewrite (Hx ws 44 _ W (stops_punct b 44 ltac:(auto))). cbn [bind].
      rewrite <- app_length, app_assoc, skipn_len. rewrite skip_stop by (unfold white; lia). cbn [length bind peek Z.eqb negb tl Pos.eqb].
      refine (eq_trans (IH (done ++ [x]) [32] c rest ltac:(repeat constructor; left; reflexivity)) _). rewrite <- app_assoc. reflexivity.
Qed.
Lemma polymod_read : forall A (T : textual A) b l ts, Forall2 (fun x t => reads_as (t_set_str T) b t x) l ts ->
  reads_as (polymod_set_str T (length l)) b (bracket ts) l.
Proof.
  intros A T b l ts F ws c rest W Sc. unfold polymod_set_str, bracket. rewrite <- !app_assoc. cbn [app].
  rewrite skip_white by (auto; unfold white; lia). cbn [bind peek Z.eqb negb tl Pos.eqb].
  pose proof (coeffs_read A T b l ts F [] [] c rest (Forall_nil _)) as E. replace (match l with [] => [] | _ => [] end) with (@nil Z) in E by (destruct l; reflexivity).
  cbn [app] in E. rewrite E. cbn [bind peek Z.eqb negb tl Pos.eqb]. unfold consumed. do 2 f_equal. repeat (rewrite app_length; cbn [length]). lia.
Qed.
Lemma curve_read : forall K a b (T : textual (fcar K)) base x y tx ty P ws c rest,
  reads_as (t_set_str T) base tx x -> reads_as (t_set_str T) base ty y -> Forall white ws ->
  curve_set_str K a b T P (ws ++ bracket [tx; ty] ++ c :: rest) base =
  Ok (if stored_valid K a b (mk_stored false x y) then (mk_stored false x y, (length ws + length (bracket [tx; ty]))%nat) else (mk_stored true x y, 0%nat)).
Proof.
  intros K a b T base x y tx ty P ws c rest Hx Hy W. unfold curve_set_str, bracket. cbn [commas st_x st_y].
  rewrite <- !app_assoc. cbn [app]. rewrite skip_white by (auto; unfold white; lia). cbn [bind peek Z.eqb negb tl Pos.eqb].
  pose proof (Hx [] 44 (32 :: ty ++ 93 :: c :: rest) (Forall_nil _) (stops_punct base 44 ltac:(auto))) as E1. cbn [app length Nat.add] in E1.
  rewrite E1. cbn [bind]. rewrite skipn_len. rewrite skip_stop by (unfold white; lia). cbn [bind peek Z.eqb negb tl Pos.eqb].
  pose proof (Hy [32] 93 (c :: rest) ltac:(repeat constructor; left; reflexivity) (stops_punct base 93 ltac:(auto))) as E2. cbn [app length Nat.add] in E2.
  rewrite E2. cbn [bind]. change (skipn (S (length ty)) (32 :: ty ++ 93 :: c :: rest)) with (skipn (length ty) (ty ++ 93 :: c :: rest)). rewrite skipn_len.
  cbn [peek bind Z.eqb negb Pos.eqb tl]. destruct (stored_valid _ _ _ _); [ | reflexivity]. unfold consumed. do 2 f_equal. repeat (rewrite app_length; cbn [length]). lia.
Qed.
Lemma curve_read_inf : forall K a b (T : textual (fcar K)) base P ws rest, Forall white ws ->
  curve_set_str K a b T P (ws ++ 79 :: rest) base = Ok (mk_stored true (st_x P) (st_y P), (length ws + 1)%nat).
Proof.
  intros. unfold curve_set_str. cbn [st_x st_y]. rewrite skip_white by (auto; unfold white; lia). cbn [bind peek Z.eqb Pos.eqb]. unfold consumed. do 2 f_equal.
  rewrite app_length. lia.
Qed.

(** Printing, then reading. *)
Lemma trip : forall A (T : textual A) t x buf size, prints_as (t_snprint T x) t -> reads_as (t_set_str T) 10 t x ->
  (length t < size <= length buf)%nat ->
  exists buf', t_snprint T x buf 0%nat size = Ok (buf', length t) /\ t_set_str T buf' 10 = Ok (x, length t).
Proof.
  intros A T t x buf size Hp Hr H. exists (truncated buf size t). split.
  - rewrite Hp by (intros; lia). reflexivity.
  - destruct size as [ | n]; [lia | ]. cbn [truncated]. rewrite firstn_all2 by lia. apply (Hr [] 0); [constructor | apply nul_stops].
Qed.

(** ** Safety *)
Definition from (s r : list Z) : Prop := exists pre, s = pre ++ r /\ ~ In 0 pre /\ In 0 r.
Lemma from_refl : forall s, In 0 s -> from s s. Proof. intros s H. exists []. repeat split; auto. Qed.
Lemma from_trans : forall s r u, from s r -> from r u -> from s u.
Proof. intros s r u (p & -> & N1 & _) (q & -> & N2 & I). exists (p ++ q). rewrite app_assoc. repeat split; auto. rewrite in_app_iff. tauto. Qed.
Lemma from_tl : forall s c r, from s (c :: r) -> c <> 0 -> from s r.
Proof. intros s c r F N. apply (from_trans _ _ _ F). destruct F as (_ & _ & _ & I). exists [c]. repeat split; auto; [intros [-> | []]; auto | destruct I; congruence]. Qed.
Lemma skip_from : forall s, In 0 s -> exists r, skip s = Ok r /\ from s r.
Proof.
  induction s as [ | c s IH]; intros H; [destruct H | ]. cbn [skip]. destruct (negb (c =? 0) && isspace c) eqn:E.
  - apply andb_prop in E. destruct E as [E _]. apply negb_true_iff, Z.eqb_neq in E. destruct H as [H | H]; [congruence | ].
    destruct (IH H) as (r & -> & F). exists r. split; auto. apply from_trans with s; auto. exists [c]. repeat split; auto. intros [-> | []]; auto.
  - exists (c :: s). split; auto. apply from_refl. auto.
Qed.
Lemma from_peek : forall s r, from s r -> exists c, peek r = Ok c /\ (c <> 0 -> from s (tl r)).
Proof.
  intros s r F. destruct r as [ | c r]; [destruct F as (_ & _ & _ & []) | ]. exists c. split; auto. intros N. apply (from_tl s c); auto.
Qed.
Lemma read_from : forall A (rd : list Z -> Z -> res (A * nat)) s r base, reads_safely rd -> from s r ->
  exists x k, rd r base = Ok (x, k) /\ from s (skipn k r).
Proof.
  intros A rd s r base Sf F. destruct (Sf r base) as (x & k & E & L & N); [destruct F as (_ & _ & _ & I); exact I | ].
  exists x, k. split; auto. apply (from_trans s r); auto. exists (firstn k r). split; [symmetry; apply firstn_skipn | ]. split; auto.
  destruct F as (_ & _ & _ & I). rewrite <- (firstn_skipn k r), in_app_iff in I. tauto.
Qed.
Lemma from_consumed : forall s r, from s r -> (consumed s r <= length s)%nat /\ ~ In 0 (firstn (consumed s r) s).
Proof.
  intros s r (p & -> & N & _). unfold consumed. rewrite app_length. replace (length p + length r - length r)%nat with (length p) by lia.
  rewrite firstn_app, firstn_all, Nat.sub_diag, app_nil_r. split; [lia | auto].
Qed.
Lemma zero_safe : forall A (x : A) (s : list Z), exists x0 k, Ok (x, 0%nat) = Ok (x0, k) /\ (k <= length s)%nat /\ ~ In 0 (firstn k s).
Proof. intros. exists x, 0%nat. repeat split; auto; try lia. Qed.
Lemma white_nz : forall b body ds, scan b body ds -> ~ In 0 body.
Proof.
  induction 1 as [ | c body ds W _ IH | c d body ds D _ IH]; intro I; [exact I | | ]; (destruct I as [-> | I]; [ | auto]).
  - unfold white in W. lia.
  - destruct D as [_ D]. lia.
Qed.
Lemma fp_safe : forall p num, reads_safely (t_set_str (fp_textual p num)).
Proof.
  intros p num s base I0. cbn [t_set_str fp_textual]. unfold zp_set_str.
  assert (A : forall b, 2 <= b <= 36 -> exists z k, pbc_mpz_set_str s b = Ok (z, k) /\ (Z.to_nat k <= length s)%nat /\ ~ In 0 (firstn (Z.to_nat k) s)).
  { intros b Hb. destruct (scan_exists b s Hb I0) as (body & ds & c & rest & -> & Sc & St). rewrite (set_str_spec b body ds c rest Hb Sc St).
    do 2 eexists. split; [reflexivity | ]. rewrite Nat2Z.id, app_length. split; [lia | ]. rewrite firstn_app, firstn_all, Nat.sub_diag. cbn [firstn]. rewrite app_nil_r. apply (white_nz b body ds Sc). }
  destruct (Z.eq_dec base 0) as [-> | N0].
  - rewrite set_str_default. destruct (A 10 ltac:(lia)) as (z & k & -> & L & N). cbn [bind fst snd]. eauto.
  - destruct (Z_le_dec 2 base) as [L2 | L2]; [destruct (Z_le_dec base 36) as [L3 | L3] | ].
    + destruct (A base ltac:(lia)) as (z & k & -> & L & N). cbn [bind fst snd]. eauto.
    + unfold pbc_mpz_set_str. replace (base =? 0) with false by (symmetry; apply Z.eqb_neq; auto). replace ((base <? 2) || (base >? 36)) with true by lia. cbn [bind fst snd]. apply zero_safe.
    + unfold pbc_mpz_set_str. replace (base =? 0) with false by (symmetry; apply Z.eqb_neq; auto). replace ((base <? 2) || (base >? 36)) with true by lia. cbn [bind fst snd]. apply zero_safe.
Qed.
Ltac punct c E := match goal with |- context [negb (c =? ?k)] => destruct (Z.eqb_spec c k) as [E | E]; cbn [negb]; [ | apply zero_safe] end.
Lemma quad_safe : forall A (T : textual A), reads_safely (t_set_str T) -> reads_safely (fq_set_str T).
Proof.
  intros A T Sf s base I0. unfold fq_set_str.
  destruct (skip_from s I0) as (r & -> & F). cbn [bind]. destruct (from_peek s r F) as (c & -> & F1). cbn [bind]. punct c E. specialize (F1 ltac:(lia)).
  destruct (read_from A _ s (tl r) base Sf F1) as (x & k & -> & F2). cbn [bind].
  destruct (skip_from (skipn k (tl r))) as (r2 & -> & F3); [destruct F2 as (_ & _ & _ & I); exact I | ]. cbn [bind]. pose proof (from_trans _ _ _ F2 F3) as F4.
  destruct (from_peek s r2 F4) as (c2 & -> & F5). cbn [bind]. punct c2 E2. specialize (F5 ltac:(lia)).
  destruct (read_from A _ s (tl r2) base Sf F5) as (y & k2 & -> & F6). cbn [bind].
  destruct (from_peek s _ F6) as (c3 & -> & F7). cbn [bind]. punct c3 E3. specialize (F7 ltac:(lia)).
  do 2 eexists. split; [reflexivity | ]. apply from_consumed. auto.
Qed.
Lemma coeffs_safe : forall A (T : textual A), reads_safely (t_set_str T) -> forall n done s r base, from s r ->
  exists l o, coeffs_set T n done r base = Ok (l, o) /\ match o with None => True | Some r' => from s r' end.
Proof.
  intros A T Sf. induction n; intros done s r base F; cbn [coeffs_set]; [do 2 eexists; split; [reflexivity | exact F] | ].
  destruct (read_from A _ s r base Sf F) as (x & k & -> & F2). cbn [bind].
  destruct (skip_from (skipn k r)) as (r2 & -> & F3); [destruct F2 as (_ & _ & _ & I); exact I | ]. cbn [bind]. pose proof (from_trans _ _ _ F2 F3) as F4.
  destruct n; [do 2 eexists; split; [reflexivity | exact F4] | ].
  destruct (from_peek s r2 F4) as (c2 & -> & F5). cbn [bind]. destruct (Z.eqb_spec c2 44) as [E | E]; cbn [negb].
  - apply IHn. apply F5. lia.
  - do 2 eexists. split; [reflexivity | exact Logic.I].
Qed.
Lemma polymod_safe : forall A (T : textual A) n, reads_safely (t_set_str T) -> reads_safely (polymod_set_str T n).
Proof.
  intros A T n Sf s base I0. unfold polymod_set_str.
  destruct (skip_from s I0) as (r & -> & F). cbn [bind]. destruct (from_peek s r F) as (c & -> & F1). cbn [bind]. punct c E. specialize (F1 ltac:(lia)).
  destruct (coeffs_safe A T Sf n [] s (tl r) base F1) as (l & o & -> & F2). cbn [bind]. destruct o as [r2 | ]; [ | apply zero_safe].
  destruct (from_peek s _ F2) as (c3 & -> & F7). cbn [bind]. punct c3 E3. specialize (F7 ltac:(lia)).
  do 2 eexists. split; [reflexivity | ]. apply from_consumed. auto.
Qed.
Lemma from_consumed1 : forall s r c, from s r -> peek r = Ok c -> c <> 0 -> (consumed s r + 1)%nat = consumed s (tl r).
Proof. intros s r c (p & -> & _ & _) E N. destruct r as [ | x r]; [discriminate | ]. unfold consumed. cbn [tl]. rewrite !app_length. cbn [length]. lia. Qed.
Lemma curve_safe : forall K a b (T : textual (fcar K)) P, reads_safely (t_set_str T) -> reads_safely (curve_set_str K a b T P).
Proof.
  intros K a b T P Sf s base I0. unfold curve_set_str. cbn [st_x st_y].
  destruct (skip_from s I0) as (r & -> & F). cbn [bind]. destruct (from_peek s r F) as (c & Ec & F1). rewrite Ec. cbn [bind].
  destruct (Z.eqb_spec c 79) as [E79 | N79].
  { do 2 eexists. split; [reflexivity | ]. rewrite (from_consumed1 s r c F Ec) by lia. apply from_consumed, F1. lia. }
  punct c E. specialize (F1 ltac:(lia)).
  destruct (read_from K _ s (tl r) base Sf F1) as (x & k & -> & F2). cbn [bind].
  destruct (skip_from (skipn k (tl r))) as (r2 & -> & F3); [destruct F2 as (_ & _ & _ & I); exact I | ]. cbn [bind]. pose proof (from_trans _ _ _ F2 F3) as F4.
  destruct (from_peek s r2 F4) as (c2 & -> & F5). cbn [bind]. punct c2 E2. specialize (F5 ltac:(lia)).
  destruct (read_from K _ s (tl r2) base Sf F5) as (y & k2 & -> & F6). cbn [bind].
  destruct (from_peek s _ F6) as (c3 & E3' & F7). rewrite E3'. cbn [bind]. punct c3 E3. specialize (F7 ltac:(lia)).
  destruct (stored_valid _ _ _ _); [ | apply zero_safe].
  do 2 eexists. split; [reflexivity | ]. rewrite (from_consumed1 s _ c3 F6 E3') by lia. apply from_consumed, F7.
Qed.
