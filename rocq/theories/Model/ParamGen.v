(** Generation of pairing parameters: ecc/a_param.c:1504-1559, 2300-2322,
    ecc/e_param.c:909-975, ecc/f_param.c:71-95, 482-515, ecc/eta_T_3.c:768-838.
    rand() and pbc_mpz_random are streams of values; when one runs out the
    outcome is OutOfFuel.  The primality test is a parameter.  What follows the
    choice of q and r for types E and F (the search for the curve coefficients,
    e_param.c:976-1007, f_param.c:517-620) is in CurveGen.v. *)
From Coq Require Import ZArith List Bool.
From Verif.Base Require Import Outcome.
Import ListNotations.
Open Scope Z_scope.

(** mpz_setbit on 0, with a C int as index: a negative index becomes a huge
    unsigned one and the allocation fails *)
Definition setbit0 (i : Z) : res Z := if i <? 0 then Die else Ok (2 ^ i).
(** the C operator % on int *)
Definition int_rem (a b : Z) : res Z := if b =? 0 then UB else Ok (Z.rem a b).
Definition take (l : list Z) : res (Z * list Z) := match l with [] => OutOfFuel | x :: l => Ok (x, l) end.

Record solinas := { exp2 : Z; exp1 : Z; sign1 : Z; sign0 : Z }.

(** a_param.c:1514-1544, e_param.c:933-957: three calls of rand() *)
Definition solinas_gen (rbits : Z) (rands : list Z) : res (solinas * Z * list Z) :=
  ' (c, rands) <- take rands ;;
  let '(e2, s1) := if Z.rem c 2 =? 0 then (rbits, -1) else (rbits - 1, 1) in
  r <- setbit0 e2 ;;
  ' (c, rands) <- take rands ;;
  m <- int_rem c (e2 - 1) ;;
  let e1 := m + 1 in
  q <- setbit0 e1 ;;
  let r := if s1 >? 0 then r + q else r - q in
  ' (c, rands) <- take rands ;;
  let '(s0, r) := if Z.rem c 2 =? 0 then (-1, r - 1) else (1, r + 1) in
  Ok ({| exp2 := e2; exp1 := e1; sign1 := s1; sign0 := s0 |}, r, rands).

Section Gen.
Variable isprime : Z -> bool.

(** a_param.c:1546-1562: up to n attempts; the random numbers are below the
    given bound by the contract of pbc_mpz_random, which is not used here *)
Fixpoint a_inner (n : nat) (r : Z) (hs : list Z) : res (option (Z * Z) * list Z) :=
  match n with
  | O => Ok (None, hs)
  | S n =>
    ' (x, hs) <- take hs ;;
    let h := x * 12 in
    let q := h * r - 1 in
    if isprime q then Ok (Some (h, q), hs) else a_inner n r hs
  end.
Record a_param := { a_s : solinas; a_r : Z; a_h : Z; a_q : Z }.
(** a_param.c:1504-1563 *)
Fixpoint a_gen (fuel : nat) (rbits : Z) (rands hs : list Z) : res a_param :=
  match fuel with
  | O => OutOfFuel
  | S k =>
    ' (s, r, rands) <- solinas_gen rbits rands ;;
    if isprime r then
      ' (o, hs) <- a_inner 10 r hs ;;
      match o with
      | Some (h, q) => Ok {| a_s := s; a_r := r; a_h := h; a_q := q |}
      | None => a_gen k rbits rands hs
      end
    else a_gen k rbits rands hs
  end.

(** a_param.c:2311-2317; l is an unsigned int *)
Fixpoint a1_loop (fuel : nat) (n p l : Z) : res (Z * Z) :=
  match fuel with
  | O => OutOfFuel
  | S k => if isprime p then Ok (p, l) else a1_loop k n (p + n) ((l + 4) mod 2 ^ 32)
  end.
Record a1_param := { a1_p : Z; a1_n : Z; a1_l : Z }.
(** a_param.c:2300-2322; the field l is an int *)
Definition a1_gen (fuel : nat) (order : Z) : res a1_param :=
  let n := order * 4 in
  ' (p, l) <- a1_loop fuel n (n - 1) 4 ;;
  Ok {| a1_p := p; a1_n := order; a1_l := (l + 2 ^ 31) mod 2 ^ 32 - 2 ^ 31 |}.

(** e_param.c:959-974 *)
Fixpoint e_inner (n : nat) (r : Z) (hs : list Z) : res (option (Z * Z) * list Z) :=
  match n with
  | O => Ok (None, hs)
  | S n =>
    ' (x, hs) <- take hs ;;
    let h := x * x * 3 in
    let q := r * r * h + 1 in
    if isprime q then Ok (Some (h, q), hs) else e_inner n r hs
  end.
(** e_param.c:909-975: q, r, h and the exponents *)
Fixpoint e_gen (fuel : nat) (rbits : Z) (rands hs : list Z) : res a_param :=
  match fuel with
  | O => OutOfFuel
  | S k =>
    ' (s, r, rands) <- solinas_gen rbits rands ;;
    if isprime r then
      ' (o, hs) <- e_inner 10 r hs ;;
      match o with
      | Some (h, q) => Ok {| a_s := s; a_r := r; a_h := h; a_q := q |}
      | None => e_gen k rbits rands hs
      end
    else e_gen k rbits rands hs
  end.

(** f_param.c:71-82 *)
Definition tryminusx (x : Z) : Z :=
  let q := x - 1 in let q := q * x in let q := q * 36 in let q := q + 24 in
  let q := q * x in let q := q - 6 in let q := q * x in q + 1.
(** f_param.c:84-95 *)
Definition tryplusx (x : Z) : Z :=
  let q := x + 1 in let q := q * x in let q := q * 36 in let q := q + 24 in
  let q := q * x in let q := q + 6 in let q := q * x in q + 1.
(** f_param.c:500-515 *)
Fixpoint f_loop (fuel : nat) (x : Z) : res (Z * Z) :=
  match fuel with
  | O => OutOfFuel
  | S k =>
    let t := x * x * 6 + 1 in
    let q := tryminusx x in
    let r := q - t + 1 in
    if isprime q && isprime r then Ok (q, r)
    else
      let q := tryplusx x in
      let r := q - t + 1 in
      if isprime q && isprime r then Ok (q, r) else f_loop k (x + 1)
  end.
(** f_param.c:482-515: q and r *)
Definition f_gen (fuel : nat) (bits : Z) : res (Z * Z) :=
  x <- setbit0 (Z.quot (bits - 6) 4) ;; f_loop fuel x.
End Gen.

Record i_param := { i_m : Z; i_t : Z; i_n : Z; i_n2 : Z }.
(** eta_T_3.c:768-838: the table, with the largest group size of each row *)
Definition i_table : list (Z * i_param) := [
  (150, {| i_m := 97; i_t := 12;
     i_n := 2726865189058261010774960798134976187171462721;
     i_n2 := 7 |});
  (206, {| i_m := 199; i_t := 164;
     i_n := 167725321489096000055336949742738378351010268990525380470313869;
     i_n2 := 527874953560391326545598291952743 |});
  (259, {| i_m := 235; i_t := 26;
     i_n := 1124316700897695330265827797088699345032488681307846555184025129863722718180241;
     i_n2 := 11819693021332914275777073321995059 |});
  (316, {| i_m := 385; i_t := 22;
     i_n := 140884762419712839999909157778648717913595360839856026704744558309545986970238264714753014287541;
     i_n2 := 34899486997246711147841377458771182755186809219564106252058066150110543296498189654810187 |});
  (376, {| i_m := 337; i_t := 30;
     i_n := 250796519030408069744426774377542635685621984993105288007781750196791322190409525696108840742205849171229571431053;
     i_n2 := 245777055088325363697128811262733732423405120899 |});
  (430, {| i_m := 373; i_t := 198;
     i_n := 2840685307599487500956683789051368080919805957805957356540760731597378326586402072132959867084691357708217739285576524329854284197;
     i_n2 := 3256903458766749542151641063558247849550904613763 |});
  (484, {| i_m := 395; i_t := 338;
     i_n := 80172097064154181257340545445945701478615643539554910656655431171167598268341527430200810544156625333601812351266052856520678455274751591367269291;
     i_n2 := 3621365590261279902324876775553649595261567 |});
  (552, {| i_m := 433; i_t := 120;
     i_n := 15699907553631673835088720676147779193076555382157913339177784853763686462870506492752576492212322736133645158157557950634628006965882177348385366381692092784577773463;
     i_n2 := 24980791723059119877470531054938874784049 |});
  (644, {| i_m := 467; i_t := 48;
     i_n := 108220469499363631995525712756135494735252733492048868417164002000654321383482753640072319529019505742300964525569770933946381504691909098938045089999753901375631613294579329433690943459352138231;
     i_n2 := 60438898450096967424971813347 |});
  (696, {| i_m := 503; i_t := 104;
     i_n := 545523657676112447260904563578912738373307867219686215849632469801471112426878939776725222290437653718473962733760874627315930933126581248465899651120481066111839081575164964589811985885719017214938514563804313;
     i_n2 := 1799606423432800810122901025413 |});
  (803, {| i_m := 509; i_t := 358;
     i_n := 102239946202586852409809887418093021457150612495255706614733003327526279081563687830782748305746187060264985869283524441819589592750998086186315250781067131293823177124077445718802216415539934838376431091001197641295264650596195201747790167311;
     i_n2 := 7 |});
  (892, {| i_m := 617; i_t := 88;
     i_n := 57591959284219511220590893724691916802833742568034971006633345422620650391172287893878655658086794200963521584019889327992536532560877385225451713282279597074750857647455565899702728629166541223955196002755787520206774906606158388947359746178875040401304783332742806641;
     i_n2 := 42019638181715250622338241 |})
].
Fixpoint i_pick (group_size : Z) (l : list (Z * i_param)) : res i_param :=
  match l with
  | [] => Die
  | (bound, p) :: l => if group_size <=? bound then Ok p else i_pick group_size l
  end.
(** eta_T_3.c:768-838 *)
Definition i_gen (group_size : Z) : res i_param := i_pick group_size i_table.
