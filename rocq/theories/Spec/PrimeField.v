(** Specification of residue arithmetic modulo p, independent of any
    representation: an element is an integer in [0, p). *)
From Coq Require Import ZArith List Bool.
Import ListNotations.
Open Scope Z_scope.

Definition residue (p x : Z) : Prop := 0 <= x < p.

(** API calls that assign a register.  Registers are numbered; output and
    inputs may coincide. *)
Inductive asg :=
| ASet0 (c : nat) | ASet1 (c : nat)
| ASetSi (c : nat) (n : Z) | ASetMpz (c : nat) (n : Z)
| ASet (c a : nat)
| AAdd (c a b : nat) | ASub (c a b : nat) | AMul (c a b : nat) | ADiv (c a b : nat)
| ANeg (c a : nat) | ADouble (c a : nat) | AHalve (c a : nat)
| ASquare (c a : nat) | AInvert (c a : nat)
| AMulMpz (c a : nat) (n : Z) | AMulSi (c a : nat) (n : Z)
| APow (c a : nat) (n : Z)
| AFromBytes (c : nat) (data : list Z)
| AFromHash (c : nat) (data : list Z).

(** API calls that observe registers. *)
Inductive qry :=
| QToMpz (a : nat) | QIs0 (a : nat) | QIs1 (a : nat) | QEq (a b : nat)
| QSign (a : nat) | QIsSqr (a : nat) | QToBytes (a : nat).

Inductive call := Asg (o : asg) | Qry (q : qry).

Inductive obs := VZ (z : Z) | VB (b : bool) | VBytes (l : list Z).

Definition target (o : asg) : nat :=
  match o with
  | ASet0 c | ASet1 c | ASetSi c _ | ASetMpz c _ | ASet c _ | AAdd c _ _ | ASub c _ _
  | AMul c _ _ | ADiv c _ _ | ANeg c _ | ADouble c _ | AHalve c _ | ASquare c _
  | AInvert c _ | AMulMpz c _ _ | AMulSi c _ _ | APow c _ _ | AFromBytes c _ | AFromHash c _ => c
  end.

(** Big-endian value of a byte string. *)
Fixpoint be_value (l : list Z) (acc : Z) : Z :=
  match l with [] => acc | x :: l' => be_value l' (256 * acc + x) end.

(** The fixed-width big-endian encoding. *)
Fixpoint be_bytes (n : nat) (x : Z) : list Z :=
  match n with O => [] | S n' => be_bytes n' (x / 256) ++ [x mod 256] end.

(** Number of bytes of p. *)
Definition byte_length (p : Z) : nat := Z.to_nat ((Z.log2 p + 1 + 7) / 8).

(** Hashing to an integer not above [limit]: the byte stream
    data || 0 || data || 1 || data || 2 ... is truncated to as many bytes as
    [limit] has, read as a big-endian number V, and V is halved until it does
    not exceed the limit. *)
Definition hash_stream (data : list Z) (i : nat) : Z :=
  let L := length data in
  if Nat.ltb (i mod S L) L then nth (i mod S L) data 0 else Z.of_nat (i / S L) mod 256.

Definition hashes_to (limit : Z) (data : list Z) (z : Z) : Prop :=
  let V := be_value (map (hash_stream data) (seq 0 (byte_length limit))) 0 in
  exists k : nat, z = V / 2 ^ Z.of_nat k /\ z <= limit /\ forall j : nat, (j < k)%nat -> limit < V / 2 ^ Z.of_nat j.

Section Machine.
Variable p : Z.

(** [r] is the value that call [o] assigns to its target, when the registers
    hold [s]. *)
Definition assigns (o : asg) (s : nat -> Z) (r : Z) : Prop :=
  residue p r /\
  match o with
  | ASet0 _ => r = 0
  | ASet1 _ => r = 1
  | ASetSi _ n | ASetMpz _ n => r = n mod p
  | ASet _ a => r = s a
  | AAdd _ a b => r = (s a + s b) mod p
  | ASub _ a b => r = (s a - s b) mod p
  | AMul _ a b => r = (s a * s b) mod p
  | ADiv _ a b => (r * s b) mod p = s a
  | ANeg _ a => (r + s a) mod p = 0
  | ADouble _ a => r = (2 * s a) mod p
  | AHalve _ a => (2 * r) mod p = s a
  | ASquare _ a => r = (s a * s a) mod p
  | AInvert _ a => (r * s a) mod p = 1
  | AMulMpz _ a n | AMulSi _ a n => r = (n * s a) mod p
  | APow _ a n => r = (s a ^ n) mod p
  | AFromBytes _ l => r = be_value l 0
  | AFromHash _ l => hashes_to p l r
  end.

(** Answer to a query; is_sqr is answered by [leg], the Legendre symbol. *)
Definition answer (leg : Z -> Z) (q : qry) (s : nat -> Z) : obs :=
  match q with
  | QToMpz a => VZ (s a)
  | QIs0 a => VB (s a =? 0)
  | QIs1 a => VB (s a =? 1)
  | QEq a b => VB (s a =? s b)
  | QSign a => VZ (if s a =? 0 then 0 else if Z.odd (s a) then 1 else -1)
  | QIsSqr a => VB (if s a =? 0 then true else leg (s a) =? 1)
  | QToBytes a => VBytes (be_bytes (byte_length p) (s a))
  end.
End Machine.

Definition upd {A} (s : nat -> A) (c : nat) (x : A) : nat -> A :=
  fun i => if Nat.eqb i c then x else s i.

(** Calls whose behaviour is documented to be the mathematical operation in
    every implementation: a long argument is in range and below p in absolute
    value, multiples of p are not passed except 0, exponents are non-negative
    and 0^0 is avoided, zero is not inverted, encodings are those of residues,
    the result of halving is not stored into a different element that holds
    zero, and element_cmp is not called with second argument zero and first
    argument non-zero.  Each exclusion is shown necessary separately. *)
Definition long_range (n : Z) : Prop := - 2 ^ 63 < n < 2 ^ 63.

Definition allowed (p : Z) (o : asg) (s : nat -> Z) : Prop :=
  match o with
  | ASetSi _ n => long_range n /\ - p < n < p
  | ASetMpz _ n | AMulMpz _ _ n => n mod p = 0 -> n = 0
  | AMulSi _ _ n => long_range n /\ (n mod p = 0 -> n = 0)
  | ADiv _ _ b => s b <> 0
  | AInvert _ a => s a <> 0
  | AHalve c a => s c <> 0 \/ c = a \/ s a = 0
  | APow _ a n => 0 <= n /\ (s a = 0 -> n <> 0)
  | AFromBytes _ l => Forall (fun x => 0 <= x < 256) l /\ length l = byte_length p /\ be_value l 0 < p
  | AFromHash _ l => Forall (fun x => 0 <= x < 256) l /\ ~ hashes_to p l p
  | _ => True
  end.

(** The same for an arbitrary (composite) modulus: in addition, products and
    powers of non-zero residues must not vanish, and only units are inverted. *)
Definition allowed_mod (p : Z) (o : asg) (s : nat -> Z) : Prop :=
  match o with
  | AMul _ a b => (s a * s b) mod p = 0 -> s a = 0 \/ s b = 0
  | ASquare _ a => (s a * s a) mod p = 0 -> s a = 0
  | ADiv _ _ b => Z.gcd (s b) p = 1
  | AInvert _ a => Z.gcd (s a) p = 1
  | AMulMpz _ a n => (n mod p = 0 -> n = 0) /\ ((n * s a) mod p = 0 -> n = 0 \/ s a = 0)
  | AMulSi _ a n => long_range n /\ (n mod p = 0 -> n = 0) /\ ((n * s a) mod p = 0 -> n = 0 \/ s a = 0)
  | APow _ a n => 0 <= n /\ (s a = 0 -> n <> 0) /\ ((s a ^ n) mod p = 0 -> s a = 0)
  | _ => allowed p o s
  end.

(** What the default (Montgomery) back-end supports for an arbitrary odd
    modulus: any integer or long may be stored or multiplied by. *)
Definition allowed_mont (p : Z) (o : asg) (s : nat -> Z) : Prop :=
  match o with
  | ASetSi _ _ | ASetMpz _ _ => True
  | AMulMpz _ a n | AMulSi _ a n => (n * s a) mod p = 0 -> n mod p = 0 \/ s a = 0
  | _ => allowed_mod p o s
  end.

(** ... and for a prime modulus: every call except inversion of zero, 0^0,
    halving into a different zero element, and decoding an unreduced string. *)
Definition allowed_mont_prime (p : Z) (o : asg) (s : nat -> Z) : Prop :=
  match o with
  | ASetSi _ _ | ASetMpz _ _ | AMulMpz _ _ _ | AMulSi _ _ _ => True
  | _ => allowed p o s
  end.

(** What the one-word implementation supports for an odd modulus below 2^64:
    no negative multiple of p is stored, products of elements fit a word (as
    they do when p <= 2^32), a long multiplier is non-negative and its product
    with the element fits a word, an element is not doubled in place when p
    exceeds 2^63, only units are inverted, and hashing is excluded. *)
Definition allowed_tiny (p : Z) (o : asg) (s : nat -> Z) : Prop :=
  match o with
  | ASetSi _ n => long_range n /\ (n < 0 -> n mod p <> 0)
  | AMul _ a b => s a * s b < 2 ^ 64
  | ASquare _ a => s a * s a < 2 ^ 64
  | ADouble c a => c <> a \/ p <= 2 ^ 63
  | AMulMpz _ _ _ | AHalve _ _ => p <= 2 ^ 32
  | AMulSi _ a n => 0 <= n < 2 ^ 63 /\ n * s a < 2 ^ 64
  | ADiv _ _ b => p <= 2 ^ 32 /\ Z.gcd (s b) p = 1
  | AInvert _ a => Z.gcd (s a) p = 1
  | APow _ _ n => 0 <= n
  | AFromBytes _ l => Forall (fun x => 0 <= x < 256) l /\ length l = byte_length p /\ be_value l 0 < p
  | AFromHash _ _ => False
  | _ => True
  end.

Definition allowed_qry (q : qry) (s : nat -> Z) : Prop :=
  match q with
  | QEq a b => s a <> 0 -> s b <> 0
  | _ => True
  end.

(** [spec_run p leg ok h s vs]: history [h] started with register values [s]
    makes only calls accepted by [ok] and produces the observations [vs]. *)
Inductive spec_run (p : Z) (leg : Z -> Z) (ok : asg -> (nat -> Z) -> Prop) : list call -> (nat -> Z) -> list obs -> Prop :=
| sr_nil : forall s, spec_run p leg ok [] s []
| sr_asg : forall o h s r vs,
    ok o s -> assigns p o s r -> spec_run p leg ok h (upd s (target o) r) vs ->
    spec_run p leg ok (Asg o :: h) s vs
| sr_qry : forall q h s vs,
    allowed_qry q s -> spec_run p leg ok h s vs ->
    spec_run p leg ok (Qry q :: h) s (answer p leg q s :: vs).

(** Number of 64-bit words of p, and its most significant word. *)
Definition words (p : Z) : Z := Z.log2 p / 64 + 1.
Definition top_word (p : Z) : Z := p / 2 ^ (64 * (words p - 1)).

(** Registers of a session start at 0. *)
Definition fresh : nat -> Z := fun _ => 0.

(** Memory obtained from malloc holds n arbitrary 64-bit words. *)
Definition any_memory (junk : nat -> list Z) : Prop :=
  forall n, length (junk n) = n /\ Forall (fun x => 0 <= x < 2 ^ 64) (junk n).
