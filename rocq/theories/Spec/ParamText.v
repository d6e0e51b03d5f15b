(** Pairing parameter files, as documented: a sequence of words separated by
    white space and comments, read as key-value pairs.  Independent of the
    model. *)
From Coq Require Import ZArith List Bool String Ascii.
Import ListNotations.
Open Scope Z_scope.

Definition chars (s : string) : list Z := map (fun c => Z.of_nat (nat_of_ascii c)) (list_ascii_of_string s).

Definition white (c : Z) : Prop := In c [32; 9; 13; 10].
(** A word: not empty, no white space, no angle bracket or slash, no NUL, and it
    does not start like a comment. *)
Definition word_ok (w : list Z) : Prop :=
  w <> [] /\ hd 0 w <> 35 /\ Forall (fun c => c <> 0 /\ ~ white c /\ ~ In c [60; 47; 62]) w.

(** Layout between words: white space and # comments up to the end of line. *)
Inductive piece := Space (c : Z) | Comment (t : list Z).
Definition piece_ok (p : piece) : Prop :=
  match p with Space c => white c | Comment t => Forall (fun c => c <> 0 /\ c <> 10) t end.
Definition piece_text (p : piece) : list Z := match p with Space c => [c] | Comment t => 35 :: t ++ [10] end.
Definition layout (ps : list piece) : list Z := flat_map piece_text ps.

(** A file: layout, then words each followed by layout, then possibly a comment
    that is not ended by a newline. *)
Record file := { lead : list piece; body : list (list Z * list piece); last_comment : option (list Z) }.
Definition comment_text (o : option (list Z)) : list Z := match o with Some t => 35 :: t | None => [] end.
Definition file_text (f : file) : list Z :=
  layout (lead f) ++ flat_map (fun wp => fst wp ++ layout (snd wp)) (body f) ++ comment_text (last_comment f).
(** Words are separated by at least one white space character; the last one need
    not be followed by anything. *)
Fixpoint body_ok (l : list (list Z * list piece)) (o : option (list Z)) : Prop :=
  match l with
  | [] => True
  | (w, ps) :: l' =>
    word_ok w /\ Forall piece_ok ps /\
    ((exists c ps', ps = Space c :: ps') \/ (ps = [] /\ l' = [] /\ o = None)) /\ body_ok l' o
  end.
Definition file_ok (f : file) : Prop :=
  Forall piece_ok (lead f) /\ body_ok (body f) (last_comment f) /\
  match last_comment f with Some t => Forall (fun c => c <> 0 /\ c <> 10) t | None => True end.
Definition words (f : file) : list (list Z) := map fst (body f).

(** Key-value pairs; of several values for a key the last one counts. *)
Fixpoint pairs (ws : list (list Z)) : list (list Z * list Z) :=
  match ws with k :: v :: r => (k, v) :: pairs r | _ => [] end.
Fixpoint value_for (l : list (list Z * list Z)) (k : list Z) : option (list Z) :=
  match l with
  | [] => None
  | (k', v) :: l' => match value_for l' k with Some x => Some x | None => if list_eq_dec Z.eq_dec k k' then Some v else None end
  end.

(** The usual decimal text of an integer. *)
Fixpoint horner (ds : list Z) (acc : Z) : Z := match ds with [] => acc | d :: ds' => horner ds' (acc * 10 + d) end.
Definition is_decimal (n : Z) (t : list Z) : Prop :=
  exists ds, ds <> [] /\ Forall (fun d => 0 <= d < 10) ds /\ (hd 0 ds = 0 -> ds = [0]) /\
             ((0 <= n /\ horner ds 0 = n /\ t = map (Z.add 48) ds) \/
              (n < 0 /\ horner ds 0 = - n /\ t = 45 :: map (Z.add 48) ds)).

(** The keys of each pairing type; the second component is true for those that
    hold a machine int. *)
Inductive family := A | A1 | D | E | F | G | I.
Definition family_name (T : family) : string :=
  match T with A => "a" | A1 => "a1" | D => "d" | E => "e" | F => "f" | G => "g" | I => "i" end.
Definition plain_keys (T : family) : list (string * bool) :=
  match T with
  | A => [("q", false); ("h", false); ("r", false); ("exp2", true); ("exp1", true); ("sign1", true); ("sign0", true)]
  | A1 => [("p", false); ("n", false); ("l", true)]
  | D => [("q", false); ("n", false); ("h", false); ("r", false); ("a", false); ("b", false); ("k", true); ("nk", false); ("hk", false); ("nqr", false)]
  | E => [("q", false); ("r", false); ("h", false); ("a", false); ("b", false); ("exp2", true); ("exp1", true); ("sign1", true); ("sign0", true)]
  | F => [("q", false); ("r", false); ("b", false); ("beta", false); ("alpha0", false); ("alpha1", false)]
  | G => [("q", false); ("n", false); ("h", false); ("r", false); ("a", false); ("b", false); ("nk", false); ("hk", false); ("nqr", false)]
  | I => [("m", true); ("t", true); ("n", false); ("n2", false)]
  end%string.
(** number of keys coeff0, coeff1, ...: type D has k/2, type G has 5 *)
Definition coeff_count (T : family) (k : Z) : Z := match T with D => Z.quot k 2 | G => 5 | _ => 0 end.
(** [key] is a key of type T (with embedding degree k for type D) *)
Definition has_key (T : family) (k : Z) (key : list Z) (int : bool) : Prop :=
  (exists s, In (s, int) (plain_keys T) /\ key = chars s) \/
  (int = false /\ exists i t, 0 <= i < coeff_count T k /\ is_decimal i t /\ key = chars "coeff" ++ t).

(** Values of the C type int. *)
Definition int32 (n : Z) : Prop := - 2 ^ 31 <= n < 2 ^ 31.
