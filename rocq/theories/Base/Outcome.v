(** Outcomes of modelled C functions.

    [Ok v]      : the function returns, with value / updated state [v];
    [UB]        : the C code performs an operation with undefined behaviour
                  (out-of-bounds access, inversion of zero, ...);
    [Die]       : the process is aborted on purpose (pbc_die, failed assertion);
    [OutOfFuel] : a data-dependent loop did not finish within the fuel given. *)

Inductive res (A : Type) : Type :=
| Ok (a : A)
| UB
| Die
| OutOfFuel.

Arguments Ok {A} a.
Arguments UB {A}.
Arguments Die {A}.
Arguments OutOfFuel {A}.

Definition bind {A B : Type} (m : res A) (k : A -> res B) : res B :=
  match m with
  | Ok a => k a
  | UB => UB
  | Die => Die
  | OutOfFuel => OutOfFuel
  end.

Declare Scope res_scope.
Delimit Scope res_scope with res.
Open Scope res_scope.

Notation "x <- m ;; k" := (bind m (fun x => k))
  (at level 61, m at next level, right associativity) : res_scope.
Notation "' p <- m ;; k" := (bind m (fun x => match x with p => k end))
  (at level 61, p pattern, m at next level, right associativity) : res_scope.

Lemma bind_ok : forall {A B} (m : res A) (k : A -> res B) (b : B),
  bind m k = Ok b -> exists a, m = Ok a /\ k a = Ok b.
Proof. intros A B [a| | |] k b H; simpl in H; try discriminate. eauto. Qed.

(** The outcome is a value satisfying [P] (in particular no undefined behaviour). *)
Definition returns {A : Type} (m : res A) (P : A -> Prop) : Prop :=
  exists a, m = Ok a /\ P a.

Lemma returns_ok : forall A (a : A) (P : A -> Prop), P a -> returns (Ok a) P.
Proof. intros; exists a; auto. Qed.

Lemma returns_bind : forall A B (m : res A) (k : A -> res B) (P : A -> Prop) (Q : B -> Prop),
  returns m P -> (forall a, P a -> returns (k a) Q) -> returns (bind m k) Q.
Proof. intros A B m k P Q [a [-> Ha]] Hk. simpl. auto. Qed.

Lemma returns_weaken : forall A (m : res A) (P Q : A -> Prop),
  returns m P -> (forall a, P a -> Q a) -> returns m Q.
Proof. intros A m P Q [a [-> Ha]] H. exists a; auto. Qed.
