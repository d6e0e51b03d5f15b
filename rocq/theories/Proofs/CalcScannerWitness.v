(** Texts read by the calculator. *)
From Coq Require Import ZArith List Bool String Ascii Lia.
From Verif.Base Require Import Outcome.
From Verif.Spec Require Import Calculator CalcSyntax.
From Verif.Model Require Import Calculator CalcParser CalcScanner.
From Verif.Proofs Require Import CalcParserWrite CalcScannerFacts CalculatorWitness.
Import ListNotations.
Open Scope string_scope.
Open Scope list_scope.

(** f(x) = x + 1; a < 10 ? f(2) * (3 - a) : -7 *)
Definition wprog : list (stmt Z) :=
  [SDef "f" ["x"] [SExpr (SBin (BArith Add) (SId "x") (SNum 1))];
   SExpr (STern (SBin (BOrder RLt) (SId "a") (SNum 10))
            (SBin (BArith Mul) (SCall (SId "f") [SNum 2]) (SBin (BArith Sub) (SNum 3) (SId "a")))
            (SNeg (SNum 7)))].
Definition wtext : string :=
"# add one
define f(x) { x+1; } /* then
use it */ a<10 ? f(2)*(3 - a) : -007;
".

Ltac sp := apply l_blank; [left; reflexivity|].
Ltac nm := split; [discriminate|]; eexists _, _; split; [reflexivity|]; split;
  [right; left; vm_compute; split; discriminate|constructor].
Ltac dg := repeat (apply Forall_cons; [vm_compute; split; discriminate|]); apply Forall_nil.
Ltac tok_ x := refine (l_token _ _ (list_ascii_of_string x) _ _ _ _ _).
Ltac sym x := tok_ x; [constructor|try exact I; intros H; discriminate|].
Ltac wordy := split; intros H; [destruct H as [H|[H|H]]|]; vm_compute in H; try discriminate;
  destruct H as [Ha Hb]; first [contradiction Ha; reflexivity|contradiction Hb; reflexivity].
Ltac idt x := tok_ x; [apply w_id; nm|wordy|].
Ltac num_ x := refine (l_token _ (NUM (decimal (list_ascii_of_string x))) (list_ascii_of_string x) _ _ _ _ _);
  [apply w_num; [discriminate|dg]|intros H; vm_compute in H; destruct H as [Ha Hb];
     first [contradiction Ha; reflexivity|contradiction Hb; reflexivity]|].

Lemma wlayout : layout false (List.concat (map wr_stmt wprog)) (list_ascii_of_string wtext).
Proof.
  simpl List.concat. unfold wtext. cbn [list_ascii_of_string].
  refine (l_hash _ (list_ascii_of_string " add one") _ _ _ _).
  { repeat (apply Forall_cons; [discriminate|]); apply Forall_nil. }
  apply l_line; [reflexivity|].
  tok_ "define"; [apply w_define|wordy|]. sp. idt "f". sym "(". idt "x". sym ")". sp. sym "{". sp.
  idt "x". tok_ "+"; [apply (w_op _ (BArith Add))|exact I|]. num_ "1". sym ";". sp. sym "}". sp.
  refine (l_block _ (list_ascii_of_string " then
use it ") _ _ _ _).
  { intros u v H.
    assert (Hi : List.In "*"%char (list_ascii_of_string " then
use it ")) by (rewrite H; apply in_app_iff; right; left; reflexivity).
    simpl in Hi. repeat destruct Hi as [Hi|Hi]; try discriminate. exact Hi. }
  sp. idt "a". tok_ "<"; [apply (w_op _ (BOrder RLt))|intros _; discriminate|]. num_ "10". sp. sym "?". sp.
  idt "f". sym "(". num_ "2". sym ")". tok_ "*"; [apply (w_op _ (BArith Mul))|exact I|].
  sym "(". num_ "3". sp. tok_ "-"; [apply (w_op _ (BArith Sub))|exact I|]. sp. idt "a". sym ")". sp.
  tok_ ":"; [constructor|intros _; discriminate|]. sp.
  tok_ "-"; [apply (w_op _ (BArith Sub))|exact I|]. num_ "007". sym ";".
  apply l_line; [reflexivity|]. apply l_end.
Qed.

(** (x + 4) * 2 < x ? 1 : 0 - 21 *)
Definition wexp : iexp :=
  ICond (ICmp RLt (IBin IMul (IBin IAdd (IVar "x") (INum 4)) (INum 2)) (IVar "x"))
        (INum 1) (IBin ISub (INum 0) (INum 21)).
Lemma wexp_layout : layout true (wr_stmt (SExpr (isrc wexp)))
  (list_ascii_of_string "(x+4)*2<x?1:0-21
").
Proof.
  simpl wr_stmt. cbn [list_ascii_of_string].
  sym "(". idt "x". tok_ "+"; [apply (w_op _ (BArith Add))|exact I|]. num_ "4". sym ")".
  tok_ "*"; [apply (w_op _ (BArith Mul))|exact I|]. num_ "2".
  tok_ "<"; [apply (w_op _ (BOrder RLt))|intros _; discriminate|]. idt "x". sym "?". num_ "1".
  tok_ ":"; [constructor|intros _; discriminate|]. num_ "0".
  tok_ "-"; [apply (w_op _ (BArith Sub))|exact I|]. num_ "21".
  refine (l_token _ _ [lf] _ _ _ _ _); [apply w_line; reflexivity|exact I|]. apply l_end.
Qed.

Open Scope nat_scope.
(** x := c ? a : b is (x := c) ? a : b *)
Lemma assign_first (x : string) (c a b : src Z) n :
  11 * List.length (ID x :: ASSIGN :: wr 3 1 c ++ QUESTION :: wr 0 0 a ++ COLON :: wr 1 0 b ++ [TERMINATOR]) + 6 <= n ->
  parse n (ID x :: ASSIGN :: wr 3 1 c ++ QUESTION :: wr 0 0 a ++ COLON :: wr 1 0 b ++ [TERMINATOR]) =
  Ok (Some [Tern (Assign x (tree_of c)) (tree_of a) (tree_of b)]).
Proof.
  pose proof (parse_written [SExpr (STern (SAssign x c) a b)] n) as H.
  simpl in H. rewrite !app_nil_r in H.
  repeat (rewrite <- !app_assoc in H; simpl in H). exact H.
Qed.
Lemma compare_after_assign (x : string) (o : order) (a b : src Z) n :
  11 * List.length (ID x :: ASSIGN :: wr 3 2 a ++ OP (BOrder o) :: wr 3 0 b ++ [TERMINATOR]) + 6 <= n ->
  parse n (ID x :: ASSIGN :: wr 3 2 a ++ OP (BOrder o) :: wr 3 0 b ++ [TERMINATOR]) =
  Ok (Some [Call (Fn (Order o)) [Assign x (tree_of a); tree_of b]]).
Proof.
  pose proof (parse_written [SExpr (SBin (BOrder o) (SAssign x a) b)] n) as H.
  simpl in H. rewrite !app_nil_r in H.
  repeat (rewrite <- !app_assoc in H; simpl in H). exact H.
Qed.

Lemma last_comment :
  read_program false 200 "1; # one" = Ok None /\
  read_program false 200 ("1; # one" ++ String lf "") = Ok (Some [Lit 1%Z]).
Proof. vm_compute. auto. Qed.

Definition show_text (text : string) : option (list (line wlib)) :=
  match read_program false 500 text with
  | Ok (Some ts) => shows (map (constants wnum) ts)
  | _ => None
  end.
Lemma condition_lost : show_text "x := 0 ? 5 : 7; x;" = Some [int_line 7; int_line 0].
Proof. reflexivity. Qed.
