(** Specification vocabulary for the renaming of system-generated symbols. *)
From Coq Require Import List String Bool Reals.
From Verif Require Import Ast ExprModel.
Import ListNotations.

(** Symbols that look like the ones made by GiNaC: "symbol" followed by at least one digit. *)
Inductive digits : string -> Prop :=
  | dig_nil : digits EmptyString
  | dig_cons c s : In c (list_ascii_of_string "0123456789") -> digits s -> digits (String c s).
Definition looks_generated (s : string) : Prop := exists t, t <> EmptyString /\ digits t /\ s = String.append "symbol" t.

(** The value of a renaming, given as a list of pairs, on a name. *)
Fixpoint renamed (ren : list (string * string)) (s : string) : string :=
  match ren with [] => s | (a, b) :: ren => if String.eqb s a then b else renamed ren s end.
(** GiNaC's constructors do not make up symbols. *)
Definition no_new_symbols (G : ginac) : Prop :=
  (forall z a b, has z (gadd G a b) = true -> has z (Add [a; b]) = true) /\
  (forall z a b, has z (gmul G a b) = true -> has z (Mul [a; b]) = true) /\
  (forall z a b, has z (gpow G a b) = true -> has z (Pow a b) = true) /\
  (forall z f l, has z (gfun G f l) = true -> has z (Fun f l) = true) /\
  (forall z k lo up e, has z (gsum G k lo up e) = true -> has z (SumE k lo up e) = true) /\
  (forall z k lo up e, has z (gprod G k lo up e) = true -> has z (ProdE k lo up e) = true).
Lemma renamed_fresh ren n : ~ In n (map fst ren) -> renamed ren n = n.
Proof.
  induction ren as [|[a b] ren IH]; cbn; auto. intros H. destruct (String.eqb n a) eqn:E; auto.
  apply String.eqb_eq in E. subst. tauto.
Qed.
