(** Vocabulary for C67. *)
From Coq Require Import ZArith QArith Qcanon Reals List String Bool.
From Verif Require Import Ast ExprSpec CollectModel CollectSpec PowSpec SimpDrvModel.
Import ListNotations.
Local Open Scope R_scope.
Local Open Scope list_scope.

Section Spec.
Context (I : interp) (G : ginac) (simplify_nd : expr -> expr).
(** The bases that collect_same_exponents hands to simplify_numer_denom. *)
Fixpoint merged (only_n : bool) (n : nat) (l : list (expr * expr)) : list expr :=
  match n, l with
  | S n, (b, x) :: l => let '((b, _), l) := same_exponents G only_n b x l in b :: merged only_n n l
  | _, _ => []
  end.
(** simplify_numer_denom keeps their values. *)
Definition fractions_kept (rho : string -> R) (only_n : bool) (l : list expr) : Prop := forall b v,
  In b (merged only_n (List.length (entries l)) (entries l)) -> eval I rho b = Some v -> eval I rho (simplify_nd b) = Some v.
(** A rule is applied where it is valid: powers as in C65, roots of positive numbers as in C53, products of powers as in C57. *)
Definition call_valid (rho : string -> R) (c : call) : Prop :=
  match c with
  | CallPowers e => simplifiable I rho e
  | CallNumbers b1 x1 b2 x2 => 0 < rv b1 /\ 0 < rv b2 /\ rv x1 <> 0 /\ rv x2 <> 0
  | CallExponents only_n l => bases_nonzero I rho l /\ fractions_kept rho only_n l
  | CallCollect l => bases_nonzero I rho l /\ fractions_kept rho false l /\
      forall l', collect_same_exponents G simplify_nd false (Mul l) = Mul l' -> absorbs_single G l'
  end.
(** All the applications are valid, at rho, for all integers in the place of the summation variables they are below. *)
Definition calls_valid (rho : string -> R) (cs : list (list string * call)) : Prop := forall ks c, In (ks, c) cs -> forall rho',
  (forall s, ~ In s ks -> rho' s = rho s) -> (forall s, In s ks -> exists z, rho' s = IZR z) -> call_valid rho' c.
End Spec.
