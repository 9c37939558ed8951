(** Vocabulary for C82. *)
From Coq Require Import ZArith QArith Qcanon Reals List String Bool.
From Verif Require Import Ast ExprModel VerifySpec.
Import ListNotations.
Local Open Scope list_scope.

(** A term without x(), or a product with a factor x(a). *)
Definition linear_term (t : expr) : Prop := x_free t \/ exists a, t = Fun FX [a] \/ exists l, t = Mul l /\ In (Fun FX [a]) l.
