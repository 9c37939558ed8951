(** C100: what the searches in an expression find (src/Expr.cc, src/Recurrence.cc).
    [inside s e]: s occurs in e; [outside_x s e]: s occurs in e elsewhere than in an argument
    of a function x (SrchSpec.v). *)
From Coq Require Import ZArith QArith Qcanon List String Reals Lra.
From Verif Require Import Ast ExprModel ExprSpec ExprProofs1 ExprProofs2 ExprProofs3 ExprCases ClassModel SrchModel SrchSpec SrchProofs SrchProofs2 SrchProofs3.
Import ListNotations.
Local Open Scope string_scope.
Local Open Scope list_scope.

Theorem C100_symbolic_sum_or_product : forall e, has_sum_or_prod_function e = true <->
  exists k lo up b, inside (SumE k lo up b) e \/ inside (ProdE k lo up b) e.
Proof. exact sum_or_prod_exact. Qed.
Print Assumptions C100_symbolic_sum_or_product.

Theorem C100_function_x : forall e, has_x_function e = true <-> exists l, inside (Fun FX l) e.
Proof. exact x_function_exact. Qed.
Print Assumptions C100_function_x.

Theorem C100_symbol : forall y e, has y e = true <-> inside (Sym y) e.
Proof. exact has_exact. Qed.
Print Assumptions C100_symbol.

(** The search of x(u) with y in u. *)
Theorem C100_function_x_of : forall y e, (forall l, inside (Fun FX l) e -> exists a, l = [a]) ->
  (has_x_of y e = true <-> exists u, inside (Fun FX [u]) e /\ inside (Sym y) u).
Proof. exact x_of_exact. Qed.
Print Assumptions C100_function_x_of.

(** The largest i of the x(i) in e, or m when that is larger; an integer that does not fit
    (an exception) only when there is an index beyond INT_MAX. *)
Theorem C100_largest_index : forall e m M, (0 <= m <= 2147483647)%Z -> get_max_index_symbolic_i_c e m = Some M ->
  (m <= M <= 2147483647)%Z /\ (forall i l, outside_x (Fun FX (Num (zq i) :: l)) e -> (i <= M)%Z) /\
  (M = m \/ exists l, outside_x (Fun FX (Num (zq M) :: l)) e).
Proof.
  exact (fun e m M Hm E => match eq_ind _ (good (idx e) m) (max_index_run e m Hm) _ E with
    conj B (conj U W) => conj B (conj (fun i l H => U i (ex_intro _ l H)) W) end).
Qed.
Print Assumptions C100_largest_index.
Theorem C100_largest_index_exception : forall e m, (0 <= m <= 2147483647)%Z -> get_max_index_symbolic_i_c e m = None ->
  exists i l, outside_x (Fun FX (Num (zq i) :: l)) e /\ (2147483647 < i)%Z.
Proof.
  exact (fun e m Hm E => match eq_ind _ (good (idx e) m) (max_index_run e m Hm) _ E with
    ex_intro _ i (conj (ex_intro _ l H) L) => ex_intro _ i (ex_intro _ l (conj H L)) end).
Qed.
Print Assumptions C100_largest_index_exception.

(** An accepted polynomial with rational coefficients is a polynomial in x, and is rational when
    the symbols are; numeric powers only. *)
Theorem C100_rational_polynomial : forall I x e, positive_integer_powers e -> is_rational_polynomial x e = true ->
  polynomial_function I x e /\
  (forall rho v, (forall s, is_rational (rho s)) -> eval I rho e = Some v -> is_rational v).
Proof. exact (fun I x e P H => conj (rat_poly_function I x e P H) (rat_poly_value I x e P H)). Qed.
Print Assumptions C100_rational_polynomial.
(** 2^x is accepted. *)
Theorem C100_rational_polynomial_refuted :
  ~ (forall I x e, is_rational_polynomial x e = true -> polynomial_function I x e).
Proof. exact rat_poly_refuted. Qed.
Print Assumptions C100_rational_polynomial_refuted.

Definition c100 : expr :=
  Add [Mul [Fun FX [Num (zq 2)]; Pow (Num (zq 2)) (Fun FX [Num (zq 3)])];
       SumE "k" (Num (zq 1)) (Sym "n") (Fun FX [Num (zq 1)]); Fun FX [Add [Sym "n"; Num (zq (-1))]]].
Example C100_cases :
  has_sum_or_prod_function c100 = true /\ has_sum_or_prod_function (Fun FX [Sym "n"]) = false /\
  has_x_of "n" c100 = true /\ has_x_of "k" c100 = false /\ has "n" c100 = true /\
  (forall l, inside (Fun FX l) c100 -> exists a, l = [a]) /\
  get_max_index_symbolic_i_c c100 0 = Some 3%Z /\ get_max_index_symbolic_i_c c100 5 = Some 5%Z /\
  get_max_index_symbolic_i_c (Fun FX [Num (zq 3000000000)]) 0 = None.
Proof.
  repeat (split; [reflexivity|]). split; [|repeat split; reflexivity]. intros l H. apply unary_list in H. exact H. reflexivity.
Qed.
Definition c100p : expr := Add [Mul [Num (Q2Qc (1 # 2)); Pow (Sym "x") (Num (zq 2))]; Sym "a"].
Example C100_polynomial_case : positive_integer_powers c100p /\ is_rational_polynomial "x" c100p = true /\
  is_rational_polynomial "x" (Fun FLog [Sym "x"]) = false.
Proof. split; [cbn; repeat split; exists 2%positive; reflexivity|split; reflexivity]. Qed.
