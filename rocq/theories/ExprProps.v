(** C11-C17: automatic evaluation, predicates and substitution (src/Expr.cc).
    Vocabulary: [eval I rho e] is the (partial) real value of an expression under the valuation
    rho, [refines I e e'] says that e' has the value of e wherever e has one (Ast.v);
    [std_interp], [rmod], [gbinom], ... are in ExprSpec.v.  [G] stands for GiNaC's constructors,
    of which only value preservation [ginac_ok] is assumed; [G0] is one such instance. *)
From Coq Require Import ZArith QArith Qcanon Reals List String Lra.
From Verif Require Import Ast ExprModel ExprSpec ExprProofs1 ExprProofs2 ExprProofs3 ExprCases.
Import ListNotations.
Local Open Scope R_scope.

(** The assumptions on interpretation and constructors are met. *)
Example standard_instance : std_interp I0 /\ ginac_ok I0 G0.
Proof. exact (conj I0_std (G0_ok I0)). Qed.

(** * C11 *)
Theorem C11_floor_of_a_number :
  forall q : Qc, exists z, floor_eval (Num q) = Num (zq z) /\ IZR z <= rv q < IZR z + 1.
Proof. exact floor_eval_number. Qed.
Print Assumptions C11_floor_of_a_number.
Theorem C11_floor_preserves_value :
  forall I, std_interp I -> forall e, refines I (Fun FFloor [e]) (floor_eval e).
Proof. exact floor_eval_ok. Qed.
Print Assumptions C11_floor_preserves_value.
Theorem C11_mod_of_integers :
  forall (a b : Z) r, mod_eval (Num (zq a)) (Num (zq b)) = Ret r ->
  IZR b <> 0 /\ exists m, r = Num m /\ rv m = rmod (IZR a) (IZR b).
Proof. exact mod_eval_zq. Qed.
Print Assumptions C11_mod_of_integers.
Theorem C11_mod_of_shifted_symbol :
  forall I, std_interp I -> forall s (h : Z) k x r, x = Add [Sym s; Num (zq h)] \/ x = Add [Num (zq h); Sym s] ->
  mod_eval x (Num k) = Ret r -> refines I (Fun FMod [x; Num k]) r.
Proof. exact mod_eval_symbolic_zq. Qed.
Print Assumptions C11_mod_of_shifted_symbol.
(** Non-integers: GiNaC's mod gives 0. *)
Theorem C11_mod_of_rationals_refuted :
  ~ (forall a b r, rv b <> 0 -> mod_eval (Num a) (Num b) = Ret (Num r) -> rv r = rmod (rv a) (rv b)).
Proof. exact mod_rationals_refuted. Qed.
Print Assumptions C11_mod_of_rationals_refuted.
Theorem C11_mod_of_rational_shift_refuted :
  ~ (forall s h k r, mod_eval (Add [Sym s; Num h]) (Num k) = Ret r -> refines I0 (Fun FMod [Add [Sym s; Num h]; Num k]) r).
Proof. exact mod_shift_refuted. Qed.
Print Assumptions C11_mod_of_rational_shift_refuted.
Theorem C11_binom_of_numbers :
  forall I G, ginac_ok I G -> forall a b r rho, binom_eval G (Num a) (Num b) = Ret r ->
  exists k : nat, rv b = INR k /\ eval I rho r = Some (gbinom (rv a) k).
Proof. exact binom_eval_number. Qed.
Print Assumptions C11_binom_of_numbers.
(** floor(-7/2) = -4, mod(-7,3) = 2, mod(n+6,3) = mod(n,3), binom(5/2,2) = 15/8, binom(2,5) = 0. *)
Example C11_cases :
  floor_eval (Num (Q2Qc (-7 # 2))) = Num (zq (-4)) /\ mod_eval (Num (zq (-7))) (Num (zq 3)) = Ret (Num (zq 2)) /\
  mod_eval (Num (zq 5)) (Num (zq 0)) = Throw /\
  mod_eval (Add [Num (zq 6); Sym "n"]) (Num (zq 3)) = Ret (Fun FMod [Sym "n"; Num (zq 3)]) /\
  mod_eval (Add [Num (zq 7); Sym "n"]) (Num (zq 3)) = Ret (Fun FMod [Add [Num (zq 7); Sym "n"]; Num (zq 3)]) /\
  binom_eval G0 (Num (Q2Qc (5 # 2))) (Num (zq 2)) = Ret (Num (Q2Qc (15 # 8))) /\
  binom_eval G0 (Num (zq 2)) (Num (zq 5)) = Ret (Num (zq 0)) /\ binom_eval G0 (Num (zq 2)) (Num (zq (-1))) = Throw.
Proof. repeat split; expr_case. Qed.

(** * C12 *)
Theorem C12_sum_with_numeric_limits :
  forall I G, ginac_ok I G -> forall k l u e r, not_bound k e ->
  sum_eval G k (Num l) (Num u) e = Ret r -> refines I (SumE k (Num l) (Num u) e) r.
Proof. exact sum_eval_numeric. Qed.
Print Assumptions C12_sum_with_numeric_limits.
(** A limit that is not an integer is an error. *)
Theorem C12_sum_limits_are_integers :
  forall G k l u e, sum_eval G k (Num l) (Num u) e <> Throw <-> (is_integer (rv l) /\ is_integer (rv u)).
Proof. exact sum_eval_throws. Qed.
Print Assumptions C12_sum_limits_are_integers.
Theorem C12_sum_with_symbolic_limit :
  forall I G, ginac_ok I G -> forall k lo up e r rho a b v, sum_eval G k lo up e = Ret r -> (forall q, up <> Num q) ->
  eval I rho lo = Some (IZR a) -> eval I rho up = Some (IZR b) -> (a - 1 <= b)%Z ->
  (exists t u, eval I (upd rho k t) e = Some u) ->
  eval I rho (SumE k lo up e) = Some v -> eval I rho r = Some v.
Proof. exact sum_eval_symbolic. Qed.
Print Assumptions C12_sum_with_symbolic_limit.
(** An upper limit more than one below the lower one: sum(k,5,n,1) becomes n-4, which is -2 at n=2. *)
Theorem C12_empty_symbolic_range_refuted :
  ~ (forall k lo up e r rho v, sum_eval G0 k lo up e = Ret r ->
     eval I0 rho (SumE k lo up e) = Some v -> eval I0 rho r = Some v).
Proof. exact sum_eval_refuted. Qed.
Print Assumptions C12_empty_symbolic_range_refuted.
(** sum(k, 2, 4, k^2) = 29; sum(k, 1, n, 3 a k) = 3 a sum(k, 1, n, k). *)
Example C12_cases :
  (exists r, sum_eval G0 "k" (Num (zq 2)) (Num (zq 4)) (Pow (Sym "k") (Num (zq 2))) = Ret r /\ eval I0 (fun _ => 0) r = Some 29) /\
  sum_eval G0 "k" (Num (zq 1)) (Sym "n") (Mul [Num (zq 3); Sym "a"; Sym "k"])
   = Ret (Mul [Sym "a"; Num (zq 3); SumE "k" (Num (zq 1)) (Sym "n") (Sym "k")]).
Proof. exact sum_cases. Qed.

(** * C13 *)
Theorem C13_product_with_numeric_limits :
  forall I G, ginac_ok I G -> forall k l u e r, not_bound k e ->
  prod_eval G k (Num l) (Num u) e = Ret r -> refines I (ProdE k (Num l) (Num u) e) r.
Proof. exact prod_eval_numeric. Qed.
Print Assumptions C13_product_with_numeric_limits.
(** [shifted up]: up has the form symbol + number. *)
Theorem C13_product_with_symbolic_limit :
  forall I G, ginac_ok I G -> forall k lo up e r rho a b v, prod_eval G k lo up e = Ret r -> (forall q, up <> Num q) ->
  ~ (exists s h, up = Add [Num h; Sym s] \/ up = Add [Sym s; Num h]) ->
  eval I rho lo = Some (IZR a) -> eval I rho up = Some (IZR b) -> (a - 1 <= b)%Z ->
  (exists t u, eval I (upd rho k t) e = Some u) ->
  eval I rho (ProdE k lo up e) = Some v -> eval I rho r = Some v.
Proof. exact prod_eval_symbolic. Qed.
Print Assumptions C13_product_with_symbolic_limit.
(** Upper limit s + h, if no factor free of the index is taken out and no cancelled factor is zero. *)
Theorem C13_product_with_shifted_limit :
  forall I G, ginac_ok I G -> forall k lo up s h e r rho a m v,
  prod_eval G k lo up e = Ret r -> up = Add [Num h; Sym s] \/ up = Add [Sym s; Num h] -> q_is_int h = true ->
  no_binders e -> all_factors_have k e ->
  eval I rho lo = Some (IZR a) -> rho s = IZR m -> (a - 1 <= m)%Z -> (a - 1 <= m + q_int h)%Z ->
  (forall i, (a <= i <= Z.max m (m + q_int h))%Z -> exists u, eval I (upd rho k (IZR i)) e = Some u /\ ((q_int h < 0)%Z -> u <> 0)) ->
  (exists t u, eval I (upd rho k t) e = Some u) ->
  eval I rho (ProdE k lo up e) = Some v -> eval I rho r = Some v.
Proof. exact prod_eval_shifted. Qed.
Print Assumptions C13_product_with_shifted_limit.
(** With a constant factor it is counted twice: prod(k,1,n+1,2k) at n=1 is 8 and becomes 16. *)
Theorem C13_shifted_limit_refuted :
  ~ (forall k lo up e r rho a b v, prod_eval G0 k lo up e = Ret r ->
     eval I0 rho lo = Some (IZR a) -> eval I0 rho up = Some (IZR b) -> (a <= b)%Z ->
     eval I0 rho (ProdE k lo up e) = Some v -> eval I0 rho r = Some v).
Proof. exact prod_eval_refuted. Qed.
Print Assumptions C13_shifted_limit_refuted.
(** prod(k, 1, n-2, k+1) is prod(k, 1, n, k+1) / (n (n+1)). *)
Example C13_case :
  let up := Add [Num (zq (-2)); Sym "n"] in let e := Add [Sym "k"; Num (zq 1)] in
  no_binders e /\ all_factors_have "k" e /\
  prod_eval G0 "k" (Num (zq 1)) up e =
    Ret (Mul [Pow (Num 1) (Add [Num (zq (-2)); Sym "n"; Num (zq (-1)); Num 1]); ProdE "k" (Num (zq 1)) (Sym "n") e;
              Pow (Add [Num 1; Sym "n"; Num (zq (-1))]) (Num (-(1))%Qc); Pow (Add [Num 1; Sym "n"]) (Num (-(1))%Qc)]).
Proof. cbv zeta. split; [cbn; auto|]. split; [reflexivity|]. expr_case. Qed.

(** * C14 *)
(** Under non-negative values of the parameters, max and min are the larger and the smaller
    value unless the first argument is larger by at most 10^-6. *)
Theorem C14_max_and_min :
  forall I, std_interp I -> forall G, ginac_ok I G -> forall rho, (forall s, 0 <= rho s) ->
  forall a b x y, eval I rho a = Some x -> eval I rho b = Some y -> ~ (0 < x - y <= / 1000000) ->
  eval I rho (max_eval G a b) = Some (Rmax x y) /\ eval I rho (min_eval G a b) = Some (Rmin x y).
Proof. exact max_min_core. Qed.
Print Assumptions C14_max_and_min.
Theorem C14_close_numbers_refuted :
  ~ (forall p q, exists r, max_eval G0 (Num p) (Num q) = Num r /\ rv r = Rmax (rv p) (rv q)) /\
  ~ (forall p q, exists r, min_eval G0 (Num p) (Num q) = Num r /\ rv r = Rmin (rv p) (rv q)).
Proof. exact max_min_refuted. Qed.
Print Assumptions C14_close_numbers_refuted.
(** Without the sign of the parameters: max(n, 0) is replaced by n. *)
Theorem C14_negative_parameter_refuted :
  ~ (forall rho a b x y, eval I0 rho a = Some x -> eval I0 rho b = Some y -> ~ (0 < x - y <= / 1000000) ->
     eval I0 rho (max_eval G0 a b) = Some (Rmax x y)).
Proof. exact max_symbol_refuted. Qed.
Print Assumptions C14_negative_parameter_refuted.
Example C14_cases :
  max_eval G0 (Num (zq 3)) (Num (zq (-5))) = Num (zq 3) /\ min_eval G0 (Num (zq 3)) (Num (zq (-5))) = Num (zq (-5)) /\
  max_eval G0 (Num (Q2Qc (1 # 3))) (Num (Q2Qc (1 # 2))) = Num (Q2Qc (1 # 2)) /\
  max_eval G0 (Sym "a") (Sym "b") = Fun FMax [Sym "a"; Sym "b"] /\
  max_eval G0 (Pow (Sym "n") (Num (zq 2))) (Num 0) = Pow (Sym "n") (Num (zq 2)).
Proof. repeat split; expr_case. Qed.

(** * C15 *)
Theorem C15_scalar_means_no_occurrence :
  forall x e, is_scalar_representation x e = true <-> has x e = false.
Proof. exact is_scalar_representation_spec. Qed.
Print Assumptions C15_scalar_means_no_occurrence.
Theorem C15_scalar_value_is_independent :
  forall I x e rho u v, is_scalar_representation x e = true -> eval I (upd rho x u) e = eval I (upd rho x v) e.
Proof. exact scalar_value_independent. Qed.
Print Assumptions C15_scalar_value_is_independent.
Theorem C15_polynomial :
  forall I x e, is_polynomial x e = true -> polynomial_function I x e.
Proof. exact is_polynomial_ok. Qed.
Print Assumptions C15_polynomial.
Theorem C15_integer_scalar :
  forall I x e, no_functions e -> is_integer_scalar_representation x e = true ->
  has x e = false /\ forall rho v, (forall s, is_integer (rho s)) -> eval I rho e = Some v -> is_integer v.
Proof. exact is_integer_scalar_ok. Qed.
Print Assumptions C15_integer_scalar.
Theorem C15_integer_polynomial :
  forall I x e, no_functions e -> is_integer_polynomial x e = true ->
  forall rho v, (forall s, is_integer (rho s)) -> eval I rho e = Some v -> is_integer v.
Proof. exact is_integer_polynomial_ok. Qed.
Print Assumptions C15_integer_polynomial.
Theorem C15_rational_scalar :
  forall I x e, positive_integer_powers e -> is_rational_scalar_representation x e = true ->
  has x e = false /\ forall rho v, (forall s, is_rational (rho s)) -> eval I rho e = Some v -> is_rational v.
Proof. exact is_rational_scalar_ok. Qed.
Print Assumptions C15_rational_scalar.
(** Functions of symbols are accepted whatever they are: log(a), x!. *)
Theorem C15_integer_scalar_with_functions_refuted :
  ~ (forall x e, is_integer_scalar_representation x e = true ->
     forall rho v, (forall s, is_integer (rho s)) -> eval I0 rho e = Some v -> is_integer v) /\
  ~ (forall x e, is_integer_scalar_representation x e = true -> has x e = false).
Proof. exact integer_refuted. Qed.
Print Assumptions C15_integer_scalar_with_functions_refuted.
(** 2^x is accepted as a rational scalar free of x. *)
Theorem C15_rational_scalar_refuted :
  ~ (forall x e, is_rational_scalar_representation x e = true -> has x e = false).
Proof. exact rational_refuted. Qed.
Print Assumptions C15_rational_scalar_refuted.
(** Without an occurrence of x(.) the value does not depend on the sequence. *)
Theorem C15_no_x_function :
  forall I e, has_x_function e = false -> forall x y rho, eval (with_x I x) rho e = eval (with_x I y) rho e.
Proof. exact has_x_function_ok. Qed.
Print Assumptions C15_no_x_function.
Example C15_cases :
  let p := Add [Mul [Sym "a"; Pow (Sym "x") (Num (zq 3))]; Fun FLog [Sym "a"]] in
  is_polynomial "x" p = true /\ is_scalar_representation "x" p = false /\
  is_polynomial "x" (Pow (Sym "x") (Num (zq (-1)))) = false /\ is_polynomial "x" (Pow (Num (zq 2)) (Sym "x")) = false /\
  is_integer_polynomial "x" (Add [Mul [Num (zq 4); Pow (Sym "x") (Num (zq 2))]; Sym "a"]) = true /\
  is_integer_polynomial "x" (Mul [Num (Q2Qc (1 # 2)); Sym "x"]) = false /\
  has_x_function (Mul [Sym "n"; Fun FX [Add [Sym "n"; Num (zq (-1))]]]) = true.
Proof. repeat split; vm_compute; reflexivity. Qed.

(** * C16 *)
Theorem C16_substitute_acts_on_values :
  forall I G, ginac_ok I G -> forall s r e, no_capture s r e -> forall rho v w,
  eval I rho r = Some w -> eval I (upd rho s w) e = Some v -> eval I rho (substitute G (Sym s) r e) = Some v.
Proof. exact substitute_ok. Qed.
Print Assumptions C16_substitute_acts_on_values.
(** Indices are not renamed: sum(k,1,n,x k) with x := k. *)
Theorem C16_capture_refuted :
  ~ (forall s r e rho v w, eval I0 rho r = Some w -> eval I0 (upd rho s w) e = Some v ->
     eval I0 rho (substitute G0 (Sym s) r e) = Some v).
Proof. exact capture_refuted. Qed.
Print Assumptions C16_capture_refuted.
(** (n^2 + sum(k,1,n,k x)) with n := n-1. *)
Example C16_case :
  let e := Add [Pow (Sym "n") (Num (zq 2)); SumE "k" (Num (zq 1)) (Sym "n") (Mul [Sym "k"; Sym "x"])] in
  let r := Add [Sym "n"; Num (zq (-1))] in
  no_capture "n" r e /\
  substitute G0 (Sym "n") r e = Add [SumE "k" (Num (zq 1)) r (Mul [Sym "x"; Sym "k"]); Pow r (Num (zq 2))].
Proof. cbv zeta. split; [cbn; repeat split; discriminate|reflexivity]. Qed.

(** * C17 *)
Theorem C17_distribute_preserves_value :
  forall I G, ginac_ok I G -> forall e, refines I e (distribute_mul_over_add G e).
Proof. exact distribute_ok. Qed.
Print Assumptions C17_distribute_preserves_value.
(** Products nested in an operand are not distributed: (a (b+c) + d) (e+f). *)
Theorem C17_fully_distributed_refuted :
  ~ (forall e, distributed (distribute_mul_over_add G0 e)).
Proof. exact distribute_refuted. Qed.
Print Assumptions C17_fully_distributed_refuted.
Example C17_case :
  distribute_mul_over_add G0 (Mul [Add [Sym "a"; Sym "b"]; Add [Sym "c"; Sym "d"]]) =
  Add [Mul [Sym "d"; Sym "b"]; Mul [Sym "d"; Sym "a"]; Mul [Sym "c"; Sym "b"]; Mul [Sym "c"; Sym "a"]].
Proof. reflexivity. Qed.
