(** C101: what the factorisation by giac returns has the value of giac's result
    (src/factorize_giac.cc).  [gval]: values of giac's trees; [fits]: integers fit in an int and
    sums and products have a vector of operands (GiacSpec.v).  The name of a function is looked
    up by [find_functor], whatever it is; [gtimes] is giac's product. *)
From Coq Require Import ZArith QArith Qcanon List String Reals Lra Lia.
From Verif Require Import Ast ExprModel ExprSpec ExprProofs1 ExprProofs2 ExprProofs3 ExprCases GiacModel GiacSpec GiacProofs GiacProofs2 GiacProofs3.
Import ListNotations.
Local Open Scope string_scope.
Local Open Scope list_scope.
Local Open Scope R_scope.

(** The translation of a tree that fits and has a value succeeds with an expression of that value. *)
Theorem C101_translation : forall I G, ginac_ok I G -> forall find_functor rho g,
  fits g -> forall v, gval I find_functor rho g = Some v ->
  exists e, translate_back G find_functor g = Some e /\ eval I rho e = Some v.
Proof. exact back_ok. Qed.
Print Assumptions C101_translation.

(** The numbers that are translated: integers of the type int and their fractions. *)
Theorem C101_integers : forall G find_functor z e, translate_back G find_functor (GInt z) = Some e <->
  (-2147483648 <= z <= 2147483647)%Z /\ e = Num (zq z).
Proof. exact integers_exact. Qed.
Print Assumptions C101_integers.
Theorem C101_fractions : forall G find_functor n d e, translate_back G find_functor (GFrac n d) = Some e <->
  exists a b, n = GInt a /\ d = GInt b /\ (-2147483648 <= a <= 2147483647)%Z /\ (-2147483648 <= b <= 2147483647)%Z /\ b <> 0%Z /\ e = Num (zq a / zq b)%Qc.
Proof. exact fractions_exact. Qed.
Print Assumptions C101_fractions.

(** The two returned expressions have the value of giac's factorisation as their product. *)
Theorem C101_product_of_the_parts : forall I G, ginac_ok I G -> forall find_functor gtimes, times_ok I find_functor gtimes ->
  forall rho g v n p, (forall a, g = GSymb OProd a -> exists l, a = GVec l) ->
  fits (fst (split_factors gtimes g)) -> fits (snd (split_factors gtimes g)) -> gval I find_functor rho g = Some v ->
  factors_of G find_functor gtimes g = (n, p) ->
  exists e f x y, n = Some e /\ p = Some f /\ eval I rho e = Some x /\ eval I rho f = Some y /\ x * y = v.
Proof. exact factors_value. Qed.
Print Assumptions C101_product_of_the_parts.

(** The numeric part has the same value whatever the symbols are.  Missing: factorisations with
    an inverse among the factors, see below. *)
Theorem C101_numeric_part_partial : forall I find_functor gtimes, times_ok I find_functor gtimes ->
  forall rho g v, no_inverse g -> (forall a, g = GSymb OProd a -> exists l, a = GVec l) -> gval I find_functor rho g = Some v ->
  exists r, forall rho', gval I find_functor rho' (fst (split_factors gtimes g)) = Some r.
Proof. exact numeric_part. Qed.
Print Assumptions C101_numeric_part_partial.
(** 1/n is counted among the numeric factors. *)
Theorem C101_numeric_part_refuted : forall find_functor, ~ (forall rho g v, gval I0 find_functor rho g = Some v ->
  exists r, forall rho' w, gval I0 find_functor rho' (fst (split_factors times0 g)) = Some w -> w = r).
Proof. exact numeric_refuted. Qed.
Print Assumptions C101_numeric_part_refuted.
(** A product with one operand outside a vector is translated to 1. *)
Theorem C101_single_operand_refuted : forall find_functor, ~ (forall rho g v e, gval I0 find_functor rho g = Some v ->
  translate_back G0 find_functor g = Some e -> eval I0 rho e = Some v).
Proof. exact single_refuted. Qed.
Print Assumptions C101_single_operand_refuted.

(** 3/2 * 4 * (n + 1)^2 * log(n) *)
Definition c101_ff (s : string) : option fname := if String.eqb s "log" then Some FLog else None.
Definition c101 : gen := GSymb OProd (GVec
  [GFrac (GInt 3) (GInt 2); GInt 4; GSymb OPow (GVec [GSymb OPlus (GVec [GIdnt "n"; GInt 1]); GInt 2]); GSymb (OFun "log") (GIdnt "n")]).
Example C101_cases : times_ok I0 c101_ff times0 /\ fits c101 /\
  (exists l, c101 = GSymb OProd (GVec l)) /\ no_inverse c101 /\
  fits (fst (split_factors times0 c101)) /\ fits (snd (split_factors times0 c101)) /\
  factors_of G0 c101_ff times0 c101 =
    (Some (Num (zq 6)), Some (Mul [Pow (Add [Num 1%Qc; Sym "n"]) (Num (zq 2)); Fun FLog [Sym "n"]])) /\
  translate_back G0 c101_ff (GInt 3000000000) = None /\ translate_back G0 c101_ff (GSymb (OFun "ln") (GIdnt "n")) = None.
Proof.
  split; [apply times0_ok|]. split; [cbn; repeat split; try lia; eauto|]. split; [eexists; reflexivity|].
  split; [intros a H; repeat (destruct H as [H|H]; [discriminate|]); exact H|].
  split; [vm_compute; repeat split; try discriminate; eexists; reflexivity|].
  split; [vm_compute; repeat split; try discriminate; eexists; reflexivity|]. split; [|split; reflexivity].
  vm_compute. f_equal; f_equal; expr_case.
Qed.
