(** C76: the answer for a recurrence in several variables has the values of every function that satisfies the recurrence. *)
From Coq Require Import ZArith QArith Qcanon Reals List String Bool Lia Lra.
From Verif Require Import Ast ExprModel ExprSpec SeqInterp NonLinModel MultiModel MultiSpec MultiProofs MultiProofs2 MultiProofs3 MultiCases.
Import ListNotations.
Local Open Scope list_scope.
Local Open Scope R_scope.

(** One true variable, no initial conditions: if x(.) occurs on the right-hand side only as x(k,{v_1,...,v_i + c,...,v_p}), v_i occurs nowhere
    else, and the solver for one variable is right, then so is the answer. Missing: numbers among the arguments, v_i outside x(.), two
    variables, solutions with sums or products (refuted or not covered, below). *)
Theorem C76_one_variable_partial : forall I X G equal solve, (forall x, ginac_ok (with_x (with_X I X) x) G) -> adds_no_binders G ->
  forall k vs i K, NoDup vs -> ~ In "n_replacement"%string vs -> (i < List.length vs)%nat ->
  forall rho zs, List.length zs = List.length vs ->
  forall fuel rhs terms aux e, no_binders rhs -> has "n_replacement" rhs = false -> has_x_function rhs = false ->
  find_terms rhs = Some terms ->
  (forall t, In t terms -> regular_term k (map rename vs) i K (substitute G (Sym "n") (Sym "n_replacement") t)) -> terms <> [] ->
  aux = snd (fold_left (one_step G i) (map (n_away G) terms) (Num 0%Qc, n_away G rhs)) -> has (nth i (map rename vs) EmptyString) aux = false ->
  solver_correct (with_X I X) K solve -> (forall s, solve aux = Some s -> no_binders s) ->
  multivar_solve G equal solve fuel [] (Num (zq k)) vs rhs = Answer e -> has_x_function e = false ->
  satisfies I X rho k vs i K rhs -> (Z.of_nat K <= nth i zs 0%Z)%Z -> gives I X rho k vs e zs.
Proof. exact one_variable. Qed.
Print Assumptions C76_one_variable_partial.

(** x(n,m) = x(n-1,m) + m gives x(0,m) + n m. *)
Example C76_one_variable_case : forall I,
  (forall x, ginac_ok (with_x (with_X I X_reg) x) Gf) /\ adds_no_binders Gf /\ solver_correct (with_X I X_reg) 1 (table (aux1 m_) (sol1 m_)) /\
  find_terms rhs_reg = Some [lhs0 (plus n_ (-1)) m_] /\
  regular_term 0 (map rename vars) 0 1 (substitute Gf (Sym "n") (Sym "n_replacement") (lhs0 (plus n_ (-1)) m_)) /\
  multivar_solve Gf equal0 (table (aux1 m_) (sol1 m_)) 9 [] zero vars rhs_reg = Answer (Add [lhs0 zero m_; Mul [n_; m_]]) /\
  (forall rho, satisfies I X_reg rho 0 vars 0 1 rhs_reg) /\
  (forall rho, gives I X_reg rho 0 vars (Add [lhs0 zero m_; Mul [n_; m_]]) [7; 3]%Z).
Proof.
  intros I. split; [intros x; apply Gf_ok|]. split; [exact Gf_nb|]. split; [apply correct1; reflexivity|]. split; [reflexivity|].
  assert (HR : regular_term 0 (map rename vars) 0 1 (substitute Gf (Sym "n") (Sym "n_replacement") (lhs0 (plus n_ (-1)) m_))).
  { exists [Add [Sym "n_replacement"; Num (zq (-1))]; Sym "m"], (-1)%Z. split; [apply expr_eqb_eq; vm_compute; reflexivity|].
    split; [reflexivity|]. split; [lia|]. intros [|[|j]] Hj; try reflexivity. cbn in Hj. lia. }
  assert (HA : multivar_solve Gf equal0 (table (aux1 m_) (sol1 m_)) 9 [] zero vars rhs_reg = Answer (Add [lhs0 zero m_; Mul [n_; m_]])).
  { apply answers_eq. vm_compute. reflexivity. }
  split; [exact HR|]. split; [exact HA|]. split; [exact (reg_sat I)|]. intros rho.
  eapply (C76_one_variable_partial I X_reg Gf equal0 (table (aux1 m_) (sol1 m_)) (fun x => Gf_ok _) Gf_nb 0 vars 0 1) with (fuel := 9%nat) (rhs := rhs_reg).
  - repeat constructor; cbn; intuition discriminate.
  - cbn. intuition discriminate.
  - cbn. lia.
  - reflexivity.
  - cbn. tauto.
  - reflexivity.
  - reflexivity.
  - reflexivity.
  - intros t [<-|[]]. exact HR.
  - discriminate.
  - reflexivity.
  - vm_compute. reflexivity.
  - apply correct1; reflexivity.
  - intros s. unfold table. destruct (expr_eqb _ _); intros E; [|discriminate]. assert (s = sol1 m_) by congruence. subst. cbn. tauto.
  - exact HA.
  - reflexivity.
  - apply reg_sat.
  - cbn. lia.
Qed.

(** A valid initial condition x(k,{p_1,...,p_m}) == value may be used for x(k,{t_1,...,t_m}) if no later parameter occurs in an earlier
    argument. Missing: arguments that contain a later parameter, several conditions (refuted below). *)
Theorem C76_initial_condition_partial : forall I X G, ginac_ok (with_X I X) G -> adds_no_binders G ->
  forall rho k ps value ts e v, plain_parameters ps -> NoDup (parameters ps) -> List.length ps = List.length ts ->
  no_binders value -> Forall no_binders ts -> not_captured ps ts ->
  condition_holds I X rho k ps value -> conditions_loop G [(Num (zq k), ps, value)] (x2 (Num (zq k)) ts) = Some e ->
  eval (with_X I X) rho (x2 (Num (zq k)) ts) = Some v -> eval (with_X I X) rho e = Some v.
Proof. exact condition_inserted. Qed.
Print Assumptions C76_initial_condition_partial.

(** x(0,{0,m}) == m in x(0,{0,m}) + n m. *)
Example C76_initial_condition_case : (forall I rho, condition_holds I X_reg rho 0 [zero; m_] m_) /\
  plain_parameters [zero; m_] /\ NoDup (parameters [zero; m_]) /\ not_captured [zero; m_] [zero; m_] /\
  conditions_loop Gf [(zero, [zero; m_], m_)] (x2 zero [zero; m_]) = Some m_ /\
  multivar_solve Gf equal0 (table (aux1 m_) (sol1 m_)) 9 [(zero, [zero; m_], m_)] zero vars rhs_reg = Answer (Add [m_; Mul [n_; m_]]).
Proof.
  split; [exact reg_c0|]. split; [repeat constructor|]. split; [repeat constructor; cbn; tauto|]. split; [cbn; split; [auto|split; [intros s []|auto]]|].
  split; [vm_compute; reflexivity|exact one_condition].
Qed.

(** A number among the other arguments is neglected: x(n,m) = x(n-1,5) + m is answered x(0,m) + n m. *)
Theorem C76_number_argument_refuted : exists X solve e, (forall I, solver_correct I 1 solve) /\
  (forall I rho, satisfies I X rho 0 ["n"; "m"]%string 0 1 (Add [Fun (FOther "x2") [Num (zq 0); Add [Sym "n"; Num (zq (-1))]; Num (zq 5)]; Sym "m"])) /\
  multivar_solve Gf equal0 solve 9 [] (Num (zq 0)) ["n"; "m"]%string (Add [Fun (FOther "x2") [Num (zq 0); Add [Sym "n"; Num (zq (-1))]; Num (zq 5)]; Sym "m"]) = Answer e /\
  forall I rho, ~ gives I X rho 0 ["n"; "m"]%string e [2; 1]%Z.
Proof. exact number_argument. Qed.
Print Assumptions C76_number_argument_refuted.

(** The variable outside x(.) is taken for a parameter: x(n,m) = x(n-1,m) + n is answered x(0,m) + n^2. *)
Theorem C76_outside_refuted : exists X solve e, (forall I, solver_correct I 1 solve) /\
  (forall I rho, satisfies I X rho 0 ["n"; "m"]%string 0 1 (Add [Fun (FOther "x2") [Num (zq 0); Add [Sym "n"; Num (zq (-1))]; Sym "m"]; Sym "n"])) /\
  multivar_solve Gf equal0 solve 9 [] (Num (zq 0)) ["n"; "m"]%string (Add [Fun (FOther "x2") [Num (zq 0); Add [Sym "n"; Num (zq (-1))]; Sym "m"]; Sym "n"]) = Answer e /\
  forall I rho, ~ gives I X rho 0 ["n"; "m"]%string e [2; 1]%Z.
Proof. exact outside. Qed.
Print Assumptions C76_outside_refuted.

(** Constant difference: the two arguments of the restored x(.) are swapped; x(n,m) = x(n-1,m-1) + 1 is answered
    x(max(0,m-n), max(n-m,0)) + min(m,n). *)
Theorem C76_difference_refuted : exists X solve e, (forall I, solver_correct I 1 solve) /\
  (forall I rho, satisfies I X rho 0 ["n"; "m"]%string 0 1 (Add [Fun (FOther "x2") [Num (zq 0); Add [Sym "n"; Num (zq (-1))]; Add [Sym "m"; Num (zq (-1))]]; Num (zq 1)])) /\
  multivar_solve Gf equal0 solve 9 [] (Num (zq 0)) ["n"; "m"]%string (Add [Fun (FOther "x2") [Num (zq 0); Add [Sym "n"; Num (zq (-1))]; Add [Sym "m"; Num (zq (-1))]]; Num (zq 1)]) = Answer e /\
  forall rho, ~ gives I0 X rho 0 ["n"; "m"]%string e [5; 2]%Z.
Proof. exact difference. Qed.
Print Assumptions C76_difference_refuted.

(** Constant sum: x(a) becomes x(a, n+m) instead of x(a, n+m-a). *)
Theorem C76_sum_refuted : exists X solve e, (forall I, solver_correct I 2 solve) /\
  (forall I rho, satisfies I X rho 0 ["n"; "m"]%string 0 2 (Add [Mul [Num (zq 2); Fun (FOther "x2") [Num (zq 0); Add [Sym "n"; Num (zq (-1))]; Add [Sym "m"; Num (zq 1)]]];
     Mul [Num (zq (-1)); Fun (FOther "x2") [Num (zq 0); Add [Sym "n"; Num (zq (-2))]; Add [Sym "m"; Num (zq 2)]]]])) /\
  multivar_solve Gf equal0 solve 9 [] (Num (zq 0)) ["n"; "m"]%string (Add [Mul [Num (zq 2); Fun (FOther "x2") [Num (zq 0); Add [Sym "n"; Num (zq (-1))]; Add [Sym "m"; Num (zq 1)]]];
     Mul [Num (zq (-1)); Fun (FOther "x2") [Num (zq 0); Add [Sym "n"; Num (zq (-2))]; Add [Sym "m"; Num (zq 2)]]]]) = Answer e /\
  forall I rho, ~ gives I X rho 0 ["n"; "m"]%string e [2; 0]%Z.
Proof. exact sum. Qed.
Print Assumptions C76_sum_refuted.

(** x(.) below a power stays in the answer with one argument. *)
Theorem C76_left_over_refuted : exists e, multivar_solve Gf equal0
    (fun r => if expr_eqb r (Pow (Fun FX [Add [Sym "n"; Num (zq (-1))]]) (Num (zq 2))) then Some (Pow (Fun FX [Num (zq 0)]) (Pow (Num (zq 2)) (Sym "n"))) else None)
    9 [] (Num (zq 0)) ["n"; "m"]%string (Pow (Fun (FOther "x2") [Num (zq 0); Add [Sym "n"; Num (zq (-1))]; Sym "m"]) (Num (zq 2))) = Answer e /\ has_x_function e = true.
Proof. exact left_over. Qed.
Print Assumptions C76_left_over_refuted.

(** Two valid conditions, the first of which applies: the program stops, because it looks at the arguments of the value it has just put in;
    with the conditions in the other order it answers. *)
Theorem C76_two_conditions_refuted : (forall I rho, satisfies I X_reg rho 0 vars 0 1 rhs_reg) /\
  (forall I rho, condition_holds I X_reg rho 0 [zero; m_] m_) /\ (forall I rho, condition_holds I X_reg rho 0 [Num (zq 1); m_] (Mul [Num (zq 2); m_])) /\
  multivar_solve Gf equal0 (table (aux1 m_) (sol1 m_)) 9 [(zero, [zero; m_], m_); (zero, [Num (zq 1); m_], Mul [Num (zq 2); m_])] zero vars rhs_reg = Exits /\
  multivar_solve Gf equal0 (table (aux1 m_) (sol1 m_)) 9 [(zero, [Num (zq 1); m_], Mul [Num (zq 2); m_]); (zero, [zero; m_], m_)] zero vars rhs_reg = Answer (Add [m_; Mul [n_; m_]]).
Proof. exact (conj reg_sat (conj reg_c0 (conj reg_c1 (conj two_conditions other_order)))). Qed.
Print Assumptions C76_two_conditions_refuted.

(** The parameters are replaced one after the other: x(0,{a,b}) == a - b turns x(0,{b,a}) into a - a. *)
Theorem C76_capture_refuted : exists X e, (forall I rho, condition_holds I X rho 0 [Sym "a"; Sym "b"] (Add [Sym "a"; Mul [Num (zq (-1)); Sym "b"]])) /\
  conditions_loop Gf [(Num (zq 0), [Sym "a"; Sym "b"], Add [Sym "a"; Mul [Num (zq (-1)); Sym "b"]])] (x2 (Num (zq 0)) [Sym "b"; Sym "a"]) = Some e /\
  forall I rho, rho "a"%string = 1 -> rho "b"%string = 3 -> eval (with_X I X) rho (x2 (Num (zq 0)) [Sym "b"; Sym "a"]) = Some 2 /\ eval (with_X I X) rho e = Some 0.
Proof.
  exists X_cap, cap_new. split; [exact cap_holds|]. split; [exact cap_run|]. intros I rho Ha Hb. split.
  - unfold x2. rewrite (eval_x2' I X_cap rho 0 _ _ 3 1); [unfold X_cap; f_equal; lra|cbn; now rewrite Hb|cbn; now rewrite Ha].
  - unfold cap_new. rewrite eval_Add2, eval_Mul2. cbn [eval olift2]. rewrite Ha, rv_zq. cbn [olift2]. f_equal. lra.
Qed.
Print Assumptions C76_capture_refuted.
