(** C75: the square-free factorisation of expressions with parts that GiNaC does not take for polynomials. *)
From Coq Require Import ZArith QArith Qcanon Reals List Ascii String Bool Lia Lra.
From Verif Require Import Ast ExprModel ExprSpec ExprProofs1 ExprProofs2 BlackboardModel NamesSpec NamesProofs SqrModel SqrSpec SqrProofs.
Import ListNotations.
Local Open Scope list_scope.
Local Open Scope nat_scope.

(** The call ends, no assertion fails, and the result has the value of the argument for all values of the symbols, if GiNaC's own factorisation
    does so for rational expressions. *)
Theorem C75_value : forall G fresh I, ginac_ok I G -> no_new_symbols G -> keeps_rational G ->
  forall x y ginac_sqrfree, new_names fresh x -> (forall z, In z y -> is_polynomial z x = true) -> factorises I (ginac_sqrfree y) ->
  exists e f0, forall f, f0 <= f -> sqrfree G fresh ginac_sqrfree f x y = Done e /\ same_value I x e.
Proof. intros G fresh I HG NS KR x y gs [J C] P F. apply (sqrfree_ok G fresh I HG NS KR J y gs x C); auto. now apply Forall_forall. Qed.
(** Without symbols to factorise with respect to (as factorize calls it) every argument is accepted. *)
Theorem C75_any_argument : forall G fresh I, ginac_ok I G -> no_new_symbols G -> keeps_rational G ->
  forall x ginac_sqrfree, new_names fresh x -> factorises I (ginac_sqrfree []) ->
  exists e f0, forall f, f0 <= f -> sqrfree G fresh ginac_sqrfree f x [] = Done e /\ same_value I x e.
Proof. intros G fresh I HG NS KR x gs N F. apply (C75_value G fresh I HG NS KR x [] gs N); auto. Qed.
(** GiNaC is only asked about rational expressions, and what is hidden from it does not contain the symbols it factorises with respect to. *)
Theorem C75_hidden : forall G fresh I, ginac_ok I G -> no_new_symbols G -> keeps_rational G ->
  forall x y, new_names fresh x -> (forall z, In z y -> is_polynomial z x = true) ->
  exists b k x1, substitute_critical G fresh y (empty_blackboard, 0) x = Done (b, k, x1) /\ rational_form x1 /\
    forall z d, get_definition b z = Done d -> d <> Sym z -> exists i, i < k /\ z = fresh i /\ forall w, In w y -> has w d = false.
Proof. intros G fresh I HG NS KR x y [J C] P. apply (hidden_ok G fresh I HG KR J y x C). now apply Forall_forall. Qed.
(** An expression that is no polynomial in one of the symbols stops at the assertion and never reaches GiNaC. *)
Theorem C75_refused : forall G fresh x y ginac_sqrfree f, (exists z, In z y /\ is_polynomial z x = false) -> sqrfree G fresh ginac_sqrfree f x y = Undefined.
Proof.
  intros G fresh x y gs f (z & Hz & E). unfold sqrfree. destruct (forallb _ y) eqn:P; [|reflexivity].
  rewrite forallb_forall in P. specialize (P z Hz). cbv beta in P. congruence.
Qed.
Example C75_refused_used : is_polynomial "x"%string (Pow (Num (zq 2)) (Sym "x")) = false. Proof. reflexivity. Qed.

(** * Examples *)
Lemma G0_keeps_rational : keeps_rational G0.
Proof.
  assert (A : forall a, rational_form a -> Forall rational_form (ops_add a)) by (intros a H; destruct a; cbn; auto; inversion H; auto).
  assert (M : forall a, rational_form a -> Forall rational_form (ops_mul a)) by (intros a H; destruct a; cbn; auto; inversion H; auto).
  split; [|split].
  - intros a b Ha Hb. assert (S : rational_form (if is_num 0%Qc a then b else if is_num 0%Qc b then a else Add (ops_add a ++ ops_add b))).
    { destruct (is_num 0%Qc a); auto. destruct (is_num 0%Qc b); auto. constructor. apply Forall_app; auto. }
    cbn [G0 gadd]. destruct a; try exact S. destruct b; try exact S. constructor.
  - intros a b Ha Hb. assert (S : rational_form (if is_num 1%Qc a then b else if is_num 1%Qc b then a else Mul (ops_mul a ++ ops_mul b))).
    { destruct (is_num 1%Qc a); auto. destruct (is_num 1%Qc b); auto. constructor. apply Forall_app; auto. }
    cbn [G0 gmul]. destruct a; try exact S. destruct b; try exact S. constructor.
  - intros a q Ha Hq. now constructor.
Qed.
(** Names made of letters. *)
Fixpoint stars (k : nat) : string := match k with O => EmptyString | S k => String "*"%char (stars k) end.
Lemma stars_inj i : forall j, stars i = stars j -> i = j.
Proof. induction i; intros [|j]; cbn; try discriminate; auto. intros [= H]. f_equal. auto. Qed.
Definition log2 : expr := Fun FLog [Num (zq 2)].
(** x^2 + 2 log(2) x + log(2)^2, that is (x + log(2))^2. *)
Definition square_ex : expr := Add [Pow (Sym "x") (Num (zq 2)); Mul [Num (zq 2); log2; Sym "x"]; Pow log2 (Num (zq 2))].
Lemma square_names : new_names (fun k => String "*"%char (stars k)) square_ex.
Proof. split; [intros i j [= H]; now apply stars_inj|]. intros i. reflexivity. Qed.
Lemma id_factorises I : factorises I (fun e => e). Proof. intros e H. auto. Qed.
Example C75_value_used : forall I, exists e f0, forall f, f0 <= f ->
  sqrfree G0 (fun k => String "*"%char (stars k)) (fun _ e => e) f square_ex ["x"%string] = Done e /\ same_value I square_ex e.
Proof.
  intros I. apply (C75_value G0 _ I (G0_ok I) G0_no_new_symbols G0_keeps_rational); [apply square_names| |apply id_factorises].
  intros z [<-|[]]. reflexivity.
Qed.
Example C75_any_argument_used : forall I, exists e f0, forall f, f0 <= f ->
  sqrfree G0 (fun k => String "*"%char (stars k)) (fun _ e => e) f (Mul [square_ex; Pow (Num (zq 2)) (Sym "x")]) [] = Done e /\ same_value I (Mul [square_ex; Pow (Num (zq 2)) (Sym "x")]) e.
Proof.
  intros I. apply (C75_any_argument G0 _ I (G0_ok I) G0_no_new_symbols G0_keeps_rational); [|apply id_factorises].
  split; [intros i j [= H]; now apply stars_inj|]. intros i. reflexivity.
Qed.
Example C75_hidden_used : exists b k x1, substitute_critical G0 (fun k => String "*"%char (stars k)) ["x"%string] (empty_blackboard, 0) square_ex = Done (b, k, x1) /\ k = 2 /\ rational_form x1.
Proof.
  destruct (C75_hidden G0 (fun k => String "*"%char (stars k)) (MkI (fun _ => 0%R) (fun _ _ => None)) (G0_ok _) G0_no_new_symbols G0_keeps_rational square_ex ["x"%string] square_names) as (b & k & x1 & E & R & _).
  - intros z [<-|[]]. reflexivity.
  - exists b, k, x1. split; [exact E|]. split; [|exact R]. assert (H : match substitute_critical G0 (fun k => String "*"%char (stars k)) ["x"%string] (empty_blackboard, 0) square_ex with Done (_, k, _) => k | _ => 0 end = 2) by (vm_compute; reflexivity).
    rewrite E in H. exact H.
Qed.
(** A part that occurs twice is hidden behind two different symbols: GiNaC is not given a square of a polynomial for the square of x + log(2). It is asked about
    x^2 + 2 a x + b^2 with different a and b. *)
Theorem C75_one_symbol_refuted : ~ (forall G fresh, ginac_ok (MkI (fun _ => 0%R) (fun _ _ => None)) G -> no_new_symbols G -> keeps_rational G ->
  forall x y b k x1, new_names fresh x -> substitute_critical G fresh y (empty_blackboard, 0) x = Done (b, k, x1) ->
  forall u v d, get_definition b u = Done d -> get_definition b v = Done d -> d <> Sym u -> d <> Sym v -> u = v).
Proof.
  intros H.
  pose (r := substitute_critical G0 (fun k => String "*"%char (stars k)) ["x"%string] (empty_blackboard, 0) square_ex).
  assert (E : exists b k x1, r = Done (b, k, x1) /\ get_definition b "*" = Done log2 /\ get_definition b "**" = Done log2).
  { unfold r. vm_compute. eexists _, _, _. split; [reflexivity|]. split; reflexivity. }
  destruct E as (b & k & x1 & E & E1 & E2).
  specialize (H G0 (fun k => String "*"%char (stars k)) (G0_ok _) G0_no_new_symbols G0_keeps_rational square_ex ["x"%string] b k x1 square_names E "*"%string "**"%string log2 E1 E2).
  discriminate H; discriminate.
Qed.

Print Assumptions C75_value.
Print Assumptions C75_any_argument.
Print Assumptions C75_hidden.
Print Assumptions C75_one_symbol_refuted.
Print Assumptions C75_refused.
