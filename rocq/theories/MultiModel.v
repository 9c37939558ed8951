(** Model of the reduction of multivariate recurrences x(k,{v_1,...,v_p}) = rhs to recurrences in one variable
    (tests/multivar_driver.cc, functions find_terms_with_x ... multivar_solve).
    Simplifications: x(k,{a_1,...,a_p}) is the function "x2" applied to k, a_1, ..., a_p; the arguments on the left-hand side are
    symbols; an occurrence test stands for the comparison of an argument with the result of replacing a symbol in it by a new one;
    [equal] is operator== on differences and sums of arguments, which GiNaC brings to a normal form; the solver for one variable is a
    parameter; the new symbols are named "n_replacement" and "r". *)
From Coq Require Import ZArith QArith Qcanon List String Bool.
From Verif Require Import Ast ExprModel.
Import ListNotations.
Local Open Scope list_scope.
Local Open Scope bool_scope.
Local Open Scope nat_scope.

Definition x2 (k : expr) (args : list expr) : expr := Fun (FOther "x2") (k :: args).
(** Expr.inlines.hh:822-826. *)
Definition is_x2 (e : expr) : bool := match e with Fun (FOther s) (_ :: _) => String.eqb s "x2" | _ => false end.
Definition x2_index (e : expr) : expr := match e with Fun _ (k :: _) => k | _ => Num 0%Qc end.
Definition x2_args (e : expr) : list expr := match e with Fun _ (_ :: l) => l | _ => [] end.
Definition is_a_number (e : expr) : bool := match e with Num _ => true | _ => false end.
Definition is_a_symbol (e : expr) : bool := match e with Sym _ => true | _ => false end.

(** tests/multivar_driver.cc:781-804 find_terms_with_x, from the last operand; [None]: x() with one argument, an error. *)
Fixpoint find_terms (e : expr) : option (list expr) :=
  let two (p q : option (list expr)) := match p, q with Some p, Some q => Some (p ++ q) | _, _ => None end in
  let fix many (l : list expr) : option (list expr) := match l with [] => Some [] | a :: l => two (many l) (find_terms a) end in
  match e with
  | Fun f l => if is_x2 e then Some [e] else match f with FX => None | _ => many l end
  | Add l | Mul l => many l
  | Pow a b => two (find_terms b) (find_terms a)
  | SumE _ lo up b | ProdE _ lo up b => two (find_terms b) (two (find_terms up) (find_terms lo))
  | _ => Some []
  end.

Inductive outcome := Exits | Unsolved | Answer (e : expr).
Inductive kind := ONE_TRUE_VARIABLE | CONSTANT_DIFFERENCE | CONSTANT_SUM.

Section M.
Variable G : ginac.
Variable equal : expr -> expr -> bool.
(** compute_exact_solution and exact_solution for x(n) = rhs. *)
Variable solve : expr -> option expr.

(** The loop over the operands of restore_arity and insert_initial_conditions_recursive (multivar_driver.cc:955-959, 884-888): the
    expression changes while its operands are visited; op(i) of a power or a function is a failed assertion. *)
Fixpoint walk (fuel : nat) (leaf : expr -> option expr) (e : expr) : option expr :=
  match fuel with
  | O => None
  | S fuel =>
    let ops_loop := fix ops_loop (k i : nat) (ex : expr) : option expr :=
      match k with
      | O => None
      | S k =>
        match ex with
        | Add l | Mul l =>
          match nth_error l i with
          | None => Some ex
          | Some o => match walk fuel leaf o with None => None | Some o' => ops_loop k (S i) (substitute G o o' ex) end
          end
        | Num _ | Cst _ | Sym _ => Some ex
        | _ => if i <? List.length (ops ex) then None else Some ex
        end
      end in
    match e with
    | Add (_ :: _ :: _) | Mul (_ :: _ :: _) => ops_loop fuel 0 e
    | _ => leaf e
    end
  end.

(** multivar_driver.cc:931-953: what x(arg) is replaced by. *)
Definition restored (t : kind) (lhs v0 v1 arg : expr) : expr :=
  match t with
  | ONE_TRUE_VARIABLE => substitute G v0 arg lhs
  | CONSTANT_DIFFERENCE =>
    substitute G (Sym "r") (gfun G FMax [gsub G v1 v0; arg])
      (substitute G v1 (gfun G FMax [arg; gsub G v0 v1]) (substitute G v0 (Sym "r") lhs))
  | CONSTANT_SUM => substitute G v1 (gadd G v1 v0) (substitute G v0 arg lhs)
  end.
(** multivar_driver.cc:926-961 restore_arity. *)
Definition restore_leaf (t : kind) (lhs v0 v1 : expr) (e : expr) : option expr :=
  match e with Fun FX [a] => Some (restored t lhs v0 v1 a) | _ => Some e end.
Definition restore_arity (fuel : nat) (t : kind) (lhs v0 v1 e : expr) : option expr := walk fuel (restore_leaf t lhs v0 v1) e.

(** An initial condition x(k,{p_1,...,p_m}) == value. *)
Definition condition := (expr * list expr * expr)%type.
(** multivar_driver.cc:855-874: numbers must agree; [None]: op(k) out of range. *)
Fixpoint matches (ps ts : list expr) : option bool :=
  match ps, ts with
  | [], _ => Some true
  | Num q :: ps, t :: ts => match t with Num q' => if Qc_eqb q' q then matches ps ts else Some false | _ => Some false end
  | Num _ :: _, [] => None
  | _ :: ps, _ :: ts => matches ps ts
  | _ :: ps, [] => matches ps []
  end.
(** multivar_driver.cc:875-880: one parameter after the other. *)
Fixpoint plug (ps ts : list expr) (value : expr) : option expr :=
  match ts, ps with
  | [], _ => Some value
  | t :: ts, p :: ps => plug ps ts (substitute G p t value)
  | _ :: _, [] => None
  end.
(** multivar_driver.cc:853-882: the loop over the conditions. The term is a reference to the expression that is replaced; arg() of an
    expression that is neither a function nor a power is a failed assertion, arg(1) of a function of one argument is out of range. *)
Fixpoint conditions_loop (conds : list condition) (ex : expr) : option expr :=
  match conds with
  | [] => Some ex
  | (k, ps, value) :: conds =>
    match ex with
    | Fun _ (k' :: ts) =>
      if is_x2 ex then
        if expr_eqb k' k then
          match matches ps ts with
          | None => None
          | Some false => conditions_loop conds ex
          | Some true => match plug ps ts value with Some new => conditions_loop conds new | None => None end
          end
        else conditions_loop conds ex
      else None
    | Pow a _ => if expr_eqb a k then None else conditions_loop conds ex
    | _ => None
    end
  end.
(** multivar_driver.cc:849-890 insert_initial_conditions_recursive. *)
Definition insert_leaf (conds : list condition) (e : expr) : option expr := if is_x2 e then conditions_loop conds e else Some e.
Definition insert_conditions (fuel : nat) (conds : list condition) (e : expr) : option expr := walk fuel (insert_leaf conds) e.

(** multivar_driver.cc:983-1009: can the i-th argument be neglected? *)
Definition neglects (vs : list string) (i : nat) (t : expr) : bool :=
  let v := nth i vs EmptyString in
  forallb (fun p => if fst p =? i then is_a_number (snd p) || expr_eqb (snd p) (Sym v) else negb (has v (snd p)))
    (combine (seq 0 (List.length (x2_args t))) (x2_args t)).
Definition dummy (k : expr) (vs : list string) (terms : list expr) (i : nat) : bool :=
  forallb (fun t => if expr_eqb k (x2_index t) then neglects vs i t else true) terms.
(** multivar_driver.cc:1010-1021; more than two is an error. *)
Definition real_vars (k : expr) (vs : list string) (terms : list expr) : list nat :=
  filter (fun i => negb (dummy k vs terms i)) (rev (seq 0 (List.length vs))).

Definition arg_at (i : nat) (t : expr) : expr := nth i (x2_args t) (Num 0%Qc).
(** multivar_driver.cc:1034-1044: the last symbol seen, from the last operand. *)
Definition symbol_in (e cur : expr) : expr := match find is_a_symbol (ops e) with Some s => s | None => cur end.
(** multivar_driver.cc:1032-1048: one true variable. *)
Definition one_step (i : nat) (st : expr * expr) (t : expr) : expr * expr :=
  let a := arg_at i t in
  let v := symbol_in a (fst st) in
  (v, substitute G t (gfun G FX [substitute G v (Sym "n") a]) (snd st)).
(** The same for two variables, multivar_driver.cc:1128-1133, 1208-1213. *)
Definition two_step (i : nat) (v : expr) (rhs t : expr) : expr :=
  substitute G t (gfun G FX [substitute G v (Sym "n") (arg_at i t)]) rhs.
(** multivar_driver.cc:1106, Expr.cc:719-738: compare(a, v) = -1; a difference that is not a number, a failed assertion there, counts as
    not smaller. *)
Definition decreases (a v : expr) : bool := match gsub G a v with Num q => q_lt q 0%Qc | _ => false end.

Definition obind2 (o : option expr) (f : expr -> option expr) : option expr := match o with Some e => f e | None => None end.
Definition finish (o : option expr) : outcome := match o with Some e => Answer e | None => Exits end.
(** multivar_driver.cc:1050-1072, 1135-1199, 1215-1234: solve and go back; [final] replaces n. *)
Definition back (fuel : nat) (t : kind) (conds : list condition) (lhs v0 v1 final rhs : expr) : outcome :=
  match solve rhs with
  | None => Unsolved
  | Some s => finish (obind2 (restore_arity fuel t lhs v0 v1 s) (fun s => obind2 (insert_conditions fuel conds s) (fun s =>
      Some (substitute G (Sym "n_replacement") (Sym "n") (substitute G (Sym "n") final s)))))
  end.
Definition n_away (e : expr) : expr := substitute G (Sym "n") (Sym "n_replacement") e.
(** multivar_driver.cc:964-1242 multivar_solve and 1257-1297: the left-hand side is x(k,{vs}). *)
Definition multivar_solve (fuel : nat) (conds : list condition) (k : expr) (vs : list string) (rhs0 : expr) : outcome :=
  match find_terms rhs0 with
  | None => Exits
  | Some terms0 =>
    let vs := map (fun v => if String.eqb v "n" then "n_replacement"%string else v) vs in
    let lhs := x2 k (map Sym vs) in
    let rhs := n_away rhs0 in
    let terms := map n_away terms0 in
    let conds := map (fun c => (n_away (fst (fst c)), map n_away (snd (fst c)), n_away (snd c))) conds in
    match real_vars k vs terms with
    | [i] =>
      let '(v, rhs) := fold_left (one_step i) terms (Num 0%Qc, rhs) in
      back fuel ONE_TRUE_VARIABLE conds lhs v v v rhs
    | [i0; i1] =>
      let v0 := Sym (nth i0 vs EmptyString) in let v1 := Sym (nth i1 vs EmptyString) in
      let difference := forallb (fun t => equal (gsub G (arg_at i0 t) (arg_at i1 t)) (gsub G v0 v1)) terms in
      let invalid := existsb (fun t => negb (expr_eqb (substitute G v0 (Sym "r") (arg_at i0 t)) (substitute G v1 (Sym "r") (arg_at i1 t)))) terms in
      let sum := forallb (fun t => equal (gadd G (arg_at i0 t) (arg_at i1 t)) (gadd G v0 v1)) terms in
      let first := match rev terms with t :: _ => decreases (arg_at i0 t) v0 | [] => false end in
      if negb difference && negb sum then Exits
      else if difference then
        if invalid then Exits
        else back fuel CONSTANT_DIFFERENCE conds lhs v0 v1 (gfun G FMin [v0; v1]) (fold_left (two_step i0 v0) terms rhs)
      else
        let '(d, v0, v1) := if first then (i0, v0, v1) else (i1, v1, v0) in
        back fuel CONSTANT_SUM conds lhs v0 v1 v0 (fold_left (two_step d v0) terms rhs)
    | _ => Exits
    end
  end.
End M.
