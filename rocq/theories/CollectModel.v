(** Model of the collection of powers with equal exponents or bases in src/simplify.cc. The vectors
    [bases] and [exponents] are one list of pairs; filled from the last operand to the first and read
    from the end, it is the list in the order of the operands. simplify_numer_denom is a parameter. *)
From Coq Require Import ZArith QArith Qcanon List String Bool.
From Verif Require Import Ast ExprModel NonLinModel.
Import ListNotations.
Local Open Scope bool_scope.
Local Open Scope list_scope.

Section Model.
Context (G : ginac) (simplify_nd : expr -> expr).
Definition minus_one : expr := Num (-(1))%Qc.
Definition gneg (e : expr) : expr := gmul G minus_one e.
Definition nops (e : expr) : nat := List.length (ops e).

(** simplify.cc:298-313. *)
Definition entry (f : expr) : option (expr * expr) :=
  if expr_eqb f minus_one then Some (f, Num 1) else match f with Pow b x => Some (b, x) | _ => None end.
Fixpoint entries (l : list expr) : list (expr * expr) :=
  match l with [] => [] | f :: l => match entry f with Some p => p :: entries l | None => entries l end end.
(** The factors left for the second loops, simplify.cc:384-388 and 437-440. *)
Definition plain_factor (f : expr) : bool := negb (match f with Pow _ _ => true | _ => false end) && negb (expr_eqb f minus_one).

(** simplify.cc:344-375: the j loop, for the power (b, x) at position i. *)
Fixpoint same_exponents (only_n : bool) (b x : expr) (l : list (expr * expr)) : (expr * expr) * list (expr * expr) :=
  match l with
  | [] => ((b, x), [])
  | (c, y) :: l =>
    if expr_eqb y x then
      if negb only_n || expr_eqb y (Sym "n") then
        let '(p, l) := same_exponents only_n (gmul G b c) x l in (p, (c, Num 0) :: l)
      else let '(p, l) := same_exponents only_n b x l in (p, (c, y) :: l)
    else if expr_eqb y (gneg x) then
      let '(p, l) := (if Nat.ltb (nops x) (nops y) then same_exponents only_n (gdiv G b c) x l else same_exponents only_n (gdiv G c b) y l) in
      (p, (c, Num 0) :: l)
    else let '(p, l) := same_exponents only_n b x l in (p, (c, y) :: l)
  end.
(** simplify.cc:343-378: the i loop; [n] is the number of positions left. *)
Fixpoint exponents_loop (only_n : bool) (n : nat) (l : list (expr * expr)) (acc : expr) : expr :=
  match n, l with
  | S n, (b, x) :: l =>
    let '((b, x), l) := same_exponents only_n b x l in
    exponents_loop only_n n l (gmul G acc (gpow G (simplify_nd b) x))
  | _, _ => acc
  end.
(** simplify.cc:329-391. *)
Definition collect_same_exponents (only_n : bool) (e : expr) : expr :=
  let p := entries (ops e) in
  fold_right (fun f acc => if plain_factor f then gmul G acc f else acc) (exponents_loop only_n (List.length p) p (Num 1)) (ops e).

(** simplify.cc:419-429: the j loop. *)
Fixpoint same_base (b x : expr) (l : list (expr * expr)) : expr * list (expr * expr) :=
  match l with
  | [] => (x, [])
  | (c, y) :: l =>
    if expr_eqb c b then let '(x, l) := same_base b (gadd G x y) l in (x, (c, Num 0) :: l)
    else let '(x, l) := same_base b x l in (x, (c, y) :: l)
  end.
(** simplify.cc:418-431: the product, and the final contents of the vectors. *)
Fixpoint bases_loop (n : nat) (l : list (expr * expr)) (acc : expr) : expr * list (expr * expr) :=
  match n, l with
  | S n, (b, x) :: l =>
    let '(x, l) := same_base b x l in
    let '(acc, l) := bases_loop n l (gmul G acc (gpow G b x)) in (acc, (b, x) :: l)
  | _, _ => (acc, [])
  end.
(** simplify.cc:448-466: the power that absorbs the factor [f] (the last match wins) and what it becomes. *)
Definition absorbed (f b x : expr) : expr :=
  match b, x with
  | Num q, Num _ => if negb (q_is_int q) || expr_eqb b minus_one then gpow G b (gadd G x (Num 1)) else gmul G (gpow G b x) f
  | _, _ => gpow G b (gadd G x (Num 1))
  end.
Fixpoint absorber (f : expr) (l : list (expr * expr)) : option (expr * expr) :=
  match l with
  | [] => None
  | (b, x) :: l =>
    match absorber f l with
    | Some r => Some r
    | None => if expr_eqb b f && negb (expr_eqb x (Num 0)) then Some (gpow G b x, absorbed f b x) else None
    end
  end.
(** simplify.cc:437-472. *)
Definition add_factor (l : list (expr * expr)) (f acc : expr) : expr :=
  if plain_factor f then match absorber f l with Some (old, new) => substitute G old new acc | None => gmul G acc f end else acc.
(** simplify.cc:403-476. *)
Definition collect_same_base (e : expr) : expr :=
  let p := entries (ops e) in
  let '(acc, p) := bases_loop (List.length p) p (Num 1) in
  fold_right (add_factor p) acc (ops e).
(** simplify.cc:484-503. *)
Definition collect_base_exponent (e : expr) : expr :=
  let r := collect_same_exponents false e in
  match r with Mul _ => collect_same_base r | _ => r end.
End Model.
