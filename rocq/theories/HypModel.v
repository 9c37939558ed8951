(** Model of the first step of Gosper's and of Zeilberger's algorithm (src/gosper.cc, src/zeilberger.cc). Parameters: [sbfe] is
    simplify_binomials_factorials_exponentials, [snum] is simplify_numer_denom, [nd] is GiNaC's numer_denom. *)
From Coq Require Import ZArith QArith Qcanon List String Bool.
From Verif Require Import Ast ExprModel.
Import ListNotations.
Local Open Scope bool_scope.
Local Open Scope list_scope.

Section Step.
Context (G : ginac) (sbfe snum : expr -> expr) (nd : expr -> expr * expr).
Definition num_n (n : nat) : expr := Num (zq (Z.of_nat n)).
Definition minus_1 : expr := Num (-(1))%Qc.
(** Expr.cc:1051-1060 Expr::is_rational_function. *)
Definition is_rational_function (x : string) (e : expr) : bool := let '(n, d) := nd e in is_polynomial x n && is_polynomial x d.
(** gosper.cc:68-71, zeilberger.cc:70-77, 83-87: the simplified quotient of two expressions. *)
Definition quotient (a b : expr) : expr := snum (gmul G (sbfe a) (gpow G (sbfe b) minus_1)).
(** e.substitute(s, s+1), F_m_k.substitute(m, m-1) *)
Definition next (s : string) (e : expr) : expr := substitute G (Sym s) (gadd G (Sym s) (Num 1)) e.
Definition previous (s : string) (e : expr) : expr := substitute G (Sym s) (gadd G (Sym s) minus_1) e.
(** gosper.cc:65-79 gosper_step_one: true and r_m, or false. *)
Definition gosper_step_one (m : string) (t : expr) : option expr :=
  let r := quotient (next m t) t in if is_rational_function m r then Some r else None.

(** zeilberger.cc:91-98, 101-110: numerator and denominator, with a factor -1 moved. *)
Definition flip_sign (p : expr * expr) : expr * expr :=
  match fst p with
  | Mul l => if existsb (fun f => expr_eqb f minus_1) l then (gmul G (fst p) minus_1, gmul G (snd p) minus_1) else p
  | _ => p
  end.
(** s_1.substitute(m, m+j-i); s_2.substitute(m, m+i). *)
Definition shift2 (m : string) (j i : nat) (e : expr) : expr := substitute G (Sym m) (gadd G (gadd G (Sym m) (num_n j)) (gmul G (num_n i) minus_1)) e.
Definition shift1 (m : string) (i : nat) (e : expr) : expr := substitute G (Sym m) (gadd G (Sym m) (num_n i)) e.
(** "prod = 1; for (...) prod *= f(i);" *)
Definition product (l : list nat) (f : nat -> expr) : expr := fold_left (fun acc i => gmul G acc (f i)) l (Num 1).
(** zeilberger.cc:117-126 p_0_k; coefficients are the names of the symbols. *)
Definition p_0 (m : string) (coefficients : list string) (s1 s2 : expr) : expr :=
  let order := (List.length coefficients - 1)%nat in
  fold_left (fun acc j => gadd G acc (gmul G (gmul G (Sym (nth j coefficients EmptyString)) (product (seq 0 j) (fun i => shift2 m j i s1))) (product (seq (j + 1) (order - j)) (fun i => shift1 m i s2))))
    (seq 0 (order + 1)) (Num 0).
(** zeilberger.cc:63-141 zeilberger_step_one: true, p_0_k, r_k and s_k, or false. *)
Definition zeilberger_step_one (F : expr) (m k : string) (coefficients : list string) : option (expr * expr * expr) :=
  let first := quotient (next m F) F in
  let second := quotient (next k F) F in
  if negb (is_rational_function m first) || negb (is_rational_function k second) then None
  else
    let '(r1, r2) := flip_sign (nd second) in
    let '(s1, s2) := flip_sign (nd (quotient F (previous m F))) in
    let order := (List.length coefficients - 1)%nat in
    Some (p_0 m coefficients s1 s2, gmul G r1 (product (seq 1 order) (fun i => shift1 m i s2)), gmul G r2 (product (seq 1 order) (fun i => next k (shift1 m i s2)))).
End Step.
