(** Model of the drivers of the simplifications in src/simplify.cc: the traversals that apply the rules for powers
    (PowModel.v), for numbers (NumFormModel.v) and for products of powers (CollectModel.v). The result of a run comes with
    the list of these calls, each with the summation variables it is below. Results that contain the imaginary unit are not
    modelled ([None], as for a failed assertion or too little fuel); expand() and simplify_numer_denom() are parameters. *)
From Coq Require Import ZArith QArith Qcanon List String Bool.
From Verif Require Import IntUtilModel Ast ExprModel NumFormModel PowModel CollectModel NumDenModel.
Import ListNotations.
Local Open Scope list_scope.
Local Open Scope bool_scope.

Inductive call :=
| CallPowers (e : expr)                   (* simplify_powers *)
| CallNumbers (b1 x1 b2 x2 : Qc)          (* red_prod *)
| CallExponents (only_n : bool) (l : list expr)  (* collect_same_exponents on the product of l *)
| CallCollect (l : list expr).            (* collect_base_exponent on the product of l *)
Definition run (A : Type) : Type := option (A * list (list string * call)).
Definition ret {A} (a : A) : run A := Some (a, []).
Definition bind {A B} (m : run A) (f : A -> run B) : run B :=
  match m with Some (a, c) => match f a with Some (b, d) => Some (b, c ++ d) | None => None end | None => None end.
Notation "x <- m ;; k" := (bind m (fun x => k)) (at level 61, m at next level, right associativity).
Definition calling {A} (c : call) (m : option A) : run A := match m with Some a => Some (a, [([], c)]) | None => None end.
(** Below the summation variable [k]. *)
Definition below {A} (k : string) (m : run A) : run A := match m with Some (a, c) => Some (a, map (fun p => (k :: fst p, snd p)) c) | None => None end.
(** Loops over the operands, from the last one to the first one. *)
Fixpoint loop {A} (step : expr -> A -> run A) (start : A) (l : list expr) : run A :=
  match l with [] => ret start | a :: l => bind (loop step start l) (step a) end.
Fixpoint each (f : expr -> run expr) (l : list expr) : run (list expr) :=
  match l with [] => ret [] | a :: l => bind (f a) (fun b => bind (each f l) (fun m => ret (b :: m))) end.

Section Model.
Context (G : ginac) (expand simplify_nd : expr -> expr).

(** simplify.cc:654-666: the rational factor of the standard form. *)
Definition std_factor (s : stdform) : option Qc :=
  let q := (Q2Qc (inject_Z (snum s)) / Q2Qc (inject_Z (sden s)))%Qc in
  match sgn s with O => Some q | S (S O) => Some (- q)%Qc | _ => None end.
(** The root of the standard form, if it is not 1 (simplify.cc:663-665). *)
Definition std_root (s : stdform) : option (Qc * Qc) := if (1 <? irr s)%Z then Some (zq (irr s), (/ zq (idx s))%Qc) else None.
Definition call_red_prod (b1 x1 b2 x2 : Qc) : run (Qc * option (Qc * Qc)) :=
  calling (CallNumbers b1 x1 b2 x2) (match red_prod b1 x1 b2 x2 with
    | IntUtilModel.Ret s => match std_factor s with Some q => Some (q, std_root s) | None => None end
    | _ => None end).
(** As an expression. *)
Definition std_expr (r : Qc * option (Qc * Qc)) : expr :=
  match r with (q, None) => Num q | (q, Some (m, x)) => gmul G (Num q) (gpow G (Num m) (Num x)) end.

(** simplify.cc:728-783 reduce_product. [to_reduce] is a number, a power of numbers or the product of both; base_1, exp_1,
    factor_to_reduce and factor_no_to_reduce. *)
Definition reduce_step (f : expr) (st : Qc * Qc * expr * expr) : run (Qc * Qc * expr * expr) :=
  let '(b1, x1, red, rest) := st in
  match f with
  | Pow (Num b2) (Num x2) =>
    bind (call_red_prod b1 x1 b2 x2) (fun r => match r with
    | (q, Some (m, x)) => ret (m, x, gpow G (Num m) (Num x), if Qc_eqb q 1 then rest else gmul G rest (Num q))
    | (q, None) => ret (q, 1%Qc, gpow G (Num q) (Num 1), rest)
    end)
  | _ => ret (b1, x1, red, gmul G rest f)
  end.
Definition reduce_product (l : list expr) : run expr :=
  bind (loop reduce_step (1%Qc, 1%Qc, Num 1, Num 1) l) (fun st => let '(_, _, red, rest) := st in ret (gmul G red rest)).

(** simplify.cc:254-291, 329-391, 484-501: the rules for powers and for products of powers, with the call recorded. *)
Definition call_powers (e : expr) (input : bool) : run expr := calling (CallPowers e) (Some (simplify_powers G e input)).
Definition call_exponents (only_n : bool) (l : list expr) : run expr := calling (CallExponents only_n l) (Some (collect_same_exponents G simplify_nd only_n (Mul l))).
Definition call_collect (l : list expr) : run expr := calling (CallCollect l) (Some (collect_base_exponent G simplify_nd (Mul l))).

(** simplify.cc:798-813 and 995-1009: one power; [rec] is simplify_expanded_ex_for_output. *)
Definition one_power (rec : expr -> run expr) (input : bool) (b x : expr) : run expr :=
  bind (rec (expand b)) (fun b => bind (rec (expand x)) (fun x =>
  match b, x with
  | Num q, Num r => bind (call_red_prod q r 1 1) (fun s => ret (std_expr s))
  | _, _ => let t := expand (gpow G b x) in match t with Pow _ _ => call_powers t input | _ => ret t end
  end)).
(** simplify.cc:827-841, 847-860, 950-961, 1016-1028: the arguments of a function. The functions sum and prod have the summation variable as
    their first argument, a symbol, which stays as it is. *)
Definition arguments (rec : expr -> run expr) (e : expr) : run expr :=
  match e with
  | Fun f l => bind (each (fun a => rec (expand a)) l) (fun m => ret (gfun G f m))
  | SumE k lo up b => bind (rec (expand lo)) (fun lo => bind (rec (expand up)) (fun up => bind (below k (rec (expand b))) (fun b => ret (gsum G k lo up b))))
  | ProdE k lo up b => bind (rec (expand lo)) (fun lo => bind (rec (expand up)) (fun up => bind (below k (rec (expand b))) (fun b => ret (gprod G k lo up b))))
  | _ => ret e
  end.
Definition is_function (e : expr) : bool := match e with Fun _ _ | SumE _ _ _ _ | ProdE _ _ _ _ => true | _ => false end.
(** simplify.cc:794-817 the powers among the factors. *)
Definition manip_powers (rec : expr -> run expr) (input : bool) (l : list expr) : run expr :=
  loop (fun f acc => match f with Pow b x => bind (one_power rec input b x) (fun p => ret (gmul G acc p)) | _ => ret (gmul G acc f) end) (Num 1) l.
(** simplify.cc:822-860 the functions: factor_function and factor_no_function. *)
Definition manip_functions (rec : expr -> run expr) (e : expr) : run expr :=
  match e with
  | Mul l => bind (loop (fun f st => if is_function f then bind (arguments rec f) (fun g => ret (gmul G (fst st) g, snd st)) else ret (fst st, gmul G (snd st) f)) (Num 1, Num 1) l)
                  (fun st => ret (gmul G (fst st) (snd st)))
  | _ => arguments rec e
  end.
(** simplify.cc:864-876 the exponentials are merged. *)
Definition exp_step (f : expr) (st : expr * expr) : expr * expr :=
  match f with Fun FExp [a] => (gadd G (fst st) a, snd st) | _ => (fst st, gmul G (snd st) f) end.
Definition manip_exp (e : expr) : expr :=
  match e with Mul l => let st := fold_right exp_step (Num 0, Num 1) l in gmul G (gfun G FExp [fst st]) (snd st) | _ => e end.
(** simplify.cc:878-891, 895-908: a rule for products, applied to a product or to each product in a sum. *)
Definition on_products (rule : list expr -> run expr) (e : expr) : run expr :=
  match e with
  | Add l => loop (fun t acc => match t with Mul m => bind (rule m) (fun r => ret (gadd G acc r)) | _ => ret (gadd G acc t) end) (Num 0) l
  | Mul l => rule l
  | _ => ret e
  end.
(** simplify.cc:790-911 manip_factor, for the product of l. *)
Definition manip_factor (rec : expr -> run expr) (input : bool) (l : list expr) : run expr :=
  bind (manip_powers rec input l) (fun e => bind (manip_functions rec e) (fun e => bind (on_products reduce_product (manip_exp e)) (on_products call_collect))).

(** simplify.cc:979-1032 simplify_expanded_ex_for_output. *)
Fixpoint simplify_output (fuel : nat) (input : bool) (e : expr) : run expr :=
  match fuel with
  | O => None
  | S fuel =>
    let rec := simplify_output fuel input in
    match e with
    | Add l => loop (fun a acc => bind (rec (expand a)) (fun b => ret (gadd G acc b))) (Num 0) l
    | Mul l => manip_factor rec input l
    | Pow b x => bind (one_power rec input b x) (fun e => match e with Mul l => call_collect l | _ => ret e end)
    | Fun _ _ | SumE _ _ _ _ | ProdE _ _ _ _ => arguments rec e
    | _ => ret e
    end
  end.
(** simplify.cc:930-965 simplify_expanded_ex_for_input. *)
Fixpoint simplify_input (fuel : nat) (input : bool) (e : expr) : run expr :=
  match fuel with
  | O => None
  | S fuel =>
    let rec := simplify_input fuel input in
    match e with
    | Add l => loop (fun a acc => bind (rec (expand a)) (fun b => ret (gadd G acc b))) (Num 0) l
    | Mul l => bind (loop (fun a acc => bind (rec (expand a)) (fun b => ret (gmul G acc b))) (Num 1) l)
                    (fun e => match e with Mul m => call_exponents true m | _ => ret e end)
    | Pow _ _ => call_powers e input
    | Fun _ _ | SumE _ _ _ _ | ProdE _ _ _ _ => arguments rec e
    | _ => ret e
    end
  end.
(** simplify.cc:1962-1970 simplify_ex_for_input, simplify_ex_for_output. *)
Definition simplify_ex_for_input (fuel : nat) (e : expr) (input : bool) : run expr := simplify_input fuel input (expand e).
Definition simplify_ex_for_output (fuel : nat) (e : expr) (input : bool) : run expr := simplify_output fuel input (expand e).
(** simplify.cc:1976-1986 simplify_numer_denom. *)
Definition simplify_numer_denom (e : expr) : option expr :=
  match numerator_denominator G e with Some (n, d) => Some (gmul G (expand n) (gpow G (expand d) minus_one)) | None => None end.
End Model.

(** simplify.cc:2040-2049 simplify_all: simplify_binomials_factorials_exponentials (2001-2014), simplify_collect_sums (2027-2030), simplify_ex_for_output and
    simplify_logarithm (2016-2019), for which the models of C55, C46 and C56 are used. *)
From Verif Require Import SumSimpModel FactRwModel LogModel.
Section All.
Context (G : ginac) (expand nd simplify : expr -> expr) (sum_pe : expr -> string -> string -> expr -> expr) (gosper : string -> expr -> Z -> expr -> option expr) (h : string).
Context (numer denom : expr -> expr) (canon : list expr -> list expr).
Definition stage_factorials (fuel : nat) (e : expr) : option expr := rewrite_fe G expand fuel (rewrite_binomials G e).
Definition stage_sums (fuel : nat) (e : expr) : option expr := option_map expand (collect_sums G expand simplify sum_pe gosper h fuel (expand e)).
Definition stage_output (fuel : nat) (e : expr) : option expr := option_map fst (simplify_ex_for_output G expand nd fuel e false).
Definition stage_logs (fuel : nat) (e : expr) : option expr :=
  option_map expand (simplify_log G numer denom (fun p => PowModel.simplify_powers G p false) canon fuel (expand e)).
Definition then_ (a b : expr -> option expr) (e : expr) : option expr := match a e with Some r => b r | None => None end.
Definition simplify_all (fuel : nat) : expr -> option expr :=
  then_ (simplify_numer_denom G expand) (then_ (stage_factorials fuel) (then_ (stage_sums fuel) (then_ (stage_output fuel) (stage_logs fuel)))).
End All.
