(** Model of src/Recurrence.cc:877-1133: the solution or bound, in terms of symbolic initial conditions
    x(0), x(1), ..., is adapted to the initial conditions given by the user.
    Expressions are their values: a solution is a function of the values of the symbols x(i) and of n.
    The final simplifications (simplify_numer_denom, simplify_ex_for_output; 924-925, 1024-1025) keep the
    value and are left out; the copy under #if 0 (780-873) is not compiled. *)
From Coq Require Import ZArith List Bool Reals.
From Verif Require Import Fld SeqSpec.
Import ListNotations.
Local Open Scope list_scope.

(** [Undefined]: an iterator runs out of the map, or an assertion fails; [Throws]: an exception. *)
Inductive out (A : Type) : Type := Val (a : A) | Undefined | Throws.
Arguments Val {A} a. Arguments Undefined {A}. Arguments Throws {A}.

Section Linear.
Context {K : Fld}.
Local Open Scope fld_scope.
(** The conditions are in a std::map: sorted by increasing index. *)
Definition conditions : Type := list (Z * K).
(** substitute(x(f+j), u_j) for all j. *)
Definition put (f : Z) (u : list K) (ic : Z -> K) (i : Z) : K :=
  if (Z.leb f i && Z.ltb i (f + Z.of_nat (length u)))%bool then nth (Z.to_nat (i - f)) u 0 else ic i.
(** substitute(x(i), v) for all conditions. *)
Definition given (cs : conditions) (ic : Z -> K) : Z -> K :=
  fold_right (fun c ic i => if Z.eqb i (fst c) then snd c else ic i) ic cs.
(** The equation e(y) == v as lsolve reads it: the coefficients of the unknowns and the right-hand side. *)
Definition unit (k j : nat) : list K := map (fun i => if Nat.eqb i j then 1 else 0) (seq 0 k).
Definition linear_form (k : nat) (e : list K -> K) (v : K) : list K * K :=
  let z := e (repeat 0 k) in (map (fun j => e (unit k j) - z) (seq 0 k), v - z).
(** lsolve: nothing, or a value for every unknown, which may depend on unknowns left as they are. *)
Definition solver : Type := nat -> list (list K * K) -> option (list K -> list K).
(** The k largest conditions become k equations (Recurrence.cc:898-914, 970-994); [rhs] of the value. *)
Definition equations (k : nat) (e : list K -> Z -> K) (cs : conditions) : option (list (list K * K)) :=
  let largest := firstn k (rev cs) in
  if Nat.ltb (length largest) k then None
  else Some (rev (map (fun c => linear_form k (fun u => e u (fst c)) (snd c)) largest)).
(** Recurrence.cc:877-927 compute_solution_linear_finite_order_on_i_c. [y]: the values of the new symbols. *)
Definition linear_on_i_c (ls : solver) (f : Z) (k : nat) (sol : (Z -> K) -> Z -> K) (cs : conditions) (y : list K) (ic : Z -> K) : out (Z -> K) :=
  match rev cs with
  | [] => Undefined
  | (m, _) :: _ =>
    if Z.leb (f + Z.of_nat k) m then
      let e u := sol (put f u ic) in
      match equations k e cs with
      | None => Undefined
      | Some es => match ls k es with Some s => Val (e (s y)) | None => Val (e y) end
      end
    else Val (sol (given cs ic))
  end.
End Linear.

(** * Non-linear recurrences: real values *)
Section NonLinear.
Local Open Scope R_scope.
(** Recurrence.cc:937-945: the iterator is never advanced. *)
Fixpoint zero_found (cs : list (Z * R)) (count : nat) : out bool :=
  match count with
  | O => Val false
  | S count => match rev cs with
               | [] => Undefined
               | (_, v) :: _ => if Req_EM_T v 0 then Val true else zero_found cs count
               end
  end.
(** log(v), as GiNaC has it on real numbers: a pole at 0. *)
Definition glog (v : R) : out R := if Req_EM_T v 0 then Throws else Val (ln v).
Fixpoint logs (b : R) (cs : list (Z * R)) : out (list (Z * R)) :=
  match cs with
  | [] => Val []
  | (i, v) :: cs => match glog v, logs b cs with
                    | Val l, Val r => Val ((i, l / ln b) :: r)
                    | _, _ => Throws
                    end
  end.
(** Recurrence.cc:929-1028 compute_solution_non_linear_finite_order_on_i_c. [simple]: x(n) = c x(n-1)^a;
    [lin]: the solution of the associated linear recurrence for the logarithms to base [b]. *)
Definition non_linear_on_i_c (ls : @solver RF) (f : Z) (k : nat) (simple : bool) (b : R) (sol lin : (Z -> R) -> Z -> R)
    (cs : list (Z * R)) (y : list R) (ic : Z -> R) : out (Z -> R) :=
  match zero_found cs k with
  | Undefined => Undefined | Throws => Throws
  | Val true => Val (fun _ => 0)
  | Val false =>
    match rev cs with
    | [] => Undefined
    | (m, h) :: _ =>
      if Z.leb (f + Z.of_nat k) m then
        if simple then Val (fun n => sol (given (K:=RF) [(0%Z, h)] ic) (n - m)%Z)
        else
          match logs b (rev (firstn k (rev cs))) with
          | Undefined => Undefined | Throws => Throws
          | Val lcs =>
            (* substitute_x_function(..., ARGUMENT_LOG): a remaining x(i) becomes log(x(i))/log(b) *)
            let e u := lin (put (K:=RF) f u (fun i => ln (ic i) / ln b)) in
            match equations (K:=RF) k e lcs with
            | None => Undefined
            | Some es => match ls k es with Some s => Val (fun n => Rpower b (e (s y) n)) | None => Val (fun n => Rpower b (e y n)) end
            end
          end
      else Val (sol (given (K:=RF) cs ic))
    end
  end.
End NonLinear.

(** * Weighted averages and functional equations *)
(** Recurrence.cc:1030-1069 compute_solution_weighted_average_on_i_c. [solve n0]: the solution found for
    x(n) = f(n) (x(n0) + ... + x(n-1)) + g(n), as a function of x(n0). *)
Definition weighted_on_i_c {K : Fld} (solve : Z -> K -> Z -> K) (n0 : Z) (cs : list (Z * K)) (ic : Z -> K) : Z -> K :=
  match rev cs with
  | [] => solve n0 (ic n0)
  | (m, h) :: _ => if Z.ltb n0 m then solve m h else solve n0 (given cs ic n0)
  end.
(** Recurrence.cc:1071-1080 compute_bound_functional_equation_on_i_c. [bound]: function of the values of x(i) and of n. *)
Definition functional_on_i_c {K : Fld} (divisor : Z) (bound : (Z -> K) -> Z -> K) (cs : list (Z * K)) (ic : Z -> K) : Z -> K :=
  if Z.eqb divisor 2 then bound (fun i => if Z.eqb i 1 then given cs ic 1%Z else ic i) else bound ic.
