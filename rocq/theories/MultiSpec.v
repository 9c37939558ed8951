(** Specification for multivariate recurrences: functions of several integers that satisfy x(k,{v_1,...,v_p}) = rhs. *)
From Coq Require Import ZArith QArith Qcanon Reals List String Bool.
From Verif Require Import Ast ExprModel ExprSpec SeqInterp.
Import ListNotations.
Local Open Scope list_scope.

(** The integers with the given real values. *)
Fixpoint all_ints (l : list R) : option (list Z) :=
  match l with
  | [] => Some []
  | v :: l => match as_int v, all_ints l with Some z, Some zs => Some (z :: zs) | _, _ => None end
  end.
(** The function x(k,{a_1,...,a_p}) is read as [X k [a_1;...;a_p]] on integer arguments. *)
Definition with_X (I : interp) (X : Z -> list Z -> R) : interp := MkI (icst I) (fun f l =>
  match f, l with
  | FOther s, _ => if String.eqb s "x2" then match all_ints l with Some (k :: zs) => Some (X k zs) | _ => None end else ifun I f l
  | _, _ => ifun I f l
  end).
(** The variables [vs] take the values [zs], everything else has its value in [rho]. *)
Fixpoint point (rho : string -> R) (vs : list string) (zs : list Z) : string -> R :=
  match vs, zs with v :: vs, z :: zs => upd (point rho vs zs) v (IZR z) | _, _ => rho end.
(** The value of [e] at the point [zs] is X(k; zs). *)
Definition gives (I : interp) (X : Z -> list Z -> R) (rho : string -> R) (k : Z) (vs : list string) (e : expr) (zs : list Z) : Prop :=
  eval (with_X I X) (point rho vs zs) e = Some (X k zs).
(** [X] satisfies x(k,{vs}) = rhs wherever the [i]-th argument is at least [K]. *)
Definition satisfies (I : interp) (X : Z -> list Z -> R) (rho : string -> R) (k : Z) (vs : list string) (i K : nat) (rhs : expr) : Prop :=
  forall zs, List.length zs = List.length vs -> (Z.of_nat K <= nth i zs 0%Z)%Z -> gives I X rho k vs rhs zs.
(** Every solution in one variable, from the index [K] on, has the values of the expression that the solver returns. *)
Definition solver_correct (I : interp) (K : nat) (solve : expr -> option expr) : Prop :=
  forall aux sol, solve aux = Some sol -> forall rho x, solves_from I rho K aux x ->
  forall n, (K <= n)%nat -> eval (with_x I x) (upd rho "n" (INR n)) sol = Some (x n).
(** The canonical constructors introduce no sums or products that were not there. *)
Definition adds_no_binders (G : ginac) : Prop :=
  (forall a b, no_binders a -> no_binders b -> no_binders (gadd G a b) /\ no_binders (gmul G a b) /\ no_binders (gpow G a b)) /\
  (forall f l, Forall no_binders l -> no_binders (gfun G f l)).
(** [t] is x(k,{a_1,...,a_p}) where a_i is v_i + c with c >= -K and every other argument is the variable itself. *)
Definition regular_term (k : Z) (vs : list string) (i K : nat) (t : expr) : Prop :=
  exists args c, t = Fun (FOther "x2") (Num (zq k) :: args) /\ List.length args = List.length vs /\ (- Z.of_nat K <= c)%Z /\
    forall j, (j < List.length vs)%nat -> nth_error args j =
      Some (if Nat.eqb j i then Add [Sym (nth i vs EmptyString); Num (zq c)] else Sym (nth j vs EmptyString)).
(** n is renamed before anything else. *)
Definition rename (v : string) : string := if String.eqb v "n" then "n_replacement"%string else v.
(** The parameters of an initial condition x(k,{p_1,...,p_m}) == value. *)
Definition parameters (ps : list expr) : list string := flat_map (fun p => match p with Sym s => [s] | _ => [] end) ps.
Definition plain_parameters (ps : list expr) : Prop := Forall (fun p => match p with Sym _ | Num _ => True | _ => False end) ps.
(** x(k,{p_1,...,p_m}) == value holds for all integer values of the parameters. *)
Definition condition_holds (I : interp) (X : Z -> list Z -> R) (rho : string -> R) (k : Z) (ps : list expr) (value : expr) : Prop :=
  forall sigma zs, (forall s, ~ In s (parameters ps) -> sigma s = rho s) -> Forall2 (fun p z => eval I sigma p = Some (IZR z)) ps zs ->
  eval (with_X I X) sigma value = Some (X k zs).
(** No parameter occurs in an argument that is put in place of an earlier one. *)
Fixpoint not_captured (ps ts : list expr) : Prop :=
  match ps, ts with
  | _ :: ps, t :: ts => (forall s, In s (parameters ps) -> has s t = false) /\ not_captured ps ts
  | _, _ => True
  end.
