(** Model of split_bases_exponents (src/util.cc) and src/factorize.cc. *)
From Coq Require Import ZArith QArith Qcanon List String Bool.
From Verif Require Import IntUtilModel Ast ExprModel.
Import ListNotations.
Local Open Scope bool_scope.
Local Open Scope list_scope.

(** Pairs (base, exponent): the two vectors together. *)
Definition factors := list (expr * expr).
Definition one : expr := Num 1.
(** util.cc:178-216 split_bases_exponents_factor. [None]: the assertion of partial_factor fails (0). *)
Definition split_bases_exponents_factor (e : expr) (acc : factors) : option factors :=
  match e with
  | Num q =>
    if q_is_int q then
      match partial_factor (q_int q) ([], []) with
      | IntUtilModel.Ret (bs, es) =>
        Some (combine (map (fun b => Num (zq b)) bs) (map (fun k => Num (zq k)) es) ++ acc ++
              (if q_lt q 0 then [(Num (-(1))%Qc, one)] else []) ++ (if Qc_eqb q 1 then [(one, one)] else []))
      | _ => None
      end
    else Some (acc ++ [(e, one)])
  | Pow a b => Some (acc ++ [(a, b)])
  | _ => Some (acc ++ [(e, one)])
  end.
(** util.cc:225-234 split_bases_exponents, from the last factor. *)
Definition split_bases_exponents (e : expr) : option factors :=
  match e with
  | Mul l => fold_right (fun f acc => match acc with Some acc => split_bases_exponents_factor f acc | None => None end) (Some []) l
  | _ => split_bases_exponents_factor e []
  end.

(** Both numbers positive integers. *)
Definition pos_ints (a b : expr) : option (Qc * Qc) :=
  match a, b with Num p, Num q => if is_pos_int_num a && is_pos_int_num b then Some (p, q) else None | _, _ => None end.
Definition find_base (b : expr) (l : factors) : option (expr * expr) := find (fun p => expr_eqb b (fst p)) (rev l).

Section Fact.
Variable G : ginac.
Definition state := (expr * expr)%type. (* common_factor, rem_summand *)

(** factorize.cc:39-73 assign_common_factor_and_rem. *)
Definition assign_common_factor_and_rem (b f exp_common : expr) (s : state) : option state :=
  let '(common, rem) := s in
  match split_bases_exponents common with
  | None => None
  | Some ps =>
    match find_base b ps with
    | Some (_, fi) =>
      Some (common,
        match pos_ints f fi with
        | Some (nf, ni) => gmul G rem (gpow G b (Num (if q_lt ni nf then nf - ni else ni - nf)%Qc))
        | None => if expr_eqb f fi then rem else gmul G rem (gpow G b (gsub G f fi))
        end)
    | None =>
      Some (gmul G common (gpow G b exp_common),
            if expr_eqb exp_common f then rem else gmul G rem (gpow G b (gsub G f exp_common)))
    end
  end.
(** factorize.cc:105-124: the exponent of [b] common to [c] and the factors of a term, from the last. *)
Fixpoint common_exponent (b c : expr) (ps : factors) : option expr :=
  match ps with
  | [] => None
  | (b', f) :: ps =>
    match common_exponent b c ps with
    | Some r => Some r
    | None => if expr_eqb b' b then
                match pos_ints c f with
                | Some (nc, nf) => Some (Num (if q_lt nc nf then nc else nf))
                | None => if expr_eqb c f then Some c else None
                end
              else None
    end
  end.
(** factorize.cc:92-130: the loop on the terms, from the last; [None]: assertion. *)
Fixpoint in_every_term (b c : expr) (ts : list expr) : option (option expr) :=
  match ts with
  | [] => Some (Some c)
  | t :: ts =>
    match in_every_term b c ts with
    | Some (Some c) => match split_bases_exponents t with Some ps => Some (common_exponent b c ps) | None => None end
    | r => r
    end
  end.
(** factorize.cc:85-140 in_all_factors. *)
Definition in_all_factors (ts : list expr) (b f : expr) (s : state) : option state :=
  match in_every_term b f ts with
  | None => None
  | Some (Some c) => assign_common_factor_and_rem b f c s
  | Some None => Some (fst s, gmul G (snd s) (gpow G b f))
  end.
(** factorize.cc:150-164 collect_common_factor: from the last factor. *)
Definition collect_common_factor (ts : list expr) (t common rem : expr) : option state :=
  match split_bases_exponents t with
  | None => None
  | Some ps => fold_right (fun p s => match s with Some s => in_all_factors ts (fst p) (snd p) s | None => None end) (Some (common, rem)) ps
  end.
(** factorize.cc:185-194: the loop on the terms of a sum; (common_factor, remainder). *)
Fixpoint factorize_sum (all ts : list expr) : option state :=
  match ts with
  | [] => Some (Num 1, Num 0)
  | t :: ts =>
    match factorize_sum all ts with
    | None => None
    | Some (common, remainder) =>
      match collect_common_factor all t common (Num 1) with
      | Some (common, rem) => Some (common, gadd G remainder rem)
      | None => None
      end
    end
  end.
(** factorize.cc:174-234 factorize_no_ratio_ex. [prep]: expand() and, on multivariate
    polynomials, sqrfree(). The recursion is on subexpressions of prep(e), hence the fuel;
    [None]: fuel exhausted or assertion. *)
Fixpoint factorize_no_ratio_ex (prep : expr -> expr) (fuel : nat) (e : expr) : option state :=
  match fuel with
  | O => None
  | S fuel =>
    let rec := factorize_no_ratio_ex prep fuel in
    match prep e with
    | Add ts => factorize_sum ts ts
    | Pow a b =>
      if is_pos_int_num b then
        match a with
        | Add _ => match rec a with
                   | Some (c, r) => if expr_eqb b one then Some (c, r) else Some (gpow G c b, gpow G r b)
                   | None => None
                   end
        | _ => Some (Num 1, gadd G (Num 0) (Pow a b))
        end
      else Some (Num 1, gadd G (Num 0) (Pow a b))
    | Mul l =>
      fold_right (fun f s => match s with
        | Some (common, remall) => match rec f with Some (c, r) => Some (gmul G common c, gmul G remall r) | None => None end
        | None => None end) (Some (Num 1, Num 1)) l
    | _ => Some (Num 1, e)
    end
  end.
(** factorize.cc:242-263 factorize; [num_den]: numerator_denominator. *)
Definition gdiv (a b : expr) : expr := gmul G a (gpow G b (Num (-(1))%Qc)).
Definition is_number (e : expr) : bool := match e with Num _ => true | _ => false end.
Definition factorize (prep : expr -> expr) (num_den : expr -> expr * expr) (fuel : nat) (e : expr) : option state :=
  let '(n, d) := num_den e in
  match factorize_no_ratio_ex prep fuel n, factorize_no_ratio_ex prep fuel d with
  | Some (cn, rn), Some (cd, rd) =>
    if is_number cd && is_number rd then Some (gdiv cn (gmul G cd rd), rn) else Some (gdiv cn cd, gdiv rn rd)
  | _, _ => None
  end.
End Fact.
