(** Model of the simplification of logarithms in src/simplify.cc, on expressions. GiNaC's numer and
    denom and PURRS's simplify_powers are parameters; [canon] is the order in which GiNaC keeps the
    factors of a product. GiNaC never keeps two equal factors, so a product of some of the factors of
    a product is again the list of these factors. *)
From Coq Require Import ZArith QArith Qcanon List String Bool.
From Verif Require Import IntUtilModel Ast ExprModel NonLinModel FactRwModel CollectModel.
Import ListNotations.
Local Open Scope bool_scope.
Local Open Scope list_scope.

(** simplify.cc:1331-1356: the loops; [None]: the fuel does not suffice. *)
Definition qpow (a : Qc) (i : Z) : Qc := match i with Zneg p => / Qcpower a (Pos.to_nat p) | _ => Qcpower a (Z.to_nat i) end.
Fixpoint pp_loop (fuel : nat) (up : bool) (a c : Qc) (i : Z) : option (option Z) :=
  match fuel with
  | O => None
  | S fuel =>
    let p := qpow a i in
    if Qc_eqb p c then Some (Some i)
    else if q_lt 1 a && (if up then q_lt c p else q_lt p c) then Some None
    else if q_lt a 1 && (if up then q_lt p c else q_lt c p) then Some None
    else pp_loop fuel up a c (if up then i + 1 else i - 1)%Z
  end.
(** The assertion of line 1333 is [None] too. *)
Definition is_perfect_power (fuel : nat) (c a : Qc) : option (option Z) :=
  if q_lt 0 a && q_lt 0 c then
    if Qc_eqb a 1 && negb (Qc_eqb c 1) then Some None
    else match pp_loop fuel true a c 1 with Some None => pp_loop fuel false a c (-1) | r => r end
  else None.

Section Model.
Context (G : ginac) (numer denom simplify_powers : expr -> expr) (canon : list expr -> list expr).
Definition glog (a : expr) : expr := gfun G FLog [a].
Definition q_num (q : Qc) : Z := Qnum (this q).
Definition q_den (q : Qc) : Z := Zpos (Qden (this q)).

(** simplify.cc:1212-1229; [None]: the assertion of partial_factor. *)
Definition factorize_base_arg_log (base : Z) (exponent : expr) : option expr :=
  match partial_factor base ([], []) with
  | IntUtilModel.Ret (b :: bs, x :: xs) =>
    if forallb (Z.eqb x) xs then Some (gmul G (gmul G exponent (Num (zq x))) (glog (Num (zq (fold_right Z.mul b bs)))))
    else Some (glog (gpow G (Num (zq base)) exponent))
  | _ => None
  end.
(** simplify.cc:1231-1243. *)
Definition logarithm_of_product (rec : expr -> option expr) (l : list expr) : option expr :=
  fold_right (fun f acc => olift (gadd G) acc (if is_power f || is_number f then rec (glog f) else Some (glog f))) (Some (Num 0)) l.
(** simplify.cc:1258-1309, for log([arg]). *)
Definition prepared (arg : expr) : expr := if is_power arg then simplify_powers arg else arg.
Definition apply_elementary_prop (rec : expr -> option expr) (all : bool) (arg : expr) : option expr :=
  let arg := prepared arg in
  match arg with
  | Pow (Num q) x =>
    if q_is_int q then factorize_base_arg_log (q_int q) x
    else olift (gsub G) (factorize_base_arg_log (q_num q) x) (factorize_base_arg_log (q_den q) x)
  | Pow b x => Some (gmul G x (glog b))
  | Num q =>
    if q_is_int q && q_lt 0 q then factorize_base_arg_log (q_int q) (Num 1)
    else if all && negb (q_den q =? 1)%Z then
      if (0 <? q_num q)%Z then olift (gsub G) (factorize_base_arg_log (q_num q) (Num 1)) (factorize_base_arg_log (q_den q) (Num 1))
      else olift (gsub G) (Some (Num (zq (q_num q)))) (factorize_base_arg_log (q_den q) (Num 1))
    else Some (glog arg)
  | Mul l => if all then logarithm_of_product rec l else Some (glog arg)
  | _ => Some (glog arg)
  end.

Definition log_arg (f : expr) : option expr := match f with Fun FLog [a] => Some a | _ => None end.
Definition inv_log_arg (f : expr) : option expr := match f with Pow b x => if expr_eqb x minus_one then log_arg b else None | _ => None end.
(** simplify.cc:1376-1392: logarithms in the exponent, for which all_properties is false (and nothing
    else is simplified). *)
Definition log_only (a : expr) : option expr := apply_elementary_prop (fun _ => None) false a.
Definition exponent_factor (f : expr) : option expr :=
  match log_arg f with
  | Some a => log_only a
  | None => match f with
    | Pow b x => match log_arg b with Some a => olift (gpow G) (log_only a) (Some x) | None => Some f end
    | _ => Some f
    end
  end.
Definition exponent_simpl (x : expr) : option expr :=
  match x with
  | Mul l => fold_right (fun f acc => olift (gmul G) acc (exponent_factor f)) (Some (Num 1)) l
  | _ => match log_arg x with Some a => log_only a | None => Some x end
  end.
(** simplify.cc:1395-1417: the first property. *)
Definition candidate (base f : expr) : option expr :=
  match log_arg f with Some a => if has "n" a || (is_number base && negb (is_number a)) then Some a else None | None => None end.
Fixpoint scan (base : expr) (l : list expr) (arg : option expr) (rem : expr) : option expr * expr :=
  match l with
  | [] => (arg, rem)
  | f :: l =>
    match candidate base f with
    | Some a => match arg with None => scan base l (Some a) rem | Some _ => (arg, rem) end
    | None => scan base l arg (gmul G rem f)
    end
  end.
Definition first_property (base x : expr) : expr * expr :=
  match x with
  | Mul l => match scan base (rev l) None (Num 1) with (Some a, rem) => (a, gmul G rem (glog base)) | (None, _) => (base, x) end
  | _ => (base, x)
  end.
(** simplify.cc:1431-1460: the scan for log(c), 1/log(a) and the rest; [None]: stopped. *)
Fixpoint scan2 (l : list expr) (c : option expr) (a : option Qc) (rem : expr) : option (option expr * option Qc * expr) :=
  match l with
  | [] => Some (c, a, rem)
  | f :: l =>
    match log_arg f, inv_log_arg f with
    | Some b, _ => match c with None => scan2 l (Some b) a rem | Some _ => None end
    | None, Some (Num q) => match a with None => scan2 l c (Some q) rem | Some _ => None end
    | None, _ => scan2 l c a (gmul G rem f)
    end
  end.
(** simplify.cc:1419-1486: [inl]: the result; [inr]: base and exponent, to be simplified in turn. *)
Definition napier : expr := Fun FExp [Num 1].
Definition log_like (f : expr) : bool := match log_arg f, inv_log_arg f with None, None => false | _, _ => true end.
Definition power_result (fuel : nat) (base x : expr) : option (expr + expr * expr) :=
  let next := Some (inr (base, x)) in
  match base, x with
  | Num q, Mul l =>
    if q_lt 0 q then
      match scan2 (rev l) None None (Num 1) with
      | Some (Some c, Some a, rem) =>
        match is_perfect_power fuel q a with
        | Some (Some i) => Some (inl (gpow G c (gmul G (Num (zq i)) rem)))
        | Some None => next
        | None => None
        end
      | _ => next
      end
    else next
  | _, _ =>
    if expr_eqb base napier then
      match x with
      | Fun FLog [a] => Some (inl a)
      | Mul l =>
        match filter log_like l with
        | [Fun FLog [a]] => Some (inl (gpow G a (mul_all G (filter (fun f => negb (log_like f)) l))))
        | _ => next
        end
      | _ => next
      end
    else next
  end.
(** simplify.cc:1372-1487. *)
Definition power_step (fuel : nat) (base x : expr) : option (expr + expr * expr) :=
  match exponent_simpl x with
  | Some x => let '(b, x) := first_property base x in power_result fuel b x
  | None => None
  end.

(** simplify.cc:1495-1582. *)
Definition reciprocal (a b : expr) : bool := expr_eqb (numer a) (denom b) && expr_eqb (numer b) (denom a).
Definition recip (f g : expr) : bool := match log_arg f, inv_log_arg g with Some a, Some b => reciprocal a b | _, _ => false end.
(** simplify.cc:1519-1556: the loop over the logarithms, the last one first; the last 1/log is paired. *)
Fixpoint pair_logs (logs invs : list expr) (acc : expr) : expr * list expr :=
  match logs with
  | [] => (acc, invs)
  | f :: logs =>
    match rev (canon invs) with
    | [] => pair_logs logs [] (gmul G acc f)
    | g :: invs' => pair_logs logs (rev invs') (if recip f g then gmul G acc minus_one else gmul G acc (gmul G f g))
    end
  end.
Definition is_log (f : expr) : bool := match log_arg f with Some _ => true | None => false end.
Definition is_inv (f : expr) : bool := match inv_log_arg f with Some _ => true | None => false end.
Definition simpl_quotient_of_logs (l : list expr) : expr :=
  let logs := filter is_log l in
  let invs := filter is_inv l in
  let others := mul_all G (filter (fun f => negb (log_like f)) l) in
  match logs, invs with
  | [], _ | _, [] => gmul G (gmul G others (mul_all G logs)) (mul_all G invs)
  | [f], [g] => if recip f g then gmul G others minus_one else gmul G (gmul G others f) g
  | [f], _ =>
    let all := mul_all G invs in
    match rev (canon invs) with
    | g :: _ => if recip f g then gdiv G (gmul G (gmul G others minus_one) all) g else gdiv G (gmul G (gmul G others f) all) g
    | [] => others
    end
  | _, _ => let '(acc, invs) := pair_logs (rev (canon logs)) invs others in gmul G acc (mul_all G invs)
  end.

(** simplify.cc:1601-1641. *)
Fixpoint simplify_log (fuel : nat) (e : expr) : option expr :=
  match fuel with
  | O => None
  | S fuel =>
    let rec := simplify_log fuel in
    let limits (ap : expr -> expr -> expr -> expr) lo up b :=
      match rec lo, rec up, rec b with Some lo, Some up, Some b => Some (ap lo up b) | _, _, _ => None end in
    match e with
    | Add l => fold_right (fun a acc => olift (gadd G) acc (rec a)) (Some (Num 0)) l
    | Mul l =>
      match simpl_quotient_of_logs l with
      | Mul l => fold_right (fun a acc => olift (gmul G) acc (rec a)) (Some (Num 1)) l
      | t => rec t
      end
    | Pow b x =>
      match power_step fuel b x with
      | Some (inl r) => Some r
      | Some (inr (b, x)) => olift (gpow G) (rec b) (rec x)
      | None => None
      end
    | Fun FLog [a] => apply_elementary_prop rec true a
    | Fun f l => match oall (map rec l) with Some l => Some (gfun G f l) | None => None end
    | SumE k lo up b => limits (gsum G k) lo up b
    | ProdE k lo up b => limits (gprod G k) lo up b
    | _ => Some e
    end
  end.
End Model.
