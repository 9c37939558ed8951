(** Model of the simplification of symbolic sums in src/simplify.cc, on expressions.
    sum_poly_times_exponentials, gosper_algorithm, expand and the simplifications made by
    exp_poly_decomposition are parameters; [h] is the fresh symbol (Symbol k, Symbol("a")).
    A sum whose lower limit is not a number does not exist (Expr.cc:338-341). *)
From Coq Require Import ZArith QArith Qcanon List String Bool.
From Verif Require Import Ast ExprModel DecompModel.
Import ListNotations.
Local Open Scope bool_scope.
Local Open Scope list_scope.

Section Model.
Context (G : ginac) (expand simplify : expr -> expr).
(** sum_pe c h m b: the sum of c b^h for h = 0, ..., m.  gosper m t lower upper. *)
Context (sum_pe : expr -> string -> string -> expr -> expr) (gosper : string -> expr -> Z -> expr -> option expr) (h : string).

(** simplify.cc:1686-1692, 1698-1703: the part with the constant factors taken out. *)
Definition sum_out (k : string) (lo up e : expr) : expr :=
  let (fin, fout) := get_out_factors_from_argument G e k in
  if is_num 1 fin then gmul G fout (gadd G (gsub G up lo) (Num 1)) else gmul G fout (gsum G k lo up fin).
(** simplify.cc:1704-1709. *)
Definition at_shift (k m : string) (e : expr) (j : Z) : expr := substitute G (Sym k) (gadd G (Sym m) (Num (zq j))) e.
Fixpoint add_terms (k m : string) (e acc : expr) (n : nat) (j : Z) : expr :=
  match n with O => acc | S n => add_terms k m e (gadd G acc (at_shift k m e j)) n (j + 1)%Z end.
Fixpoint sub_terms (k m : string) (e acc : expr) (n : nat) (j : Z) : expr :=
  match n with O => acc | S n => sub_terms k m e (gsub G acc (at_shift k m e j)) n (j + 1)%Z end.
(** simplify.cc:1669-1711; [up] is a sum of two operands.  For a number that is no integer the
    result is a default Expr, i.e. 0. *)
Definition split_shift (k : string) (lo : expr) (m : string) (q : Qc) (e : expr) : expr :=
  if q_is_int q then
    let s := gadd G (Num 0) (sum_out k lo (Sym m) e) in
    if (0 <? q_int q)%Z then add_terms k m e s (Z.to_nat (q_int q)) 1
    else sub_terms k m e s (Z.to_nat (- q_int q)) (q_int q + 1)
  else Num 0.
Definition split_sum (k : string) (lo up e : expr) : expr :=
  match up with
  | Add [Num q; Sym m] | Add [Sym m; Num q] => split_shift k lo m q e
  | _ => sum_out k lo up e
  end.

(** simplify.cc:1720-1737: the upper limit m + num. *)
Definition upper_of (up : expr) : option (string * Z) :=
  match up with
  | Sym m => Some (m, 0%Z)
  | Add [Sym m; Num q] | Add [Num q; Sym m] => if q_is_int q then Some (m, q_int q) else None
  | _ => None
  end.
(** simplify.cc:1760-1761: h = 0, ..., n - 1. *)
Fixpoint minus_front (c b sol : expr) (n : nat) : expr :=
  match n with
  | O => sol
  | S j => gsub G (minus_front c b sol j) (gmul G (substitute G (Sym h) (Num (zq (Z.of_nat j))) c) (gpow G b (Num (zq (Z.of_nat j)))))
  end.
(** simplify.cc:1748-1761. *)
Definition sum_of_term (k : string) (lo : Z) (m : string) (num : Z) (b p : expr) : expr :=
  let c := substitute G (Sym k) (Sym h) p in
  minus_front c b (substitute G (Sym m) (gadd G (Sym m) (Num (zq num))) (sum_pe c h m b)) (Z.to_nat lo).
(** simplify.cc:1714-1776. *)
Definition not_all_zero (l : list expr) : bool := existsb (fun e => negb (is_num 0 e)) l.
Definition compute_sum (k : string) (lo : Qc) (up e : expr) : expr :=
  match upper_of up with
  | None => SumE k (Num lo) up e
  | Some (m, num) =>
    let l := exp_poly_decomposition G simplify (expand e) k in
    let r := if not_all_zero (map (fun t => snd (fst t)) l)
             then fold_right (fun t acc => let '(b, p, _) := t in gadd G acc (sum_of_term k (q_int lo) m num b p)) (Num 0) l
             else Num 0 in
    if not_all_zero (map snd l) then
      match gosper m (substitute G (Sym k) (Sym m) e) (q_int lo) up with
      | None => SumE k (Num lo) up e
      | Some s => fold_right (fun _ acc => gadd G acc s) r l
      end
    else r
  end.

(** Expr.cc:1112-1131 has_x_function(y): an x() with y in the argument. *)
Fixpoint has_x_with (y : string) (e : expr) : bool :=
  match e with
  | Add l | Mul l => existsb (has_x_with y) l
  | Pow a b => has_x_with y a || has_x_with y b
  | Fun FX l => existsb (has y) l
  | Fun _ l => existsb (has_x_with y) l
  | SumE _ lo up e | ProdE _ lo up e => has_x_with y lo || has_x_with y up || has_x_with y e
  | _ => false
  end.
(** simplify.cc:1808-1866; [true] is COMPUTE_SUM, [false] REWRITE_UPPER_LIMIT.
    [None]: the nesting exceeds the fuel. *)
Definition oadd (acc e : option expr) : option expr := match acc, e with Some a, Some b => Some (gadd G a b) | _, _ => None end.
Definition omul (acc e : option expr) : option expr := match acc, e with Some a, Some b => Some (gmul G a b) | _, _ => None end.
Fixpoint oall (l : list (option expr)) : option (list expr) :=
  match l with [] => Some [] | Some a :: l => match oall l with Some r => Some (a :: r) | None => None end | None :: _ => None end.
Fixpoint simplify_sum (compute : bool) (fuel : nat) (e : expr) : option expr :=
  match fuel with
  | O => None
  | S fuel =>
    let rec := simplify_sum compute fuel in
    let limits (ap : expr -> expr -> expr -> expr) lo up b :=
      match rec lo, rec up, rec b with Some lo, Some up, Some b => Some (ap lo up b) | _, _, _ => None end in
    match e with
    | Add l => fold_right (fun a acc => oadd acc (rec a)) (Some (Num 0)) l
    | Mul l => fold_right (fun a acc => omul acc (rec a)) (Some (Num 1)) l
    | Pow a b => match rec a, rec b with Some a, Some b => Some (gpow G a b) | _, _ => None end
    | Fun f l => match oall (map rec l) with Some l => Some (gfun G f l) | None => None end
    | SumE k lo up b =>
      match compute, b with
      | true, Add bl => fold_right (fun a acc => oadd acc (rec (gsum G k lo up a))) (Some (Num 0)) bl
      | _, _ =>
        if negb (has_x_with k b) && compute then match lo with Num q => Some (compute_sum k q up b) | _ => None end
        else match compute, up with
             | false, Add [_; _] => Some (split_sum k lo up b)
             | _, _ => limits (gsum G k) lo up b
             end
      end
    | ProdE k lo up b => limits (gprod G k) lo up b
    | _ => Some e
    end
  end.

(** simplify.cc:1872-1957. *)
(** The sums from 1 to n, with a numeric coefficient: [Some (coefficient, index, summand)]. *)
Definition sum_1_n (e : expr) : option (string * expr) :=
  match e with SumE k lo (Sym s) b => if is_num 1 lo && String.eqb s "n" then Some (k, b) else None | _ => None end.
Definition is_sum (e : expr) : bool := match e with SumE _ _ _ _ => true | _ => false end.
Definition sum_addend (e : expr) : option (expr * string * expr) :=
  match e with
  | Mul [a; b] =>
    match a, b with
    | SumE _ _ _ _, Num _ => match sum_1_n a with Some (k, s) => Some (b, k, s) | None => None end
    | Num _, SumE _ _ _ _ => match sum_1_n b with Some (k, s) => Some (a, k, s) | None => None end
    | _, _ => None
    end
  | _ => match sum_1_n e with Some (k, s) => Some (Num 1, k, s) | None => None end
  end.
(** The preliminary check. *)
Definition sum_candidate (e : expr) : bool :=
  match e with
  | Mul [SumE _ _ _ _; Num _] | Mul [Num _; SumE _ _ _ _] => true
  | _ => match sum_1_n e with Some _ => true | None => false end
  end.
Fixpoint merge (l : list expr) : expr * expr * nat :=
  match l with
  | [] => (Num 0, Num 0, O)
  | a :: l =>
    let '(rest, s, cnt) := merge l in
    match sum_addend a with
    | Some (c, k, b) => (rest, gadd G s (gmul G c (substitute G (Sym k) (Sym h) b)), S cnt)
    | None => (gadd G rest a, s, cnt)
    end
  end.
Definition collect_sums (fuel : nat) (e : expr) : option expr :=
  match e with
  | Add l =>
    if existsb sum_candidate l then
      let '(rest, s, cnt) := merge l in
      if (1 <? cnt)%nat then
        match simplify_sum true fuel (gsum G h (Num 1) (Sym "n") (expand s)) with Some r => Some (gadd G rest r) | None => None end
      else Some e
    else Some e
  | _ => Some e
  end.
End Model.
