(** Model of the rewriting of factorials, exponentials and binomials in src/simplify.cc, on
    expressions. GiNaC's expand is a parameter. *)
From Coq Require Import ZArith QArith Qcanon List String Bool.
From Verif Require Import Ast ExprModel NonLinModel.
Import ListNotations.
Local Open Scope bool_scope.
Local Open Scope list_scope.

Section Model.
Context (G : ginac) (expand : expr -> expr).

(** simplify.cc:1046-1056: the integer operand (the first one wins) and the sum of the others. *)
Definition split_argument (l : list expr) : Qc * expr :=
  fold_right (fun a acc => match a with
    | Num q => if q_is_int q then (q, snd acc) else (fst acc, gadd G (snd acc) a)
    | _ => (fst acc, gadd G (snd acc) a)
    end) (0%Qc, Num 0) l.
(** simplify.cc:1058-1060: (a + 1) ... (a + n) *)
Fixpoint rising (a : expr) (n : nat) : expr :=
  match n with O => Num 1 | S i => gmul G (rising a i) (gadd G a (Num (zq (Z.of_nat (S i))))) end.
(** simplify.cc:1064-1066: 1 / (a (a - 1) ... (a - n + 1)) *)
Fixpoint falling_inv (a : expr) (n : nat) : expr :=
  match n with O => Num 1 | S i => gmul G (falling_inv a i) (gpow G (gsub G a (Num (zq (Z.of_nat i)))) (Num (-(1))%Qc)) end.
(** simplify.cc:1042-1071. *)
Definition decompose_factorial (arg : expr) : expr :=
  match arg with
  | Add l =>
    let '(num, a) := split_argument l in
    gmul G (gfun G FFact [a]) (if (0 <? q_int num)%Z then rising a (Z.to_nat (q_int num)) else falling_inv a (Z.to_nat (- q_int num)))
  | _ => Fun FFact [arg]
  end.

(** simplify.cc:1092-1145; [None]: the nesting exceeds the fuel. *)
Definition is_number (e : expr) : bool := match e with Num _ => true | _ => false end.
Definition is_power (e : expr) : bool := match e with Pow _ _ => true | _ => false end.
Definition double_power (e : expr) : bool := match e with Pow (Pow _ _) _ => true | _ => false end.
Definition power_of_sum (e : expr) : bool := match e with Pow _ (Add _) => true | _ => false end.
Fixpoint oall (l : list (option expr)) : option (list expr) :=
  match l with [] => Some [] | Some a :: l => match oall l with Some r => Some (a :: r) | None => None end | None :: _ => None end.
Definition olift (f : expr -> expr -> expr) (a b : option expr) : option expr := match a, b with Some a, Some b => Some (f a b) | _, _ => None end.
(** simplify.cc:1105-1112: the exponents swapped in (c^x)^q, for numbers c and q. *)
Definition swap_candidate (a b : expr) : option (expr * expr) :=
  match a, b with Pow (Num c) x, Num q => if is_number x then None else Some (Num c, x) | _, _ => None end.
Fixpoint rewrite_fe (fuel : nat) (e : expr) : option expr :=
  match fuel with
  | O => None
  | S fuel =>
    let rec := rewrite_fe fuel in
    let power a b :=
      match olift (gpow G) (rec a) (rec b) with Some r => Some (if power_of_sum r then expand r else r) | None => None end in
    let limits (ap : expr -> expr -> expr -> expr) lo up b :=
      match rec lo, rec up, rec b with Some lo, Some up, Some b => Some (ap lo up b) | _, _, _ => None end in
    match e with
    | Add l => fold_right (fun a acc => olift (gadd G) acc (rec a)) (Some (Num 0)) l
    | Mul l => fold_right (fun a acc => olift (gmul G) acc (rec a)) (Some (Num 1)) l
    | Pow a b =>
      match swap_candidate a b with
      | Some (c, x) =>
        match olift (gpow G) (olift (gpow G) (rec c) (rec b)) (rec x) with
        | Some r => if double_power r then power a b else rec r
        | None => None
        end
      | None => power a b
      end
    | Fun FFact [a] => Some (decompose_factorial a)
    | Fun f l => match oall (map rec l) with Some l => Some (gfun G f l) | None => None end
    | SumE k lo up b => limits (gsum G k) lo up b
    | ProdE k lo up b => limits (gprod G k) lo up b
    | _ => Some e
    end
  end.

(** simplify.cc:1161-1209. *)
Definition over_factorials (a b c : expr) : expr := gdiv G a (gmul G (gfun G FFact [b]) (gfun G FFact [c])).
Definition rewrite_binomial (m k : expr) : expr :=
  let plain := over_factorials (gfun G FFact [m]) (gsub G m k) k in
  match m, k with
  | Num q, _ =>
    if q_is_int q then
      if q_le 0 q then plain
      else gdiv G (gmul G (gpow G (Num (-(1))%Qc) k) (gfun G FFact [gsub G (gsub G k (Num q)) (Num 1)]))
                  (gmul G (gfun G FFact [Num (- q - 1)%Qc]) (gfun G FFact [k]))
    else match k with Num p => if q_is_int p && q_le 0 p then plain else Fun FBinom [m; k] | _ => Fun FBinom [m; k] end
  | _, Num p => if q_is_int p && q_le 0 p then plain else Fun FBinom [m; k]
  | _, _ => plain
  end.
Fixpoint rewrite_binomials (e : expr) : expr :=
  match e with
  | Add l => add_all G (map rewrite_binomials l)
  | Mul l => mul_all G (map rewrite_binomials l)
  | Pow a b => gpow G (rewrite_binomials a) (rewrite_binomials b)
  | Fun FBinom [m; k] => rewrite_binomial m k
  | Fun f l => gfun G f (map rewrite_binomials l)
  | SumE k lo up b => gsum G k (rewrite_binomials lo) (rewrite_binomials up) (rewrite_binomials b)
  | ProdE k lo up b => gprod G k (rewrite_binomials lo) (rewrite_binomials up) (rewrite_binomials b)
  | _ => e
  end.
End Model.
