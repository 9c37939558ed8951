(** Model of the elimination of negative and null decrements (src/rr_classifier.cc).
    Machine integers are taken as unbounded (decrements within int); GiNaC's expand() and
    collect() are parameters. *)
From Coq Require Import ZArith QArith Qcanon List String Bool.
From Verif Require Import Ast ExprModel.
Import ListNotations.
Local Open Scope list_scope.

(** rr_classifier.cc:52-77 get_constant_decrement: [Some z] for the argument n + z (the
    decrement is -z). *)
Definition shift_of (arg : expr) : option Z :=
  match arg with
  | Add [Sym s; Num q] | Add [Num q; Sym s] => if String.eqb s "n" && q_is_int q then Some (q_int q) else None
  | _ => None
  end.
Definition n_plus (z : Z) : expr := Add [Sym "n"; Num (zq z)].
(** x(n), x(n+z) as GiNaC builds them. *)
Definition x_n : expr := Fun FX [Sym "n"].
Definition x_n_plus (z : Z) : expr := if (z =? 0)%Z then x_n else Fun FX [n_plus z].
(** n - z. *)
Definition n_shift (z : Z) : expr := if (z =? 0)%Z then Sym "n" else n_plus (- z).
Definition int_min : Z := (- 2147483648)%Z.

(** rr_classifier.cc:179-192 assign_max_decrement_and_coeff; the decrement is 0 when
    get_constant_decrement fails. *)
Definition assign_max (arg coeff : expr) (st : Z * expr) : Z * expr :=
  let dec := match shift_of arg with Some z => z | None => 0%Z end in
  if (fst st <=? dec)%Z then (dec, coeff) else st.

Section Model.
Context (G : ginac).

(** rr_classifier.cc:202-211: the loop over the factors, in the order of the loop. *)
Fixpoint scan_factors (l : list expr) (pc pa : expr) (st : Z * expr) : Z * expr :=
  match l with
  | [] => st
  | f :: l =>
    let '(pc, pa) := match f with Fun FX (a :: _) => (pc, a) | _ => (gmul G pc f, pa) end in
    scan_factors l pc pa (if is_num 0 pa then st else assign_max pa pc st)
  end.
(** rr_classifier.cc:194-224 find_max_decrement_and_coeff_factor. *)
Definition find_max_factor (e : expr) (st : Z * expr) : Z * expr :=
  match e with
  | Mul l =>
    let st' := scan_factors (rev l) (Num 1) (Num 0) st in
    if (fst st <? fst st')%Z then st' else (fst st', gadd G (snd st) (snd st'))
  | Fun FX (a :: _) => assign_max a (Num 1) st
  | _ => st
  end.
(** rr_classifier.cc:233-243 find_max_decrement_and_coeff, from INT_MIN and the expression 0. *)
Definition find_max (e : expr) : Z * expr :=
  match e with
  | Add l => fold_right find_max_factor (int_min, Num 0%Qc) l
  | e => find_max_factor e (int_min, Num 0%Qc)
  end.

(** [collect e] is e.collect(Expr_List(x(n))). *)
Context (expand collect : expr -> expr).

(** rr_classifier.cc:255-299 eliminate_negative_decrements. *)
Definition eliminate_negative (rhs : expr) : expr :=
  let '(m, c) := find_max rhs in
  let new := substitute G (Sym "n") (n_shift m) rhs in
  let c := substitute G (Sym "n") (n_shift m) c in
  let new := gsub G new (x_n_plus (- m)) in
  let new := gmul G new (gpow G (gmul G (Num (-(1))%Qc) c) (Num (-(1))%Qc)) in
  expand (gadd G (collect (expand new)) x_n).

(** rr_classifier.cc:317-327: the factors other than x(n), and whether x(n) is there. *)
Definition drop_x_n (l : list expr) : bool * expr :=
  fold_right (fun f st => if expr_eqb f x_n then (true, snd st) else (fst st, gmul G (snd st) f)) (false, Num 1%Qc) l.
(** rr_classifier.cc:309-337 find_coeff_x_n_and_remainder. *)
Definition coeff_step (t : expr) (st : expr * expr) : expr * expr :=
  match t with
  | Mul l => let '(found, c) := drop_x_n l in if found then (c, gsub G (snd st) t) else st
  | t => if expr_eqb t x_n then (Num 1%Qc, gsub G (snd st) t) else st
  end.
Definition coeff_x_n (e : expr) : expr * expr := fold_right coeff_step (Num 0%Qc, e) (ops e).

(** rr_classifier.cc:376-432: does [b] contain some x(n+j); [None] stands for "return 3". *)
Definition good_arg (a : expr) : bool :=
  expr_eqb a (Sym "n") || match shift_of a with Some _ => true | None => false end.
Fixpoint first_x (l : list expr) : option bool :=
  match l with
  | [] => Some false
  | Fun FX (a :: _) :: l => if good_arg a then Some true else None
  | _ :: l => first_x l
  end.
(** The loop over the terms: a bare x(n+j) ends it, one inside a product only ends the inner
    loop. *)
Fixpoint scan_terms (l : list expr) (found : bool) : option bool :=
  match l with
  | [] => Some found
  | Mul fs :: l => match first_x (rev fs) with Some b => scan_terms l (found || b) | None => None end
  | Fun FX (a :: _) :: l => if good_arg a then Some true else None
  | _ :: l => scan_terms l found
  end.
Definition contains_x (b : expr) : option bool :=
  match b with
  | Add l => scan_terms (rev l) false
  | Mul l => first_x (rev l)
  | Fun FX (a :: _) => if good_arg a then Some true else None
  | _ => Some false
  end.

Inductive null_result := Rewritten (e : expr) | Unsolvable | Indeterminate | Too_complex.

(** rr_classifier.cc:350-463 eliminate_null_decrements. *)
Definition eliminate_null (rhs : expr) : null_result :=
  match collect rhs with
  | Add l =>
    let '(a, b) := coeff_x_n (Add l) in
    if is_num 1 a then
      match contains_x b with
      | None => Too_complex
      | Some false => Unsolvable
      | Some true =>
        let '(m, c) := find_max b in
        let new := gsub G b (gmul G c (x_n_plus m)) in
        let new := substitute G (Sym "n") (n_shift m) new in
        let new := gmul G new (Num (-(1))%Qc) in
        Rewritten (gmul G new (gpow G c (Num (-(1))%Qc)))
      end
    else Rewritten (gmul G b (gpow G (gsub G (Num 1%Qc) a) (Num (-(1))%Qc)))
  | Mul l => if existsb (fun f => expr_eqb f x_n) l then Rewritten (Num 0%Qc) else Rewritten (Mul l)
  | e => if expr_eqb e x_n then Indeterminate else Rewritten e
  end.
End Model.
