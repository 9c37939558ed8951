(** Model of src/numerator_denominator.cc. *)
From Coq Require Import ZArith QArith Qcanon List String Bool.
From Verif Require Import IntUtilModel Ast ExprModel FactModel.
Import ListNotations.
Local Open Scope bool_scope.
Local Open Scope list_scope.

Section NumDen.
Variable G : ginac.
Notation gmul := (gmul G).
Notation gpow := (gpow G).

(** numerator_denominator.cc:52-77 find_denominator_single_factor: the numerator accumulated at
    the position and the denominator returned (the vector of denominators is not used further). *)
Definition find_denominator_single_factor (e num : expr) : expr * expr :=
  match e with
  | Pow a (Num q) => if q_le q 0 then (num, gpow a (Num (- q)%Qc)) else (gmul num e, Num 1)
  | Num q => (gmul num (Num (zq (Qnum (this q)))), Num (zq (Z.pos (Qden (this q)))))
  | _ => (gmul num e, Num 1)
  end.
(** numerator_denominator.cc:86-99 find_denominator_single_term, from the last factor. *)
Definition find_denominator_single_term (e num : expr) : expr * expr :=
  match e with
  | Mul l => fold_right (fun f nd => let '(n, d) := find_denominator_single_factor f (fst nd) in (n, gmul (snd nd) d)) (num, Num 1) l
  | _ => find_denominator_single_factor e num
  end.
(** numerator_denominator.cc:124-150: the last pair with base [b] gets the exponent 0. *)
Fixpoint take_base (b : expr) (ps : factors) : option (expr * factors) :=
  match ps with
  | [] => None
  | (b', f) :: ps =>
    match take_base b ps with
    | Some (g, ps') => Some (g, (b', f) :: ps')
    | None => if expr_eqb b' b then Some (f, (b', Num 0) :: ps) else None
    end
  end.
Definition take_step (p : expr * expr) (s : expr * factors) : expr * factors :=
  let '(b, f1) := p in let '(e, ps2) := s in
  if is_pos_int_num f1 then
    match take_base b ps2 with
    | Some (f2, ps2') =>
      (match pos_ints f1 f2 with
       | Some (n1, n2) => gmul e (gpow b (Num (if q_le n2 n1 then n1 else n2)))
       | None => gmul (gmul e (gpow b f1)) (gpow b f2)
       end, ps2')
    | None => (gmul e (gpow b f1), ps2)
    end
  else (gmul e (gpow b f1), ps2).
(** numerator_denominator.cc:108-167: take_common_and_not_factors on the pairs. *)
Definition take_common_pairs (ps1 ps2 : factors) : expr :=
  let '(e, ps2) := fold_right take_step (Num 1, ps2) ps1 in
  fold_right (fun p e => if is_num 0 (snd p) then e else gmul e (gpow (fst p) (snd p))) e ps2.
(** numerator_denominator.cc:184-194. *)
Definition take_common_and_not_factors (d f : expr) : option expr :=
  match split_bases_exponents d, split_bases_exponents f with
  | Some dps, Some fps => Some (take_common_pairs dps fps)
  | _, _ => None
  end.
(** numerator_denominator.cc:204-246 find_factor_for_numerator. When the exponents differ and are
    not both positive integers, the Number d_exponent is used, which is 0 if the exponent is not
    a number. *)
Definition find_factor_for_numerator (d f : expr) : option expr :=
  match split_bases_exponents d, split_bases_exponents f with
  | Some dps, Some fps =>
    Some (fold_right (fun p rem =>
      let '(b, fd) := p in
      match find_base b fps with
      | Some (_, ff) =>
        if expr_eqb fd ff then rem
        else match pos_ints fd ff with
             | Some (nd, nf) => gmul rem (gpow b (Num (nd - nf)%Qc))
             | None => gmul rem (gpow b (match fd with Num q => Num q | _ => Num 0 end))
             end
      | None => gmul rem (gpow b fd)
      end) (Num 1) dps)
  | _, _ => None
  end.
(** numerator_denominator.cc:257-274 find_numerator. *)
Definition find_numerator (nds : list (expr * expr)) (d : expr) : option expr :=
  fold_right (fun nd acc =>
    match acc with
    | None => None
    | Some s =>
      if expr_eqb d (snd nd) then Some (gadd G s (gmul (fst nd) (Num 1)))
      else match find_factor_for_numerator d (snd nd) with
           | Some m => Some (gadd G s (gmul (fst nd) (gmul (Num 1) m)))
           | None => None
           end
    end) (Some (Num 0)) nds.
(** numerator_denominator.cc:290-298: the common denominator, from the last term. *)
Definition common_denominator (nds : list (expr * expr)) : option expr :=
  fold_right (fun nd acc => match acc with Some d => take_common_and_not_factors d (snd nd) | None => None end) (Some (Num 1)) nds.
Definition combine_sum (nds : list (expr * expr)) : option (expr * expr) :=
  match common_denominator nds with
  | Some d => match find_numerator nds d with Some n => Some (n, d) | None => None end
  | None => None
  end.
Definition gdiv2 (a b : expr) : expr := gdiv G a b.
(** numerator_denominator.cc:280-341 numerator_denominator_term, and 353-379
    numerator_denominator_purrs, which does the same. *)
Fixpoint numerator_denominator (e : expr) : option (expr * expr) :=
  match e with
  | Add l =>
    match (fix go l := match l with
           | [] => Some []
           | t :: l => match numerator_denominator t, go l with Some nd, Some r => Some (nd :: r) | _, _ => None end
           end) l with
    | Some nds => combine_sum nds
    | None => None
    end
  | Pow a b =>
    match numerator_denominator a, numerator_denominator b with
    | Some (bn, bd), Some (en, ed) => Some (find_denominator_single_term (gpow (gdiv2 bn bd) (gdiv2 en ed)) (Num 1))
    | _, _ => None
    end
  | Mul l =>
    (fix go l := match l with
     | [] => Some (Num 1, Num 1)
     | f :: l =>
       match go l with
       | None => None
       | Some (num, den) =>
         match f with
         | Pow _ _ => match numerator_denominator f with
                      | Some (n, d) => let '(n', d') := find_denominator_single_term (gdiv2 n d) num in Some (n', gmul den d')
                      | None => None
                      end
         | _ => let '(n', d') := find_denominator_single_term f num in Some (n', gmul den d')
         end
       end
     end) l
  | _ => Some (find_denominator_single_term e (Num 1))
  end.
End NumDen.
