(** Vocabulary for C57. *)
From Coq Require Import ZArith QArith Qcanon Reals List String Bool.
From Verif Require Import Ast CollectModel.
Import ListNotations.
Local Open Scope R_scope.
Local Open Scope list_scope.

(** The bases of the powers among the factors [l] are not 0. *)
Definition bases_nonzero (I : interp) (rho : string -> R) (l : list expr) : Prop :=
  forall b x u, In (Pow b x) l -> eval I rho b = Some u -> u <> 0.
(** [a] is [e] or a subexpression of it. *)
Inductive occurs (a : expr) : expr -> Prop :=
| O_here : occurs a a
| O_in e b : In b (ops e) -> occurs a b -> occurs a e.
(** [old] is [e], or one factor of it that occurs in no other. *)
Definition single_factor (old e : expr) : Prop :=
  e = old \/ exists l1 l2, e = Mul (l1 ++ old :: l2) /\ e <> old /\ Forall (fun a => ~ occurs old a) (l1 ++ l2).
(** Whenever a factor [f] that is no power is absorbed by a power [old], that power is, in the product
    built so far, a single factor. *)
Definition absorbs_single (G : ginac) (l : list expr) : Prop := forall l1 f l2 old new acc p,
  bases_loop G (List.length (entries l)) (entries l) (Num 1) = (acc, p) -> l = l1 ++ f :: l2 ->
  plain_factor f = true -> absorber G f p = Some (old, new) -> single_factor old (fold_right (add_factor G p) acc l2).
(** A simplifier that knows a^0 = 1 and 1 a = a 1 = a, 0 + 0 = 0. *)
Definition knows_one (G : ginac) : Prop := (forall b, gpow G b (Num 0%Qc) = Num 1%Qc) /\ (forall a, gmul G (Num 1%Qc) a = a) /\ (forall a, gmul G a (Num 1%Qc) = a) /\ gadd G (Num 0%Qc) (Num 0%Qc) = Num 0%Qc.
