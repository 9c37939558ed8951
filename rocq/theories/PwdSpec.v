(** Where the rewriting of powers of [lambda - alpha] is meant to be used. *)
From Coq Require Import Reals QArith Qcanon String List.
From Verif Require Import Ast.
Local Open Scope R_scope.

(** [v] is a root of the characteristic equation v^2 = c v + d. *)
Definition root (c d : Qc) (v : R) : Prop := v * v = rv c * v + rv d.
(** The sums and products of [e] do not use [s] as an index. *)
Inductive not_index (s : string) : expr -> Prop :=
| NI_num q : not_index s (Num q) | NI_cst c : not_index s (Cst c) | NI_sym t : not_index s (Sym t)
| NI_add l : Forall (not_index s) l -> not_index s (Add l)
| NI_mul l : Forall (not_index s) l -> not_index s (Mul l)
| NI_pow a b : not_index s a -> not_index s b -> not_index s (Pow a b)
| NI_fun f l : Forall (not_index s) l -> not_index s (Fun f l)
| NI_sum k lo up b : k <> s -> not_index s lo -> not_index s up -> not_index s b -> not_index s (SumE k lo up b)
| NI_prod k lo up b : k <> s -> not_index s lo -> not_index s up -> not_index s b -> not_index s (ProdE k lo up b).
