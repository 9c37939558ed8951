(** Model of class Blackboard (src/Blackboard.defs.hh, Blackboard.inlines.hh, Blackboard.cc,
    size_norm_impl.hh, size_norm.cc).
    Simplifications: symbols are identified with their names (GiNaC also gives them serial
    numbers, the index of the blackboard compares names only); sizes and timestamps are
    unbounded. The mutable caches are part of the state, threaded through the const calls. *)
From Coq Require Import ZArith QArith Qcanon List String Bool.
From Verif Require Import Ast ExprModel.
Import ListNotations.
Local Open Scope string_scope.
Local Open Scope nat_scope.

(** Outcome of a call: a result, undefined behaviour, or recursion deeper than the fuel. *)
Inductive call (A : Type) := Done (a : A) | Undefined | Deeper.
Arguments Done {A} _.
Arguments Undefined {A}.
Arguments Deeper {A}.
Definition cbind {A B} (c : call A) (f : A -> call B) : call B :=
  match c with Done a => f a | Undefined => Undefined | Deeper => Deeper end.

(** Blackboard.defs.hh:89-107, Blackboard.inlines.hh:38-53: a definition with its caches; cached
    elements are constructed with timestamp 0. *)
Record definition := MkDef { rhs : expr; size_ts : nat; size_val : nat; exp_ts : nat; exp_val : expr }.
Definition new_definition (e : expr) : definition := MkDef e 0 0 0 (Num 0).
(** Blackboard.defs.hh:112-116. std::map ordered by name, std::deque, timestamp. *)
Record blackboard := MkBB { index : list (string * nat); defs : list definition; timestamp : nat }.
(** Blackboard.inlines.hh:55-59. *)
Definition empty_blackboard : blackboard := MkBB [] [] 1.

(** std::map find / insert (which keeps an existing entry) / erase, entries sorted by key. *)
Fixpoint map_find (z : string) (m : list (string * nat)) : option nat :=
  match m with [] => None | (k, i) :: m => if String.eqb z k then Some i else map_find z m end.
Fixpoint map_insert (z : string) (i : nat) (m : list (string * nat)) : list (string * nat) :=
  match m with
  | [] => [(z, i)]
  | (k, j) :: m' => if String.eqb z k then m else if String.ltb z k then (z, i) :: m else (k, j) :: map_insert z i m'
  end.
Definition map_erase (z : string) (m : list (string * nat)) : list (string * nat) :=
  filter (fun p => negb (String.eqb z (fst p))) m.

(** Blackboard.inlines.hh:78-87. The new symbol's name is given by GiNaC. *)
Definition insert_definition (b : blackboard) (z : string) (e : expr) : blackboard * string :=
  (MkBB (map_insert z (List.length (defs b)) (index b)) (defs b ++ [new_definition e]) (S (timestamp b)), z).
(** Blackboard.inlines.hh:89-97. *)
Definition get_definition (b : blackboard) (z : string) : call expr :=
  match map_find z (index b) with
  | Some i => match nth_error (defs b) i with Some d => Done (rhs d) | None => Undefined end
  | None => Done (Sym z)
  end.
(** Blackboard.inlines.hh:99-109: both containers are walked in step; [j->first] and [++j] at
    the end of the map are undefined. [z] is the name a new symbol would get. *)
Fixpoint find_loop (ds : list definition) (ix : list (string * nat)) (e : expr) : call (option string) :=
  match ds, ix with
  | [], _ => Done None
  | _ :: _, [] => Undefined
  | d :: ds, (k, _) :: ix => if expr_eqb (rhs d) e then Done (Some k) else find_loop ds ix e
  end.
Definition find_symbol (b : blackboard) (z : string) (e : expr) : call (blackboard * string) :=
  match find_loop (defs b) (index b) e with
  | Done (Some k) => Done (b, k)
  | Done None => Done (insert_definition b z e)
  | Undefined => Undefined
  | Deeper => Deeper
  end.
(** Blackboard.inlines.hh:111-130. *)
Definition substitute_symbol (b : blackboard) (old new : string) : call blackboard :=
  match map_find old (index b) with
  | None => Done b
  | Some i =>
    match nth_error (defs b) i with
    | None => Undefined
    | Some d => Done (MkBB (map_erase old (map_insert new (List.length (defs b)) (index b)))
                           (defs b ++ [new_definition (rhs d)]) (S (timestamp b)))
    end
  end.

Fixpoint replace_nth {A} (i : nat) (a : A) (l : list A) : list A :=
  match l, i with [], _ => [] | _ :: l, O => a :: l | x :: l, S i => x :: replace_nth i a l end.

(** Loops  for (i = nops(); i-- > 0; )  acc = op(acc, f(op(i)))  and  for (i = 0; i < nops(); ++i)
    with a call [f] that may change the caches. *)
Definition from_last {S A B} (f : S -> A -> call (S * B)) (op : B -> B -> B) (u : B) (s : S) : list A -> call (S * B) :=
  fix go l := match l with
  | [] => Done (s, u)
  | a :: l => cbind (go l) (fun p => cbind (f (fst p) a) (fun q => Done (fst q, op (snd p) (snd q))))
  end.
Definition from_first {S A B} (f : S -> A -> call (S * B)) : S -> list A -> call (S * list B) :=
  fix go s l := match l with
  | [] => Done (s, [])
  | a :: l => cbind (f s a) (fun p => cbind (go (fst p) l) (fun q => Done (fst q, snd p :: snd q)))
  end.

Section Rewrite.
Variable G : ginac.
Variable ix : list (string * nat).
Variable ts : nat.
(** Blackboard.cc:48-83 rewrite(const Expr&), with [rdef] = rewrite(Definition&). *)
Section RwExpr.
Variable rdef : list definition -> nat -> call (list definition * expr).
Definition rw_sym (ds : list definition) (z : string) : call (list definition * expr) :=
  match map_find z ix with Some i => rdef ds i | None => Done (ds, Sym z) end.
Fixpoint rw_expr (ds : list definition) (e : expr) {struct e} : call (list definition * expr) :=
  match e with
  | Add l => from_last rw_expr (gadd G) (Num 0%Qc) ds l
  | Mul l => from_last rw_expr (gmul G) (Num 1%Qc) ds l
  | Pow a b => cbind (rw_expr ds a) (fun p => cbind (rw_expr (fst p) b) (fun q => Done (fst q, gpow G (snd p) (snd q))))
  | Fun f l => cbind (from_first rw_expr ds l) (fun p => Done (fst p, gfun G f (snd p)))
  | SumE k lo up e => cbind (rw_sym ds k) (fun i => cbind (rw_expr (fst i) lo) (fun p => cbind (rw_expr (fst p) up) (fun q =>
      cbind (rw_expr (fst q) e) (fun r => Done (fst r, apply_sum G (snd i) (snd p) (snd q) (snd r))))))
  | ProdE k lo up e => cbind (rw_sym ds k) (fun i => cbind (rw_expr (fst i) lo) (fun p => cbind (rw_expr (fst p) up) (fun q =>
      cbind (rw_expr (fst q) e) (fun r => Done (fst r, apply_prod G (snd i) (snd p) (snd q) (snd r))))))
  | Sym z => rw_sym ds z
  | _ => Done (ds, e)
  end.
End RwExpr.
(** Blackboard.cc:37-45 rewrite(Definition&). *)
Fixpoint rw_def (fuel : nat) (ds : list definition) (i : nat) : call (list definition * expr) :=
  match fuel with
  | O => Deeper
  | S fuel =>
    match nth_error ds i with
    | None => Undefined
    | Some d =>
      if Nat.ltb (exp_ts d) ts then
        cbind (rw_expr (rw_def fuel) ds (rhs d)) (fun p =>
        match nth_error (fst p) i with
        | None => Undefined
        | Some d' => Done (replace_nth i (MkDef (rhs d') (size_ts d') (size_val d') ts (snd p)) (fst p), snd p)
        end)
      else Done (ds, exp_val d)
    end
  end.

(** size_norm_impl.hh:33-51 generic_size_norm with the blackboard as symbol handler,
    Blackboard.cc:100-107 size_norm(const Symbol&). The loops run from the last operand. *)
Section SzExpr.
Variable sdef : list definition -> nat -> call (list definition * nat).
Definition sz_sym (ds : list definition) (z : string) : call (list definition * nat) :=
  match map_find z ix with Some i => sdef ds i | None => Done (ds, 1) end.
Fixpoint sz_expr (ds : list definition) (e : expr) {struct e} : call (list definition * nat) :=
  match e with
  | Add l | Mul l | Fun _ l => from_last sz_expr Nat.add 1 ds l
  | Pow a b => cbind (sz_expr ds a) (fun p => cbind (sz_expr (fst p) b) (fun q => Done (fst q, 1 + (snd p + snd q))))
  | SumE k lo up e | ProdE k lo up e =>
    cbind (sz_expr ds e) (fun r => cbind (sz_expr (fst r) up) (fun q => cbind (sz_expr (fst q) lo) (fun p =>
    cbind (sz_sym (fst p) k) (fun i => Done (fst i, 1 + snd r + snd q + snd p + snd i)))))
  | Sym z => sz_sym ds z
  | _ => Done (ds, 1)
  end.
End SzExpr.
(** Blackboard.cc:85-92 size_norm(Definition&). *)
Fixpoint sz_def (fuel : nat) (ds : list definition) (i : nat) : call (list definition * nat) :=
  match fuel with
  | O => Deeper
  | S fuel =>
    match nth_error ds i with
    | None => Undefined
    | Some d =>
      if Nat.ltb (size_ts d) ts then
        cbind (sz_expr (sz_def fuel) ds (rhs d)) (fun p =>
        match nth_error (fst p) i with
        | None => Undefined
        | Some d' => Done (replace_nth i (MkDef (rhs d') ts (snd p) (exp_ts d') (exp_val d')) (fst p), snd p)
        end)
      else Done (ds, size_val d)
    end
  end.
End Rewrite.

(** The public calls. *)
Definition rewrite_bb (G : ginac) (fuel : nat) (b : blackboard) (e : expr) : call (blackboard * expr) :=
  cbind (rw_expr G (index b) (rw_def G (index b) (timestamp b) fuel) (defs b) e)
    (fun p => Done (MkBB (index b) (fst p) (timestamp b), snd p)).
Definition size_norm_bb (fuel : nat) (b : blackboard) (e : expr) : call (blackboard * nat) :=
  cbind (sz_expr (index b) (sz_def (index b) (timestamp b) fuel) (defs b) e)
    (fun p => Done (MkBB (index b) (fst p) (timestamp b), snd p)).

(** size_norm.cc:36-50: every symbol counts 1. *)
Fixpoint size_norm (e : expr) : nat :=
  match e with
  | Add l | Mul l | Fun _ l => fold_right (fun a n => n + size_norm a) 1 l
  | Pow a b => 1 + (size_norm a + size_norm b)
  | SumE k lo up e | ProdE k lo up e => 1 + size_norm e + size_norm up + size_norm lo + 1
  | _ => 1
  end.

(** Histories of calls on one object; copies are the identity (Blackboard.inlines.hh:61-76). *)
Inductive bb_op :=
  | OInsert (z : string) (e : expr)
  | OFind (z : string) (e : expr)
  | OSubst (old new : string)
  | ORewrite (fuel : nat) (e : expr)
  | OSize (fuel : nat) (e : expr).
Definition bb_step (G : ginac) (b : blackboard) (o : bb_op) : call blackboard :=
  match o with
  | OInsert z e => Done (fst (insert_definition b z e))
  | OFind z e => cbind (find_symbol b z e) (fun p => Done (fst p))
  | OSubst old new => substitute_symbol b old new
  | ORewrite fuel e => cbind (rewrite_bb G fuel b e) (fun p => Done (fst p))
  | OSize fuel e => cbind (size_norm_bb fuel b e) (fun p => Done (fst p))
  end.
Fixpoint bb_run (G : ginac) (b : blackboard) (h : list bb_op) : call blackboard :=
  match h with [] => Done b | o :: h => cbind (bb_step G b o) (fun b => bb_run G b h) end.
