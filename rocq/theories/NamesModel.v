(** Model of the renaming of system-generated symbols (src/Cached_Expr.cc:35-96,
    src/Expr.cc:1236-1259 collect_symbols, src/Symbol.cc:33-53 is_system_generated).
    Simplification: a symbol is its name; std::set<Symbol, NameCompare> is a sorted list. *)
From Coq Require Import ZArith QArith Qcanon List String Ascii Bool DecimalString DecimalNat Decimal.
From Verif Require Import Ast ExprModel BlackboardModel.
Import ListNotations.
Local Open Scope string_scope.
Local Open Scope list_scope.
Local Open Scope nat_scope.

(** operator<< of a non-negative int. *)
Definition decimal (n : nat) : string := NilZero.string_of_uint (Nat.to_uint n).
(** Cached_Expr.cc:41-60. *)
Definition symbol_names : string := "abcdfghijklmopqrstuvwyz".
Definition num_names : nat := 23.
Definition new_symbol_name (i : nat) : string :=
  let letter := match String.get (i mod num_names) symbol_names with Some c => c | None => "000"%char end in
  let index := i / num_names in
  if Nat.eqb index 0 then String letter EmptyString else String letter (decimal index).

(** Symbol.cc:33-53. *)
Definition is_digit (c : ascii) : bool := Nat.leb 48 (nat_of_ascii c) && Nat.leb (nat_of_ascii c) 57.
Fixpoint all_digits (s : string) : bool := match s with EmptyString => true | String c s => is_digit c && all_digits s end.
Definition is_system_generated (s : string) : bool :=
  if Nat.ltb (String.length s) 7 then false
  else if String.prefix "symbol" s then all_digits (substring 6 (String.length s - 6) s) else false.

(** std::set<Symbol>::insert and find. *)
Fixpoint set_insert (z : string) (m : list string) : list string :=
  match m with [] => [z] | k :: m' => if String.eqb z k then m else if String.ltb z k then z :: m else k :: set_insert z m' end.
Definition set_mem (z : string) (m : list string) : bool := existsb (String.eqb z) m.

(** Expr.cc:1236-1259; loops run from the last operand. *)
Definition collect_sym (s : string) (p : list string * list string) : list string * list string :=
  if is_system_generated s then (set_insert s (fst p), snd p) else (fst p, set_insert s (snd p)).
Fixpoint collect_symbols (e : expr) (p : list string * list string) : list string * list string :=
  match e with
  | Num _ | Cst _ => p
  | Sym s => collect_sym s p
  | Add l | Mul l | Fun _ l => fold_right collect_symbols p l
  | Pow a b => collect_symbols b (collect_symbols a p)
  | SumE k lo up e | ProdE k lo up e => collect_sym k (collect_symbols lo (collect_symbols up (collect_symbols e p)))
  end.

(** Cached_Expr.cc:76-82: the loop that tries one name after the other. *)
Fixpoint try_names (fuel i : nat) (taken : list string) : call string :=
  let name := new_symbol_name i in
  if set_mem name taken then match fuel with O => Deeper | S fuel => try_names fuel (S i) taken end else Done name.
(** Cached_Expr.cc:72-95: the loop over the system symbols; the new expression, and the
    substitutions made on the blackboard in their order. *)
Fixpoint rename_loop (G : ginac) (fuel i : nat) (sys taken : list string) (e : expr) (b : blackboard) : call (expr * blackboard * list (string * string)) :=
  match sys with
  | [] => Done (e, b, [])
  | s :: sys =>
    cbind (try_names fuel i taken) (fun name =>
    cbind (substitute_symbol b s name) (fun b' =>
    cbind (rename_loop G fuel (S i) sys (set_insert name taken) (substitute G (Sym s) (Sym name) e) b') (fun r =>
    Done (fst r, (s, name) :: snd r))))
  end.
Definition replace_system_generated_symbols (G : ginac) (fuel : nat) (e : expr) (b : blackboard) : call (expr * blackboard * list (string * string)) :=
  let p := collect_symbols e ([], []) in rename_loop G fuel 0 (fst p) (snd p) e b.
