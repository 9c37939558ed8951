(** Specification vocabulary for class Blackboard. *)
From Coq Require Import QArith Qcanon List String Bool Reals.
From Verif Require Import Ast ExprModel BlackboardModel.
Import ListNotations.
Local Open Scope nat_scope.

(** What a history of calls defines: a partial map from symbols to expressions. *)
Definition dict := string -> option expr.
Definition dset (D : dict) (z : string) (o : option expr) : dict := fun y => if String.eqb y z then o else D y.
(** An existing definition is never overwritten; renaming moves a definition to the new name
    unless that name has one already, and forgets the old name. *)
Definition d_insert (D : dict) (z : string) (e : expr) : dict := match D z with Some _ => D | None => dset D z (Some e) end.
Definition d_rename (D : dict) (old new : string) : dict :=
  match D old with None => D | Some e => dset (d_insert D new e) old None end.

(** Expansion of an expression with respect to a dictionary: no caches, no timestamps.
    The expanded expression is put together with GiNaC's constructors (from the last operand for
    sums and products). *)
Section E.
Variable G : ginac.
Variable D : dict.
Inductive expands : expr -> expr -> Prop :=
  | ex_num q : expands (Num q) (Num q)
  | ex_cst c : expands (Cst c) (Cst c)
  | ex_free z : D z = None -> expands (Sym z) (Sym z)
  | ex_def z e v : D z = Some e -> expands e v -> expands (Sym z) v
  | ex_add l l' : expands_all l l' -> expands (Add l) (fold_right (fun a acc => gadd G acc a) (Num 0%Qc) l')
  | ex_mul l l' : expands_all l l' -> expands (Mul l) (fold_right (fun a acc => gmul G acc a) (Num 1%Qc) l')
  | ex_pow a b a' b' : expands a a' -> expands b b' -> expands (Pow a b) (gpow G a' b')
  | ex_fun f l l' : expands_all l l' -> expands (Fun f l) (gfun G f l')
  | ex_sum k lo up e k' lo' up' e' : expands (Sym k) k' -> expands lo lo' -> expands up up' -> expands e e' ->
      expands (SumE k lo up e) (apply_sum G k' lo' up' e')
  | ex_prod k lo up e k' lo' up' e' : expands (Sym k) k' -> expands lo lo' -> expands up up' -> expands e e' ->
      expands (ProdE k lo up e) (apply_prod G k' lo' up' e')
with expands_all : list expr -> list expr -> Prop :=
  | exs_nil : expands_all [] []
  | exs_cons a l a' l' : expands a a' -> expands_all l l' -> expands_all (a :: l) (a' :: l').
End E.

(** The fully unfolded term, operators kept as they are, and its number of nodes. *)
Inductive tree := Leaf | Node (l : list tree).
Fixpoint nodes (t : tree) : nat := match t with Leaf => 1 | Node l => S (list_sum (map nodes l)) end.
Definition composite (e : expr) : Prop := match e with Num _ | Cst _ | Sym _ => False | _ => True end.
Section U.
Variable D : dict.
Inductive unfolds : expr -> tree -> Prop :=
  | uf_leaf e : (exists q, e = Num q) \/ (exists c, e = Cst c) \/ (exists z, e = Sym z /\ D z = None) -> unfolds e Leaf
  | uf_def z e t : D z = Some e -> unfolds e t -> unfolds (Sym z) t
  | uf_node e l : composite e -> unfolds_all (ops e) l -> unfolds e (Node l)
with unfolds_all : list expr -> list tree -> Prop :=
  | ufs_nil : unfolds_all [] []
  | ufs_cons a l t ts : unfolds a t -> unfolds_all l ts -> unfolds_all (a :: l) (t :: ts).
End U.

(** A valuation that satisfies all the equations z = e of the dictionary. *)
Definition satisfies (I : interp) (D : dict) (rho : string -> R) : Prop :=
  forall z e, D z = Some e -> eval I rho e = Some (rho z).
(** No definition is circular: definitions only use symbols of smaller rank. *)
Definition acyclic (D : dict) : Prop :=
  exists rank : string -> nat, forall z e y, D z = Some e -> has y e = true -> D y <> None -> rank y < rank z.
(** Indices of sums and products in [e] are neither defined nor used in a definition. *)
Fixpoint indices_apart (D : dict) (e : expr) : Prop :=
  match e with
  | Add l | Mul l | Fun _ l => fold_right (fun a P => indices_apart D a /\ P) True l
  | Pow a b => indices_apart D a /\ indices_apart D b
  | SumE k lo up e | ProdE k lo up e =>
    (D k = None /\ forall z d, D z = Some d -> has k d = false) /\ indices_apart D lo /\ indices_apart D up /\ indices_apart D e
  | _ => True
  end.

(** What a history of calls records. find_symbol either inserts or does not. *)
Inductive records : list bb_op -> dict -> Prop :=
  | rec_nil : records [] (fun _ => None)
  | rec_insert h D z e : records h D -> records (h ++ [OInsert z e]) (d_insert D z e)
  | rec_found h D z e : records h D -> records (h ++ [OFind z e]) D
  | rec_new h D z e : records h D -> records (h ++ [OFind z e]) (d_insert D z e)
  | rec_subst h D old new : records h D -> records (h ++ [OSubst old new]) (d_rename D old new)
  | rec_rewrite h D f e : records h D -> records (h ++ [ORewrite f e]) D
  | rec_size h D f e : records h D -> records (h ++ [OSize f e]) D.

(** Symbols are created in increasing order of their names, and nothing is renamed. *)
Definition new_name (o : bb_op) : list string := match o with OInsert z _ | OFind z _ => [z] | _ => [] end.
Definition no_renaming (h : list bb_op) : Prop := forall o, In o h -> forall x y, o <> OSubst x y.
Fixpoint increasing (l : list string) : Prop :=
  match l with [] => True | a :: l => Forall (fun b => String.ltb a b = true) l /\ increasing l end.
