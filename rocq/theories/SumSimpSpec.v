(** Vocabulary for C46. *)
From Coq Require Import ZArith QArith Qcanon Reals List String Bool.
From Verif Require Import Ast ExprModel ExprSpec DecompModel ProdSpec SumSimpModel.
Import ListNotations.
Local Open Scope R_scope.
Local Open Scope list_scope.

(** The upper limit is m + num. *)
Definition upper_is (up : expr) (m : string) (num : Z) : Prop :=
  (up = Sym m /\ num = 0%Z) \/ up = Add [Sym m; Num (zq num)] \/ up = Add [Num (zq num); Sym m].
(** The summand at k = i is f(i) for i = a, ..., b. *)
Definition summands (I : interp) (rho : string -> R) (k : string) (e : expr) (a b : Z) (f : Z -> R) : Prop :=
  forall i, (a <= i <= b)%Z -> eval I (upd rho k (IZR i)) e = Some (f i).
(** sum_pe c h m b is the sum of c(i) b^i for i = 0, ..., m, where m >= 0 (C05). *)
Definition sums_powers (I : interp) (sum_pe : expr -> string -> string -> expr -> expr) : Prop :=
  forall rho h m c b (N : Z) (g : Z -> R), h <> m -> rho m = IZR N -> (0 <= N)%Z ->
  summands I rho h (Mul [c; Pow b (Sym h)]) 0 N g -> eval I rho (sum_pe c h m b) = Some (zsum g 0 (Z.to_nat (N + 1))).
(** An answer of Gosper's algorithm for t(m) is the sum of t(i), i = lower, ..., upper (C43). *)
Definition telescopes (I : interp) (gosper : string -> expr -> Z -> expr -> option expr) : Prop :=
  forall m t lo up s, gosper m t lo up = Some s -> forall rho U f, (lo - 1 <= U)%Z -> eval I rho up = Some (IZR U) ->
  summands I rho m t lo (U + 1) f -> eval I rho s = Some (zsum f lo (Z.to_nat (U - lo + 1))).
Section Treated.
Context (G : ginac) (expand simplify : expr -> expr) (sum_pe : expr -> string -> string -> expr -> expr) (h k m : string) (num : Z).
(** Summands that are sums of polynomials times exponentials, whose coefficients do not contain
    the symbol m of the upper limit m + num (unless num = 0). No index gets captured. *)
Definition exp_poly_treated (e : expr) : Prop :=
  Forall (fun t => let '(b, p, q) := t in let c := substitute G (Sym k) (Sym h) p in
    q = Num 0 /\ has h p = false /\ has h b = false /\ (num = 0%Z \/ has m p = false /\ has m b = false) /\
    no_capture k (Sym h) p /\ not_bound h c /\ no_capture m (gadd G (Sym m) (Num (zq num))) (sum_pe c h m b))
  (exp_poly_decomposition G simplify (expand e) k).
(** Summands without polynomial part, with one base, that do not contain m. *)
Definition non_poly_treated (e : expr) : Prop :=
  (exists b q, exp_poly_decomposition G simplify (expand e) k = [(b, Num 0, q)]) /\ has m e = false /\ no_capture k (Sym m) e.
End Treated.
(** A sum sum(k,lo,up,e) that compute_sum treats rightly at rho: lower limit l >= 0, upper limit
    U >= max(0, l - 1) of the form m + num, summand defined from 0 on; or an upper limit of another
    form (then the sum is left alone). *)
Section Leaves.
Context (I : interp) (G : ginac) (expand simplify : expr -> expr) (sum_pe : expr -> string -> string -> expr -> expr) (h : string).
Definition compute_treated (rho : string -> R) (k : string) (lo up e : expr) : Prop :=
  exists l : Z, lo = Num (zq l) /\
  ((forall m num, ~ upper_is up m num) \/
   exists m num M, upper_is up m num /\ rho m = IZR M /\ h <> k /\ h <> m /\ k <> m /\ (0 <= l)%Z /\
   (0 <= M + num)%Z /\ (l - 1 <= M + num)%Z /\
   ((exists f, summands I rho k e 0 (M + num) f) /\ exp_poly_treated G expand simplify sum_pe h k m num e \/
    (exists f, summands I rho k e l (M + num + 1) f) /\ non_poly_treated G expand simplify k m e)).
(** The same for split_sum: upper limit m + num, both m and m + num at least l - 1; or another sum of two operands. *)
Definition split_treated (rho : string -> R) (k : string) (lo up e : expr) : Prop :=
  (exists l m num M f, eval I rho lo = Some (IZR l) /\ (up = Add [Sym m; Num (zq num)] \/ up = Add [Num (zq num); Sym m]) /\ rho m = IZR M /\ k <> m /\
   (l - 1 <= M)%Z /\ (l - 1 <= M + num)%Z /\ summands I rho k e l (Z.max l (Z.max M (M + num))) f /\
   forall j, no_capture k (gadd G (Sym m) (Num (zq j))) e) \/
  ((forall m q, up <> Add [Sym m; Num q] /\ up <> Add [Num q; Sym m]) /\
   exists l U, eval I rho lo = Some (IZR l) /\ eval I rho up = Some (IZR U) /\ (l - 1 <= U)%Z /\ exists t u, eval I (upd rho k t) e = Some u).
(** Every sum reached in e is treated rightly in the environment it is reached with. *)
Inductive sums_right (compute : bool) : (string -> R) -> expr -> Prop :=
| SR_num rho q : sums_right compute rho (Num q)
| SR_cst rho c : sums_right compute rho (Cst c)
| SR_sym rho s : sums_right compute rho (Sym s)
| SR_add rho l : Forall (sums_right compute rho) l -> sums_right compute rho (Add l)
| SR_mul rho l : Forall (sums_right compute rho) l -> sums_right compute rho (Mul l)
| SR_pow rho a b : sums_right compute rho a -> sums_right compute rho b -> sums_right compute rho (Pow a b)
| SR_fun rho f l : Forall (sums_right compute rho) l -> sums_right compute rho (Fun f l)
| SR_terms rho k lo up l : compute = true -> Forall (fun a => sums_right compute rho (gsum G k lo up a)) l -> sums_right compute rho (SumE k lo up (Add l))
| SR_compute rho k lo up b : compute = true -> (forall l, b <> Add l) -> has_x_with k b = false -> compute_treated rho k lo up b -> sums_right compute rho (SumE k lo up b)
| SR_split rho k lo u v b : compute = false -> split_treated rho k lo (Add [u; v]) b -> sums_right compute rho (SumE k lo (Add [u; v]) b)
| SR_sum rho k lo up b : (if compute then (forall l, b <> Add l) /\ has_x_with k b = true else forall u v, up <> Add [u; v]) ->
    sums_right compute rho lo -> sums_right compute rho up ->
    (forall i : Z, sums_right compute (upd rho k (IZR i)) b) -> sums_right compute rho (SumE k lo up b)
| SR_prod rho k lo up b : sums_right compute rho lo -> sums_right compute rho up ->
    (forall i : Z, sums_right compute (upd rho k (IZR i)) b) -> sums_right compute rho (ProdE k lo up b).
End Leaves.
