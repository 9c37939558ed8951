(** C36-C39: nested polynomials, rational roots, multiplicities, pure power equations. *)
From Coq Require Import ZArith QArith Qcanon List Bool Lia Reals Lra Arith.
From Coquelicot Require Import Complex.
From Verif Require Import Ast ExprModel Fld FPoly CplxF RootModel RootSpec FindRootModel FindRootSpec NestedProofs FindRootProofs FindRootProofs2 FindRootProofs3 FindRootProofs4 FindRootProofs6 FindRootProofs7.
Import ListNotations.
Local Open Scope list_scope.
Local Open Scope nat_scope.

(** p(x) = q(x^n), and n is the largest such exponent (every other one divides it). *)
Theorem C36_nested : forall p : list Qc, 0 < degree p -> let '(n, q) := is_nested_polynomial p in
  0 < n /\ (forall x : Qc, peval (K:=QcF) p x = peval (K:=QcF) q (fpow (K:=QcF) x n)) /\
  forall m (q' : list Qc), 0 < m -> (forall x : Qc, peval (K:=QcF) p x = peval (K:=QcF) q' (fpow (K:=QcF) x m)) -> Nat.divide m n.
Proof. exact nested_polynomial. Qed.
Print Assumptions C36_nested.
Theorem C36_constant : forall p : list Qc, degree p = 0 -> is_nested_polynomial p = (0, p).
Proof. exact nested_constant. Qed.
Print Assumptions C36_constant.
(** x^6 + 2 x^4 - 1. *)
Example C36_example : fst (is_nested_polynomial [(- (1))%Qc; 0%Qc; 0%Qc; 0%Qc; zq 2%Z; 0%Qc; 1%Qc]) = 2 /\
  degree [(- (1))%Qc; 0%Qc; 0%Qc; 0%Qc; zq 2%Z; 0%Qc; 1%Qc] = 6.
Proof. vm_compute. split; reflexivity. Qed.

(** Everything reported as a rational root is one. *)
Theorem C37_sound : forall poly_factor, factorizer_ok poly_factor ->
  forall fuel p roots m b roots', proper p -> integer_coefficients p -> square_free p ->
  find_roots poly_factor fuel p roots m = Some (b, roots') ->
  exists new, roots' = roots ++ new /\ forall r a, In r new -> value r = Rational a -> peval (K:=QcF) p a = 0%Qc.
Proof.
  intros pf H fuel p roots m b roots' A1 A2 A3 E. destruct (find_roots_ok pf H fuel p roots m b roots' A1 A2 A3 E) as (new & E' & A & _). exists new. auto.
Qed.
Print Assumptions C37_sound.

(** Every rational root is reported, with the multiplicity of the factor. *)
Theorem C37_complete : forall poly_factor, factorizer_ok poly_factor ->
  forall fuel p roots m b roots', proper p -> integer_coefficients p -> square_free p -> end_coefficients_below 121 p ->
  find_roots poly_factor fuel p roots m = Some (b, roots') ->
  exists new, roots' = roots ++ new /\ forall r, pval p (qC r) = RtoC 0 -> In (MkRoot (Rational r) m) new.
Proof. exact complete. Qed.
Print Assumptions C37_complete.

(** A square-free polynomial without pure power factor: its factorisation. *)
Theorem C38_simple_roots_partial : forall poly_factor, factorizer_ok poly_factor ->
  forall fuel p roots d, proper p -> integer_coefficients p -> square_free p -> no_pure_power_factor p ->
  find_roots_top poly_factor fuel (SAdd p) = Some (true, roots, d) ->
  d = true /\ exists k : C, k <> RtoC 0 /\ forall x, pval p x = (k * root_product roots x)%C.
Proof. exact simple_ok. Qed.
Print Assumptions C38_simple_roots_partial.

(** A product of powers of square-free polynomials with rational roots: it succeeds, with the
    multiplicities. *)
Theorem C38_split_partial : forall poly_factor fuel l,
  (forall f e, In (f, e) l -> proper f /\ integer_coefficients f /\ square_free f /\ end_coefficients_below 121 f /\ exists rs, splits_over_Q f rs) ->
  exists roots, find_roots_top poly_factor (S fuel) (SMul l) = Some (true, roots, false) /\
    exists k : C, k <> RtoC 0 /\ forall x, fold_right (fun fe acc => fpow (K:=CF) (pval (fst fe) x) (snd fe) * acc)%C (RtoC 1) l = (k * root_product roots x)%C.
Proof.
  intros pf fuel l H. destruct (product_split pf fuel l [] H) as (new & E & K). exists new. split; [|exact K]. unfold find_roots_top. rewrite E. reflexivity.
Qed.
Print Assumptions C38_split_partial.

(** The set of the values reported is the set of zeros. *)
Theorem C38_root_set_partial : forall poly_factor, factorizer_ok poly_factor -> forall fuel l roots d,
  (forall f e, In (f, e) l -> proper f /\ integer_coefficients f /\ square_free f /\ no_pure_power_factor f) ->
  find_roots_top poly_factor fuel (SMul l) = Some (true, roots, d) ->
  d = false /\ forall z, (exists r, In r roots /\ rvalue r = z) <-> exists f e, In (f, e) l /\ pval f z = RtoC 0.
Proof.
  intros pf H fuel l roots d HL E. unfold find_roots_top in E. destruct (product_roots pf fuel l []) as [[b rs]|] eqn:P; [|discriminate].
  assert (b = true /\ rs = roots /\ d = false) as (-> & -> & ->) by (split; [|split]; congruence).
  destruct (product_values pf H fuel l [] roots HL P) as (new & E' & V). cbn [app] in E'. subst new. auto.
Qed.
Print Assumptions C38_root_set_partial.
Theorem C38_power_root_set_partial : forall poly_factor, factorizer_ok poly_factor -> forall fuel p e roots d,
  proper p -> integer_coefficients p -> square_free p -> no_pure_power_factor p ->
  find_roots_top poly_factor fuel (SPow p e) = Some (true, roots, d) -> forall z, (exists r, In r roots /\ rvalue r = z) <-> pval p z = RtoC 0.
Proof. exact power_values. Qed.
Print Assumptions C38_power_root_set_partial.

(** (x^2 - x - 1)^2: the irrational roots are reported with multiplicity 1. *)
Theorem C38_multiplicity_refuted : forall poly_factor fuel, exists roots, find_roots_top poly_factor (S fuel) (SPow golden 2) = Some (true, roots, false) /\
  ~ exists k : C, forall x, fpow (K:=CF) (pval golden x) 2 = (k * root_product roots x)%C.
Proof. exact golden_square. Qed.
Print Assumptions C38_multiplicity_refuted.

(** The hypotheses on an example, x^2 - x - 1. *)
Example C38_hypotheses : proper golden /\ integer_coefficients golden /\ square_free golden /\ no_pure_power_factor golden /\ factorizer_ok (fun _ => []).
Proof.
  split; [exact golden_proper|]. split; [exact golden_int|]. split; [exact golden_square_free|]. split; [exact golden_no_pure_power|].
  intros q _ _ H. cbn in H. lia.
Qed.
Example C38_found : exists roots, find_roots_top (fun _ => []) 1 (SAdd golden) = Some (true, roots, true) /\
  exists k : C, k <> RtoC 0 /\ forall x, pval golden x = (k * root_product roots x)%C.
Proof.
  destruct (golden_found (fun _ => []) 0 1) as (x1 & x2 & E & _). exists [irr x1; irr x2].
  assert (T : find_roots_top (fun _ => []) 1 (SAdd golden) = Some (true, [irr x1; irr x2], true)) by (unfold find_roots_top; rewrite E; reflexivity).
  split; [exact T|]. destruct C38_hypotheses as (A & B & C & D & F).
  apply (C38_simple_roots_partial (fun _ => []) F 1 golden [irr x1; irr x2] true A B C D T).
Qed.
(** (x - 2)^3 (x + 1)^2, computed. *)
Example C38_powers : find_roots_top (fun _ => []) 1 (SMul [([zq (-2)%Z; 1%Qc], 3); ([1%Qc; 1%Qc], 2)]) =
  Some (true, [MkRoot (Rational (- zq (Z.opp 2) / 1)%Qc) 3; MkRoot (Rational (- 1%Qc / 1%Qc)%Qc) 2], false).
Proof. reflexivity. Qed.

(** a x^n + a with n even and a x^n - a: the n roots. *)
Theorem C39_unit_quotient_partial : forall poly_factor (a k : Z) n, a <> 0%Z -> (Z.abs a < 121)%Z -> 2 <= n ->
  forall fuel, (a * a = k * k)%Z -> ~ (Nat.odd n = true /\ a = k) -> exists roots,
  find_roots poly_factor (S fuel) (pure_power_poly a k n) [] 1 = Some (true, roots) /\ (forall r, In r roots -> multiplicity r = 1) /\
  exists c : C, c <> RtoC 0 /\ forall x, (RtoC (IZR a) * fpow (K:=CF) x n + RtoC (IZR k))%C = (c * linear_factors roots x)%C.
Proof. exact pure_power_ok. Qed.
Print Assumptions C39_unit_quotient_partial.
(** x^5 - 1. *)
Example C39_example : (1 * 1 = -1 * -1)%Z /\ ~ (Nat.odd 5 = true /\ 1%Z = (-1)%Z).
Proof. split; [reflexivity|]. intros [_ X]. discriminate. Qed.

(** x^2 + 2: what is reported are the roots of 2 x^2 + 1, none of which is a root of x^2 + 2. *)
Theorem C39_exchanged_refuted : forall poly_factor fuel, exists roots, find_roots poly_factor (S fuel) (pure_power_poly 1 2 2) [] 1 = Some (true, roots) /\ roots <> [] /\
  forall r, In r roots -> (rvalue r * rvalue r = RtoC (-1 / 2) /\ pval (pure_power_poly 1 2 2) (rvalue r) <> RtoC 0)%C.
Proof. exact swapped. Qed.
Print Assumptions C39_exchanged_refuted.

(** x^3 + 1: -1 is reported twice. *)
Theorem C39_duplicate_refuted : forall poly_factor fuel, exists roots, find_roots poly_factor (S fuel) (pure_power_poly 1 1 3) [] 1 = Some (true, roots) /\
  ~ exists c : C, forall x, (fpow (K:=CF) x 3 + RtoC 1)%C = (c * linear_factors roots x)%C.
Proof. exact duplicated. Qed.
Print Assumptions C39_duplicate_refuted.
