(** C66: solutions adapted to the initial conditions given by the user. *)
From Coq Require Import ZArith QArith Qcanon List Bool Reals Lia Lra Field Arith.
From Verif Require Import Fld FPoly SeqSpec LinSolve RecModel CondModel CondSpec CondProofs CondProofs2.
Import ListNotations.
Local Open Scope list_scope.

(** Linear recurrences of order k whose last coefficient does not vanish: for conditions at k consecutive indices ending at m >= f+k-1, the result is
    a solution of the recurrence, takes the given values, and is the only such sequence. No symbol of the linear system is left in it. *)
Theorem C66_linear : forall (K : Fld) k (a : Z -> nat -> K) (p : Z -> K) f sol ic ls m older last cs y, (1 <= k)%nat ->
  (forall n, (f + Z.of_nat k <= n)%Z -> a n (k - 1)%nat <> f0) -> general k a p f sol -> lsolve_contract ls -> length y = k ->
  (f + Z.of_nat k - 1 <= m)%Z -> ends_with k m older last cs -> NoDup (map fst cs) ->
  exists x, linear_on_i_c ls f k sol cs y ic = Val x /\ obeys k a p x (f + Z.of_nat k) /\ meets x last /\
  forall x', obeys k a p x' (f + Z.of_nat k) -> meets x' last -> forall n, (f <= n)%Z -> x' n = x n.
Proof. intros K k a p f sol ic ls m older last cs y H1 H2 H3. exact (linear_on_i_c_ok k a p f H1 H2 sol H3 ic ls m older last cs y). Qed.
(** set_initial_conditions accepts only conditions ending with k consecutive indices, the largest one not below f. *)
Theorem C66_accepted : forall (G : engine) (K : Fld) (val : E G -> K) i m, check_ic G i m = Ok true -> (i_type i = CONST_COEFF \/ i_type i = VAR_COEFF) -> (1 <= i_order i)%nat ->
  exists older last largest, ends_with (i_order i) largest older last (map (cond_value G val) m) /\ (Z.of_nat (i_first i) <= largest)%Z.
Proof. exact accepted_conditions. Qed.
(** Non-linear recurrences solved through logarithms to base b, positive conditions. *)
Theorem C66_non_linear_partial : forall k (a : Z -> nat -> R) (c : Z -> R) f b, (0 < b)%R -> b <> 1%R -> (1 <= k)%nat ->
  (forall n, (0 < c n)%R) -> (forall n, (f + Z.of_nat k <= n)%Z -> a n (k - 1)%nat <> 0%R) -> forall sol lin,
  general (K:=RF) k a (fun n => (ln (c n) / ln b)%R) f lin ->
  (forall ic, (forall i, (f <= i < f + Z.of_nat k)%Z -> (0 < ic i)%R) -> (forall i, (f <= i < f + Z.of_nat k)%Z -> sol ic i = ic i) /\ obeys_power k a c (sol ic) (f + Z.of_nat k)) ->
  forall ls m older last cs y ic, lsolve_contract (K:=RF) ls -> length y = k -> (f + Z.of_nat k - 1 <= m)%Z -> ends_with (K:=RF) k m older last cs -> NoDup (map fst cs) ->
  Forall (fun q => (0 < snd q)%R) last ->
  exists x, non_linear_on_i_c ls f k false b sol lin cs y ic = Val x /\ obeys_power k a c x (f + Z.of_nat k) /\ meets (K:=RF) x last /\ (forall n, (f <= n)%Z -> (0 < x n)%R) /\
  forall x', (forall n, (f <= n)%Z -> (0 < x' n)%R) -> obeys_power k a c x' (f + Z.of_nat k) -> meets (K:=RF) x' last -> forall n, (f <= n)%Z -> x' n = x n.
Proof. exact non_linear_ok. Qed.
Theorem C66_simple_partial : forall ls (c q : R) b sol lin (older : list (Z * R)) m h y ic,
  (forall ic, (0 < ic 0%Z)%R -> sol ic 0%Z = ic 0%Z /\ obeys_power 1 (fun _ _ => q) (fun _ => c) (sol ic) 1) -> (0 < h)%R -> (1 <= m)%Z ->
  exists x, non_linear_on_i_c ls 0 1 true b sol lin (older ++ [(m, h)]) y ic = Val x /\ x m = h /\ obeys_power 1 (fun _ _ => q) (fun _ => c) x (m + 1).
Proof. exact simple_ok. Qed.
(** Weighted averages: a condition at the first index. *)
Theorem C66_weighted_partial : forall (K : Fld) (f g : Z -> K) (solve : Z -> K -> Z -> K) n0 (cs : list (Z * K)) h ic,
  (forall m h, weighted f g m (solve m h) /\ solve m h m = h) -> In (n0, h) cs -> NoDup (map fst cs) -> (forall v, hd_error (rev cs) = Some v -> (fst v <= n0)%Z) ->
  weighted f g n0 (weighted_on_i_c solve n0 cs ic) /\ weighted_on_i_c solve n0 cs ic n0 = h.
Proof.
  intros K f g solve n0 cs h ic H I N L. unfold weighted_on_i_c. destruct (rev cs) as [|[m v] rest] eqn:R.
  - apply in_rev in I. rewrite R in I. destruct I.
  - specialize (L _ eq_refl). cbn in L. destruct (Z.ltb_spec n0 m); [lia|]. rewrite (given_lookup cs n0 ic) by now apply (in_map fst) in I.
    pose proof (lookup_in cs (n0, h) N I) as Lk. cbn [fst snd] in Lk. rewrite Lk. apply H.
Qed.
(** A last condition after the first index: the sum starts there (this is another recurrence, see below). *)
Theorem C66_weighted_later_partial : forall (K : Fld) (f g : Z -> K) (solve : Z -> K -> Z -> K) n0 (older : list (Z * K)) m h ic,
  (forall m h, weighted f g m (solve m h) /\ solve m h m = h) -> (n0 < m)%Z ->
  weighted f g m (weighted_on_i_c solve n0 (older ++ [(m, h)]) ic) /\ weighted_on_i_c solve n0 (older ++ [(m, h)]) ic m = h.
Proof.
  intros K f g solve n0 older m h ic H L. unfold weighted_on_i_c. rewrite rev_app_distr. cbn [rev app]. destruct (Z.ltb_spec n0 m); [apply H|lia].
Qed.
(** Functional equations: if the bound depends on x(1) only and the divisor is 2, the condition is put in. *)
Theorem C66_functional_partial : forall (K : Fld) (bound : (Z -> K) -> Z -> K) h ic, (forall ic ic' n, ic 1%Z = ic' 1%Z -> bound ic n = bound ic' n) ->
  forall n, functional_on_i_c 2 bound [(1%Z, h)] ic n = bound (fun _ => h) n.
Proof. intros K bound h ic H n. unfold functional_on_i_c. cbn. apply H. reflexivity. Qed.

(** * Instances *)
Section Gauss.
Context {K : Fld}.
Add Field KFcp : (fth K).
Local Open Scope fld_scope.
Definition gauss_solver (n : nat) (es : list (list K * K)) : option (list K -> list K) := option_map (fun u _ => u) (gauss n es).
Lemma dot_value (l u : list K) : length l = length u -> dot l u = value l u.
Proof.
  unfold value. revert u. induction l as [|c l IH]; intros [|b u] H; try discriminate; [reflexivity|]. cbn [dot length]. rewrite bsum_first, IH by (cbn in H; lia). reflexivity.
Qed.
Lemma gauss_solver_ok : lsolve_contract gauss_solver.
Proof.
  intros n es Sz. unfold gauss_solver. pose proof (gauss_ok n es) as H. destruct (gauss n es) as [u|]; cbn [option_map].
  - intros y _. destruct H as [L H]. split; [exact L|]. unfold solves_all. rewrite Forall_forall in *. intros e I. rewrite <- dot_value by (rewrite (Sz e I); lia). exact (H e I).
  - intros (u & L & S). apply H. exists u. split; [exact L|]. unfold solves_all in S. rewrite Forall_forall in *. intros e I. unfold sat. rewrite dot_value by (rewrite (Sz e I); lia). exact (S e I).
Qed.
(** x(n) = x(n-1) + x(n-2). *)
Fixpoint fibp (u v : K) (n : nat) : K * K := match n with O => (u, v) | S n => let (x, y) := fibp u v n in (y, x + y) end.
Definition fib_sol (f : Z) (ic : Z -> K) (n : Z) : K := fst (fibp (ic f) (ic (f + 1)%Z) (Z.to_nat (n - f))).
Lemma fib_general f : general 2 (fun _ _ => 1) (fun _ => 0) f (fib_sol f).
Proof.
  intros ic. split.
  - intros i Hi. change (Z.of_nat 2) with 2%Z in Hi. assert (D : i = f \/ i = (f + 1)%Z) by lia. destruct D as [-> | ->]; unfold fib_sol.
    + now rewrite Z.sub_diag.
    + replace (f + 1 - f)%Z with 1%Z by lia. reflexivity.
  - intros n Hn. change (Z.of_nat 2) with 2%Z in Hn. unfold fib_sol. cbn [bsum]. change (Z.of_nat 0) with 0%Z. change (Z.of_nat 1) with 1%Z. set (t := Z.to_nat (n - 1 - 1 - f)). replace (Z.to_nat (n - f)) with (S (S t)) by (unfold t; lia).
    replace (Z.to_nat (n - 1 - 0 - f)) with (S t) by (unfold t; lia). cbn [fibp]. destruct (fibp (ic f) (ic (f + 1)%Z) t). cbn [fst]. ring.
Qed.
End Gauss.
Definition q (z : Z) : QcF := Q2Qc (inject_Z z).
(** x(5) = 1, x(6) = 2 (and an older condition x(0) = 9, which is not looked at): x(7) = 3, x(0) = 2. *)
Definition cs_ex : list (Z * QcF) := [(0%Z, q 9); (5%Z, q 1); (6%Z, q 2)].
Example C66_linear_used : exists x, linear_on_i_c gauss_solver 0 2 (fib_sol 0) cs_ex [q 0; q 0] (fun _ => q 0) = Val x /\ x 5%Z = q 1 /\ x 6%Z = q 2 /\ x 7%Z = q 3 /\ feqb (x 0%Z) (q 2) = true.
Proof.
  destruct (C66_linear QcF 2 (fun _ _ => f1) (fun _ => f0) 0 (fib_sol 0) (fun _ => q 0) gauss_solver 6 [(0%Z, q 9)] [(5%Z, q 1); (6%Z, q 2)] cs_ex [q 0; q 0]) as (x & E & O & M & _).
  - lia.
  - intros n _. intros H. discriminate (f_equal (fun t => feqb t (f0 : QcF)) H).
  - apply fib_general.
  - apply gauss_solver_ok.
  - reflexivity.
  - cbn. lia.
  - split; reflexivity.
  - cbn. repeat constructor; cbn; intuition discriminate.
  - exists x. split; [exact E|]. inversion_clear M as [|? ? M1 M']. inversion_clear M' as [|? ? M2 _]. cbn [fst snd] in M1, M2. split; [exact M1|]. split; [exact M2|]. split.
    + rewrite (O 7%Z) by (cbn; lia). change (fadd (fadd (fadd f0 (fmul f1 (x 6%Z))) (fmul f1 (x 5%Z))) f0 = q 3). rewrite M1, M2. apply Qc_is_canon. reflexivity.
    + assert (X : match linear_on_i_c gauss_solver 0 2 (fib_sol 0) cs_ex [q 0; q 0] (fun _ => q 0) with Val x => feqb (x 0%Z) (q 2) | _ => false end = true) by (vm_compute; reflexivity).
      rewrite E in X. exact X.
Qed.

(** * What goes wrong *)
(** Conditions are accepted although they begin before f: x(n) = x(n-1) + x(n-2) with f = 3 and x(2), x(3) given. The symbol x(4) stays in the result. *)
Definition int_engine : engine := MkEngine Z Z.eqb 1%Z (fun z => Some (Q2Qc (inject_Z z))) (fun e => (CL_SUCCESS, e, MkInfo CONST_COEFF 2 false false 0 3)) (fun e _ => inl e) (fun _ e _ => inl e) (fun _ _ e => e) (fun e => e) Z.of_nat (fun e _ => e).
Theorem C66_early_conditions_refuted : exists x, 
  check_ic int_engine (MkInfo CONST_COEFF 2 false false 0 3) [(2%nat, 10%Z); (3%nat, 20%Z)] = Ok true /\
  (forall ic, linear_on_i_c gauss_solver 3 2 (fib_sol 3) [(2%Z, q 10); (3%Z, q 20)] [q 0; q 0] ic = Val (x ic)) /\ forall ic, x ic 4%Z = ic 4%Z.
Proof. exists (fun ic => fib_sol 3 (given [(2%Z, q 10); (3%Z, q 20)] ic)). split; [reflexivity|]. split; [reflexivity|]. intros ic. reflexivity. Qed.
(** x(n) = (2^n - 4) x(n-1), x(5) = 7: there is no solution, and the new symbol stays in the result instead of an error. *)
Fixpoint van_prod (n : nat) : QcF := match n with O => q 1 | S m => fmul (q (2 ^ Z.of_nat (S m) - 4)) (van_prod m) end.
Definition van_sol (ic : Z -> QcF) (n : Z) : QcF := fmul (van_prod (Z.to_nat n)) (ic 0%Z).
Theorem C66_vanishing_coefficient_refuted : general 1 (fun n _ => q (2 ^ n - 4)) (fun _ => f0) 0 van_sol /\
  exists x, (forall y ic, linear_on_i_c gauss_solver 0 1 van_sol [(5%Z, q 7)] [y] ic = Val (x y)) /\ (forall y, x y 5%Z <> q 7) /\ forall y, x y 0%Z = y.
Proof.
  split.
  - intros ic. split.
    + intros i Hi. assert (i = 0%Z) by (cbn in Hi; lia). subst i. unfold van_sol. cbn [Z.to_nat van_prod]. apply (fmul_1_l QcF) || apply Qcmult_1_l.
    + intros n Hn. cbn in Hn. unfold van_sol. cbn [bsum]. replace (n - 1 - Z.of_nat 0)%Z with (n - 1)%Z by (cbn; lia). set (t := Z.to_nat (n - 1)). replace (Z.to_nat n) with (S t) by (unfold t; lia). cbn [van_prod].
      replace (Z.of_nat (S t)) with n by (unfold t; lia). change (@fmul QcF) with Qcmult. change (@fadd QcF) with Qcplus. change (f0 : QcF) with 0%Qc. match goal with |- @eq _ ?u ?w => change (@eq Qc u w) end. ring.
  - exists (fun y => van_sol (put 0 [y] (fun _ => q 0))). split; [|split].
    + intros y ic. assert (E : equations 1 (fun u => van_sol (put 0 u ic)) [(5%Z, q 7)] = equations 1 (fun u => van_sol (put 0 u (fun _ => q 0))) [(5%Z, q 7)]) by reflexivity.
      unfold linear_on_i_c. cbn [rev app]. replace (Z.leb (0 + Z.of_nat 1) 5) with true by reflexivity. rewrite E.
      assert (N : match equations 1 (fun u => van_sol (put 0 u (fun _ => q 0))) [(5%Z, q 7)] with Some es => match gauss_solver 1 es with None => true | _ => false end | None => false end = true) by (vm_compute; reflexivity).
      destruct (equations 1 _ [(5%Z, q 7)]) as [es|]; [|discriminate]. destruct (gauss_solver 1 es); [discriminate|]. reflexivity.
    + intros y H. unfold van_sol in H. assert (Z0 : van_prod (Z.to_nat 5) = q 0) by (apply Qc_is_canon; vm_compute; reflexivity). rewrite Z0 in H.
      assert (Z1 : fmul (q 0) (put 0 [y] (fun _ => q 0) 0%Z) = q 0) by apply Qcmult_0_l. rewrite Z1 in H. discriminate (f_equal (fun t : QcF => feqb t (q 0)) H).
    + intros y. unfold van_sol. cbn [Z.to_nat van_prod]. apply Qcmult_1_l.
Qed.
(** x(n) = x(n-1) x(n-2) with x(5) = 0 and x(6) = 3: only the last condition is looked at, and log(0) is taken. The solution from 7 on is 0. *)
Theorem C66_zero_missed_refuted : forall ls b sol lin y ic, non_linear_on_i_c ls 0 2 false b sol lin [(5%Z, 0%R); (6%Z, 3%R)] y ic = Throws.
Proof.
  intros ls b sol lin y ic. unfold non_linear_on_i_c. cbn [zero_found rev app]. destruct (Req_EM_T 3 0); [lra|]. destruct (Z.leb_spec (0 + Z.of_nat 2) 6); [|lia].
  cbn [firstn rev app logs]. unfold glog. destruct (Req_EM_T 0 0); [reflexivity|lra].
Qed.
(** With x(5) = 3 and x(6) = 0 the result 0 does not take the value 3 at 5. *)
Theorem C66_zero_refuted : forall ls b sol lin y ic, exists x, non_linear_on_i_c ls 0 2 false b sol lin [(5%Z, 3%R); (6%Z, 0%R)] y ic = Val x /\ x 5%Z <> 3%R.
Proof.
  intros ls b sol lin y ic. exists (fun _ => 0%R). split; [|lra]. unfold non_linear_on_i_c. cbn [zero_found rev app]. destruct (Req_EM_T 0 0); [reflexivity|lra].
Qed.
(** x(n) = x(0) + ... + x(n-1) with x(2) = 2: x(3) = 4 for every solution, but the result is 2 there: the sum is made to begin at 2. *)
Definition double_sol (m : Z) (h : QcF) (n : Z) : QcF := if Z.leb n m then h else fmul h (q (2 ^ (n - m - 1))).
Lemma zsum_next (x : Z -> QcF) lo hi : (lo <= hi)%Z -> zsum lo hi x = fadd (zsum lo (hi - 1) x) (x hi).
Proof. intros H. unfold zsum. replace (Z.to_nat (hi - lo + 1)) with (S (Z.to_nat (hi - 1 - lo + 1))) by lia. rewrite bsum_S. do 2 f_equal. lia. Qed.
Lemma q_add u v : q (u + v) = fadd (q u) (q v).
Proof. unfold q. apply Qc_is_canon. change (@fadd QcF) with Qcplus. unfold Qcplus, Q2Qc, this. rewrite !Qred_correct. now rewrite inject_Z_plus. Qed.
Lemma double_sum m h d : zsum m (m + Z.of_nat d) (double_sol m h) = fmul h (q (2 ^ Z.of_nat d)).
Proof.
  induction d as [|d IH].
  - rewrite zsum_next by lia. unfold zsum at 1. replace (Z.to_nat (m + Z.of_nat 0 - 1 - m + 1)) with 0%nat by lia. cbn [bsum]. unfold double_sol. destruct (Z.leb_spec (m + Z.of_nat 0) m); [|lia].
    change (@fmul QcF) with Qcmult. change (@fadd QcF) with Qcplus. change (f0 : QcF) with 0%Qc. replace (q (2 ^ Z.of_nat 0)) with 1%Qc by (apply Qc_is_canon; reflexivity). match goal with |- @eq _ ?u ?w => change (@eq Qc u w) end. ring.
  - rewrite zsum_next by lia. replace (m + Z.of_nat (S d) - 1)%Z with (m + Z.of_nat d)%Z by lia. rewrite IH. unfold double_sol at 1. destruct (Z.leb_spec (m + Z.of_nat (S d)) m); [lia|].
    replace (m + Z.of_nat (S d) - m - 1)%Z with (Z.of_nat d) by lia. replace (2 ^ Z.of_nat (S d))%Z with (2 ^ Z.of_nat d + 2 ^ Z.of_nat d)%Z.
    + rewrite q_add. change (@fmul QcF) with Qcmult. change (@fadd QcF) with Qcplus. match goal with |- @eq _ ?u ?w => change (@eq Qc u w) end. ring.
    + rewrite Nat2Z.inj_succ, Z.pow_succ_r by lia. lia.
Qed.
Lemma double_weighted m h : weighted (fun _ => f1) (fun _ => f0) m (double_sol m h) /\ double_sol m h m = h.
Proof.
  split.
  - intros n Hn. replace (n - 1)%Z with (m + Z.of_nat (Z.to_nat (n - 1 - m)))%Z by lia. rewrite double_sum. unfold double_sol. destruct (Z.leb_spec n m); [lia|].
    replace (Z.of_nat (Z.to_nat (n - 1 - m))) with (n - m - 1)%Z by lia. change (@fmul QcF) with Qcmult. change (@fadd QcF) with Qcplus. change (f0 : QcF) with 0%Qc. change (f1 : QcF) with 1%Qc. match goal with |- @eq _ ?u ?w => change (@eq Qc u w) end. ring.
  - unfold double_sol. now rewrite Z.leb_refl.
Qed.
Theorem C66_weighted_refuted : (forall m h, weighted (fun _ => f1) (fun _ => f0) m (double_sol m h) /\ double_sol m h m = h) /\
  (forall ic, weighted_on_i_c double_sol 0 [(2%Z, q 2)] ic 3%Z = q 2) /\
  (forall x, weighted (fun _ => f1) (fun _ => f0) 0 x -> x 2%Z = q 2 -> x 3%Z = q 4) /\ exists x, weighted (fun _ => f1) (fun _ => f0) 0 x /\ x 2%Z = q 2.
Proof.
  split; [exact double_weighted|]. split; [|split].
  - intros ic. apply Qc_is_canon. vm_compute. reflexivity.
  - intros x W E. pose proof (W 3%Z ltac:(lia)) as W3. pose proof (W 2%Z ltac:(lia)) as W2. rewrite zsum_next in W3 by lia. replace (3 - 1 - 1)%Z with (2 - 1)%Z in W3 by lia. change (3 - 1)%Z with 2%Z in W3.
    set (s := zsum 0 (2 - 1) x) in *. clearbody s. change (@fmul QcF) with Qcmult in *. change (@fadd QcF) with Qcplus in *. change (f0 : QcF) with 0%Qc in *. change (f1 : QcF) with 1%Qc in *.
    assert (Es : s = q 2). { rewrite <- E, W2. change (s = (1 * s + 0)%Qc :> Qc). unfold car, QcF in s. ring. } rewrite W3, Es, E. apply Qc_is_canon. vm_compute. reflexivity.
  - exists (double_sol 0 (q 1)). split; [apply double_weighted|]. apply Qc_is_canon. vm_compute. reflexivity.
Qed.
(** Functional equations x(n) = a x(n/3) + g(n): nothing is put in; and with divisor 2 a bound in terms of x(2) keeps that symbol. *)
Theorem C66_functional_refuted : (forall (bound : (Z -> QcF) -> Z -> QcF) cs ic, functional_on_i_c 3 bound cs ic = bound ic) /\
  (forall h (ic : Z -> QcF) n, functional_on_i_c 2 (fun ic _ => ic 2%Z) [(1%Z, h)] ic n = ic 2%Z).
Proof. split; reflexivity. Qed.

(** * Further examples *)
(** x(n) = x(n-1) x(n-2), x(5) = x(6) = e. *)
Example C66_non_linear_used : exists x, non_linear_on_i_c gauss_solver 0 2 false (exp 1) (fun ic n => Rpower (exp 1) (fib_sol (K:=RF) 0 (fun i => (ln (ic i) / ln (exp 1))%R) n)) (fib_sol (K:=RF) 0)
  [(5%Z, exp 1); (6%Z, exp 1)] [0%R; 0%R] (fun _ => 1%R) = Val x /\ x 7%Z = (exp 1 * exp 1)%R.
Proof.
  assert (E1 : (0 < exp 1)%R) by apply exp_pos. assert (E2 : exp 1 <> 1%R) by (pose proof (exp_ineq1 1); lra).
  set (lin := fib_sol (K:=RF) 0). set (sol := fun ic n => Rpower (exp 1) (lin (fun i => (ln (ic i) / ln (exp 1))%R) n)).
  assert (Gl : general (K:=RF) 2 (fun _ _ => 1%R) (fun n => (ln 1 / ln (exp 1))%R) 0 lin).
  { intros ic. destruct (fib_general (K:=RF) 0 ic) as [G1 G2]. split; [exact G1|]. intros n Hn. unfold lin. rewrite (G2 n Hn) at 1. rewrite ln_1. unfold Rdiv. rewrite Rmult_0_l. reflexivity. }
  destruct (C66_non_linear_partial 2 (fun _ _ => 1%R) (fun _ => 1%R) 0 (exp 1) E1 E2 ltac:(lia) ltac:(intros; lra) ltac:(intros; lra) sol lin Gl) with (ls := gauss_solver (K:=RF)) (m := 6%Z) (older := @nil (Z * R)) (last := [(5%Z, exp 1); (6%Z, exp 1)])
    (cs := [(5%Z, exp 1); (6%Z, exp 1)]) (y := [0%R; 0%R]) (ic := fun _ : Z => 1%R) as (x & X & O & M & P & _).
  - intros ic Pi. split.
    + intros i Hi. unfold sol. destruct (Gl (fun i => (ln (ic i) / ln (exp 1))%R)) as [G1 _]. rewrite G1 by exact Hi. apply pow_log; auto.
    + apply (power_of_linear 2 (fun _ _ => 1%R) (fun _ => 1%R) (exp 1)); auto; [intros; lra|]. exact (proj2 (Gl _)).
  - apply gauss_solver_ok.
  - reflexivity.
  - cbn. lia.
  - split; reflexivity.
  - cbn. repeat constructor; cbn; intuition discriminate.
  - repeat constructor; cbn; exact E1.
  - exists x. split; [exact X|]. inversion_clear M as [|? ? M1 M']. inversion_clear M' as [|? ? M2 _]. cbn [fst snd] in M1, M2. rewrite (O 7%Z) by (cbn; lia). cbn [seq map fold_right].
    replace (7 - 1 - Z.of_nat 0)%Z with 6%Z by reflexivity. replace (7 - 1 - Z.of_nat 1)%Z with 5%Z by reflexivity. change (x 5%Z = exp 1) in M1. change (x 6%Z = exp 1) in M2. rewrite M1, M2, !Rpower_1 by exact E1. ring.
Qed.
(** x(n) = 3 x(n-1)^2 with x(4) = 5. *)
Fixpoint square_sol (h : R) (n : nat) : R := match n with O => h | S n => (3 * Rpower (square_sol h n) 2)%R end.
Example C66_simple_used : exists x, non_linear_on_i_c gauss_solver 0 1 true 2 (fun ic n => square_sol (ic 0%Z) (Z.to_nat n)) (fun ic => ic) [(4%Z, 5%R)] [0%R] (fun _ => 1%R) = Val x /\ x 4%Z = 5%R /\ obeys_power 1 (fun _ _ => 2%R) (fun _ => 3%R) x 5.
Proof.
  apply (C66_simple_partial gauss_solver 3 2 2 (fun ic n => square_sol (ic 0%Z) (Z.to_nat n)) (fun ic => ic) [] 4 5); [|lra|lia]. intros ic _. split; [reflexivity|].
  intros n Hn. cbn [seq map fold_right]. replace (n - 1 - Z.of_nat 0)%Z with (n - 1)%Z by (cbn; lia). set (t := Z.to_nat (n - 1)). replace (Z.to_nat n) with (S t) by (unfold t; lia). cbn [square_sol]. ring.
Qed.
Example C66_weighted_used : weighted (fun _ => f1) (fun _ => f0) 0 (weighted_on_i_c double_sol 0 [(0%Z, q 5)] (fun _ => q 0)) /\ weighted_on_i_c double_sol 0 [(0%Z, q 5)] (fun _ => q 0) 0%Z = q 5.
Proof. apply C66_weighted_partial; [exact double_weighted|left; reflexivity|repeat constructor; auto|]. cbn. intros v [= <-]. cbn. lia. Qed.
Example C66_weighted_later_used : weighted (fun _ => f1) (fun _ => f0) 3 (weighted_on_i_c double_sol 0 ([(1%Z, q 2)] ++ [(3%Z, q 5)]) (fun _ => q 0)) /\ weighted_on_i_c double_sol 0 ([(1%Z, q 2)] ++ [(3%Z, q 5)]) (fun _ => q 0) 3%Z = q 5.
Proof. apply C66_weighted_later_partial; [exact double_weighted|lia]. Qed.
Print Assumptions C66_linear.
Print Assumptions C66_accepted.
Print Assumptions C66_non_linear_partial.
Print Assumptions C66_simple_partial.
Print Assumptions C66_weighted_partial.
Print Assumptions C66_weighted_later_partial.
Print Assumptions C66_functional_partial.
Print Assumptions C66_early_conditions_refuted.
Print Assumptions C66_vanishing_coefficient_refuted.
Print Assumptions C66_zero_missed_refuted.
Print Assumptions C66_zero_refuted.
Print Assumptions C66_weighted_refuted.
Print Assumptions C66_functional_refuted.
