From Coq Require Import ZArith Bool List Lia Field.
From Verif Require Import Fld SeqSpec SeqLemmas WAvgModel WAvgSpec.

Section Proofs.
Context {K : Fld}.
Add Field KF : (fth K).
Local Open Scope fld_scope.
Implicit Types (f g w h x : Z -> K).

(** The equation with upper limit n-1 and lower limit l: one first-order step. *)
Lemma avg_step w h l x n : (l + 1 < n)%Z -> w (n - 1)%Z <> 0 ->
  x (n - 1)%Z = w (n - 1)%Z * zsum l (n - 2) x + h (n - 1)%Z ->
  (x n = w n * zsum l (n - 1) x + h n <->
   x n = w n / w (n - 1)%Z * (1 + w (n - 1)%Z) * x (n - 1)%Z + (h n - w n * (h (n - 1)%Z / w (n - 1)%Z))).
Proof.
  intros Hn Hw Hp. rewrite (zsum_last l (n - 1)) by lia. replace (n - 1 - 1)%Z with (n - 2)%Z by lia.
  assert (E : zsum l (n - 2) x = (x (n - 1)%Z - h (n - 1)%Z) / w (n - 1)%Z). { rewrite Hp. field. auto. }
  rewrite E. clear E Hp. split; intros ->; field; auto.
Qed.
Lemma avg_first_order w h l x : (forall n, (l < n)%Z -> w n <> 0) ->
  (averages w h l x <->
   x (l + 1)%Z = w (l + 1)%Z * x l + h (l + 1)%Z /\
   first_order (fun n => w (n + l + 1)%Z / w (n + l)%Z * (1 + w (n + l)%Z)) (fun n => h (n + l + 1)%Z - w (n + l + 1)%Z * (h (n + l)%Z / w (n + l)%Z)) (fun n => x (n + l + 1)%Z)).
Proof.
  intros Hw. split.
  - intros H. split.
    + rewrite (H (l + 1)%Z) by lia. replace (l + 1 - 1)%Z with l by lia. rewrite zsum_last, zsum_empty by lia. ring.
    + intros n Hn. cbv beta. replace (n - 1 + l + 1)%Z with (n + l)%Z by lia.
      pose proof (avg_step w h l x (n + l + 1)) as S1. replace (n + l + 1 - 1)%Z with (n + l)%Z in S1 by lia. replace (n + l + 1 - 2)%Z with (n + l - 1)%Z in S1 by lia.
      apply S1; [lia|apply Hw; lia|apply H; lia|]. pose proof (H (n + l + 1)%Z) as H1. replace (n + l + 1 - 1)%Z with (n + l)%Z in H1 by lia. apply H1. lia.
  - intros [H1 H2].
    assert (G : forall k : nat, x (l + 1 + Z.of_nat k)%Z = w (l + 1 + Z.of_nat k)%Z * zsum l (l + Z.of_nat k) x + h (l + 1 + Z.of_nat k)%Z).
    { induction k.
      - replace (l + 1 + Z.of_nat 0)%Z with (l + 1)%Z by lia. rewrite H1. replace (l + Z.of_nat 0)%Z with l by lia. rewrite zsum_last, zsum_empty by lia. ring.
      - set (n := (l + 1 + Z.of_nat (S k))%Z).
        pose proof (avg_step w h l x n) as S1. replace (n - 1)%Z with (l + 1 + Z.of_nat k)%Z in S1 by lia. replace (n - 2)%Z with (l + Z.of_nat k)%Z in S1 by lia.
        replace (l + Z.of_nat (S k))%Z with (l + 1 + Z.of_nat k)%Z by lia. apply S1; [lia|apply Hw; lia|exact IHk|].
        specialize (H2 (Z.of_nat (S k))). cbv beta in H2. replace (Z.of_nat (S k) + l + 1)%Z with n in H2 by lia. replace (Z.of_nat (S k) - 1 + l + 1)%Z with (l + 1 + Z.of_nat k)%Z in H2 by lia.
        replace (Z.of_nat (S k) + l)%Z with (l + 1 + Z.of_nat k)%Z in H2 by lia. apply H2. lia. }
    intros n Hn. specialize (G (Z.to_nat (n - l - 1))). rewrite Z2Nat.id in G by lia. replace (l + 1 + (n - l - 1))%Z with n in G by lia. replace (l + (n - l - 1))%Z with (n - 1)%Z in G by lia. exact G.
Qed.
(** The coefficients as computed by rewrite_wavg. *)
Lemma wavg_coeffs u o f g lower w h l : normalize u o f g lower = (w, h, l) -> (0 <= l)%Z -> (forall n, (l < n)%Z -> w n <> 0) ->
  forall n, (1 <= n)%Z ->
  coeff_first_order (rewrite_wavg u o f g lower) n = w (n + l + 1)%Z / w (n + l)%Z * (1 + w (n + l)%Z) /\
  inhomog_first_order (rewrite_wavg u o f g lower) n = h (n + l + 1)%Z - w (n + l + 1)%Z * (h (n + l)%Z / w (n + l)%Z).
Proof.
  intros E Hl Hw n Hn. unfold rewrite_wavg. rewrite E. cbn [coeff_first_order inhomog_first_order].
  assert (W : forall m, (if (0 <? l)%Z then fun n => w (n + l)%Z else w) m = w (m + l)%Z).
  { intros m. destruct (0 <? l)%Z eqn:F; auto. apply Z.ltb_ge in F. replace l with 0%Z by lia. f_equal; lia. }
  assert (HH : forall m, (if (0 <? l)%Z then fun n => h (n + l)%Z else h) m = h (m + l)%Z).
  { intros m. destruct (0 <? l)%Z eqn:F; auto. apply Z.ltb_ge in F. replace l with 0%Z by lia. f_equal; lia. }
  rewrite !W, !HH. replace (n + 1 - 1)%Z with n by lia. replace (n + 1 + l)%Z with (n + l + 1)%Z by lia.
  split; [reflexivity|]. field. split; apply Hw; lia.
Qed.
Lemma averages_ext w h l x y : (forall n, (l <= n)%Z -> x n = y n) -> averages w h l x -> averages w h l y.
Proof. intros E H n Hn. rewrite <- !E by lia. rewrite (H n Hn). f_equal. f_equal. apply zsum_ext. intros i Hi. apply E. lia. Qed.

(** upper limit n-1: *)
Theorem wavg_equiv f g l x : (0 <= l)%Z -> (forall n, (l < n)%Z -> f n <> 0) ->
  let r := rewrite_wavg false false f g l in
  averages f g l x <->
  x (l + 1)%Z = f (l + 1)%Z * x l + g (l + 1)%Z /\
  first_order (coeff_first_order r) (inhomog_first_order r) (fun n => x (n + l + 1)%Z).
Proof.
  intros Hl Hw r. rewrite (avg_first_order f g l x Hw). 
  assert (C : forall n, (1 <= n)%Z -> coeff_first_order r n = f (n + l + 1)%Z / f (n + l)%Z * (1 + f (n + l)%Z) /\ inhomog_first_order r n = g (n + l + 1)%Z - f (n + l + 1)%Z * (g (n + l)%Z / f (n + l)%Z)).
  { apply (wavg_coeffs false false f g l f g l); auto. }
  split; intros [A B]; (split; [exact A|]); intros n Hn; destruct (C n Hn) as [C1 C2]; rewrite ?C1, ?C2; rewrite (B n Hn); rewrite ?C1, ?C2; reflexivity.
Qed.
Lemma incl_iff f g l x : (forall n, (l < n)%Z -> f n <> 1) ->
  (averages_incl f g l x <-> averages (fun n => f n / (1 - f n)) (fun n => g n / (1 - f n)) l x).
Proof.
  intros H1. assert (D : forall n, (l < n)%Z -> 1 - f n <> 0). { intros n Hn E. apply (H1 n Hn). symmetry. now apply sub_eq0. }
  split; intros H n Hn; specialize (H n Hn); specialize (D n Hn).
  - rewrite zsum_last in H by lia. apply (mul_cancel_l (1 - f n)); auto. transitivity (x n - f n * x n); [ring|]. rewrite H at 1. field. auto.
  - rewrite zsum_last by lia. apply (mul_cancel_l (/ (1 - f n))); [apply inv_neq0; auto|].
    set (s := zsum l (n - 1) x) in *. rewrite H. field. auto.
Qed.
(** upper limit n, weight different from 1: *)
Theorem wavg_incl_equiv f g l x : (0 <= l)%Z -> (forall n, (l < n)%Z -> f n <> 0 /\ f n <> 1) ->
  let r := rewrite_wavg true false f g l in
  averages_incl f g l x <->
  x (l + 1)%Z = original_weight r (l + 1)%Z * x l + original_inhomogeneous r (l + 1)%Z /\
  first_order (coeff_first_order r) (inhomog_first_order r) (fun n => x (n + l + 1)%Z).
Proof.
  intros Hl Hf r. rewrite incl_iff by (intros; apply Hf; auto).
  set (w := fun n => f n / (1 - f n)). set (h := fun n => g n / (1 - f n)).
  assert (Hw : forall n, (l < n)%Z -> w n <> 0).
  { intros n Hn. destruct (Hf n Hn). unfold w. intros E. assert (D : 1 - f n <> 0) by (intros F; apply H0; symmetry; now apply sub_eq0).
    apply H. transitivity (f n / (1 - f n) * (1 - f n)); [field; auto|]. rewrite E. ring. }
  rewrite (avg_first_order w h l x Hw).
  assert (C : forall n, (1 <= n)%Z -> coeff_first_order r n = w (n + l + 1)%Z / w (n + l)%Z * (1 + w (n + l)%Z) /\ inhomog_first_order r n = h (n + l + 1)%Z - w (n + l + 1)%Z * (h (n + l)%Z / w (n + l)%Z)).
  { apply (wavg_coeffs true false f g l w h l); auto. }
  assert (O1 : original_weight r = w) by reflexivity. assert (O2 : original_inhomogeneous r = h) by reflexivity. rewrite O1, O2. clear O1 O2. clearbody w h r.
  split; intros [A B]; (split; [exact A|]); intros n Hn; destruct (C n Hn) as [C1 C2]; rewrite ?C1, ?C2; rewrite (B n Hn); rewrite ?C1, ?C2; reflexivity.
Qed.

(** The solution reported. *)
Definition spliced (l : Z) (ic sol : Z -> K) : Z -> K := fun n => if (n <=? l)%Z then ic n else sol n.
Lemma solve_parts u f g l : (0 <= l)%Z ->
  let r := rewrite_wavg u false f g l in
  (if rewritten r then (original_weight r, original_inhomogeneous r, lower_limit r) else (weight r, inhomogeneous r, 0%Z))
  = (original_weight r, original_inhomogeneous r, l).
Proof.
  intros Hl r. unfold r, rewrite_wavg. destruct u; cbn [normalize negb orb rewritten original_weight original_inhomogeneous lower_limit weight inhomogeneous]; [reflexivity|].
  destruct (0 <? l)%Z eqn:F; [reflexivity|]. apply Z.ltb_ge in F. f_equal. lia.
Qed.
Lemma solve_first_order solve u f g l x0 : solver_ok solve -> (0 <= l)%Z ->
  let r := rewrite_wavg u false f g l in
  let y := spliced l x0 (solve_wavg solve false r x0) in
  y (l + 1)%Z = original_weight r (l + 1)%Z * y l + original_inhomogeneous r (l + 1)%Z /\
  first_order (coeff_first_order r) (inhomog_first_order r) (fun n => y (n + l + 1)%Z).
Proof.
  intros HS Hl r y. unfold y, solve_wavg. pose proof (solve_parts u f g l Hl) as P. fold r in P. cbv zeta in P. rewrite P.
  clearbody r. clear P y. set (y0 := original_weight r (l + 1)%Z * x0 l + original_inhomogeneous r (l + 1)%Z).
  destruct (HS (coeff_first_order r) (inhomog_first_order r) y0) as [S0 S1].
  unfold spliced. split.
  - replace (l + 1 <=? l)%Z with false by (symmetry; apply Z.leb_gt; lia). rewrite Z.leb_refl. replace (l + 1 - 1 - l)%Z with 0%Z by lia. rewrite S0. reflexivity.
  - intros n Hn. replace (n + l + 1 <=? l)%Z with false by (symmetry; apply Z.leb_gt; lia). replace (n - 1 + l + 1 <=? l)%Z with false by (symmetry; apply Z.leb_gt; lia).
    replace (n + l + 1 - 1 - l)%Z with n by lia. replace (n - 1 + l + 1 - 1 - l)%Z with (n - 1)%Z by lia. apply S1. auto.
Qed.
Theorem wavg_solution solve f g l x0 : solver_ok solve -> (0 <= l)%Z -> (forall n, (l < n)%Z -> f n <> 0) ->
  averages f g l (spliced l x0 (solve_wavg solve false (rewrite_wavg false false f g l) x0)).
Proof.
  intros HS Hl Hf. apply (wavg_equiv f g l _ Hl Hf). exact (solve_first_order solve false f g l x0 HS Hl).
Qed.
Theorem wavg_incl_solution solve f g l x0 : solver_ok solve -> (0 <= l)%Z -> (forall n, (l < n)%Z -> f n <> 0 /\ f n <> 1) ->
  averages_incl f g l (spliced l x0 (solve_wavg solve false (rewrite_wavg true false f g l) x0)).
Proof.
  intros HS Hl Hf. apply (wavg_incl_equiv f g l _ Hl Hf). exact (solve_first_order solve true f g l x0 HS Hl).
Qed.
(** weight -1: *)
Theorem wavg_m1 solve g x0 :
  let y := spliced 0 x0 (solve_wavg solve true (rewrite_wavg false false (fun _ => - (1)) g 0) x0) in
  averages (fun _ => - (1)) g 0 y <-> x0 0%Z = g 0%Z.
Proof.
  intros y. unfold y, solve_wavg. cbn [rewrite_wavg normalize inhomogeneous Z.ltb Z.compare].
  split.
  - intros H. specialize (H 1%Z ltac:(lia)). unfold spliced in H. cbn [Z.leb Z.compare] in H. rewrite zsum_last, zsum_empty in H by lia. cbn [Z.leb Z.compare] in H.
    cbn in H. assert (E : x0 0%Z - g 0%Z = 0). { transitivity (g 1%Z - (- (1) * (0 + x0 0%Z) + g 1%Z) - g 0%Z); [ring|]. rewrite <- H. ring. } now apply sub_eq0.
  - intros E.
    assert (G : forall k : nat, zsum 0 (Z.of_nat k) (spliced 0 x0 (fun n => g n - g (n - 1)%Z)) = g (Z.of_nat k)).
    { induction k.
      - rewrite zsum_last, zsum_empty by lia. unfold spliced. cbn. rewrite E. ring.
      - rewrite zsum_last by lia. replace (Z.of_nat (S k) - 1)%Z with (Z.of_nat k) by lia. rewrite IHk. unfold spliced. replace (Z.of_nat (S k) <=? 0)%Z with false by (symmetry; apply Z.leb_gt; lia).
        replace (Z.of_nat (S k) - 1)%Z with (Z.of_nat k) by lia. ring. }
    intros n Hn. specialize (G (Z.to_nat (n - 1))). rewrite Z2Nat.id in G by lia. rewrite G. unfold spliced. replace (n <=? 0)%Z with false by (symmetry; apply Z.leb_gt; lia). ring.
Qed.
(** A correct solver exists. *)
Definition iter_solve (c i : Z -> K) (y0 : K) (n : Z) : K :=
  nat_rect (fun _ => K) y0 (fun m y => c (Z.of_nat (S m)) * y + i (Z.of_nat (S m))) (Z.to_nat n).
Lemma iter_solve_ok : solver_ok iter_solve.
Proof.
  intros c i y0. split; [reflexivity|]. intros n Hn. unfold iter_solve. replace (Z.to_nat n) with (S (Z.to_nat (n - 1))) by lia. cbn [nat_rect].
  replace (Z.of_nat (S (Z.to_nat (n - 1)))) with n by lia. reflexivity.
Qed.
(** Verification. *)
Theorem verify_wavg_sound u f g l largest ic sol eq0 :
  (0 <= l)%Z ->
  let r := rewrite_wavg u false f g l in
  let m := match largest with Some k => Z.max l k | None => l end in
  (forall d, eq0 d = true -> forall n, (m < n)%Z -> d n = 0) ->
  verify_weighted_average false r largest ic sol eq0 = PROVABLY_CORRECT ->
  averages (original_weight r) (original_inhomogeneous r) m (spliced m ic sol).
Proof.
  intros Hl r m. unfold verify_weighted_average. pose proof (solve_parts u f g l Hl) as P. fold r in P. cbv zeta in P. rewrite P. clear P.
  assert (M : match largest with Some k => if (l <? k)%Z then k else l | None => l end = m).
  { unfold m. destruct largest as [k|]; auto. destruct (l <? k)%Z eqn:E; [apply Z.ltb_lt in E|apply Z.ltb_ge in E]; lia. }
  rewrite M. clearbody m r. clear M. intros HZ.
  destruct (negb _) eqn:E1; [discriminate|]. destruct (eq0 _) eqn:E2; [|discriminate]. intros _ n Hn. apply HZ with (n := n) in E2; auto.
  unfold spliced at 1. replace (n <=? m)%Z with false by (symmetry; apply Z.leb_gt; lia).
  rewrite (zsum_first m) by lia. unfold spliced at 1. rewrite Z.leb_refl.
  rewrite (zsum_ext (m + 1) (n - 1) (spliced m ic sol) sol).
  - apply sub_eq0. rewrite <- E2. ring.
  - intros i Hi. unfold spliced. replace (i <=? m)%Z with false by (symmetry; apply Z.leb_gt; lia). reflexivity.
Qed.
(** f = 1, upper limit n: x(n) cancels. *)
Theorem w1_normal_form g l x : averages_incl (fun _ => 1) g l x <->
  forall n, (l <= n)%Z -> x n = original_weight (rewrite_wavg true true (fun _ => 1) g l) n * zsum l (n - 1) x + original_inhomogeneous (rewrite_wavg true true (fun _ => 1) g l) n.
Proof.
  unfold rewrite_wavg, normalize. cbn [negb original_weight original_inhomogeneous]. split.
  - intros H n Hn. specialize (H (n + 1)%Z ltac:(lia)). rewrite (zsum_last l (n + 1)), (zsum_last l (n + 1 - 1)) in H by lia. replace (n + 1 - 1)%Z with n in H by lia.
    assert (E : x n = x (n + 1)%Z - (zsum l (n - 1) x + x (n + 1)%Z + g (n + 1)%Z)); [|rewrite E; ring]. rewrite H at 1. ring.
  - intros H n Hn. specialize (H (n - 1)%Z ltac:(lia)). rewrite (zsum_last l n), (zsum_last l (n - 1)) by lia. replace (n - 1 + 1)%Z with n in H by lia. rewrite H. ring.
Qed.
End Proofs.

From Coq Require Import QArith Qcanon.
Theorem verify_sound_n1 (K : Fld) (f g : Z -> K) l largest ic sol eq0 : (0 <= l)%Z ->
  let m := match largest with Some k => Z.max l k | None => l end in
  (forall d, eq0 d = true -> forall n, (m < n)%Z -> d n = 0%F) ->
  verify_weighted_average false (rewrite_wavg false false f g l) largest ic sol eq0 = PROVABLY_CORRECT ->
  averages f g m (spliced m ic sol).
Proof. intros Hl m HZ H. exact (verify_wavg_sound false f g l largest ic sol eq0 Hl HZ H). Qed.
Theorem verify_sound_n (K : Fld) (f g : Z -> K) l largest ic sol eq0 : (0 <= l)%Z ->
  let m := match largest with Some k => Z.max l k | None => l end in
  (forall n, (m < n)%Z -> f n <> 1%F) ->
  (forall d, eq0 d = true -> forall n, (m < n)%Z -> d n = 0%F) ->
  verify_weighted_average false (rewrite_wavg true false f g l) largest ic sol eq0 = PROVABLY_CORRECT ->
  averages_incl f g m (spliced m ic sol).
Proof. intros Hl m Hf HZ H. apply incl_iff; auto. exact (verify_wavg_sound true f g l largest ic sol eq0 Hl HZ H). Qed.
(** A zero test (not computable, of course). *)
Definition zero_test {K : Fld} (m : Z) (d : Z -> K) : bool :=
  if ClassicalDedekindReals.sig_not_dec (forall n, (m < n)%Z -> d n = 0%F) then true else false.
Lemma zero_test_ok (K : Fld) m (d : Z -> K) : zero_test m d = true <-> forall n, (m < n)%Z -> d n = 0%F.
Proof.
  unfold zero_test. destruct (ClassicalDedekindReals.sig_not_dec _) as [H|H]; split; try discriminate; try (intros A; try contradiction; reflexivity).
  - intros _ n Hn. destruct (feq_dec (d n) 0%F) as [E|E]; auto. exfalso. apply H. intros A. apply E, A, Hn.
Qed.
(** x(n) = sum(k,0,n-1,x(k)), x(0) = 3: x(n) = 3 2^(n-1). *)
Definition vw_sol : Z -> QcF := fun n => (ofz 3 * ofz 2 ^ Z.to_nat (n - 1))%F.
Lemma vw_case : verify_weighted_average false (rewrite_wavg (K := QcF) false false (fun _ => 1%F) (fun _ => 0%F) 0) None (fun _ => ofz 3) vw_sol (zero_test 0) = PROVABLY_CORRECT.
Proof.
  unfold verify_weighted_average. cbn [rewritten rewrite_wavg normalize orb Z.ltb Z.compare weight inhomogeneous].
  replace (negb _) with false by (vm_compute; reflexivity).
  assert (E : zero_test 0 (fun n : Z => (vw_sol n - 1 * ofz 3 - 1 * zsum (0 + 1) (n - 1) vw_sol - 0)%F) = true); [|now rewrite E].
  apply zero_test_ok.
  assert (G : forall k : nat, zsum (K := QcF) 1 (Z.of_nat k) vw_sol = (ofz 3 * ofz 2 ^ k - ofz 3)%F).
  { induction k.
    - rewrite zsum_empty by lia. vm_compute. reflexivity.
    - rewrite zsum_last by lia. replace (Z.of_nat (S k) - 1)%Z with (Z.of_nat k) by lia. rewrite IHk. unfold vw_sol. replace (Z.to_nat (Z.of_nat (S k) - 1)) with k by lia.
      change ((ofz 2 : QcF) ^ S k)%F with (ofz 2 * ofz 2 ^ k : QcF)%F. set (t := fpow _ k). clearbody t.
      replace (ofz 2 : QcF) with (1 + 1 : QcF)%F by (vm_compute; reflexivity). change (Qcplus (Qcminus (Qcmult (ofz (K:=QcF) 3) t) (ofz (K:=QcF) 3)) (Qcmult (ofz (K:=QcF) 3) t) = Qcminus (Qcmult (ofz (K:=QcF) 3) (Qcmult (Qcplus 1%Qc 1%Qc) t)) (ofz (K:=QcF) 3)).
      set (c := ofz (K:=QcF) 3). clearbody c. change (car QcF) with Qc in *. ring. }
  intros n Hn. change (0 + 1)%Z with 1%Z. specialize (G (Z.to_nat (n - 1))). rewrite Z2Nat.id in G by lia. rewrite G. unfold vw_sol.
  set (t := fpow _ _). clearbody t. set (c := ofz (K:=QcF) 3). clearbody c. clear G.
  change (Qcminus (Qcminus (Qcminus (Qcmult c t) (Qcmult 1%Qc c)) (Qcmult 1%Qc (Qcminus (Qcmult c t) c))) 0%Qc = 0%Qc). change (car QcF) with Qc in *. ring.
Qed.
(** weight -1: x(n) = - sum(k,0,n-1,x(k)) + n with x(0) = 5. *)
Lemma m1_wrong : ~ averages (K := QcF) (fun _ => - (1))%F (fun n => ofz n) 0
  (spliced 0 (fun _ => ofz 5) (solve_wavg iter_solve true (rewrite_wavg false false (fun _ => - (1))%F (fun n => ofz n) 0) (fun _ => ofz 5))).
Proof. intros H. apply (wavg_m1 (K := QcF) iter_solve (fun n => ofz n) (fun _ => ofz 5)) in H. vm_compute in H. discriminate H. Qed.
(** weight 1, upper limit n: x(n) = sum(k,0,n,x(k)) + n^2; the solution is x(n) = - 2 n - 1. *)
Lemma w1_true : averages_incl (K := QcF) (fun _ => 1%F) (fun n => ofz (n * n)) 0 (fun n => ofz (- (2 * n) - 1)).
Proof.
  assert (G : forall k : nat, zsum (K := QcF) 0 (Z.of_nat k) (fun n => ofz (- (2 * n) - 1)) = ofz (- ((Z.of_nat k + 1) * (Z.of_nat k + 1)))).
  { induction k.
    - rewrite zsum_last, zsum_empty by lia. reflexivity.
    - rewrite zsum_last by lia. replace (Z.of_nat (S k) - 1)%Z with (Z.of_nat k) by lia. rewrite IHk, <- ofz_add. f_equal. lia. }
  intros n Hn. specialize (G (Z.to_nat n)). rewrite Z2Nat.id in G by lia. rewrite G.
  transitivity (ofz (K := QcF) (- ((n + 1) * (n + 1))) + ofz (n * n))%F.
  - rewrite <- ofz_add. f_equal. lia.
  - apply (f_equal (fun t => fadd (f := QcF) t (ofz (n * n)))). set (t := ofz _). clearbody t. symmetry. exact (Qcmult_1_l t).
Qed.
Lemma w1_wrong : ~ averages_incl (K := QcF) (fun _ => 1%F) (fun n => ofz (n * n)) 0
  (spliced 0 (fun _ => ofz (-1)) (solve_wavg iter_solve true (rewrite_wavg true true (fun _ => 1%F) (fun n => ofz (n * n)) 0) (fun _ => ofz (-1)))).
Proof. intros H. specialize (H 2%Z ltac:(lia)). vm_compute in H. discriminate H. Qed.
Theorem m1_refuted : ~ (forall (K : Fld) solve (g x0 : Z -> K), solver_ok solve ->
  averages (fun _ => - (1))%F g 0 (spliced 0 x0 (solve_wavg solve true (rewrite_wavg false false (fun _ => - (1))%F g 0) x0))).
Proof. intros H. exact (m1_wrong (H QcF iter_solve _ _ (iter_solve_ok (K := QcF)))). Qed.
Theorem w1_refuted : ~ (forall (K : Fld) solve (g x : Z -> K), solver_ok solve -> averages_incl (fun _ => 1%F) g 0 x ->
  averages_incl (fun _ => 1%F) g 0 (spliced 0 x (solve_wavg solve true (rewrite_wavg true true (fun _ => 1%F) g 0) x))).
Proof.
  intros H. specialize (H QcF iter_solve (fun n => ofz (n * n)) _ (iter_solve_ok (K := QcF)) w1_true).
  specialize (H 2%Z ltac:(lia)). vm_compute in H. discriminate H.
Qed.
Theorem verify_m1_refuted : ~ (forall (K : Fld) (g ic sol : Z -> K) eq0, (forall d, eq0 d = true -> forall n, (0 < n)%Z -> d n = 0%F) ->
  verify_weighted_average true (rewrite_wavg false false (fun _ => - (1))%F g 0) None ic sol eq0 = PROVABLY_CORRECT ->
  averages (fun _ => - (1))%F g 0 (spliced 0 ic sol)).
Proof.
  intros H. specialize (H QcF (fun n => ofz n) (fun _ => ofz 5) (fun n => ofz n - ofz (n - 1))%F (fun _ => false)). specialize (H ltac:(intros; discriminate) eq_refl).
  specialize (H 1%Z ltac:(lia)). vm_compute in H. discriminate H.
Qed.
(** x(n) = 1/n sum(k,0,n-1,x(k)) + 1 and x(n) = 1/(n+1) sum(k,0,n,x(k)) + 1. *)
Lemma wavg_case : (forall n, (0 < n)%Z -> (/ ofz n)%F <> (0 : QcF)%F).
Proof. intros n Hn. apply inv_neq0. rewrite <- (Z2Nat.id n), ofz_ofnat by lia. apply ofn_neq0'. lia. Qed.
Lemma wavg_incl_case : (forall n, (0 < n)%Z -> (/ ofz (n + 1))%F <> (0 : QcF)%F /\ (/ ofz (n + 1))%F <> (1 : QcF)%F).
Proof.
  intros n Hn. assert (D : ofz (n + 1) <> (0 : QcF)%F) by (rewrite <- (Z2Nat.id (n + 1)), ofz_ofnat by lia; apply ofn_neq0'; lia).
  split; [apply inv_neq0; auto|]. intros E. assert (E2 : ofz (n + 1) = (ofz 1 : QcF)).
  { transitivity (Qcmult (ofz (K := QcF) (n + 1)) (/ ofz (K := QcF) (n + 1))%F); [|exact (Qcmult_inv_r _ D)]. rewrite E. symmetry. exact (Qcmult_1_r _). }
  rewrite <- (Z2Nat.id (n + 1)), ofz_ofnat in E2 by lia. change (ofz 1 : QcF) with (ofn 1 : QcF) in E2. apply ofn_inj in E2. lia.
Qed.
