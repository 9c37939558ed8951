(** Proofs for C31, C32: residuals and tests. *)
From Coq Require Import ZArith QArith Qcanon Reals List String Bool Lia Lra.
From Verif Require Import Ast ExprModel ExprSpec ExprProofs1 ExprProofs2 ExprProofs3 SeqInterp ElimModel ElimSpec ElimProofs VerifyModel VerifySpec VerifyProofs.
Import ListNotations.
Local Open Scope R_scope.
Local Open Scope list_scope.

Lemma not_bound_all s l : fold_right (fun a P => not_bound s a /\ P) True l <-> Forall (not_bound s) l.
Proof. induction l as [|a l IH]; cbn; [split; auto|]. rewrite IH. split; [intros [? ?]; auto|intros H; inversion H; auto]. Qed.
Lemma no_capture_only s r e : (forall k, has k r = true -> k = s) -> not_bound s e -> no_capture s r e.
Proof.
  intros Hr. assert (F : forall k, k <> s -> has k r = false) by (intros k Hk; destruct (has k r) eqn:E; auto; elim Hk; auto).
  induction e using expr_ind'; cbn [not_bound no_capture]; intros H'; auto.
  - rewrite no_capture_all. rewrite not_bound_all in H'. rewrite Forall_forall in *. auto.
  - rewrite no_capture_all. rewrite not_bound_all in H'. rewrite Forall_forall in *. auto.
  - destruct H'. split; auto.
  - rewrite no_capture_all. rewrite not_bound_all in H'. rewrite Forall_forall in *. auto.
  - destruct H' as (? & ? & ? & ?). repeat split; auto.
  - destruct H' as (? & ? & ? & ?). repeat split; auto.
Qed.
Lemma n_shift_free z : x_free (n_shift z).
Proof. unfold n_shift. destruct (z =? 0)%Z; reflexivity. Qed.
Lemma rv_nq k : rv (nq k) = INR k.
Proof. unfold nq. rewrite rv_zq. now rewrite INR_IZR. Qed.
Lemma rv_eq0 q : is_num 0 (Num q) = true -> rv q = 0.
Proof. intros H. apply is_num_eq in H. injection H as ->. apply rv_0. Qed.

Section V.
Context (I : interp) (rho : string -> R) (G : ginac).
Context (HG : forall x, ginac_ok (with_x I x) G) (HK : x_kept G).
Context (simplify_all simplify_sum rewrite expand : expr -> expr).
Context (Hsa : sound_simplification I simplify_all) (Hss : sound_simplification I simplify_sum)
        (Hrw : sound_simplification I rewrite) (Hex : sound_simplification I expand).
Notation at_ := (at_n I rho).

Lemma shift_by_val e y n d v : not_bound "n" e -> (d <= n)%nat -> at_ y (n - d) e = Some v -> at_ y n (shift_by G e d) = Some v.
Proof.
  intros NB Hd H. unfold at_n, shift_by in *.
  apply (substitute_ok (with_x I y) G (HG y) "n" (n_shift (Z.of_nat d)) e (no_capture_only _ _ _ (n_shift_fresh _) NB)) with (w := INR (n - d)).
  - apply (n_shift_val I rho y (n - d) (Z.of_nat d) n). lia.
  - rewrite <- H. apply eval_ext. intros t. apply upd_upd.
Qed.
Lemma shift_by_free e d : x_free e -> x_free (shift_by G e d).
Proof. intros F. apply (sub_n_free G HK); auto. apply n_shift_free. Qed.
Lemma at_index e y m k v : not_bound "n" e -> at_ y k e = Some v -> at_ y m (substitute G (Sym "n") (Num (nq k)) e) = Some v.
Proof.
  intros NB H. unfold at_n in *.
  apply (substitute_ok (with_x I y) G (HG y) "n" _ e) with (w := INR k).
  - apply no_capture_only; auto. intros j C. discriminate C.
  - cbn [eval]. now rewrite rv_nq.
  - rewrite <- H. apply eval_ext. intros t. apply upd_upd.
Qed.

Lemma plug_val shifted ds : forall rhs y n w, x_outside rhs = true ->
  (forall d, In d ds -> (d <= n)%nat /\ x_free (shifted d) /\ at_ y n (shifted d) = Some (y (n - d)%nat)) ->
  at_ y n rhs = Some w -> at_ y n (fold_left (plug G shifted) ds rhs) = Some w.
Proof.
  induction ds as [|d ds IH]; intros rhs y n w O H E; cbn [fold_left]; auto.
  destruct (H d (or_introl eq_refl)) as (Hd & F & V).
  assert (P : x_outside (plug G shifted rhs d) = true /\ at_ y n (plug G shifted rhs d) = Some w).
  { unfold plug. destruct (occurs (x_n_plus (- Z.of_nat d)) rhs); auto.
    assert (exists a, x_n_plus (- Z.of_nat d) = Fun FX a) as (a & Ea) by (unfold x_n_plus, x_n; destruct (- Z.of_nat d =? 0)%Z; eauto).
    assert (X : at_ y n (Fun FX a) = Some (y (n - d)%nat)) by (rewrite <- Ea; apply x_n_plus_val; lia).
    rewrite Ea. unfold at_n in *.
    destruct (sub_x I G HG HK a (shifted d) rhs y (upd rho "n" (INR n)) O F) as [A B]; [|split; auto].
    intros u Hu. congruence. }
  destruct P as [P1 P2]. apply IH; auto. intros d' Hd'. apply H. now right.
Qed.

Lemma gsub_at y n a b u v : at_ y n a = Some u -> at_ y n b = Some v -> at_ y n (gsub G a b) = Some (u - v).
Proof. apply (gsub_val (with_x I y) G (HG y)). Qed.


Lemma in_seq1 d k : In d (seq 1 k) -> (1 <= d <= k)%nat.
Proof. rewrite in_seq. lia. Qed.
Lemma traditional_residual_val order e rhs y f n w : not_bound "n" e -> x_free e -> x_outside rhs = true -> has_values I rho f e y ->
  (f + order <= n)%nat -> at_ y n rhs = Some w -> at_ y n (traditional_residual G simplify_all simplify_sum order e rhs) = Some (y n - w).
Proof.
  intros NB F O V Hn E. unfold traditional_residual. apply gsub_at; [apply V; lia|]. apply plug_val; auto.
  intros d Hd. apply in_seq1 in Hd. split; [lia|]. split.
  - apply Hss, Hsa. now apply shift_by_free.
  - apply (proj1 Hss). apply (proj1 Hsa). apply shift_by_val; auto; [lia|]. apply V. lia.
Qed.
Lemma new_residual_val order e rhs y f n w : not_bound "n" e -> x_free e -> x_outside rhs = true -> has_values I rho f e y ->
  (f + order <= n)%nat -> at_ y n rhs = Some w -> at_ y n (new_residual G rewrite expand order e rhs) = Some (y n - w).
Proof.
  intros NB F O V Hn E. unfold new_residual. apply (proj1 Hex), (proj1 Hrw). apply gsub_at; [apply V; lia|]. apply plug_val; auto.
  intros d Hd. apply in_rev, in_seq1 in Hd. split; [lia|]. split.
  - now apply shift_by_free.
  - apply shift_by_val; auto; [lia|]. apply V. lia.
Qed.
Lemma zero_val e y n v : at_ y n e = Some v -> is_num 0 e = true -> v = 0.
Proof. intros E H. apply is_num_eq in H. subst e. cbn in E. injection E as <-. apply rv_0. Qed.
Lemma simplifies_to_zero_val diff y n v : simplifies_to_zero simplify_all rewrite diff = true -> at_ y n diff = Some v -> v = 0.
Proof.
  intros H E. unfold simplifies_to_zero in H. apply (proj1 Hrw) in E. apply (proj1 Hsa) in E. apply orb_true_iff in H as [H|H].
  - eapply zero_val; eauto.
  - apply (proj1 Hsa) in E. eapply zero_val; eauto.
Qed.
Lemma traditional_sound order e rhs y f n w : simplifies_to_zero simplify_all rewrite (traditional_residual G simplify_all simplify_sum order e rhs) = true ->
  not_bound "n" e -> x_free e -> x_outside rhs = true -> has_values I rho f e y ->
  (f + order <= n)%nat -> at_ y n rhs = Some w -> y n = w.
Proof.
  intros H NB F O V Hn E. pose proof (traditional_residual_val order e rhs y f n w NB F O V Hn E) as D.
  apply (simplifies_to_zero_val _ _ _ _ H) in D. lra.
Qed.

(** * The tests *)
Section Tests.
Context (y : nat -> R) (ds : list R).
(** c has the values s, annihilated by ds. *)
Definition bucket (c : expr) (s : nat -> R) : Prop := (forall n, at_ y n c = Some (s n)) /\ not_bound "n" c /\ killed ds s.
Fixpoint horner (ss : list (nat -> R)) (n : nat) : R := match ss with [] => 0 | s :: ss => s n + INR n * horner ss n end.
Lemma n_power_val f k n : is_n_power f k -> at_ y n f = Some (INR n ^ k).
Proof.
  intros [[-> ->]| ->].
  - unfold at_n. cbn [eval]. unfold upd. rewrite String.eqb_refl. f_equal. ring.
  - unfold at_n. cbn [eval]. unfold upd. rewrite String.eqb_refl. cbn [obind]. rewrite rv_zq, <- INR_IZR_INZ. apply rpow_nat.
Qed.
Lemma n_power_found f k : is_n_power f k -> n_power f = Some (Some k).
Proof.
  intros [[-> ->]| ->]; [reflexivity|]. cbn [n_power]. replace (is_n (Sym "n")) with true by reflexivity. unfold to_nat.
  rewrite q_is_int_zq, q_int_zq. replace (0 <=? Z.of_nat k)%Z with true by (symmetry; apply Z.leb_le; lia). cbn [andb]. now rewrite Nat2Z.id.
Qed.
Lemma no_n_power_none f : no_n_power f -> n_power f = None.
Proof.
  destruct f; cbn; auto.
  - intros H. apply String.eqb_neq in H. now rewrite H.
  - intros H. unfold is_n. apply expr_eqb_neq in H. now rewrite H.
Qed.
Lemma split_found f k l2 : is_n_power f k -> forall l1 before, Forall no_n_power l1 ->
  split_n_power G before (l1 ++ f :: l2) = Some (Some k, mul_all G (before ++ l1 ++ l2)).
Proof.
  intros Hf. induction l1 as [|a l1 IH]; intros before H; cbn [app split_n_power].
  - now rewrite (n_power_found _ _ Hf).
  - inversion H; subst. rewrite (no_n_power_none a) by auto. rewrite IH by auto. now rewrite <- app_assoc.
Qed.
Lemma split_none l : forall before, Forall no_n_power l -> split_n_power G before l = None.
Proof. induction l as [|a l IH]; intros before H; cbn [split_n_power]; auto. inversion H; subst. rewrite (no_n_power_none a) by auto. auto. Qed.

Lemma geo_bucket d c : In d ds -> not_bound "n" c -> geometric I rho y d c -> exists s, bucket c s.
Proof.
  intros Hd NB (a & Ha). exists (fun n => a * d ^ n). split; [exact Ha|]. split; auto. now apply killed_geo.
Qed.
Lemma one_bucket : In 1 ds -> bucket (Num 1) (fun _ => 1).
Proof.
  intros H. split; [|split; [exact Logic.I|]].
  - intros n. cbn. f_equal. apply rv_1.
  - eapply killed_ext; [|apply (killed_geo ds 1 H 1)]. intros n. cbv beta. rewrite pow1. ring.
Qed.
(** GiNaC's products bind no n. *)
Context (NBG : forall a b, not_bound "n" a -> not_bound "n" b -> not_bound "n" (gadd G a b) /\ not_bound "n" (gmul G a b)).
Lemma mul_all_nb l : Forall (not_bound "n") l -> not_bound "n" (mul_all G l).
Proof. induction 1 as [|a l Ha Hl IH]; [exact Logic.I|]. cbn [mul_all fold_right]. apply NBG; auto. Qed.

Lemma place_ok in_sum t k c : exp_summand I rho y ds t -> not_bound "n" t -> (in_sum = true -> t = Sym "n" -> (2 <= count_occ Req_EM_T ds 1%R)%nat) ->
  (in_sum = false -> forall s, t = Sym s -> s = "n"%string) ->
  place G in_sum t = (Some k, c) -> exists s, bucket c s /\ forall n, at_ y n t = Some (INR n ^ k * s n).
Proof.
  intros ES NB Hn Hs P.
  assert (Geo : forall d, In d ds -> geometric I rho y d t -> place G in_sum t = (Some 0%nat, t) -> exists s, bucket c s /\ forall n, at_ y n t = Some (INR n ^ k * s n)).
  { intros d Hd (a & Ha) P'. rewrite P' in P. injection P as <- <-.
    exists (fun n => a * d ^ n). split; [split; [exact Ha|split; auto; now apply killed_geo]|].
    intros n. rewrite Ha. f_equal. cbn [pow]. ring. }
  destruct ES as [t d Hd Hgeo Hnp Hmul|t k' H1 Hk|f k' l1 l2 d Hf Hl Hd Hgeo].
  - destruct t; cbn [place] in P; try discriminate P.
    + apply (Geo d); auto.
    + destruct in_sum; [apply (Geo d); auto|]. cbn in Hnp. elim Hnp. apply Hs; auto.
    + apply (Geo d); auto. cbn [place]. rewrite split_none; auto.
    + cbn in Hnp. apply (Geo d); auto. cbn [place]. unfold is_n. apply expr_eqb_neq in Hnp. now rewrite Hnp.
  - pose proof (n_power_val t k') as Vt. destruct Hk as [[-> ->]| ->].
    + cbn [place] in P. destruct in_sum; injection P as <- <-.
      * exists (fun n => 1 * INR n + 0). split; [split; [|split; [exact Logic.I|]]|].
        -- intros n. rewrite (Vt n) by (left; auto). f_equal. ring.
        -- apply killed_linear. auto.
        -- intros n. rewrite (Vt n) by (left; auto). f_equal. cbn [pow]. ring.
      * exists (fun _ => 1). split; [apply one_bucket; auto|]. intros n. rewrite (Vt n) by (left; auto). f_equal. ring.
    + cbn [place] in P. replace (is_n (Sym "n")) with true in P by reflexivity.
      assert (T : to_nat (Num (zq (Z.of_nat k'))) = Some k').
      { pose proof (n_power_found (Pow (Sym "n") (Num (zq (Z.of_nat k')))) k' (or_intror eq_refl)) as Q.
        cbn [n_power] in Q. replace (is_n (Sym "n")) with true in Q by reflexivity. congruence. }
      rewrite T in P. injection P as <- <-. exists (fun _ => 1). split; [apply one_bucket; auto|].
      intros n. rewrite (Vt n) by (right; auto). f_equal. ring.
  - cbn [place] in P. rewrite (split_found f k' l2 Hf l1 []) in P by (apply Forall_app in Hl; tauto).
    injection P as <- <-. cbn [app]. destruct Hgeo as (a & Ha). cbn [not_bound] in NB. rewrite not_bound_all in NB.
    exists (fun n => a * d ^ n). split; [split; [|split]|].
    + intros n. unfold at_n. apply (mul_all_ok _ _ (HG y)). exact (Ha n).
    + apply mul_all_nb. apply Forall_app in NB as [N1 N2]. inversion N2; subst. apply Forall_app; auto.
    + now apply killed_geo.
    + intros n. specialize (Ha n). unfold at_n in *. rewrite eval_Mul in *. rewrite eprod_app in *. rewrite eprod_cons.
      pose proof (n_power_val f k' n Hf) as Vf. unfold at_n in Vf. rewrite Vf.
      destruct (eprod (with_x I y) (upd rho "n" (INR n)) l1) as [u|]; [|discriminate].
      destruct (eprod (with_x I y) (upd rho "n" (INR n)) l2) as [v|]; [|discriminate].
      cbn in *. f_equal. assert (u * v = a * d ^ n) by congruence. rewrite <- H. ring.
Qed.

Lemma add_at_ok k c s : bucket c s -> forall v v' ss, add_at G k c v = Some v' -> Forall2 bucket v ss ->
  exists ss', Forall2 bucket v' ss' /\ forall n, horner ss' n = horner ss n + INR n ^ k * s n.
Proof.
  intros Bc. induction k as [|k IH]; intros v v' ss E F; destruct v as [|a v]; cbn [add_at] in E; try discriminate.
  - injection E as <-. inversion F as [|? t ? ts Ba Fv]; subst. exists ((fun n => t n + s n) :: ts). split.
    + constructor; auto. destruct Ba as (A1 & A2 & A3), Bc as (C1 & C2 & C3). split; [|split].
      * intros n. apply (gadd_val (with_x I y) G (HG y)); [apply A1|apply C1].
      * apply NBG; auto.
      * now apply killed_add.
    + intros n. cbn [horner pow]. ring.
  - destruct (add_at G k c v) as [w|] eqn:Ew; [|discriminate]. injection E as <-.
    inversion F as [|? t ? ts Ba Fv]; subst. destruct (IH v w ts Ew Fv) as (ss' & F' & H').
    exists (t :: ss'). split; [constructor; auto|]. intros n. cbn [horner pow]. rewrite H'. ring.
Qed.
Lemma add_list l : forall v v' ss,
  Forall (exp_summand I rho y ds) l -> Forall (not_bound "n") l -> (In (Sym "n") l -> (2 <= count_occ Req_EM_T ds 1%R)%nat) ->
  fold_left (add_summand G true) l (Some v) = Some v' -> Forall2 bucket v ss ->
  exists ss', Forall2 bucket v' ss' /\ forall n, exists u, at_ y n (Add l) = Some u /\ horner ss' n = horner ss n + u.
Proof.
  induction l as [|t l IH]; intros v v' ss ES NB Hn E F.
  - cbn in E. injection E as <-. exists ss. split; auto. intros n. exists 0. split; [reflexivity|ring].
  - inversion ES; subst. inversion NB; subst. cbn [fold_left add_summand] in E.
    assert (St : forall o, o = None -> fold_left (add_summand G true) l o = None).
    { intros o ->. clear. induction l; cbn [fold_left add_summand]; auto. }
    destruct (place G true t) as [[k|] c] eqn:P; [|rewrite St in E by auto; discriminate].
    destruct (add_at G k c v) as [w|] eqn:A; [|rewrite St in E by auto; discriminate].
    destruct (place_ok true t k c H1 H3) as (s & Bs & Vt); auto.
    { intros _ ->. apply Hn. now left. } { discriminate. }
    destruct (add_at_ok k c s Bs v w ss A F) as (ss1 & F1 & H5).
    destruct (IH w v' ss1 H2 H4) as (ss2 & F2 & H6); auto. { intros C. apply Hn. now right. }
    exists ss2. split; auto. intros n. destruct (H6 n) as (u & Eu & Hu). exists (INR n ^ k * s n + u). split.
    + unfold at_n in *. rewrite eval_Add in *. rewrite esum_cons. specialize (Vt n). unfold at_n in Vt. rewrite Vt, Eu. reflexivity.
    + rewrite Hu, H5. ring.
Qed.
Lemma zeros_ok m : exists ss, Forall2 bucket (repeat (Num 0) m) ss /\ forall n, horner ss n = 0.
Proof.
  induction m as [|m (ss & F & H)]; cbn [repeat].
  - exists []. split; [constructor|reflexivity].
  - exists ((fun _ => 0) :: ss). split.
    + constructor; auto. split; [|split; [exact Logic.I|apply killed_zero]]. intros n. cbn. f_equal. apply rv_0.
    + intros n. cbn [horner]. rewrite H. ring.
Qed.
Lemma tests_zero num_tests c s : (List.length ds <= num_tests)%nat -> bucket c s -> passes_tests G simplify_all num_tests c = true -> forall n, s n = 0.
Proof.
  intros L (V & NB & Kd) H n. unfold passes_tests in H. apply orb_true_iff in H as [H|H].
  - apply (zero_val c y n); auto.
  - revert n. apply (killed_vanish ds); auto. intros i Hi. rewrite forallb_forall in H. specialize (H i ltac:(apply in_seq; lia)).
    unfold vanishes_at in H. pose proof (at_index c y 0 i (s i) NB (V i)) as E. apply (proj1 Hsa) in E. eapply zero_val; eauto.
Qed.
Lemma tests_all num_tests cs ss : (List.length ds <= num_tests)%nat -> Forall2 bucket cs ss -> forallb (passes_tests G simplify_all num_tests) cs = true -> forall n, horner ss n = 0.
Proof.
  intros L. induction 1 as [|c s cs ss B F IH]; cbn [forallb horner]; auto. intros H n. apply andb_true_iff in H as [H1 H2].
  rewrite (tests_zero num_tests c s) by auto. rewrite IH by auto. ring.
Qed.
Theorem tests_sound num_tests max_degree diff cs : (1 <= num_tests)%nat -> (List.length ds <= num_tests)%nat ->
  exp_polynomial I rho y ds diff -> not_bound "n" diff -> (bare_n diff -> (2 <= count_occ Req_EM_T ds 1%R)%nat) ->
  buckets G max_degree diff = Some cs -> forallb (passes_tests G simplify_all num_tests) cs = true ->
  forall n, at_ y n diff = Some 0.
Proof.
  intros L1 L EP NB Hn B T. destruct (zeros_ok (S max_degree)) as (ss0 & F0 & Z0).
  assert (Single : exp_summand I rho y ds diff -> (forall l, diff <> Add l) -> forall n, at_ y n diff = Some 0).
  { intros ES NA.
    assert (B' : add_summand G false (Some (repeat (Num 0) (S max_degree))) diff = Some cs) by (destruct diff; auto; now elim (NA l)).
    clear B. unfold add_summand in B'. destruct (place G false diff) as [[k|] c] eqn:P; [|discriminate].
    assert (D : (forall s, diff = Sym s -> s = "n"%string) \/ exists s, diff = Sym s /\ s <> "n"%string).
    { destruct diff as [q|q|s| | | | | |]; try (left; intros s' C; discriminate C).
      destruct (string_dec s "n") as [->|Ne]; [left; intros s' C; injection C as <-; auto|right; eauto]. }
    destruct D as [D|(s & -> & Ne)].
    - destruct (place_ok false diff k c ES NB) as (s & Bs & Vt); auto; [discriminate|].
      destruct (add_at_ok k c s Bs _ cs ss0 B' F0) as (ss1 & F1 & H1). intros n. rewrite Vt. f_equal.
      pose proof (tests_all num_tests cs ss1 L F1 T n) as H2. rewrite H1, Z0 in H2. lra.
    - (* another symbol: the position 1 holds 1 and the first test fails *)
      exfalso. cbn [place] in P. injection P as <- <-. destruct max_degree as [|m]; cbn [repeat add_at] in B'; [discriminate|].
      assert (cs = Num 0 :: gadd G (Num 0) (Num 1) :: repeat (Num 0) m) as -> by congruence.
      cbn [forallb] in T. apply andb_true_iff in T as [_ T]. apply andb_true_iff in T as [T _].
      assert (V : forall n, at_ y n (gadd G (Num 0) (Num 1)) = Some 1).
      { intros n. replace 1 with (rv 0 + rv 1) by (rewrite rv_0, rv_1; ring). apply (gadd_val (with_x I y) G (HG y)); reflexivity. }
      unfold passes_tests in T. apply orb_true_iff in T as [T|T].
      + apply (zero_val _ y 0 1) in T; [lra|apply V].
      + rewrite forallb_forall in T. specialize (T 0%nat ltac:(apply in_seq; lia)). unfold vanishes_at in T.
        assert (NBc : not_bound "n" (gadd G (Num 0) (Num 1))) by (apply NBG; exact Logic.I).
        pose proof (at_index _ y 0 0 1 NBc (V 0%nat)) as E. apply (proj1 Hsa) in E. apply (zero_val _ y 0 1) in T; [lra|exact E]. }
  destruct diff as [q|q|s|l|l|a b|f l|k lo up e|k lo up e]; cbn [exp_polynomial] in EP;
    try (apply Single; [exact EP|intros l' C; discriminate C]).
  cbn [buckets] in B. cbn [not_bound] in NB. rewrite not_bound_all in NB.
  destruct (add_list l _ cs ss0 EP NB Hn B F0) as (ss1 & F1 & H1). intros n. destruct (H1 n) as (u & Eu & Hu).
  rewrite Eu. f_equal. pose proof (tests_all num_tests cs ss1 L F1 T n) as H2. rewrite Hu, Z0 in H2. lra.
Qed.
End Tests.
End V.
