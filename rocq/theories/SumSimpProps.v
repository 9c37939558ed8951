(** C46: closed forms of sums (src/simplify.cc:1651-1957). *)
From Coq Require Import ZArith QArith Qcanon Reals List String Bool Lia Lra.
From Verif Require Import Ast ExprModel ExprSpec ExprProofs2 DecompModel DecompSpec DecompCases VerifyCases ProdSpec ProdProofs SumSimpModel SumSimpSpec SumSimpProofs SumSimpProofs2 SumSimpProofs3.
Import ListNotations.
Local Open Scope list_scope.
Local Open Scope R_scope.

(** The sum of the f(i), i = lower, ..., m + num, where the summand is a sum of polynomials times
    exponentials, or has no polynomial part and one base.  Missing: negative lower limits, upper
    limits less than 0 or than lower - 1, summands that contain the symbol of a shifted upper limit or
    mix both kinds of parts, for which see below. *)
Theorem C46_compute_sum_partial : forall (I : interp) (G : ginac), ginac_ok I G ->
  forall expand simplify sum_pe gosper h, (forall e, refines I e (expand e)) -> (forall e, refines I e (simplify e)) ->
  sums_powers I sum_pe -> telescopes I gosper ->
  forall rho k m lo num M up e f, upper_is up m num -> rho m = IZR M -> h <> k -> h <> m -> k <> m ->
  (0 <= lo)%Z -> (0 <= M + num)%Z -> (lo - 1 <= M + num)%Z ->
  (summands I rho k e 0 (M + num) f /\ exp_poly_treated G expand simplify sum_pe h k m num e \/
   summands I rho k e lo (M + num + 1) f /\ non_poly_treated G expand simplify k m e) ->
  eval I rho (compute_sum G expand simplify sum_pe gosper h k (zq lo) up e) = Some (zsum f lo (Z.to_nat (M + num - lo + 1))).
Proof.
  intros I G HG ex si sp go h He Hs Hp Hg rho k m lo num M up e f Hu Hm hk hm km L0 U0 LU [[Hf D]|[Hf D]].
  - exact (compute_poly_ok I G HG ex si sp go h He Hs Hp rho k m lo num M hm Hm L0 U0 LU e f up Hu Hf D).
  - exact (compute_gosper_ok I G HG ex si sp go h He Hs Hg rho k m lo num M Hm LU e f up Hu Hf D).
Qed.
Print Assumptions C46_compute_sum_partial.
(** An upper limit that is not a symbol plus an integer: the sum is left alone. *)
Theorem C46_other_limits : forall (G : ginac) expand simplify sum_pe gosper h k lo up e, (forall m num, ~ upper_is up m num) ->
  compute_sum G expand simplify sum_pe gosper h k lo up e = SumE k (Num lo) up e.
Proof. intros. unfold compute_sum. destruct (upper_of up) as [[m num]|] eqn:Eu; auto. apply upper_of_is in Eu. now apply H in Eu. Qed.
Print Assumptions C46_other_limits.
(** The upper limit m + num rewritten: the sum up to m, and the missing or superfluous terms. *)
Theorem C46_split_sum : forall (I : interp) (G : ginac), ginac_ok I G ->
  forall rho k lo up e l m num M f, eval I rho lo = Some (IZR l) -> up = Add [Sym m; Num (zq num)] \/ up = Add [Num (zq num); Sym m] ->
  rho m = IZR M -> k <> m -> (l - 1 <= M)%Z -> (l - 1 <= M + num)%Z -> summands I rho k e l (Z.max l (Z.max M (M + num))) f ->
  (forall j, no_capture k (gadd G (Sym m) (Num (zq j))) e) ->
  eval I rho (split_sum G k lo up e) = Some (zsum f l (Z.to_nat (M + num - l + 1))).
Proof.
  intros I G HG rho k lo up e l m num M f Hl Hu Hm Hk H1 H2 Hf NC. apply (split_sum_ok I G HG).
  - left. exists l, m, num, M, f. repeat (split; [assumption|]). exact NC.
  - apply sum_value; auto; [apply (upper_value I rho up m num M); auto; right; destruct Hu; auto|]. intros i Hi. apply Hf. lia.
Qed.
Print Assumptions C46_split_sum.
(** The whole expression, in both modes. *)
Theorem C46_simplify_sum_partial : forall (I : interp) (G : ginac), ginac_ok I G ->
  forall expand simplify sum_pe gosper h, (forall e, refines I e (expand e)) -> (forall e, refines I e (simplify e)) ->
  sums_powers I sum_pe -> telescopes I gosper ->
  forall compute fuel rho e r v, sums_right I G expand simplify sum_pe h compute rho e ->
  simplify_sum G expand simplify sum_pe gosper h compute fuel e = Some r -> eval I rho e = Some v -> eval I rho r = Some v.
Proof. exact simplify_sum_ok. Qed.
Print Assumptions C46_simplify_sum_partial.
(** Sums from 1 to n merged into one. *)
Theorem C46_collect_sums_partial : forall (I : interp) (G : ginac), ginac_ok I G ->
  forall expand simplify sum_pe gosper h, (forall e, refines I e (expand e)) -> (forall e, refines I e (simplify e)) ->
  sums_powers I sum_pe -> telescopes I gosper ->
  forall rho N fuel e r v, rho "n"%string = IZR N -> h <> "n"%string ->
  Forall (fun a => forall c k b, sum_addend a = Some (c, k, b) -> has h b = false /\ no_capture k (Sym h) b) (ops e) ->
  sums_right I G expand simplify sum_pe h true rho (gsum G h (Num 1) (Sym "n") (expand (snd (fst (merge G h (ops e)))))) ->
  collect_sums G expand simplify sum_pe gosper h fuel e = Some r -> eval I rho e = Some v -> eval I rho r = Some v.
Proof. exact collect_sums_ok. Qed.
Print Assumptions C46_collect_sums_partial.

(** Instances of the auxiliary functions: the sums left symbolic. *)
Definition sum_pe0 (c : expr) (h m : string) (b : expr) : expr := SumE h (Num 0) (Sym m) (Mul [c; Pow b (Sym h)]).
Definition gosper0 (m : string) (t : expr) (lo : Z) (up : expr) : option expr := Some (SumE m (Num (zq lo)) up t).
Lemma sum_pe0_ok I : sums_powers I sum_pe0.
Proof.
  intros rho h m c b N g hm Hm HN Hg. unfold sum_pe0. replace (N + 1)%Z with (N - 0 + 1)%Z by lia. apply sum_value; auto.
  - cbn [eval]. now rewrite rv_0.
  - cbn [eval]. now rewrite Hm.
Qed.
Lemma gosper0_ok I : telescopes I gosper0.
Proof.
  intros m t lo up s H rho U f HU Eu Hf. injection H as <-. apply sum_value; auto; [cbn [eval]; now rewrite rv_zq|]. intros i Hi. apply Hf. lia.
Qed.
Notation compute lo up e := (compute_sum G0 idE idE sum_pe0 gosper0 "h" "k" (zq lo) up e).
Definition env_n (N : Z) : string -> R := fun _ => IZR N.
(** sum(k, 3, n-1, 2^k (k+1)) and, with Gosper's algorithm, sum(k, 1, n, k!). *)
Definition good_e : expr := Mul [Pow (Num (zq 2)) (Sym "k"); Add [Sym "k"; Num 1]].
Example C46_case : forall N, (5 <= N)%Z ->
  eval I0 (env_n N) (compute 3 (Add [Sym "n"; Num (zq (-1))]) good_e) = Some (zsum (fun i => Rpower 2 (IZR i) * (IZR i + 1)) 3 (Z.to_nat (N + (-1) - 3 + 1))).
Proof.
  intros N HN. apply (C46_compute_sum_partial I0 G0 (G0_ok I0) idE idE sum_pe0 gosper0 "h" (fun _ _ _ H => H) (fun _ _ _ H => H) (sum_pe0_ok I0) (gosper0_ok I0) (env_n N) "k" "n" 3 (-1) N); try lia; try discriminate; try reflexivity.
  - right. left. reflexivity.
  - left. split.
    + intros i Hi. unfold good_e. rewrite eval_Mul2, eval_Add2. cbn [eval]. change (upd (env_n N) "k" (IZR i) "k"%string) with (IZR i). rewrite rv_zq, rv_1. cbn [obind olift2].
      rewrite (NonLinProofs.rpow_pos 2) by lra. reflexivity.
    + unfold exp_poly_treated. replace (exp_poly_decomposition G0 idE (idE good_e) "k") with [(Num (zq 2), Add [Num 1; Sym "k"], Num 0)] by (vm_compute; reflexivity). constructor; [|constructor].
      replace (substitute G0 (Sym "k") (Sym "h") (Add [Num 1; Sym "k"])) with (Add [Sym "h"; Num 1]) by (vm_compute; reflexivity). cbn. repeat split; auto; discriminate.
Qed.
Example C46_case_split : forall N, (5 <= N)%Z ->
  eval I0 (env_n N) (split_sum G0 "k" (Num (zq 2)) (Add [Sym "n"; Num (zq (-3))]) good_e) = Some (zsum (fun i => Rpower 2 (IZR i) * (IZR i + 1)) 2 (Z.to_nat (N + (-3) - 2 + 1))).
Proof.
  intros N HN. apply (C46_split_sum I0 G0 (G0_ok I0) (env_n N) "k" _ _ good_e 2 "n" (-3) N); try lia; try discriminate; auto.
  - cbn [eval]. now rewrite rv_zq.
  - intros i Hi. unfold good_e. rewrite eval_Mul2, eval_Add2. cbn [eval]. change (upd (env_n N) "k" (IZR i) "k"%string) with (IZR i). rewrite rv_zq, rv_1. cbn [obind olift2].
    rewrite (NonLinProofs.rpow_pos 2) by lra. reflexivity.
  - intros j. apply no_capture_nobind. cbn. tauto.
Qed.

(** A whole expression: n sum(k, 3, n-1, 2^k (k+1)) + sqrt(n). *)
Definition whole_e : expr := Add [Mul [Sym "n"; SumE "k" (Num (zq 3)) (Add [Sym "n"; Num (zq (-1))]) good_e]; Pow (Sym "n") (Num (Q2Qc (1 # 2)))].
Lemma good_e_v N i : eval I0 (upd (env_n N) "k" (IZR i)) good_e = Some (Rpower 2 (IZR i) * (IZR i + 1)).
Proof.
  unfold good_e. rewrite eval_Mul2, eval_Add2. cbn [eval]. change (upd (env_n N) "k" (IZR i) "k"%string) with (IZR i). rewrite rv_zq, rv_1. cbn [obind olift2].
  rewrite (NonLinProofs.rpow_pos 2) by lra. reflexivity.
Qed.
Lemma good_e_treated num : num <> 0%Z -> exp_poly_treated G0 idE idE sum_pe0 "h" "k" "n" num good_e.
Proof.
  intros H. unfold exp_poly_treated. replace (exp_poly_decomposition G0 idE (idE good_e) "k") with [(Num (zq 2), Add [Num 1; Sym "k"], Num 0)] by (vm_compute; reflexivity). constructor; [|constructor].
  replace (substitute G0 (Sym "k") (Sym "h") (Add [Num 1; Sym "k"])) with (Add [Sym "h"; Num 1]) by (vm_compute; reflexivity).
  split; [reflexivity|]. split; [reflexivity|]. split; [reflexivity|]. split; [right; split; reflexivity|]. split; [cbn; tauto|]. split; [cbn; tauto|].
  cbn [sum_pe0 no_capture]. split; [discriminate|]. split; [|cbn; tauto]. cbn [G0 gadd is_num]. destruct (Qc_eqb (zq num) 0); reflexivity.
Qed.
Example C46_case_whole : forall N, (5 <= N)%Z -> sums_right I0 G0 idE idE sum_pe0 "h" true (env_n N) whole_e /\
  (exists v, eval I0 (env_n N) whole_e = Some v) /\ exists r, simplify_sum G0 idE idE sum_pe0 gosper0 "h" true 4 whole_e = Some r.
Proof.
  intros N HN. split; [|split].
  - unfold whole_e. apply SR_add. constructor; [|constructor; [apply SR_pow; constructor|constructor]]. apply SR_mul. constructor; [constructor|constructor; [|constructor]].
    apply SR_compute; [reflexivity|discriminate|reflexivity|]. exists 3%Z. split; [reflexivity|]. right. exists "n"%string, (-1)%Z, N.
    split; [right; left; reflexivity|]. split; [reflexivity|]. do 3 (split; [discriminate|]). do 3 (split; [lia|]). left. split; [|apply good_e_treated; discriminate].
    eexists. intros i Hi. apply good_e_v.
  - unfold whole_e. rewrite eval_Add2, eval_Mul2. rewrite (sum_value I0 (env_n N) "k" _ _ _ 3 (N + -1) (fun i => Rpower 2 (IZR i) * (IZR i + 1))).
    + cbn [eval]. assert (0 < IZR N) by (apply IZR_lt; lia). change (env_n N "n"%string) with (IZR N). cbn [olift2 obind]. rewrite (NonLinProofs.rpow_pos (IZR N)) by auto. cbn [olift2 obind]. eauto.
    + cbn [eval]. now rewrite rv_zq.
    + rewrite eval_Add2. cbn [eval olift2]. rewrite rv_zq, plus_IZR. reflexivity.
    + intros i Hi. apply good_e_v.
  - eexists. cbn [simplify_sum whole_e fold_right has_x_with good_e existsb orb negb andb]. reflexivity.
Qed.

(** * Wrong sums *)
Lemma sum0_v N c f b : (0 <= N)%Z -> (forall i, (0 <= i <= N)%Z -> eval I0 (upd (env_n N) "h" (IZR i)) (Mul [c; Pow b (Sym "h")]) = Some (f i)) ->
  eval I0 (env_n N) (sum_pe0 c "h" "n" b) = Some (zsum f 0 (Z.to_nat (N + 1))).
Proof. intros HN Hf. apply sum_pe0_ok; auto. discriminate. Qed.
Lemma one_pow' rho e v : eval I0 rho e = Some v -> eval I0 rho (Pow (Num 1) e) = Some 1.
Proof. intros E. cbn [eval]. rewrite E, rv_1. cbn [obind]. apply rpow_one. Qed.
(** A negative lower limit is taken for 0: sum(k, -2, n, k) at n = 0 is -3, the result 0. *)
Theorem C46_negative_lower_refuted :
  eval I0 (env_n 0) (SumE "k" (Num (zq (-2))) (Sym "n") (Sym "k")) = Some (-3) /\ eval I0 (env_n 0) (compute (-2) (Sym "n") (Sym "k")) = Some 0.
Proof.
  split.
  - rewrite (sum_value I0 (env_n 0) "k" _ _ _ (-2) 0 IZR); [|cbn [eval]; now rewrite rv_zq|reflexivity|intros i _; reflexivity].
    f_equal. change (Z.to_nat (0 - -2 + 1)) with 3%nat. cbn [zsum]. cbn [Z.of_nat Z.add]. cbn. lra.
  - assert (E : compute (-2) (Sym "n") (Sym "k") = SumE "h" (Num 0) (Sym "n") (Mul [Pow (Num 1) (Sym "h"); Sym "h"])) by (apply expr_eqb_eq; vm_compute; reflexivity).
    rewrite E. rewrite (sum_value I0 (env_n 0) "h" _ _ _ 0 0 IZR).
    + f_equal. change (Z.to_nat (0 - 0 + 1)) with 1%nat. cbn [zsum]. cbn. lra.
    + cbn [eval]. now rewrite rv_0.
    + reflexivity.
    + intros i _. rewrite eval_Mul2, (one_pow' _ _ (IZR i)) by reflexivity. cbn [eval]. change (upd (env_n 0) "h" (IZR i) "h"%string) with (IZR i). cbn [olift2]. f_equal. ring.
Qed.
Print Assumptions C46_negative_lower_refuted.
(** The shift of the upper limit is applied to the summand too: sum(k, 0, n-1, (n+k)^2) at n = 1 is 1, the result 0. *)
Definition sq_e : expr := Pow (Add [Sym "n"; Sym "k"]) (Num (zq 2)).
Theorem C46_upper_symbol_refuted :
  eval I0 (env_n 1) (SumE "k" (Num (zq 0)) (Add [Sym "n"; Num (zq (-1))]) sq_e) = Some 1 /\ eval I0 (env_n 1) (compute 0 (Add [Sym "n"; Num (zq (-1))]) sq_e) = Some 0.
Proof.
  assert (Up : forall rho : string -> R, rho "n"%string = 1 -> eval I0 rho (Add [Sym "n"; Num (zq (-1))]) = Some (IZR 0)).
  { intros rho Hn. rewrite eval_Add2. cbn [eval olift2]. rewrite rv_zq, Hn. f_equal. lra. }
  assert (Sq : forall x, rpow x (IZR 2) = Some (x ^ 2)) by (intros x; change (IZR 2) with (INR 2); apply rpow_nat).
  split.
  - rewrite (sum_value I0 (env_n 1) "k" _ _ _ 0 0 (fun i => (1 + IZR i) ^ 2)); [|cbn [eval]; now rewrite rv_zq|apply Up; reflexivity|].
    + f_equal. change (Z.to_nat (0 - 0 + 1)) with 1%nat. cbn [zsum]. cbn [Z.of_nat Z.add]. ring.
    + intros i _. unfold sq_e. cbn [eval]. rewrite rv_zq. cbn [fold_right eval]. change (upd (env_n 1) "k" (IZR i) "k"%string) with (IZR i). change (upd (env_n 1) "k" (IZR i) "n"%string) with 1. cbn [olift2 obind]. rewrite Sq. f_equal. ring.
  - assert (E : compute 0 (Add [Sym "n"; Num (zq (-1))]) sq_e = SumE "h" (Num 0) (Add [Sym "n"; Num (zq (-1))]) (Mul [Pow (Num 1) (Sym "h"); Pow (Add [Sym "n"; Num (zq (-1)); Sym "h"]) (Num (zq 2))])) by (apply expr_eqb_eq; vm_compute; reflexivity).
    rewrite E. rewrite (sum_value I0 (env_n 1) "h" _ _ _ 0 0 (fun i => (IZR i) ^ 2)).
    + f_equal. change (Z.to_nat (0 - 0 + 1)) with 1%nat. cbn [zsum]. cbn [Z.of_nat Z.add]. ring.
    + cbn [eval]. now rewrite rv_0.
    + apply Up. reflexivity.
    + intros i _. rewrite eval_Mul2, (one_pow' _ _ (IZR i)) by reflexivity. cbn [eval]. rewrite !rv_zq. cbn [fold_right eval]. rewrite ?rv_zq. change (upd (env_n 1) "h" (IZR i) "h"%string) with (IZR i). change (upd (env_n 1) "h" (IZR i) "n"%string) with 1. cbn [olift2 obind]. rewrite Sq. cbn [olift2]. f_equal. ring.
Qed.
Print Assumptions C46_upper_symbol_refuted.
(** A summand with a polynomial and another part: Gosper's algorithm gets the whole of it, the polynomial part
    counts twice: sum(k, 1, n, k (1 + 1/(k(k+1)))) at n = 1 is 3/2, the result 5/2. *)
Definition mix_e : expr := Mul [Sym "k"; Add [Num 1; Mul [Pow (Sym "k") (Num (-(1))%Qc); Pow (Add [Sym "k"; Num 1]) (Num (-(1))%Qc)]]].
Definition mix_x : expr := Add [Sym "k"; Pow (Add [Sym "k"; Num 1]) (Num (-(1))%Qc)].
Definition mix_expand (e : expr) : expr := if expr_eqb e mix_e then mix_x else e.
Lemma powerRZ_m1 x : powerRZ x (-1) = / x.
Proof. cbn [powerRZ]. change (Pos.to_nat 1) with 1%nat. cbn [pow]. now rewrite Rmult_1_r. Qed.
Lemma rpow_m1 x v : rpow x (-1) = Some v -> x <> 0 /\ v = / x.
Proof.
  unfold rpow. rewrite as_int_IZR. destruct (Req_EM_T x 0); [discriminate|]. intros [= <-]. split; auto. apply powerRZ_m1.
Qed.
Lemma rpow_m1' x : x <> 0 -> rpow x (-1) = Some (/ x).
Proof. intros H. unfold rpow. rewrite as_int_IZR. destruct (Req_EM_T x 0); [contradiction|]. now rewrite powerRZ_m1. Qed.
Lemma rv_m1 : rv (-(1))%Qc = -1. Proof. rewrite rv_opp, rv_1. lra. Qed.
Lemma mix_expand_ok I e : refines I e (mix_expand e).
Proof.
  intros rho v H. unfold mix_expand. destruct (expr_eqb e mix_e) eqn:E; auto. apply expr_eqb_eq in E. subst e. unfold mix_e in H. unfold mix_x.
  rewrite eval_Mul2, eval_Add2, eval_Mul2 in H. rewrite eval_Add2. apply olift2_some in H as (x & y & Ex & H & ->). apply olift2_some in H as (o & w & Eo & H & ->). apply olift2_some in H as (a & b & Ha & Hb & ->).
  rewrite Hb. rewrite Ex. cbn [eval] in Ex, Eo, Ha. rewrite rv_m1 in Ha. cbn [obind] in Ha. apply rpow_m1 in Ha as [Hx Ha]. injection Ex as Ex. rewrite Ex in *. rewrite rv_1 in Eo. injection Eo as <-. cbn [olift2]. f_equal. rewrite Ha. field. auto.
Qed.
Theorem C46_mixed_refuted : (forall e, refines I0 e (mix_expand e)) /\
  eval I0 (env_n 1) (SumE "k" (Num (zq 1)) (Sym "n") mix_e) = Some (3 / 2) /\
  eval I0 (env_n 1) (compute_sum G0 mix_expand idE sum_pe0 gosper0 "h" "k" (zq 1) (Sym "n") mix_e) = Some (5 / 2).
Proof.
  assert (V : forall s rho, rho s = 1 -> eval I0 rho (Mul [Sym s; Add [Num 1; Mul [Pow (Sym s) (Num (-(1))%Qc); Pow (Add [Sym s; Num 1]) (Num (-(1))%Qc)]]]) = Some (3 / 2)).
  { intros s rho Hs. rewrite eval_Mul2, eval_Add2, eval_Mul2. cbn [eval fold_right]. rewrite rv_1, rv_m1, Hs. cbn [obind olift2]. rewrite !rpow_m1' by lra. cbn [olift2]. f_equal. lra. }
  split; [apply mix_expand_ok|split].
  - rewrite (sum_value I0 (env_n 1) "k" _ _ _ 1 1 (fun _ => 3 / 2)); [|cbn [eval]; now rewrite rv_zq|reflexivity|].
    + f_equal. change (Z.to_nat (1 - 1 + 1)) with 1%nat. cbn [zsum]. ring.
    + intros i Hi. apply V. assert (i = 1%Z) by lia. subst. reflexivity.
  - assert (E : compute_sum G0 mix_expand idE sum_pe0 gosper0 "h" "k" (zq 1) (Sym "n") mix_e =
      Add [SumE "h" (Num 0) (Sym "n") (Mul [Pow (Num 1) (Sym "h"); Sym "h"]); Mul [Num (-(1))%Qc; Num 0; Pow (Num 1) (Num 0)];
        SumE "n" (Num (zq 1)) (Sym "n") (Mul [Add [Mul [Pow (Add [Num 1; Sym "n"]) (Num (-(1))%Qc); Pow (Sym "n") (Num (-(1))%Qc)]; Num 1]; Sym "n"])]) by (apply expr_eqb_eq; vm_compute; reflexivity).
    rewrite E. rewrite eval_Add, !esum_cons, esum_nil. rewrite (sum_value I0 (env_n 1) "h" _ _ _ 0 1 IZR).
    + rewrite (sum_value I0 (env_n 1) "n" _ _ _ 1 1 (fun _ => 3 / 2)); [|cbn [eval]; now rewrite rv_zq|reflexivity|].
      * rewrite eval_Mul, !eprod_cons, eprod_nil. rewrite (one_pow' _ _ 0) by (cbn [eval]; now rewrite rv_0). cbn [eval]. rewrite rv_0. cbn [olift2]. f_equal. change (Z.to_nat (1 - 1 + 1)) with 1%nat. change (Z.to_nat (1 - 0 + 1)) with 2%nat. cbn [zsum]. change (0 + Z.of_nat 0)%Z with 0%Z. change (0 + Z.of_nat 1)%Z with 1%Z. lra.
      * intros i Hi. assert (i = 1%Z) by lia. subst. rewrite eval_Mul2, eval_Add2, eval_Mul2. cbn [eval fold_right]. rewrite rv_1, rv_m1. change (upd (env_n 1) "n" 1 "n"%string) with 1. cbn [obind olift2]. rewrite !rpow_m1' by lra. cbn [olift2]. f_equal. lra.
    + cbn [eval]. now rewrite rv_0.
    + reflexivity.
    + intros i _. rewrite eval_Mul2, (one_pow' _ _ (IZR i)) by reflexivity. cbn [eval]. change (upd (env_n 1) "h" (IZR i) "h"%string) with (IZR i). cbn [olift2]. f_equal. ring.
Qed.
Print Assumptions C46_mixed_refuted.
(** An upper limit m + 1/2 is rewritten to the result 0: sum(k, 0, m + 1/2, k) at m = 1/2 is 1. *)
Theorem C46_fraction_refuted : let up := Add [Sym "m"; Num (Q2Qc (1 # 2))] in
  eval I0 (fun _ => / 2) (SumE "k" (Num 0) up (Sym "k")) = Some 1 /\ split_sum G0 "k" (Num 0) up (Sym "k") = Num 0.
Proof.
  intros up. split; [|reflexivity]. rewrite (sum_value I0 _ "k" _ _ _ 0 1 IZR).
  - f_equal. change (Z.to_nat (1 - 0 + 1)) with 2%nat. cbn [zsum]. cbn. lra.
  - cbn [eval]. now rewrite rv_0.
  - unfold up. rewrite eval_Add2. cbn [eval olift2]. f_equal. unfold rv, Q2R. cbn. lra.
  - intros i _. reflexivity.
Qed.
Print Assumptions C46_fraction_refuted.
