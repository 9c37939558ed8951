From Coq Require Import ZArith QArith Qcanon Qreals Reals List String Bool Lia Lra Permutation.
From Verif Require Import IntUtilModel Ast ExprModel ExprProofs1 ExprProofs2 FactModel FactSpec FactProofs FactProofs2 NumDenModel NumDenSpec NumDenProofs.
Import ListNotations.
Local Open Scope R_scope.
Local Open Scope list_scope.

Section Val.
Variable I : interp.
Variable G : ginac.
Hypothesis HG : ginac_ok I G.
Section Rho.
Variable rho : string -> R.
Notation ev := (eval I rho).
Notation fv := (fval I rho).
Lemma fval_proper ps v : (forall f, In (Num 1, f) ps -> f = Num 1) -> fv ps = Some v -> fv (proper ps) = Some v.
Proof.
  revert v. induction ps as [|[b f] ps IH]; intros v U H; [auto|]. rewrite fval_cons in H. apply olift2_some in H as (x & y & Hx & Hy & ->).
  assert (IH' : fv (proper ps) = Some y) by (apply IH; auto; intros g Hg; apply U; now right).
  unfold proper. cbn [filter fst]. destruct (is_num 1 b) eqn:B; cbn [negb].
  - apply is_num_eq in B. subst b. rewrite (U f) in Hx by now left. cbn [fst snd] in Hx. rewrite (ev_one_pow I rho) in Hx. injection Hx as <-. unfold proper in IH'. rewrite IH'. f_equal. lra.
  - rewrite fval_cons, Hx. unfold proper in IH'. rewrite IH'. reflexivity.
Qed.
Lemma fval_in_nz l v p : fv l = Some v -> v <> 0 -> In p l -> exists u, ev (Pow (fst p) (snd p)) = Some u /\ u <> 0.
Proof.
  revert v. induction l as [|q l IH]; intros v H N; [intros []|]. rewrite fval_cons in H. apply olift2_some in H as (a & b & Ha & Hb & ->). intros [<-|Hp].
  - exists a. split; auto. intros ->. apply N. lra.
  - apply (IH b); auto. intros ->. apply N. lra.
Qed.
Variable ds : list expr.
Hypothesis HR : resplits split G ds.
Hypothesis HU : resplits_units split G.
Notation Good := (Good I rho ds).
Lemma nat_exp_pos f : nat_exponent f -> is_pos_int_num f = true.
Proof.
  intros (q & n & -> & Hq & Hn). unfold is_pos_int_num. apply andb_true_iff. split.
  - apply q_is_int_spec. rewrite Hq, INR_IZR_INZ. f_equal.
    assert (K : q = zq (Z.of_nat n)) by (apply rv_inj; rewrite rv_zq, Hq; apply INR_IZR_INZ). rewrite K. symmetry. apply q_int_zq.
  - apply q_lt_spec. rewrite rv_0, Hq. now apply lt_0_INR.
Qed.
Lemma nice_good d y : In d ds -> nice_denominator split d -> ev d = Some y -> y <> 0 -> exists l, Good l d.
Proof.
  intros Hd (l & HS & ND & F) Hy N. exists l. pose proof HS as (ps & E & P & U).
  assert (Hf : fv l = Some y). { rewrite <- (fval_perm I rho _ _ P). apply fval_proper; auto. now apply (split_ok I rho d). }
  assert (PE : Forall posexp l). { apply Forall_forall. intros p Hp. apply nat_exp_pos. exact (proj1 (Forall_forall _ _) F p Hp). }
  split; [auto|]. split; [auto|]. split; [auto|]. split; [|congruence].
  apply Forall_forall. intros [b f] Hp. cbn [fst]. split.
  - exists d, ps, f. split; [auto|]. split; [auto|]. apply (Permutation_in _ (Permutation_sym P)), proper_in in Hp. tauto.
  - destruct (fval_in_nz l y (b, f) Hf N Hp) as (u & Hu & Nu). cbn [fst snd] in Hu. destruct (ev_pow_parts I rho _ _ _ Hu) as (x & z & Hx & Hz & Hr).
    exists x. split; [auto|]. intros ->. destruct (posexp_val (b, f) (proj1 (Forall_forall _ _) PE _ Hp)) as (q & n & Eq & Hq & Hn). cbn [snd] in Eq. subst f.
    rewrite eval_num in Hz. injection Hz as <-. rewrite Hq, rpow_nat in Hr. injection Hr as <-. apply Nu. apply pow_i. auto.
Qed.
Lemma good_split l e : Good l e -> exists ps, split e = Some ps /\ Permutation (proper ps) l /\ (forall f, In (Num 1, f) ps -> f = Num 1) /\
  NoDup (map fst (proper ps)) /\ Forall posexp (proper ps) /\ Forall (fun p => goodb I rho ds (fst p)) (proper ps).
Proof.
  intros ((ps & E & P & U) & ND & PE & GB & _). exists ps. split; [auto|]. split; [auto|]. split; [auto|]. split; [|split].
  - apply (Permutation_NoDup (l := map fst l)); [apply Permutation_map, Permutation_sym, P|auto].
  - apply Forall_forall. intros p Hp. apply (proj1 (Forall_forall _ _) PE), (Permutation_in _ P), Hp.
  - apply Forall_forall. intros p Hp. apply (proj1 (Forall_forall _ _) GB p), (Permutation_in _ P), Hp.
Qed.
Lemma dom_perm l m k : Permutation l m -> dom l k -> dom m k.
Proof. intros P D b q H. apply D. eapply Permutation_in; [apply Permutation_sym|]; eauto. Qed.
Lemma dom_trans l m k : dom l m -> dom m k -> dom l k.
Proof. intros A B b q H. destruct (A b q H) as (q1 & H1 & L1). destruct (B b q1 H1) as (q2 & H2 & L2). exists q2. split; [auto|lra]. Qed.
Lemma take_good l1 d1 l2 d2 : Good l1 d1 -> Good l2 d2 -> exists l D, take_common_and_not_factors G d1 d2 = Some D /\ Good l D /\ dom l1 l /\ dom l2 l.
Proof.
  intros G1 G2. destruct (good_split _ _ G1) as (ps1 & E1 & P1 & U1 & ND1 & PE1 & GB1), (good_split _ _ G2) as (ps2 & E2 & P2 & U2 & ND2 & PE2 & GB2).
  unfold take_common_and_not_factors. rewrite E1, E2.
  destruct (take_loop I G HG rho ds HR HU ps1 ps2) as (l & e & cur & E & HGd & S2 & D & Bs); auto.
  destruct (finish_loop I G HG rho ds HR HU ps2 cur l e HGd S2 PE2 GB2) as (l' & A & B & C).
  exists l', (take_common_pairs G ps1 ps2). split; [reflexivity|]. 
  assert (Et : take_common_pairs G ps1 ps2 = fold_right (fun p e => if is_num 0 (snd p) then e else gmul G e (gpow G (fst p) (snd p))) e cur).
  { unfold take_common_pairs. change (@fold_right (expr * factors) (expr * expr) (take_step G) (Num 1, ps2) ps1 = (e, cur)) in E. unfold factors in *. rewrite E. reflexivity. }
  rewrite Et. split; [auto|]. split; [apply (dom_perm _ _ _ P1), (dom_trans _ _ _ D B)|apply (dom_perm _ _ _ P2 C)].
Qed.
Lemma good_one : Good [] (Num 1).
Proof.
  split; [|split; [constructor|split; [constructor|split; [constructor|now rewrite eval_num, rv_1]]]].
  eexists. split; [reflexivity|]. cbn -[zq]. rewrite zq_1. split; [constructor|]. intros f [H|[H|[]]]; congruence.
Qed.
Lemma common_good nds : Forall (fun nd => exists l, Good l (snd nd)) nds ->
  exists D L, common_denominator G nds = Some D /\ Good L D /\ Forall (fun nd => exists l, Good l (snd nd) /\ dom l L) nds.
Proof.
  induction nds as [|[n d] nds IH]; intros F.
  - exists (Num 1), []. split; [reflexivity|]. split; [apply good_one|constructor].
  - apply Forall_cons_iff in F as [(l & Hl) F]. destruct (IH F) as (D & L & E & HGd & FD).
    cbn [common_denominator fold_right snd]. unfold common_denominator in E. rewrite E.
    destruct (take_good L D l d HGd Hl) as (L' & D' & E' & HGd' & D1 & D2). exists D', L'. split; [auto|]. split; [auto|]. constructor; [exists l; auto|].
    eapply Forall_impl; [|exact FD]. intros nd (l0 & H1 & H2). exists l0. split; [auto|]. now apply dom_trans with L.
Qed.
Lemma find_factor_ok L D l d y yD : Good L D -> Good l d -> dom l L -> ev D = Some yD -> ev d = Some y ->
  exists r w, find_factor_for_numerator G D d = Some r /\ ev r = Some w /\ w * y = yD.
Proof.
  intros HD Hd Dm VD Vd. destruct (good_split _ _ HD) as (dps & E1 & P1 & U1 & ND1 & PE1 & GB1), (good_split _ _ Hd) as (fps & E2 & P2 & U2 & ND2 & PE2 & GB2).
  unfold find_factor_for_numerator. rewrite E1, E2. eexists. 
  set (F := fold_right _ (Num 1)).
  assert (Lin : forall b f, b <> Num 1 -> In (b, f) fps -> In (b, f) l) by (intros b f B H; apply (Permutation_in _ P2), proper_in; auto).
  assert (NDl : NoDup (map fst l)) by apply Hd. assert (NDL : NoDup (map fst L)) by apply HD.
  assert (Key : forall ps, incl ps dps -> NoDup (map fst (proper ps)) -> exists w cs vc vp, ev (F ps) = Some w /\ fv cs = Some vc /\ fv (proper ps) = Some vp /\ w * vc = vp /\ NoDup (map fst cs) /\
     (forall p, In p cs <-> In p l /\ In (fst p) (map fst (proper ps)))).
  { induction ps as [|[b fd] ps IH]; intros Hi NDp.
    - exists 1, [], 1, 1. split; [apply (one_val I rho)|]. split; [reflexivity|]. split; [reflexivity|]. split; [lra|]. split; [constructor|]. intros p. cbn. tauto.
    - assert (NDp' : NoDup (map fst (proper ps))).
      { rewrite proper_app, map_app in NDp. revert NDp. generalize (map fst (proper [(b, fd)])). induction l0 as [|z l0 IHl]; [auto|]. cbn. intros ND. apply NoDup_cons_iff in ND as [_ ND]. auto. }
      destruct IH as (w & cs & vc & vp & Hw & Hc & Hp & Ew & NDc & Sc); [intros p Hp; apply Hi; now right|auto|].
      assert (Hin : In (b, fd) dps) by (apply Hi; now left).
      assert (FE : F ((b, fd) :: ps) = match find_base b fps with
        | Some (_, ff) => if expr_eqb fd ff then F ps else match pos_ints fd ff with
             | Some (nd, nf) => gmul G (F ps) (gpow G b (Num (nd - nf)%Qc)) | None => gmul G (F ps) (gpow G b (match fd with Num q => Num q | _ => Num 0 end)) end
        | None => gmul G (F ps) (gpow G b fd) end) by reflexivity.
      destruct (expr_eqb b (Num 1)) eqn:X.
      + apply expr_eqb_eq in X. subst b. assert (fd = Num 1) by auto. subst fd. exists w, cs, vc, vp.
        split; [|split; [auto|split; [auto|split; [auto|split; [auto|]]]]].
        * rewrite FE. destruct (find_base (Num 1) fps) as [[b0 ff]|] eqn:Fb.
          -- assert (Lp : lk (Num 1) fps = Some ff) by (unfold lk; now rewrite Fb). apply lk_in, U2 in Lp. subst ff. rewrite expr_eqb_refl. auto.
          -- rewrite <- (Rmult_1_r w). apply (gmul_val _ _ HG); auto. apply (gpow_ok _ _ HG). apply (ev_one_pow I rho).
        * intros p. rewrite Sc. reflexivity.
      + assert (B : b <> Num 1) by (intros ->; rewrite expr_eqb_refl in X; discriminate).
        assert (Pr : proper ((b, fd) :: ps) = (b, fd) :: proper ps).
        { unfold proper. cbn [filter fst]. assert (Y : is_num 1 b = false) by (apply not_true_iff_false; rewrite is_num_eq; auto). now rewrite Y. }
        assert (Hpp : In (b, fd) (proper dps)) by (apply proper_in; auto).
        pose proof (proj1 (Forall_forall _ _) PE1 _ Hpp) as Pfd. pose proof (proj1 (Forall_forall _ _) GB1 _ Hpp) as Gb. unfold posexp in Pfd. cbn [fst snd] in Pfd, Gb.
        destruct Gb as [_ (x & Hx & Nx)]. destruct (posint_spec _ Pfd) as (qd & n & -> & Hn & _).
        pose proof (ev_num_pow I rho b qd x n Hx Hn) as VP. rewrite Pr in *. cbn [map fst] in NDp. apply NoDup_cons_iff in NDp as [Nb _].
        destruct (find_base b fps) as [[b0 ff]|] eqn:Fb.
        * assert (Lp : lk b fps = Some ff) by (unfold lk; now rewrite Fb). apply lk_in in Lp. pose proof (Lin _ _ B Lp) as Ll.
          assert (Pff : is_pos_int_num ff = true). { apply (proj1 (Forall_forall _ _) PE2 (b, ff)), proper_in. auto. }
          destruct (posint_spec _ Pff) as (qf & k & -> & Hk & _).
          assert (Le : (k <= n)%nat).
          { destruct (Dm b qf Ll) as (q' & H1 & H2). assert (Num q' = Num qd) by (apply (nodup_fun b _ _ L NDL H1); apply (Permutation_in _ P1 Hpp)). injection H as ->. apply INR_le. lra. }
          exists (w * x ^ (n - k)), ((b, Num qf) :: cs), (x ^ k * vc), (x ^ n * vp). split; [|split; [|split; [|split; [|split]]]].
          -- rewrite FE. destruct (expr_eqb (Num qd) (Num qf)) eqn:Y.
             ++ apply expr_eqb_eq in Y. injection Y as ->. assert (n = k) by (apply INR_eq; lra). subst k. rewrite Nat.sub_diag, Hw. cbn. f_equal. lra.
             ++ assert (PI : pos_ints (Num qd) (Num qf) = Some (qd, qf)) by (apply pos_ints_some; auto). rewrite PI. apply (gmul_val _ _ HG); auto. apply (gpow_ok _ _ HG), (ev_num_pow I rho); auto.
                rewrite rv_sub, minus_INR by auto. lra.
          -- rewrite fval_cons. cbn [fst snd]. rewrite (ev_num_pow I rho b qf x k), Hc; auto.
          -- rewrite fval_cons. cbn [fst snd]. now rewrite VP, Hp.
          -- replace n with (n - k + k)%nat at 2 by lia. rewrite pow_add, <- Ew. ring.
          -- cbn. constructor; auto. intros H. apply in_map_iff in H as (p & H1 & H2). apply Sc in H2 as [_ H2]. congruence.
          -- intros [b' f']. cbn [In map fst]. rewrite Sc. cbn [fst]. split; [intros [H|[H1 H2]]; [injection H as <- <-; auto|auto]|].
             intros [H1 [<-|H2]]; [left; f_equal; now apply (nodup_fun b _ _ l NDl)|auto].
        * assert (Lp : lk b fps = None) by (unfold lk; now rewrite Fb). apply lk_none in Lp.
          exists (w * x ^ n), cs, vc, (x ^ n * vp). split; [|split; [auto|split; [|split; [|split; [auto|]]]]].
          -- rewrite FE. apply (gmul_val _ _ HG); auto. now apply (gpow_ok _ _ HG).
          -- rewrite fval_cons. cbn [fst snd]. now rewrite VP, Hp.
          -- rewrite <- Ew. ring.
          -- intros [b' f']. cbn [In map fst]. rewrite Sc. cbn [fst]. split; [tauto|]. intros [H1 [<-|H2]]; [|auto]. exfalso. apply Lp.
             apply (Permutation_in _ (Permutation_sym P2)), proper_in in H1 as [H1 _]. now apply (in_map fst) in H1. }
  destruct (Key dps (incl_refl _) ND1) as (w & cs & vc & vp & Hw & Hc & Hp & Ew & NDc & Sc). exists w. split; [reflexivity|]. split; [exact Hw|].
  assert (Pm : Permutation cs l).
  { apply NoDup_Permutation; [now apply NoDup_map_inv in NDc|now apply NoDup_map_inv in NDl|]. intros [b f]. rewrite Sc. cbn [fst]. split; [tauto|]. intros H. split; [auto|].
    assert (Pf : is_pos_int_num f = true) by (destruct Hd as (_ & _ & PEl & _); apply (proj1 (Forall_forall _ _) PEl (b, f) H)).
    destruct (posint_spec _ Pf) as (q & _ & -> & _). destruct (Dm b q H) as (q' & H1 & _). apply (Permutation_in _ (Permutation_sym P1)) in H1. now apply (in_map fst) in H1. }
  assert (vc = y). { rewrite (fval_perm I rho _ _ Pm) in Hc. destruct Hd as (_ & _ & _ & _ & Ed). congruence. }
  assert (vp = yD). { rewrite (fval_perm I rho _ _ P1) in Hp. destruct HD as (_ & _ & _ & _ & Ed). congruence. }
  subst. auto.
Qed.
Lemma find_numerator_ok nds D L yD : Good L D -> ev D = Some yD ->
  forall vs, Forall2 (fun nd v => (exists l, Good l (snd nd) /\ dom l L) /\ quot I rho (fst nd) (snd nd) v) nds vs ->
  exists n, find_numerator G nds D = Some n /\ ev n = Some (fold_right Rplus 0 vs * yD).
Proof.
  intros HD VD vs F. induction F as [|[n d] v nds vs [(l & Hl & Dm) (x & y & Hx & Hy & Ny & Ex)] F (s & Es & Hs)].
  - exists (Num 0). split; [reflexivity|]. rewrite eval_num, rv_0. cbn. f_equal. lra.
  - cbn [find_numerator fold_right fst snd]. unfold find_numerator in Es. rewrite Es. cbn [fst snd] in *.
    destruct (expr_eqb D d) eqn:X.
    + apply expr_eqb_eq in X. subst d. eexists. split; [reflexivity|]. rewrite VD in Hy. injection Hy as <-.
      replace ((v + _) * yD) with (fold_right Rplus 0 vs * yD + x * 1) by (rewrite Ex; ring). apply (gadd_val _ _ HG); auto. apply (gmul_val _ _ HG); auto. apply (one_val I rho).
    + destruct (find_factor_ok L D l d y yD HD Hl Dm VD Hy) as (r & w & Er & Hw & Ew). rewrite Er. eexists. split; [reflexivity|].
      replace ((v + _) * yD) with (fold_right Rplus 0 vs * yD + x * (1 * w)) by (rewrite Ex, <- Ew; ring). apply (gadd_val _ _ HG); auto. apply (gmul_val _ _ HG); auto. apply (gmul_val _ _ HG); auto. apply (one_val I rho).
Qed.
Lemma combine_ok nds vs : Forall2 (fun nd v => In (snd nd) ds /\ nice_denominator split (snd nd) /\ quot I rho (fst nd) (snd nd) v) nds vs ->
  exists n d, combine_sum G nds = Some (n, d) /\ quot I rho n d (fold_right Rplus 0 vs).
Proof.
  intros F. assert (FG : Forall (fun nd => exists l, Good l (snd nd)) nds).
  { induction F as [|nd v nds vs (H1 & H2 & (x & y & _ & Hy & Ny & _)) F IH]; constructor; auto. now apply nice_good with y. }
  destruct (common_good nds FG) as (D & L & E & HD & FD). unfold combine_sum. rewrite E.
  destruct (good_val I rho ds L D HD) as (yD & _ & VD & ND).
  assert (F2 : Forall2 (fun nd v => (exists l, Good l (snd nd) /\ dom l L) /\ quot I rho (fst nd) (snd nd) v) nds vs).
  { clear E. revert FD. induction F as [|nd v nds vs (H1 & H2 & H3) F IH]; intros FD; constructor; apply Forall_cons_iff in FD as [F1 FD]; auto.
    apply IH; auto. now apply Forall_cons_iff in FG. }
  destruct (find_numerator_ok nds D L yD HD VD vs F2) as (n & En & Hn). rewrite En. exists n, D. split; [auto|]. exists (fold_right Rplus 0 vs * yD), yD. auto.
Qed.
End Rho.

(** C51 *)
Hypothesis HU : resplits_units split G.
Notation nd := (numerator_denominator G).
Fixpoint nd_list (l : list expr) : option (list (expr * expr)) :=
  match l with [] => Some [] | t :: l => match nd t, nd_list l with Some x, Some r => Some (x :: r) | _, _ => None end end.
Lemma nd_Add l : nd (Add l) = match nd_list l with Some nds => combine_sum G nds | None => None end.
Proof. reflexivity. Qed.
Fixpoint nd_prod (l : list expr) : option (expr * expr) :=
  match l with
  | [] => Some (Num 1, Num 1)
  | f :: l => match nd_prod l with
     | None => None
     | Some (num, den) => match f with
         | Pow _ _ => match nd f with Some (n, d) => let '(n', d') := find_denominator_single_term G (gdiv2 G n d) num in Some (n', gmul G den d') | None => None end
         | _ => let '(n', d') := find_denominator_single_term G f num in Some (n', gmul G den d')
         end
     end
  end.
Lemma nd_Mul l : nd (Mul l) = nd_prod l.
Proof. reflexivity. Qed.
Theorem numerator_denominator_ok e : nice_sums split G nd e -> forall n d rho v, nd e = Some (n, d) -> eval I rho e = Some v -> quot I rho n d v.
Proof.
  assert (At : forall e n d rho v, Some (find_denominator_single_term G e (Num 1)) = Some (n, d) -> eval I rho e = Some v -> quot I rho n d v).
  { intros e0 n d rho v E Hv. pose proof (single_term_quot I G HG rho e0 (Num 1) v 1 Hv (one_val I rho)) as Q. injection E as E. rewrite E in Q. cbn [fst snd] in Q. now rewrite Rmult_1_l in Q. }
  induction e as [q|c|s|l IH|l IH|a b IHa IHb|f l IH|k lo up e IH1 IH2 IH3|k lo up e IH1 IH2 IH3] using expr_ind'; intros HN n d rho v E Hv;
    try (exact (At _ n d rho v E Hv)).
  - inversion HN as [l0 ds F1 F2 F3 HR| | |? X]; subst; [|now destruct (X l)]. rewrite nd_Add in E. rewrite eval_Add in Hv.
    destruct (nd_list l) as [nds|] eqn:En; [|discriminate].
    assert (K : forall ds', incl ds' ds -> forall v, Forall2 (fun t d => exists n, nd t = Some (n, d)) l ds' -> esum I rho l = Some v ->
       exists vs, Forall2 (fun x w => In (snd x) ds /\ nice_denominator split (snd x) /\ quot I rho (fst x) (snd x) w) nds vs /\ fold_right Rplus 0 vs = v).
    { clear E Hv HN F2. revert nds En. induction l as [|t l IHl]; intros nds En ds' Hi w F2' Hw.
      - injection En as <-. rewrite esum_nil in Hw. injection Hw as <-. exists []. split; [constructor|reflexivity].
      - cbn [nd_list] in En. destruct (nd t) as [[nt dt]|] eqn:Et; [|discriminate]. destruct (nd_list l) as [r|]; [|discriminate]. injection En as <-.
        apply Forall_cons_iff in IH as [IHt IH]. apply Forall_cons_iff in F1 as [F1t F1].
        inversion F2' as [|t0 d0 l0 ds0 (n0 & N0) F2'']; subst. rewrite Et in N0. injection N0 as <- <-.
        rewrite esum_cons in Hw. apply olift2_some in Hw as (x & y & Hx & Hy & ->).
        destruct (IHl IH F1 r eq_refl ds0 (fun z Hz => Hi z (or_intror Hz)) y F2'' Hy) as (vs & V1 & V2).
        exists (x :: vs). split; [|cbn; now rewrite V2]. constructor; [|exact V1]. cbn [fst snd]. split; [apply Hi; now left|]. split; [apply (proj1 (Forall_forall _ _) F3), Hi; now left|].
        now apply (IHt F1t nt dt rho x). }
    destruct (K ds (incl_refl _) v F2 Hv) as (vs & V1 & <-).
    destruct (combine_ok rho ds HR HU nds vs V1) as (n' & d' & E' & Q). rewrite E in E'. injection E' as <- <-. exact Q.
  - inversion HN as [| |l0 F|? _ X]; subst; [|now destruct (X l)]. rewrite nd_Mul in E. rewrite eval_Mul in Hv. clear HN.
    revert n d v E Hv. induction l as [|f l IHl]; intros n d v E Hv.
    + injection E as <- <-. rewrite eprod_nil in Hv. injection Hv as <-. exists 1, 1. split; [apply (one_val I rho)|]. split; [apply (one_val I rho)|lra].
    + cbn [nd_prod] in E. rewrite eprod_cons in Hv. apply olift2_some in Hv as (x & y & Hx & Hy & ->). apply Forall_cons_iff in IH as [IHf IH]. apply Forall_cons_iff in F as [Ff F].
      destruct (nd_prod l) as [[num den]|]; [|discriminate]. destruct (IHl IH F num den y eq_refl Hy) as (xn & xd & Hn & Hd & Nd & En).
      assert (St : forall g, eval I rho g = Some x -> (let '(n', d') := find_denominator_single_term G g num in Some (n', gmul G den d')) = Some (n, d) -> quot I rho n d (x * y)).
      { intros g Hg Eg. pose proof (single_term_ok I G HG rho g num x xn Hg Hn) as S. destruct (find_denominator_single_term G g num) as [n' d']. injection Eg as <- <-. destruct S as (z & Hz & Hd' & Nz).
        exists (xn * x * z), (xd * z). split; [auto|]. split; [now apply (gmul_val _ _ HG)|]. split; [intros Z; apply Rmult_integral in Z; tauto|]. rewrite En. ring. }
      destruct f as [| | | | |a b| | |]; try (now apply (St _ Hx E)).
      destruct (nd (Pow a b)) as [[fn fd]|] eqn:Ef; [|discriminate]. apply (St (gdiv2 G fn fd)); [|exact E]. apply (gdiv_quot I G HG). apply (IHf (Ff a b eq_refl) fn fd); auto.
  - inversion HN as [|a0 b0 Ha Hb| |? _ _ X]; subst; [|now destruct (X a b)]. cbn [numerator_denominator] in E.
    destruct (nd a) as [[bn bd]|] eqn:Ea; [|discriminate]. destruct (nd b) as [[en ed]|] eqn:Eb; [|discriminate].
    destruct (ev_pow_parts I rho _ _ _ Hv) as (x & y & Hx & Hy & Hp). injection E as E.
    assert (V : eval I rho (gpow G (gdiv2 G bn bd) (gdiv2 G en ed)) = Some v).
    { apply (gpow_val _ _ HG _ _ _ x y); auto; apply (gdiv_quot I G HG); [apply (IHa Ha bn bd)|apply (IHb Hb en ed)]; auto. }
    pose proof (single_term_quot I G HG rho _ (Num 1) v 1 V (one_val I rho)) as Q. rewrite E in Q. cbn [fst snd] in Q. now rewrite Rmult_1_l in Q.
Qed.
End Val.
