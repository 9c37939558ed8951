(** The complex numbers (Coquelicot's C) as a field of the kind used by the models, and the
    d-th roots of unity. *)
From Coq Require Import ZArith Reals Lra Lia.
From Coquelicot Require Import Complex.
From Verif Require Import Fld OrderRedSpec.
Local Open Scope C_scope.

Definition Ceqb (x y : C) : bool :=
  if Req_EM_T (fst x) (fst y) then if Req_EM_T (snd x) (snd y) then true else false else false.
Lemma Ceqb_spec x y : Bool.reflect (x = y) (Ceqb x y).
Proof.
  destruct x as [a b], y as [c d]. unfold Ceqb. cbn [fst snd].
  destruct (Req_EM_T a c); [destruct (Req_EM_T b d)|]; constructor; congruence.
Qed.
Lemma Citer n : Nat.iter n (Cplus (RtoC 1)) (RtoC 0) = RtoC (INR n).
Proof.
  induction n; [reflexivity|]. cbn [Nat.iter nat_rect]. fold (Nat.iter n (Cplus (RtoC 1)) (RtoC 0)). rewrite IHn, S_INR, RtoC_plus.
  apply Cplus_comm.
Qed.
Lemma Cchar0 n : Nat.iter (S n) (Cplus (RtoC 1)) (RtoC 0) <> RtoC 0.
Proof. rewrite Citer. intros E. apply RtoC_inj in E. pose proof (lt_0_INR (S n)). lra || (specialize (H ltac:(lia)); lra). Qed.
Definition CF : Fld := MkFld C (RtoC 0) (RtoC 1) Cplus Cmult Cminus Copp Cdiv Cinv Ceqb C_field_theory Ceqb_spec Cchar0.

Definition unity (d j : nat) : CF := (cos (2 * PI * INR j / INR d), sin (2 * PI * INR j / INR d))%R.
Lemma cis_pow t n : fpow (K:=CF) (cos t, sin t) n = (cos (INR n * t), sin (INR n * t)).
Proof.
  induction n as [|n IH].
  - cbn [fpow]. rewrite Rmult_0_l, cos_0, sin_0. reflexivity.
  - cbn [fpow]. rewrite IH. change (@fmul CF) with Cmult. unfold Cmult. cbn [fst snd].
    rewrite S_INR, Rmult_plus_distr_r, Rmult_1_l, (Rplus_comm (INR n * t)), cos_plus, sin_plus. f_equal; lra.
Qed.
Lemma unity_ok d : (0 < d)%nat -> roots_of_unity (unity d) d.
Proof.
  intros Hd. assert (D : (0 < INR d)%R) by (apply lt_0_INR; auto).
  assert (P : forall j, unity d j = fpow (unity d 1) j).
  { intros j. unfold unity at 2. rewrite cis_pow. unfold unity. cbn [INR].
    replace (INR j * (2 * PI * 1 / INR d))%R with (2 * PI * INR j / INR d)%R by (field; lra). reflexivity. }
  split; [exact P|]. split.
  - rewrite <- P. unfold unity. replace (2 * PI * INR d / INR d)%R with (2 * PI)%R by (field; lra).
    rewrite cos_2PI, sin_2PI. reflexivity.
  - intros j Hj E. unfold unity in E. injection E as E _.
    assert (J : (0 < INR j)%R) by (apply lt_0_INR; lia).
    assert (L : (INR j < INR d)%R) by (apply lt_INR; lia).
    assert (H1 : (0 < PI * (INR j / INR d))%R).
    { apply Rmult_lt_0_compat; [apply PI_RGT_0|]. apply Rdiv_lt_0_compat; auto. }
    assert (H2 : (PI * (INR j / INR d) < PI)%R).
    { rewrite <- (Rmult_1_r PI) at 2. apply Rmult_lt_compat_l; [apply PI_RGT_0|].
      apply (Rmult_lt_reg_r (INR d)); auto. unfold Rdiv. rewrite Rmult_assoc, Rinv_l; lra. }
    replace (2 * PI * INR j / INR d)%R with (2 * (PI * (INR j / INR d)))%R in E by (field; lra).
    rewrite cos_2a_sin in E. pose proof (sin_gt_0 _ H1 H2). nra.
Qed.
