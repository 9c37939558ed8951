(** C94: powers of the difference of the two symbols, rewritten through the characteristic
    equation, keep their value. *)
From Coq Require Import ZArith QArith Qcanon Reals List String Bool Lia Lra.
From Verif Require Import Ast ExprModel ExprSpec ExprCases PwdModel PwdSpec PwdProofs.
Import ListNotations.
Local Open Scope list_scope.
Local Open Scope R_scope.
Set Bullet Behavior "Strict Subproofs".

(** Wherever lambda is a root of v^2 = c v + d and alpha is not, every expression keeps its value:
    negative powers of the difference, whole or not, at any depth, also inside functions, sums and
    products. *)
Theorem C94_differences_keep_the_value :
  forall I G, ginac_ok I G -> forall (alpha lambda : string) (c d : Qc) e rho v,
  root c d (rho lambda) -> ~ root c d (rho alpha) -> not_index alpha e -> not_index lambda e ->
  eval I rho e = Some v -> eval I rho (rewrite_differences G alpha lambda c d e) = Some v.
Proof. intros I G HG alpha lambda c d e rho v H1 H2 H3 H4 H5. apply sub_ok; auto. split; auto. Qed.
Print Assumptions C94_differences_keep_the_value.

Definition inv_diff : expr := Pow (Add [Sym "l"; Mul [Num (-(1))%Qc; Sym "a"]]) (Num (-(1))%Qc).
Definition at_ (l a : R) : string -> R := fun s => if String.eqb s "l" then l else a.
Lemma inv_diff_value I : eval I (at_ 1 2) inv_diff = Some (-(1)).
Proof.
  unfold inv_diff. cbn [eval fold_right at_ String.eqb Ascii.eqb Bool.eqb]. rewrite rv_opp, rv_1. cbn [olift2 obind]. rewrite rpow_m1 by (cbn; lra). match goal with |- Some ?u = Some ?v => replace u with v by (cbn; field; lra) end. reflexivity.
Qed.
(** That alpha is another number than lambda is not enough: when it is the other root the
    expression put in place of the difference has no value (here v^2 = 3 v - 2, 1 and 2). *)
Theorem C94_other_root_refuted :
  ~ (forall I G, ginac_ok I G -> forall (alpha lambda : string) (c d : Qc) e rho v,
     root c d (rho lambda) -> rho alpha <> rho lambda -> not_index alpha e -> not_index lambda e ->
     eval I rho e = Some v -> eval I rho (rewrite_differences G alpha lambda c d e) = Some v).
Proof.
  intros H. specialize (H I0 G0 (G0_ok I0) "a"%string "l"%string (zq 3) (- zq 2)%Qc inv_diff (at_ 1 2) (-(1))).
  assert (X : eval I0 (at_ 1 2) (rewrite_differences G0 "a" "l" (zq 3) (- zq 2) inv_diff) = Some (-(1))).
  { apply H.
    - unfold root, at_. cbn. rewrite rv_opp, !rv_zq. cbn. lra.
    - unfold at_. cbn. lra.
    - unfold inv_diff. repeat constructor.
    - unfold inv_diff. repeat constructor.
    - apply inv_diff_value. }
  clear H. assert (R : rewrite_differences G0 "a" "l" (zq 3) (- zq 2) inv_diff = Pow (subs_to_diff G0 "a" "l" (zq 3) (- zq 2)) (Num (- (-(1)))%Qc)) by reflexivity.
  rewrite R in X. cbn [eval] in X. destruct (eval I0 (at_ 1 2) (subs_to_diff G0 "a" "l" (zq 3) (- zq 2))) as [w|] eqn:E; [|discriminate].
  clear X R. revert E. change (subs_to_diff G0 "a" "l" (zq 3) (- zq 2)) with
    (Mul [Add [Sym "l"; Sym "a"; Num (-(1) * zq 3)%Qc]; Pow (Add [Mul [Num (-(1))%Qc; Pow (Sym "a") (Num (1 + 1)%Qc)]; Mul [Sym "a"; Num (zq 3)]; Num (- zq 2)%Qc]) (Num (-(1))%Qc)]).
  cbn [eval fold_right at_ String.eqb Ascii.eqb Bool.eqb]. rewrite !rv_opp, rv_add, rv_1, !rv_zq. cbn [obind olift2].
  assert (P : rpow 2 (1 + 1) = Some 4). { unfold rpow. replace (1 + 1) with (IZR 2) by (cbn; lra). rewrite as_int_IZR. destruct (Req_EM_T 2 0); [lra|]. apply f_equal. change (powerRZ 2 2) with (2 ^ 2). ring. }
  rewrite P. cbn [olift2 obind].
 match goal with |- context [rpow ?u (-(1))] => replace u with 0 by lra end. rewrite rpow_m1_0. discriminate.
Qed.
Print Assumptions C94_other_root_refuted.
(** Fibonacci with the golden ratio and 3: a case that meets the hypotheses and is rewritten. *)
Example C94_case : exists rho, root 1%Qc 1%Qc (rho "l"%string) /\ ~ root 1%Qc 1%Qc (rho "a"%string) /\ not_index "a" inv_diff /\ not_index "l" inv_diff /\
  exists v, eval I0 rho inv_diff = Some v /\ rewrite_differences G0 "a" "l" 1%Qc 1%Qc inv_diff <> inv_diff.
Proof.
  exists (at_ ((1 + sqrt 5) / 2) 3). assert (S5 : sqrt 5 * sqrt 5 = 5) by (apply sqrt_sqrt; lra). pose proof (sqrt_pos 5) as P5. unfold root, at_. cbn [String.eqb Ascii.eqb Bool.eqb]. rewrite rv_1.
  split. { lra. } split. { lra. } split. { repeat constructor. } split. { repeat constructor. }
  exists (/ ((1 + sqrt 5) / 2 - 3)). split; [|discriminate].
  unfold inv_diff. cbn [eval fold_right String.eqb Ascii.eqb Bool.eqb]. rewrite rv_opp, rv_1. cbn [olift2 obind]. 
  assert (S3 : sqrt 5 <> 5) by (intros E; rewrite E in S5; lra). match goal with |- context [rpow ?u _] => replace u with ((1 + sqrt 5) / 2 - 3) by lra end. rewrite rpow_m1 by lra. reflexivity.
Qed.
