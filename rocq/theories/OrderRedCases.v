(** Concrete cases for OrderRedProps.v. *)
From Coq Require Import ZArith QArith Qcanon List Lia Field.
From Verif Require Import Fld FPoly SeqSpec SeqLemmas OrderRedSpec OrderRedModel OrderRedProofs.
Import ListNotations.
Local Open Scope fld_scope.
Section S.
Context {K : Fld}.
Add Field KFoc : (fth K).
(** y(m) = y(m-1): the reduced form of x(n) = x(n-2); any first index f. *)
Lemma reduced_shift (c0 : K) (f r : Z) (y : Z -> K) :
  solves (tl (reduced_coefficients 2 [c0; 0; 1])) (reduced_inhomogeneous 2 (fun _ => 0) r) f y (fun _ => y f).
Proof.
  cbn. split; cbn [length].
  - intros i Hi. replace i with f by lia. reflexivity.
  - intros n Hn. unfold lincomb, reduced_inhomogeneous. cbn [length bsum nth]. ring.
Qed.
Lemma decrements_2 : decrements_multiple_of (K:=K) 2 [0; 1].
Proof. intros j Hj H. cbn in Hj. destruct j as [|[|j]]; [reflexivity| |lia]. exfalso. apply H. reflexivity. Qed.
Lemma first_index_refuted : exists (a : list K) (p : Z -> K) (c0 : K) (f : Z) (x : Z -> K) sol,
  decrements_multiple_of 2 a /\ length a = 2%nat /\ (0 < f)%Z /\
  (forall r y, (0 <= r < 2)%Z ->
    solves (tl (reduced_coefficients 2 (c0 :: a))) (reduced_inhomogeneous 2 p r) f y (sol r y)) /\
  ~ solves a p f x (come_back 2 sol x).
Proof.
  exists [0; 1], (fun _ => 0), 0, 1%Z, (fun n => ofz n), (fun _ y _ => y 1%Z).
  split; [apply decrements_2|]. split; [reflexivity|]. split; [lia|]. split.
  - intros r y _. apply reduced_shift.
  - intros [H _]. specialize (H 1%Z ltac:(cbn; lia)). unfold come_back in H. cbn in H.
    change (Pos.to_nat 3) with 3%nat in H. change (Pos.to_nat 1) with 1%nat in H. apply ofn_inj in H. discriminate.
Qed.
End S.
