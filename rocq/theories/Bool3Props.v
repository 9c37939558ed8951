(** C01: three-valued logic is sound (and as precise as possible). *)
From Verif Require Import Bool3Model Bool3Spec Bool3Proofs.

Theorem C01_lor_exact : exact_op2 lor orb.
Proof. exact lor_exact. Qed.
Print Assumptions C01_lor_exact.

Theorem C01_land_exact : exact_op2 land andb.
Proof. exact land_exact. Qed.
Print Assumptions C01_land_exact.

Theorem C01_lnot_exact : exact_op1 lnot negb.
Proof. exact lnot_exact. Qed.
Print Assumptions C01_lnot_exact.

Theorem C01_is_strong : forall a, is_strong a = true <-> exists! v, admits a v.
Proof. exact is_strong_spec. Qed.
Print Assumptions C01_is_strong.

Theorem C01_stronger_eq : forall a b, stronger_eq a b = true <-> at_least_as_informative a b.
Proof. exact stronger_eq_spec. Qed.
Print Assumptions C01_stronger_eq.

Theorem C01_stronger : forall a b, stronger a b = true <->
  at_least_as_informative a b /\ ~ at_least_as_informative b a.
Proof. exact stronger_spec. Qed.
Print Assumptions C01_stronger.

(** Refining the operands refines the result. *)
Theorem C01_connectives_monotone : forall a a' b b',
  stronger_eq a a' = true -> stronger_eq b b' = true ->
  stronger_eq (lor a b) (lor a' b') = true /\
  stronger_eq (land a b) (land a' b') = true /\
  stronger_eq (lnot a) (lnot a') = true.
Proof. exact connectives_monotone. Qed.
Print Assumptions C01_connectives_monotone.

Example C01_hypotheses_met : stronger_eq ALWAYS MAYBE = true /\ stronger_eq NEVER NEVER = true.
Proof. split; reflexivity. Qed.
