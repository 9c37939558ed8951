(** C73: factoring polynomials with integer coefficients. *)
From Coq Require Import ZArith QArith Qcanon List Reals Lia Bool.
From Coquelicot Require Import Complex.
From Verif Require Import Ast FindRootModel FindRootSpec PFacModel PFacSpec PFacProofs.
Import ListNotations.
Local Open Scope list_scope.
Local Open Scope Z_scope.

(** A 64-bit machine that reduces shift counts modulo 32, coefficients of the factors below 2^31: the factors multiply to the polynomial. *)
Theorem C73_product_x86_partial : forall factor p n out, factorisation p (factor p) -> coefficients_below (2 ^ 31) (snd (factor p)) ->
  poly_factor 8 shl_x86 factor p = Some (n, out) -> (1 < n)%nat ->
  n = length out /\ Forall (fun f => proper (map zq f) /\ integer_coefficients (map zq f)) out
  /\ exists c : Qc, c <> 0%Qc /\ forall x : C, zval p x = (qC c * product_at out x)%C.
Proof.
  intros factor p n out F B. apply factors_of; [exact F|]. eapply Forall_impl; [|exact B]. intros [f m] Hf. eapply Forall_impl; [|exact Hf]. intros a Ha. apply conversion_64_x86. exact Ha.
Qed.
(** 32-bit long, coefficients of the factors below 2^24. *)
Theorem C73_product_32_partial : forall factor p n out, factorisation p (factor p) -> coefficients_below (2 ^ 24) (snd (factor p)) ->
  poly_factor 4 shl_standard factor p = Some (n, out) -> (1 < n)%nat ->
  n = length out /\ Forall (fun f => proper (map zq f) /\ integer_coefficients (map zq f)) out
  /\ exists c : Qc, c <> 0%Qc /\ forall x : C, zval p x = (qC c * product_at out x)%C.
Proof.
  intros factor p n out F B. apply factors_of; [exact F|]. eapply Forall_impl; [|exact B]. intros [f m] Hf. eapply Forall_impl; [|exact Hf]. intros a Ha.
  rewrite conversion_32.
  - change (2 ^ 24) with 16777216 in *. cbn beta in Ha. f_equal. rewrite Z.mod_small by (split; [apply Z.abs_nonneg|exact Ha]). rewrite Z.mul_comm. apply Z.abs_sgn.
  - cbn beta in Ha. change (2 ^ 24) with 16777216 in Ha. unfold in_long, long_min, long_max. rewrite ulong4. change (4294967296 / 2) with 2147483648. apply andb_true_intro. split; apply Z.leb_le; lia.
Qed.
(** The factors are found (nothing is undefined) in that case. *)
Theorem C73_found : forall factor p, factorisation p (factor p) -> coefficients_below (2 ^ 31) (snd (factor p)) -> exists r, poly_factor 8 shl_x86 factor p = Some r.
Proof.
  intros factor p (_ & _ & F) B. unfold poly_factor. destruct (forallb (in_long 8) p); [|eexists; reflexivity]. destruct (factor p) as [c fs]. cbn [snd] in *.
  destruct (length fs =? 1)%nat; [eexists; reflexivity|]. rewrite convert_all_id; [eexists; reflexivity| |].
  - eapply Forall_impl; [|exact F]. cbn beta. tauto.
  - eapply Forall_impl; [|exact B]. intros [f m] Hf. eapply Forall_impl; [|exact Hf]. intros a Ha. apply conversion_64_x86. exact Ha.
Qed.
(** 64-bit long, the C++ standard: whenever there is more than one factor, an int is shifted by 48 bits: undefined. *)
Theorem C73_undefined_refuted : forall factor p, forallb (in_long 8) p = true -> factorisation p (factor p) -> (1 < length (snd (factor p)))%nat -> poly_factor 8 shl_standard factor p = None.
Proof.
  intros factor p L (_ & _ & F) N. unfold poly_factor. rewrite L. destruct (factor p) as [c fs]. cbn [snd] in *. destruct (Nat.eqb_spec (length fs) 1); [lia|]. destruct fs as [|[f m] fs]; [cbn in N; lia|].
  inversion F as [|? ? (M & Lf & _) _]; subst. cbn [fst snd] in *. subst m. cbn [convert_all]. destruct (1 <? length f)%nat; [|reflexivity]. destruct f as [|a f]; [cbn in Lf; lia|]. cbn [andb Nat.eqb convert]. rewrite conversion_64_undefined. reflexivity.
Qed.
(** 32-bit long: the byte of weight 2^24 is dropped. *)
Theorem C73_dropped_byte_refuted : forall z, in_long 4 z = true -> ZZ_to_long 4 shl_standard z = Some (Z.sgn z * (Z.abs z mod 2 ^ 24)).
Proof. exact conversion_32. Qed.
(** (x + 2^24)(x + 1) is factored into x and x + 1: 0 is reported as a root. *)
Definition split_24 : list Z -> Z * list (list Z * nat) := fun _ => (1, [([2 ^ 24; 1], 1%nat); ([1; 1], 1%nat)]).
Theorem C73_wrong_factor_refuted : poly_factor 4 shl_standard split_24 [2 ^ 24; 2 ^ 24 + 1; 1] = Some (2%nat, [[0; 1]; [1; 1]])
  /\ factorisation [2 ^ 24; 2 ^ 24 + 1; 1] (split_24 [2 ^ 24; 2 ^ 24 + 1; 1]) /\ zval [2 ^ 24; 2 ^ 24 + 1; 1] (RtoC 0) <> RtoC 0.
Proof.
  assert (E : forall b c x, zval [b; c; 1] x = (RtoC (IZR b) + x * (RtoC (IZR c) + x * RtoC 1))%C).
  { intros b c x. unfold zval, pval. cbn [map FPoly.peval]. unfold qC. rewrite !rv_zq. change (@Fld.fadd CplxF.CF) with Cplus. change (@Fld.fmul CplxF.CF) with Cmult. change (@Fld.f0 CplxF.CF) with (RtoC 0). ring. }
  assert (E2 : forall b x, zval [b; 1] x = (RtoC (IZR b) + x * RtoC 1)%C).
  { intros b x. unfold zval, pval. cbn [map FPoly.peval]. unfold qC. rewrite !rv_zq. change (@Fld.fadd CplxF.CF) with Cplus. change (@Fld.fmul CplxF.CF) with Cmult. change (@Fld.f0 CplxF.CF) with (RtoC 0). ring. }
  split; [vm_compute; reflexivity|]. split.
  - split; [discriminate|]. split.
    + intros x. rewrite E. unfold split_24. cbn [fst snd map product_at fold_right]. rewrite !E2. unfold qC. rewrite rv_zq. rewrite plus_IZR, RtoC_plus. ring.
    + repeat constructor; discriminate.
  - rewrite E. intros H. apply (f_equal Re) in H. cbn [Re fst Cplus Cmult RtoC snd] in H. revert H. replace (IZR (2 ^ 24) + (0 * (IZR (2 ^ 24 + 1) + (0 * 1 - 0 * 0)) - 0 * (0 + (0 * 0 + 0 * 1))))%R with (IZR (2 ^ 24)) by ring. intros H. apply eq_IZR in H. discriminate.
Qed.
(** 64 bits, shift counts modulo 32: 2^31 becomes -2^31. *)
Theorem C73_sign_refuted : ZZ_to_long 8 shl_x86 (2 ^ 31) = Some (- 2 ^ 31).
Proof. vm_compute. reflexivity. Qed.

(** (x + 2)(x + 3) = x^2 + 5 x + 6. *)
Definition split_6 : list Z -> Z * list (list Z * nat) := fun _ => (1, [([2; 1], 1%nat); ([3; 1], 1%nat)]).
Example C73_used : factorisation [6; 5; 1] (split_6 [6; 5; 1]) /\ coefficients_below (2 ^ 24) (snd (split_6 [6; 5; 1]))
  /\ poly_factor 4 shl_standard split_6 [6; 5; 1] = Some (2%nat, [[2; 1]; [3; 1]]) /\ poly_factor 8 shl_x86 split_6 [6; 5; 1] = Some (2%nat, [[2; 1]; [3; 1]]).
Proof.
  split.
  - split; [discriminate|]. split.
    + intros x. unfold split_6, zval, pval. cbn [fst snd map product_at fold_right FPoly.peval]. unfold qC, zval, pval. cbn [map FPoly.peval]. unfold qC. rewrite !rv_zq. change (@Fld.fadd CplxF.CF) with Cplus. change (@Fld.fmul CplxF.CF) with Cmult. change (@Fld.f0 CplxF.CF) with (RtoC 0).
      replace (IZR 6) with (2 * 3)%R by (rewrite <- mult_IZR; reflexivity). replace (IZR 5) with (2 + 3)%R by (rewrite <- plus_IZR; reflexivity). rewrite RtoC_plus, RtoC_mult. ring.
    + repeat constructor; discriminate.
  - split; [repeat constructor|]. split; vm_compute; reflexivity.
Qed.
Print Assumptions C73_product_x86_partial.
Print Assumptions C73_product_32_partial.
Print Assumptions C73_found.
Print Assumptions C73_undefined_refuted.
Print Assumptions C73_dropped_byte_refuted.
Print Assumptions C73_wrong_factor_refuted.
Print Assumptions C73_sign_refuted.
