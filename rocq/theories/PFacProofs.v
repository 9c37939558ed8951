From Coq Require Import ZArith QArith Qcanon List Reals Lia Bool.
From Coquelicot Require Import Complex.
From Verif Require Import Ast FindRootModel FindRootSpec PFacModel PFacSpec.
Import ListNotations.
Local Open Scope Z_scope.
Local Open Scope list_scope.

Lemma ulong_pos bs : 0 < ulong bs.
Proof. unfold ulong. apply Z.pow_pos_nonneg; lia. Qed.
Lemma byte_range z i : 0 <= byte z i < 256.
Proof. apply Z.mod_pos_bound. lia. Qed.
Lemma bytes_ok bs shl z : forall k r, 0 <= r < ulong bs -> (forall i, (i < k)%nat -> shl (byte z i) (Z.of_nat i * 8) = Some (byte z i * 256 ^ Z.of_nat i)) ->
  bytes_loop bs shl z k r = Some ((r + Z.abs z mod 256 ^ Z.of_nat k) mod ulong bs).
Proof.
  induction k as [|k IH]; intros r Hr Hs.
  - cbn [bytes_loop]. change (256 ^ Z.of_nat 0) with 1. rewrite Z.mod_1_r, Z.add_0_r, Z.mod_small by easy. reflexivity.
  - cbn [bytes_loop]. rewrite Hs by lia. rewrite IH; [|apply Z.mod_pos_bound, ulong_pos|intros i Hi; apply Hs; lia]. f_equal. pose proof (ulong_pos bs).
    rewrite Z.add_mod_idemp_l by lia. f_equal. rewrite Nat2Z.inj_succ, Z.pow_succ_r by lia. rewrite (Z.mul_comm 256). rewrite Z.rem_mul_r by (try lia; apply Z.pow_nonzero; lia). unfold byte. ring.
Qed.
Lemma ulong4 : ulong 4 = 4294967296. Proof. reflexivity. Qed.
Lemma ulong8 : ulong 8 = 18446744073709551616. Proof. reflexivity. Qed.
Lemma to_signed_small bs r : (bs = 4%nat \/ bs = 8%nat) -> - (2 ^ 31) < r < 2 ^ 31 -> to_signed bs r = r.
Proof.
  intros B H. change (2 ^ 31) with 2147483648 in H. unfold to_signed, long_max. destruct B as [-> | ->]; rewrite ?ulong4, ?ulong8.
  - change (4294967296 / 2 - 1) with 2147483647. destruct (Z_lt_le_dec r 0).
    + replace (r mod 4294967296) with (r + 4294967296). 2:{ rewrite <- (Z_mod_plus_full r 1), Z.mod_small; lia. } destruct (Z.leb_spec (r + 4294967296) 2147483647); lia.
    + rewrite Z.mod_small by lia. destruct (Z.leb_spec r 2147483647); lia.
  - change (18446744073709551616 / 2 - 1) with 9223372036854775807. destruct (Z_lt_le_dec r 0).
    + replace (r mod 18446744073709551616) with (r + 18446744073709551616). 2:{ rewrite <- (Z_mod_plus_full r 1), Z.mod_small; lia. } destruct (Z.leb_spec (r + 18446744073709551616) 9223372036854775807); lia.
    + rewrite Z.mod_small by lia. destruct (Z.leb_spec r 9223372036854775807); lia.
Qed.
Lemma wrap32_small v : 0 <= v < 2 ^ 31 -> wrap32 v = v.
Proof. intros H. unfold wrap32. change (2 ^ 32) with 4294967296. change (2 ^ 31) with 2147483648 in *. rewrite Z.mod_small by lia. destruct (Z.ltb_spec v 2147483648); lia. Qed.

(** 32 bits *)
Lemma conversion_32 z : in_long 4 z = true -> ZZ_to_long 4 shl_standard z = Some (Z.sgn z * (Z.abs z mod 2 ^ 24)).
Proof.
  intros H. unfold ZZ_to_long. rewrite H. change (4 - 1)%nat with 3%nat. rewrite bytes_ok.
  - change (256 ^ Z.of_nat 3) with (2 ^ 24). change (2 ^ 24) with 16777216. pose proof (Z.mod_pos_bound (Z.abs z) 16777216 ltac:(lia)) as B. rewrite Z.add_0_l, ulong4, (Z.mod_small (Z.abs z mod 16777216)) by lia. f_equal.
    rewrite to_signed_small; [|now left|change (2 ^ 31) with 2147483648; destruct (z <? 0); lia]. destruct (Z.ltb_spec z 0). rewrite Z.sgn_neg by lia. lia. destruct (Z.eq_dec z 0) as [->|]; [reflexivity|]. rewrite Z.sgn_pos by lia. lia.
  - rewrite ulong4. lia.
  - intros i Hi. pose proof (byte_range z i) as B. unfold shl_standard. destruct i as [|[|[|i]]]; [| | |lia].
    + change (Z.of_nat 0 * 8) with 0. change (256 ^ Z.of_nat 0) with 1. change (2 ^ 0) with 1. cbn [Z.ltb Z.compare]. rewrite wrap32_small; [reflexivity|]. change (2 ^ 31) with 2147483648. lia.
    + change (Z.of_nat 1 * 8) with 8. change (256 ^ Z.of_nat 1) with 256. change (2 ^ 8) with 256. change (8 <? 32) with true. rewrite wrap32_small; [reflexivity|]. change (2 ^ 31) with 2147483648. lia.
    + change (Z.of_nat 2 * 8) with 16. change (256 ^ Z.of_nat 2) with 65536. change (2 ^ 16) with 65536. change (16 <? 32) with true. rewrite wrap32_small; [reflexivity|]. change (2 ^ 31) with 2147483648. lia.
Qed.
(** 64 bits *)
Lemma conversion_64_undefined z : ZZ_to_long 8 shl_standard z = None.
Proof. unfold ZZ_to_long. destruct (in_long 8 z); [|reflexivity]. reflexivity. Qed.
Lemma byte_high z i B : Z.abs z < B -> B <= 256 ^ Z.of_nat i -> byte z i = 0.
Proof. intros H1 H2. unfold byte. rewrite Z.div_small by lia. reflexivity. Qed.
Lemma conversion_64_x86 z : Z.abs z < 2 ^ 31 -> ZZ_to_long 8 shl_x86 z = Some z.
Proof.
  intros H. pose proof H as H'. change (2 ^ 31) with 2147483648 in H. unfold ZZ_to_long. assert (L : in_long 8 z = true).
  { unfold in_long, long_min, long_max. rewrite ulong8. change (18446744073709551616 / 2) with 9223372036854775808. apply andb_true_intro. split; apply Z.leb_le; lia. } rewrite L.
  change (8 - 1)%nat with 7%nat. rewrite bytes_ok.
  - change (256 ^ Z.of_nat 7) with 72057594037927936. rewrite (Z.mod_small (Z.abs z)), Z.add_0_l, ulong8, Z.mod_small by lia. f_equal.
    rewrite to_signed_small; [|now right|change (2 ^ 31) with 2147483648; destruct (z <? 0); lia]. destruct (Z.ltb_spec z 0); lia.
  - rewrite ulong8. lia.
  - intros i Hi. pose proof (byte_range z i) as B. unfold shl_x86. f_equal. destruct i as [|[|[|[|i]]]].
    + change (Z.of_nat 0 * 8 mod 32) with 0. change (256 ^ Z.of_nat 0) with 1. change (2 ^ 0) with 1. rewrite wrap32_small; [reflexivity|]. change (2 ^ 31) with 2147483648. lia.
    + change (Z.of_nat 1 * 8 mod 32) with 8. change (256 ^ Z.of_nat 1) with 256. change (2 ^ 8) with 256. rewrite wrap32_small; [reflexivity|]. change (2 ^ 31) with 2147483648. lia.
    + change (Z.of_nat 2 * 8 mod 32) with 16. change (256 ^ Z.of_nat 2) with 65536. change (2 ^ 16) with 65536. rewrite wrap32_small; [reflexivity|]. change (2 ^ 31) with 2147483648. lia.
    + change (Z.of_nat 3 * 8 mod 32) with 24. change (256 ^ Z.of_nat 3) with 16777216. change (2 ^ 24) with 16777216. rewrite wrap32_small; [reflexivity|]. change (2 ^ 31) with 2147483648.
      assert (byte z 3 < 128). { unfold byte. change (256 ^ Z.of_nat 3) with 16777216. assert (Z.abs z / 16777216 < 128) by (apply Z.div_lt_upper_bound; lia). pose proof (Z.div_pos (Z.abs z) 16777216 ltac:(lia) ltac:(lia)). rewrite Z.mod_small by lia. lia. } lia.
    + rewrite (byte_high z (S (S (S (S i)))) (2 ^ 31)); [|easy|].
      * rewrite !Z.mul_0_l. reflexivity.
      * apply Z.le_trans with (256 ^ 4); [now vm_compute|]. apply Z.pow_le_mono_r; lia.
Qed.

(** The factors *)
Lemma convert_id bs shl f : Forall (fun a => ZZ_to_long bs shl a = Some a) f -> convert bs shl f = Some f.
Proof. induction 1 as [|a f H HF IH]; [reflexivity|]. cbn [convert]. rewrite H, IH. reflexivity. Qed.
Lemma convert_all_id bs shl fs : Forall (fun fm => snd fm = 1%nat /\ (1 < length (fst fm))%nat) fs -> Forall (fun fm => Forall (fun a => ZZ_to_long bs shl a = Some a) (fst fm)) fs ->
  convert_all bs shl fs = Some (map fst fs).
Proof.
  induction fs as [|[f m] fs IH]; intros H1 H2; [reflexivity|]. inversion H1 as [|? ? (M & L) H1']; subst. inversion H2 as [|? ? C H2']; subst. cbn [fst snd] in *. cbn [convert_all]. subst m.
  assert (E : (1 <? length f)%nat = true) by (apply Nat.ltb_lt; easy). rewrite E, Nat.eqb_refl. cbn [andb]. rewrite convert_id, IH by easy. reflexivity.
Qed.
Lemma zq_nonzero z : z <> 0 -> zq z <> 0%Qc.
Proof. intros H E. apply H. apply (f_equal rv) in E. rewrite rv_zq in E. apply eq_IZR. rewrite E. change 0%Qc with (zq 0). apply rv_zq. Qed.
Lemma last_map {A B} (f : A -> B) l d : last (map f l) (f d) = f (last l d).
Proof. induction l as [|a l IH]; [reflexivity|]. cbn [map]. destruct l as [|b l]; [reflexivity|]. cbn [map] in *. exact IH. Qed.
Lemma zq_0 : zq 0 = 0%Qc. Proof. reflexivity. Qed.
Lemma factors_of bs shl factor p n out : factorisation p (factor p) -> Forall (fun fm => Forall (fun a => ZZ_to_long bs shl a = Some a) (fst fm)) (snd (factor p)) ->
  poly_factor bs shl factor p = Some (n, out) -> (1 < n)%nat ->
  n = length out /\ Forall (fun f => proper (map zq f) /\ integer_coefficients (map zq f)) out
  /\ exists c : Qc, c <> 0%Qc /\ forall x : C, zval p x = (qC c * product_at out x)%C.
Proof.
  intros (Hc & HP & HF) HC. unfold poly_factor. destruct (forallb (in_long bs) p); [|intros [= <- <-]; lia]. destruct (factor p) as [c fs]. cbn [fst snd] in *.
  destruct (length fs =? 1)%nat; [intros [= <- <-]; lia|]. rewrite convert_all_id; [|eapply Forall_impl; [|exact HF]; cbn; tauto|easy]. cbn [option_map]. intros [= <- <-] _.
  split; [symmetry; apply map_length|]. split.
  - apply Forall_forall. intros f Hf. apply in_map_iff in Hf. destruct Hf as ([g m] & <- & Hg). rewrite Forall_forall in HF. destruct (HF _ Hg) as (_ & L & Z). cbn [fst snd] in *. split; [split|].
    + destruct g; [cbn in L; lia|discriminate].
    + rewrite <- zq_0, last_map. apply zq_nonzero. easy.
    + apply Forall_forall. intros q Hq. apply in_map_iff in Hq. destruct Hq as (a & <- & _). exists a. reflexivity.
  - exists (zq c). split; [apply zq_nonzero; easy|exact HP].
Qed.
