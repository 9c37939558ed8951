(** Which numbers of giac are translated. *)
From Coq Require Import ZArith QArith Qcanon List String Bool Lia.
From Verif Require Import Ast ExprModel GiacModel.
Import ListNotations.
Local Open Scope Z_scope.
Set Bullet Behavior "Strict Subproofs".

Lemma is_int32_spec z : is_int32 z = true <-> -2147483648 <= z <= 2147483647.
Proof. unfold is_int32. rewrite andb_true_iff, !Z.leb_le. lia. Qed.
Lemma integers_exact G ff z e : translate_back G ff (GInt z) = Some e <-> -2147483648 <= z <= 2147483647 /\ e = Num (zq z).
Proof.
  rewrite <- is_int32_spec. cbn [translate_back]. destruct (is_int32 z); split.
  - intros E. injection E as <-. auto.
  - intros [_ ->]. reflexivity.
  - discriminate.
  - intros [C _]. discriminate.
Qed.
Lemma fractions_exact G ff n d e : translate_back G ff (GFrac n d) = Some e <->
  exists a b, n = GInt a /\ d = GInt b /\ -2147483648 <= a <= 2147483647 /\ -2147483648 <= b <= 2147483647 /\ b <> 0 /\ e = Num (zq a / zq b)%Qc.
Proof.
  split.
  - intros H. cbn [translate_back] in H. destruct n as [a| | | | |]; try discriminate. destruct d as [b| | | | |]; try discriminate.
    destruct (is_int32 a) eqn:A; [|discriminate]. destruct (is_int32 b) eqn:B; [|discriminate]. destruct (Z.eqb b 0) eqn:Z0; [discriminate|].
    cbn [andb negb] in H. injection H as <-. apply is_int32_spec in A. apply is_int32_spec in B. apply Z.eqb_neq in Z0. exists a, b. auto 10.
  - intros (a & b & -> & -> & A & B & Z0 & ->). apply is_int32_spec in A. apply is_int32_spec in B. apply Z.eqb_neq in Z0.
    cbn [translate_back]. now rewrite A, B, Z0.
Qed.
