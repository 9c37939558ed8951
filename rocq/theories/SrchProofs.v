From Coq Require Import ZArith QArith Qcanon List String Bool Lia Reals.
From Verif Require Import Ast ExprModel ExprSpec ExprProofs3 ClassModel SrchModel SrchSpec.
Import ListNotations.
Local Open Scope list_scope.
Set Bullet Behavior "Strict Subproofs".

Lemma sum_or_prod_exact e : has_sum_or_prod_function e = true <->
  exists k lo up b, inside (SumE k lo up b) e \/ inside (ProdE k lo up b) e.
Proof.
  split.
  - assert (L : forall l e, children e = l -> Forall (fun a => has_sum_or_prod_function a = true -> exists k lo up b, inside (SumE k lo up b) a \/ inside (ProdE k lo up b) a) l ->
       existsb has_sum_or_prod_function l = true -> exists k lo up b, inside (SumE k lo up b) e \/ inside (ProdE k lo up b) e).
    { intros l f C F H. apply existsb_exists in H. destruct H as (a & Ha & H). rewrite Forall_forall in F.
      destruct (F a Ha H) as (k & lo & up & b & G). exists k, lo, up, b.
      destruct G as [G|G]; [left|right]; (apply (inside_child _ a); [now rewrite C|exact G]). }
    induction e as [q|c|s|l IH|l IH|a b IHa IHb|f l IH|k lo up e _ _ _|k lo up e _ _ _] using expr_ind'; cbn [has_sum_or_prod_function]; intros H; try discriminate.
    + eapply L; [reflexivity|exact IH|exact H].
    + eapply L; [reflexivity|exact IH|exact H].
    + eapply L; [reflexivity|repeat constructor; assumption|]. cbn [children existsb]. now rewrite orb_false_r.
    + eapply L; [reflexivity|exact IH|exact H].
    + exists k, lo, up, e. left. constructor.
    + exists k, lo, up, e. right. constructor.
  - assert (G : forall s e, inside s e -> has_sum_or_prod_function s = true -> has_sum_or_prod_function e = true).
    { intros s f H Hs. induction H as [|c f Hc _ IH]; auto.
      destruct f as [q|k|t|l|l|a b|fn l|k lo up b|k lo up b]; cbn [children] in Hc; cbn [has_sum_or_prod_function]; try contradiction; auto;
        try (apply existsb_exists; eauto; fail).
      destruct Hc as [<- |[<- |[]]]; rewrite IH; auto using orb_true_r. }
    intros (k & lo & up & b & [H|H]); exact (G _ _ H eq_refl).
Qed.
Lemma x_function_exact e : has_x_function e = true <-> exists l, inside (Fun FX l) e.
Proof.
  split.
  - assert (L : forall l e, (forall a, In a l -> In a (children e)) -> Forall (fun a => has_x_function a = true -> exists u, inside (Fun FX u) a) l ->
       existsb has_x_function l = true -> exists u, inside (Fun FX u) e).
    { intros l f C F H. apply existsb_exists in H. destruct H as (a & Ha & H). rewrite Forall_forall in F.
      destruct (F a Ha H) as (u & G). exists u. apply (inside_child _ a); auto. }
    induction e as [q|c|s|l IH|l IH|a b IHa IHb|f l IH|k lo up e I1 I2 I3|k lo up e I1 I2 I3] using expr_ind'; cbn [has_x_function]; intros H; try discriminate.
    + exact (L l (Add l) (fun a h => h) IH H).
    + exact (L l (Mul l) (fun a h => h) IH H).
    + apply (L [a; b] (Pow a b) (fun a h => h)); [repeat constructor; assumption|]. cbn [existsb]. now rewrite orb_false_r.
    + destruct f; try exact (L l (Fun _ l) (fun a h => h) IH H). exists l. constructor.
    + eapply (L [lo; up; e]); [intros a Ha; right; exact Ha|repeat constructor; assumption|]. cbn [existsb]. now rewrite orb_false_r, orb_assoc.
    + eapply (L [lo; up; e]); [intros a Ha; right; exact Ha|repeat constructor; assumption|]. cbn [existsb]. now rewrite orb_false_r, orb_assoc.
  - assert (G : forall s e, inside s e -> has_x_function s = true -> has_x_function e = true).
    { intros s f H Hs. induction H as [|c f Hc _ IH]; auto.
      destruct f as [q|k|t|l|l|a b|fn l|k lo up b|k lo up b]; cbn [children] in Hc; cbn [has_x_function]; try contradiction;
        try (apply existsb_exists; eauto; fail).
      - destruct Hc as [<- |[<- |[]]]; rewrite IH; auto using orb_true_r.
      - destruct fn; auto; apply existsb_exists; eauto.
      - destruct Hc as [<- |[<- |[<- |[<- |[]]]]]; [discriminate IH|rewrite IH, ?orb_true_r; reflexivity..].
      - destruct Hc as [<- |[<- |[<- |[<- |[]]]]]; [discriminate IH|rewrite IH, ?orb_true_r; reflexivity..]. }
    intros (l & H). exact (G _ _ H eq_refl).
Qed.
Lemma has_exact y e : has y e = true <-> inside (Sym y) e.
Proof.
  split.
  - assert (L : forall l e, (forall a, In a l -> In a (children e)) -> Forall (fun a => has y a = true -> inside (Sym y) a) l ->
       existsb (has y) l = true -> inside (Sym y) e).
    { intros l f C F H. apply existsb_exists in H. destruct H as (a & Ha & H). rewrite Forall_forall in F.
      apply (inside_child _ a); auto. }
    induction e as [q|c|s|l IH|l IH|a b IHa IHb|f l IH|k lo up e I1 I2 I3|k lo up e I1 I2 I3] using expr_ind'; cbn [has]; intros H; try discriminate.
    + apply String.eqb_eq in H. subst. constructor.
    + exact (L l (Add l) (fun a h => h) IH H).
    + exact (L l (Mul l) (fun a h => h) IH H).
    + apply (L [a; b] (Pow a b) (fun a h => h)); [repeat constructor; assumption|]. cbn [existsb]. now rewrite orb_false_r.
    + exact (L l (Fun f l) (fun a h => h) IH H).
    + match goal with |- ex (fun _ => inside _ ?f /\ _) => apply (L [Sym k; lo; up; e] f (fun a h => h)) | |- inside _ ?f => apply (L [Sym k; lo; up; e] f (fun a h => h)) end; [constructor; [|repeat constructor; assumption]|].
      * cbn [has]. intros E. apply String.eqb_eq in E. subst. constructor.
      * cbn [existsb has]. now rewrite orb_false_r, !orb_assoc.
    + match goal with |- ex (fun _ => inside _ ?f /\ _) => apply (L [Sym k; lo; up; e] f (fun a h => h)) | |- inside _ ?f => apply (L [Sym k; lo; up; e] f (fun a h => h)) end; [constructor; [|repeat constructor; assumption]|].
      * cbn [has]. intros E. apply String.eqb_eq in E. subst. constructor.
      * cbn [existsb has]. now rewrite orb_false_r, !orb_assoc.
  - intros H. induction H as [|c f Hc _ IH]; [cbn [has]; apply String.eqb_refl|].
    destruct f as [q|k|t|l|l|a b|fn l|k lo up b|k lo up b]; cbn [children] in Hc; cbn [has]; try contradiction;
        try (apply existsb_exists; eauto; fail).
    + destruct Hc as [<- |[<- |[]]]; rewrite IH; auto using orb_true_r.
    + destruct Hc as [<- |[<- |[<- |[<- |[]]]]]; cbn [has] in IH; rewrite IH, ?orb_true_r; reflexivity.
    + destruct Hc as [<- |[<- |[<- |[<- |[]]]]]; cbn [has] in IH; rewrite IH, ?orb_true_r; reflexivity.
Qed.
Lemma inside_trans a b c : inside a b -> inside b c -> inside a c.
Proof. intros H1 H2. induction H2 as [|d f Hd _ IH]; auto. exact (inside_child _ d f Hd IH). Qed.

Lemma x_of_exact y e : unary_x e -> (has_x_of y e = true <-> exists u, inside (Fun FX [u]) e /\ inside (Sym y) u).
Proof.
  intros UX. split.
  - assert (L : forall l e, (forall a, In a l -> In a (children e)) -> unary_x e ->
       Forall (fun a => unary_x a -> has_x_of y a = true -> exists u, inside (Fun FX [u]) a /\ inside (Sym y) u) l ->
       existsb (has_x_of y) l = true -> exists u, inside (Fun FX [u]) e /\ inside (Sym y) u).
    { clear e UX. intros l f C UX F H. apply existsb_exists in H. destruct H as (a & Ha & H). rewrite Forall_forall in F.
      assert (UA : unary_x a) by (intros t Ht; apply UX; apply (inside_child _ a); auto).
      destruct (F a Ha UA H) as (u & G1 & G2). exists u. split; auto. apply (inside_child _ a); auto. }
    revert UX. induction e as [q|c|s|l IH|l IH|a b IHa IHb|f l IH|k lo up e I1 I2 I3|k lo up e I1 I2 I3] using expr_ind'; intros UX; cbn [has_x_of]; intros H; try discriminate.
    + exact (L l (Add l) (fun a h => h) UX IH H).
    + exact (L l (Mul l) (fun a h => h) UX IH H).
    + apply (L [a; b] (Pow a b)); [exact (fun a h => h)|exact UX|repeat constructor; assumption|]. cbn [existsb]. now rewrite orb_false_r.
    + destruct f; try exact (L l (Fun _ l) (fun a h => h) UX IH H).
      destruct (UX l (inside_itself _)) as (a & ->). exists a. split; [constructor|now apply has_exact].
    + eapply (L [lo; up; e]); [intros a Ha; right; exact Ha|exact UX|repeat constructor; assumption|]. cbn [existsb]. now rewrite orb_false_r, orb_assoc.
    + eapply (L [lo; up; e]); [intros a Ha; right; exact Ha|exact UX|repeat constructor; assumption|]. cbn [existsb]. now rewrite orb_false_r, orb_assoc.
  - intros (u & H1 & H2). apply has_exact in H2.
    assert (G : forall e, unary_x e -> inside (Fun FX [u]) e -> has_x_of y e = true).
    { clear e UX H1. intros e UX H. remember (Fun FX [u]) as s eqn:Es. induction H as [|c f Hc Hin IH]; subst; [cbn; exact H2|].
      assert (UC : unary_x c). { intros l Hl. apply UX. exact (inside_child _ c f Hc Hl). }
      specialize (IH UC).
      destruct f as [q|k|t|l|l|a b|fn l|k lo up b|k lo up b]; cbn [children] in Hc; cbn [has_x_of]; try contradiction;
        try (apply existsb_exists; eauto; fail).
      - destruct Hc as [<- |[<- |[]]]; rewrite IH; auto using orb_true_r.
      - destruct fn; try (apply existsb_exists; eauto; fail).
        destruct (UX l (inside_itself _)) as (a & ->). destruct Hc as [<- |[]].
        apply has_exact. apply (inside_trans _ u); [now apply has_exact|].
        apply (inside_trans _ (Fun FX [u])); auto. apply (inside_child _ u); [left; auto|constructor].
      - destruct Hc as [<- |[<- |[<- |[<- |[]]]]]; [discriminate IH|rewrite IH, ?orb_true_r; reflexivity..].
      - destruct Hc as [<- |[<- |[<- |[<- |[]]]]]; [discriminate IH|rewrite IH, ?orb_true_r; reflexivity..]. }
    exact (G e UX H1).
Qed.
