(** What the output may be when the hypotheses fail. *)
From Coq Require Import List String Ascii Bool Arith Lia.
From Verif Require Import MmlSpec MmlModel MmlProofs.
Import ListNotations.
Local Open Scope string_scope.
Set Bullet Behavior "Strict Subproofs".

Fixpoint count (c : ascii) (s : string) : nat := match s with EmptyString => 0 | String d s => (if Ascii.eqb d c then 1 else 0) + count c s end.
Lemma count_app c a b : count c (a ++ b) = count c a + count c b.
Proof. induction a as [|d a IH]; cbn; [reflexivity|]. rewrite IH. lia. Qed.
Lemma count_none c s (p : ascii -> Prop) : every p s -> ~ p c -> count c s = 0.
Proof. intros H N. induction s as [|d s IH]; cbn in *; [reflexivity|]. destruct H as [H1 H2]. destruct (Ascii.eqb_spec d c); [subst; tauto|]. rewrite (IH H2). lia. Qed.
Lemma letter_plain c : letter c -> c <> "<"%char /\ c <> ">"%char.
Proof.
  intros (n & -> & H1 & H2). split; intros E; apply (f_equal nat_of_ascii) in E; rewrite nat_ascii_embedding in E by lia; cbn in E; lia.
Qed.
Lemma xml_rect' (P : xml -> Prop) : (forall s, P (Text s)) -> (forall tag l, Forall P l -> P (Element tag l)) -> forall x, P x.
Proof.
  intros HT HE. fix IH 1. intros [s|tag l]; [apply HT|]. apply HE. induction l as [|a l IHl]; constructor; [apply IH|exact IHl].
Qed.
Lemma balanced x : well_formed x -> count "<" (written x) = count ">" (written x).
Proof.
  induction x as [s|tag l IH] using xml_rect'; intros H; inversion H; subst.
  - cbn [written]. rewrite (count_none "<" s plain H1), (count_none ">" s plain H1); unfold plain; tauto.
  - rewrite written_element, !count_app.
    assert (E : count "<" (all_written l) = count ">" (all_written l)).
    { clear - IH H4. induction l as [|a l IHl]; [reflexivity|]. cbn [all_written]. rewrite !count_app. inversion IH; inversion H4; subst. rewrite IHl, H1; auto. }
    rewrite E, (count_none "<" tag letter H3), (count_none ">" tag letter H3); try (intros F; destruct (letter_plain _ F); congruence). cbn. lia.
Qed.
Lemma balanced_document s l : document s l -> Forall well_formed l -> count "<" s = count ">" s.
Proof.
  intros -> H. unfold in_math. rewrite !count_app. f_equal. f_equal. f_equal.
  induction H as [|x l Hx _ IH]; [reflexivity|]. cbn [all_written]. rewrite !count_app, IH, (balanced x Hx). reflexivity.
Qed.

(** A reader that accepts text only in mi, mn and mo. *)
Inductive state := Outside | Tag (name : string) | Token0 | Token1.
Definition step (c : ascii) (s : state) : option state :=
  match s with
  | Outside => if Ascii.eqb c "<" then Some (Tag "") else if is_blank c then Some Outside else None
  | Tag n => if Ascii.eqb c ">" then Some (if (n =? "mi") || (n =? "mn") || (n =? "mo") then Token0 else Outside) else Some (Tag (n ++ String c ""))
  | Token0 => if Ascii.eqb c "<" then None else Some Token1
  | Token1 => if Ascii.eqb c "<" then Some (Tag "") else Some Token1
  end.
Fixpoint run (s : string) (q : state) : option state :=
  match s with EmptyString => Some q | String c s => match step c q with Some q => run s q | None => None end end.
Lemma run_app a b q : run (a ++ b) q = match run a q with Some q => run b q | None => None end.
Proof. revert q. induction a as [|c a IH]; intros q; cbn; [reflexivity|]. destruct (step c q); [apply IH|reflexivity]. Qed.
Lemma run_blank s : blank s -> run s Outside = Some Outside.
Proof.
  induction s as [|c s IH]; cbn [run]; [reflexivity|]. intros [H1 H2]. unfold step.
  destruct (Ascii.eqb_spec c "<"); [subst; discriminate H1|]. rewrite H1. auto.
Qed.
Lemma run_token1 s : every plain s -> run s Token1 = Some Token1.
Proof. induction s as [|c s IH]; cbn [run]; [reflexivity|]. intros [[H1 _] H2]. unfold step. destruct (Ascii.eqb_spec c "<"); [congruence|]. auto. Qed.
Lemma run_token0 s : s <> "" -> every plain s -> run s Token0 = Some Token1.
Proof. destruct s as [|c s]; [congruence|]. intros _ [[H1 _] H2]. cbn [run step]. destruct (Ascii.eqb_spec c "<"); [congruence|]. now apply run_token1. Qed.
Lemma run_mathml x : mathml x -> run (written x) Outside = Some Outside.
Proof.
  induction x as [s|tag l IH] using xml_rect'; intros H.
  - inversion H; subst. now apply run_blank.
  - assert (B : Forall mathml l -> run (all_written l) Outside = Some Outside).
    { clear - IH. induction IH as [|x l Hx _ IHl]; intros H; [reflexivity|]. inversion H; subst. cbn [all_written]. now rewrite run_app, Hx, IHl. }
    rewrite written_element. inversion H; subst.
    + cbn [all_written written]. rewrite sapp_nil. destruct H2 as [-> | [-> | ->]]; rewrite !run_app; cbn [run step Ascii.eqb Bool.eqb append String.eqb orb]; rewrite run_app; rewrite run_token0 by assumption; reflexivity.
    + destruct H2 as [-> | ->]; rewrite !run_app; cbn [run step Ascii.eqb Bool.eqb append String.eqb orb]; rewrite run_app; rewrite B by assumption; reflexivity.
    + destruct H2 as [-> | ->]; rewrite !run_app; cbn [run step Ascii.eqb Bool.eqb append String.eqb orb]; rewrite run_app; rewrite B by assumption; reflexivity.
Qed.
Lemma run_document s l : document s l -> Forall mathml l -> run s Outside = Some Outside.
Proof.
  intros -> H. unfold in_math. rewrite run_app.
  replace (run "<math xmlns=""http://www.w3.org/1998/Math/MathML"">" Outside) with (Some Outside) by reflexivity.
  rewrite run_app. replace (run newline Outside) with (Some Outside) by reflexivity.
  rewrite run_app.
  assert (E : run (all_written l) Outside = Some Outside).
  { induction H as [|x l Hx _ IH]; [reflexivity|]. cbn [all_written]. now rewrite run_app, (run_mathml x Hx), IH. }
  rewrite E. reflexivity.
Qed.
