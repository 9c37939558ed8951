From Coq Require Import ZArith QArith Qcanon Reals List String Bool Lia Lra.
From Verif Require Import Ast ExprModel ExprSpec CollectModel CollectSpec CollectProofs CollectProofs2.
Import ListNotations.
Local Open Scope list_scope.

Section Effect.
Context (G : ginac) (HO : knows_one G) (simplify_nd : expr -> expr).
Lemma entries_pow (A : Type) (f g : A -> expr) l : entries (map (fun a => Pow (f a) (g a)) l) = map (fun a => (f a, g a)) l.
Proof. induction l as [|a l IH]; [reflexivity|]. cbn [map entries]. rewrite IH. reflexivity. Qed.
Lemma no_plain (A : Type) (f g : A -> expr) (h : expr -> expr -> expr) acc l : fold_right (fun e r => if plain_factor e then h e r else r) acc (map (fun a => Pow (f a) (g a)) l) = acc.
Proof. induction l as [|a l IH]; [reflexivity|]. cbn [map fold_right]. exact IH. Qed.
Lemma all_equal x l : forall b, same_exponents G false b x (map (fun c => (c, x)) l) = ((fold_left (gmul G) l b, x), map (fun c => (c, Num 0)) l).
Proof.
  induction l as [|c l IH]; intros b; [reflexivity|]. cbn [map same_exponents fold_left]. rewrite expr_eqb_refl. cbn [negb orb]. rewrite IH. reflexivity.
Qed.
Lemma all_zero n : forall l acc, exponents_loop G simplify_nd false n (map (fun c => (c, Num 0)) l) acc = acc.
Proof.
  destruct HO as (P0 & _ & M1 & _). induction n as [|n IH]; intros [|b l] acc; try reflexivity. cbn [map exponents_loop]. rewrite (all_equal (Num 0) l b). rewrite IH, P0, M1. reflexivity.
Qed.
Lemma exponents_merged x b bs : collect_same_exponents G simplify_nd false (Mul (map (fun c => Pow c x) (b :: bs))) = gpow G (simplify_nd (fold_left (gmul G) bs b)) x.
Proof.
  unfold collect_same_exponents. cbn [ops]. rewrite (no_plain expr (fun c => c) (fun _ => x) (fun e r => gmul G r e)). rewrite (entries_pow expr (fun c => c) (fun _ => x)). cbn [map List.length exponents_loop].
  rewrite all_equal, all_zero. apply (proj1 (proj2 HO)).
Qed.
Lemma all_same b l : forall x, same_base G b x (map (fun y => (b, y)) l) = (fold_left (gadd G) l x, map (fun _ => (b, Num 0)) l).
Proof. induction l as [|y l IH]; intros x; [reflexivity|]. cbn [map same_base fold_left]. rewrite expr_eqb_refl, IH. reflexivity. Qed.
Lemma zeros_base (A : Type) b (l : list A) : same_base G b (Num 0) (map (fun _ => (b, Num 0)) l) = (Num 0, map (fun _ => (b, Num 0)) l).
Proof. destruct HO as (_ & _ & _ & A0). induction l as [|y l IH]; [reflexivity|]. cbn [map same_base]. rewrite expr_eqb_refl, A0, IH. reflexivity. Qed.
Lemma zeros_bases (A : Type) b n : forall (l : list A) acc, fst (bases_loop G n (map (fun _ => (b, Num 0)) l) acc) = acc.
Proof.
  destruct HO as (P0 & _ & M1 & _). induction n as [|n IH]; intros [|y l] acc; try reflexivity. cbn [map bases_loop]. rewrite (zeros_base A b l). rewrite P0, M1. specialize (IH l acc). destruct (bases_loop G n _ acc). exact IH.
Qed.
Lemma bases_merged b x xs : collect_same_base G (Mul (map (fun y => Pow b y) (x :: xs))) = gpow G b (fold_left (gadd G) xs x).
Proof.
  unfold collect_same_base. cbn [ops]. rewrite (entries_pow expr (fun _ => b) (fun y => y)). cbn [map List.length bases_loop]. rewrite all_same.
  pose proof (zeros_bases expr b (List.length (map (fun a => (b, a)) xs)) xs (gmul G (Num 1) (gpow G b (fold_left (gadd G) xs x)))) as Z.
  destruct (bases_loop G _ _ _) as [acc p]. cbn [fst] in Z. subst acc. unfold add_factor. rewrite <- (map_cons (fun y => Pow b y) x xs), (no_plain expr (fun _ => b) (fun y => y)). apply (proj1 (proj2 HO)).
Qed.
(** No factor is the base of another one. *)
Lemma apart_single l : (forall b x, In (Pow b x) l -> ~ In b l) -> absorbs_single G l.
Proof.
  intros Ap l1 f l2 old new acc p Hb El Pf Ab. exfalso.
  assert (Fi : In f l) by (rewrite El; apply in_elt).
  assert (E1 : forall m b x, In (b, x) (entries m) -> b = minus_one \/ exists y, In (Pow b y) m).
  { clear. induction m as [|g m IH]; intros b x; cbn [entries]; [intros []|]. unfold entry. destruct (expr_eqb g minus_one) eqn:Q.
    - apply expr_eqb_eq in Q. subst g. intros [[= <- <-]|H]; auto. destruct (IH b x H) as [?|[y ?]]; eauto using in_cons.
    - destruct g; try (intros H; destruct (IH b x H) as [?|[y ?]]; eauto using in_cons). intros [[= <- <-]|H]; [right; exists g2; now left|]. destruct (IH b x H) as [?|[y ?]]; eauto using in_cons. }
  assert (E2 : forall b m x x' m', same_base G b x m = (x', m') -> map fst m' = map fst m).
  { clear. induction m as [|[c y] m IH]; intros x x' m' H; cbn [same_base] in H; [now injection H as <- <-|].
    destruct (expr_eqb c b); destruct (same_base G b _ m) as [x0 m0] eqn:H0; injection H as <- <-; cbn; f_equal; eauto. }
  assert (E3 : forall n m a a' m', List.length m = n -> bases_loop G n m a = (a', m') -> map fst m' = map fst m).
  { clear - E2. induction n as [|n IH]; intros [|[b x] m] a a' m' L H; try discriminate; cbn [bases_loop] in H; [now injection H as <- <-|].
    destruct (same_base G b x m) as [x' m0] eqn:H0. destruct (bases_loop G n m0 _) as [r0 m1] eqn:H1. injection H as <- <-. cbn in L |- *. f_equal. pose proof (E2 _ _ _ _ _ H0) as E. rewrite <- E. eapply IH; [|exact H1].
    apply (f_equal (@List.length expr)) in E. rewrite !map_length in E. lia. }
  assert (E4 : forall m, absorber G f m = Some (old, new) -> In f (map fst m)).
  { clear. induction m as [|[b x] m IH]; cbn [absorber]; [discriminate|]. destruct (absorber G f m) as [[o n]|]; [intros H; right; now apply IH|]. destruct (expr_eqb b f && _)%bool eqn:Q; [|discriminate]. intros _. apply andb_true_iff in Q as [Q _]. apply expr_eqb_eq in Q. now left. }
  apply E4 in Ab. rewrite (E3 _ _ _ _ _ eq_refl Hb) in Ab. apply in_map_iff in Ab as ([b x] & Eb & Hi). cbn [fst] in Eb. subst b. destruct (E1 _ _ _ Hi) as [->|[y Hy]]; [|now apply (Ap f y Hy)].
  unfold plain_factor in Pf. rewrite expr_eqb_refl, andb_false_r in Pf. discriminate.
Qed.
End Effect.
