(** find_symbol, size_norm, renaming: positive results and counterexamples. *)
From Coq Require Import ZArith QArith Qcanon List String Bool Reals Lia.
From Verif Require Import Ast ExprModel ExprProofs1 ExprCases BlackboardModel BlackboardSpec BlackboardProofs BlackboardProofs2.
Import ListNotations.
Local Open Scope string_scope.
Local Open Scope list_scope.
Local Open Scope nat_scope.

(** * find_symbol *)
Definition numbered (names : list string) : list (string * nat) := combine names (seq 0 (List.length names)).
Lemma increasing_app l r : increasing (l ++ r) <-> increasing l /\ increasing r /\ Forall (fun a => Forall (fun b => String.ltb a b = true) r) l.
Proof.
  induction l as [|a l IH]; cbn; [intuition|]. rewrite IH, Forall_app. split.
  - intros ((A & B) & C & D & E). repeat split; auto.
  - intros ((A & B) & C & D). inversion D; subst. tauto.
Qed.
Lemma combine_snoc (l : list string) z s : combine (l ++ [z]) (seq s (List.length (l ++ [z]))) = combine l (seq s (List.length l)) ++ [(z, s + List.length l)].
Proof. revert s. induction l as [|a l IH]; intros s; cbn; [do 2 f_equal; lia|]. f_equal. rewrite IH. do 3 f_equal. lia. Qed.
Lemma numbered_snoc l z : numbered (l ++ [z]) = numbered l ++ [(z, List.length l)].
Proof. unfold numbered. now rewrite combine_snoc. Qed.
Lemma insert_last z i m : Forall (fun a => String.ltb a z = true) (map fst m) -> map_insert z i m = m ++ [(z, i)].
Proof.
  induction m as [|[k j] m IH]; cbn; auto. intros H. inversion H; subst. rewrite IH by auto.
  assert (E1 : String.eqb z k = false). { apply String.eqb_neq. intros ->. rewrite ltb_irrefl in H2. discriminate. }
  assert (E2 : String.ltb z k = false). { destruct (String.ltb z k) eqn:E; auto. pose proof (ltb_trans _ _ _ E H2). rewrite ltb_irrefl in H0. discriminate. }
  now rewrite E1, E2.
Qed.
Lemma numbered_fst l : map fst (numbered l) = l.
Proof. unfold numbered. generalize 0. induction l as [|a l IH]; intros s; cbn; f_equal; auto. Qed.
Lemma find_combine l s i k : increasing l -> nth_error l i = Some k -> map_find k (combine l (seq s (List.length l))) = Some (s + i).
Proof.
  revert s i. induction l as [|a l IH]; intros s [|i] H E; cbn in *; try discriminate.
  - injection E as ->. rewrite String.eqb_refl. f_equal. lia.
  - destruct H as [H1 H2]. pose proof (nth_error_In _ _ E) as HI. pose proof (proj1 (Forall_forall _ _) H1 k HI) as L. cbn in L.
    assert (String.eqb k a = false) by (apply String.eqb_neq; intros ->; rewrite ltb_irrefl in L; discriminate).
    rewrite H, (IH (S s) i H2 E). f_equal. lia.
Qed.
Lemma find_combine_inv l s k j : map_find k (combine l (seq s (List.length l))) = Some j -> nth_error l (j - s) = Some k /\ s <= j.
Proof.
  revert s. induction l as [|a l IH]; intros s; cbn; [discriminate|]. destruct (String.eqb k a) eqn:E.
  - intros [= <-]. apply String.eqb_eq in E. subst. rewrite Nat.sub_diag. auto.
  - intros H. apply IH in H as [H1 H2]. split; [|lia]. replace (j - s) with (S (j - S s)) by lia. exact H1.
Qed.
Record InStep (b : blackboard) (names : list string) : Prop := MkIS {
  is_index : index b = numbered names; is_len : List.length (defs b) = List.length names; is_incr : increasing names }.
Lemma insert_step b names z e : InStep b names -> increasing (names ++ [z]) -> InStep (fst (insert_definition b z e)) (names ++ [z]).
Proof.
  intros [A B C] H. split; cbn [fst insert_definition index defs].
  - rewrite A, insert_last, B; [symmetry; apply numbered_snoc|]. rewrite numbered_fst. apply increasing_app in H as (_ & _ & H).
    eapply Forall_impl; [|exact H]. intros a Ha. now inversion Ha.
  - rewrite !app_length, B. reflexivity.
  - exact H.
Qed.
Lemma find_loop_spec ds ns s e : List.length ds = List.length ns ->
  match find_loop ds (combine ns (seq s (List.length ns))) e with
  | Done (Some k) => exists i d, nth_error ns i = Some k /\ nth_error ds i = Some d /\ rhs d = e
  | Done None => forall d, In d ds -> rhs d <> e
  | _ => False
  end.
Proof.
  revert ns s. induction ds as [|d ds IH]; intros [|n ns] s H; cbn in *; try discriminate; [intros d []|].
  destruct (expr_eqb (rhs d) e) eqn:E; [exists 0, d; repeat split; auto; now apply expr_eqb_eq|].
  specialize (IH ns (S s) ltac:(lia)). destruct (find_loop ds (combine ns (seq (S s) (List.length ns))) e) as [[k|]| |]; try tauto.
  - destruct IH as (i & d' & A & B & C). exists (S i), d'. auto.
  - intros d' [<-|Hd]; auto. intros X. rewrite X, expr_eqb_refl in E. discriminate.
Qed.
Definition sub (l m : list string) : Prop := forall r, increasing (m ++ r) -> increasing (l ++ r) /\ incl l m.
Lemma sub_skip l m z : sub l m -> sub l (m ++ [z]).
Proof.
  intros S r H. rewrite <- app_assoc in H. destruct (S _ H) as [A B]. split; [|intros x Hx; apply in_or_app; auto].
  apply increasing_app in A as (A1 & A2 & A3). cbn in A2. apply increasing_app. split; [auto|split; [apply A2|]].
  eapply Forall_impl; [|exact A3]. intros a Ha. cbn in Ha. now inversion Ha.
Qed.
Lemma sub_snoc l m z : sub l m -> sub (l ++ [z]) (m ++ [z]).
Proof.
  intros S r H. rewrite <- app_assoc in *. destruct (S _ H) as [A B]. split; auto. intros x Hx. apply in_app_or in Hx. apply in_or_app. destruct Hx; auto.
Qed.
Section Run.
Variable G : ginac.
Lemma caches_only (f : nat) b e : 
  (forall b' v, rewrite_bb G f b e = Done (b', v) -> index b' = index b) /\ (forall b' v, size_norm_bb f b e = Done (b', v) -> index b' = index b).
Proof.
  split; intros b' v; [unfold rewrite_bb|unfold size_norm_bb]; intros H.
  - destruct (rw_expr G (index b) (rw_def G (index b) (timestamp b) f) (defs b) e); try discriminate. injection H as <- <-. reflexivity.
  - destruct (sz_expr (index b) (sz_def (index b) (timestamp b) f) (defs b) e); try discriminate. injection H as <- <-. reflexivity.
Qed.
Lemma run_in_step h b : bb_run G empty_blackboard h = Done b -> no_renaming h -> increasing (flat_map new_name h) ->
  exists names, InStep b names /\ sub names (flat_map new_name h).
Proof.
  revert b. induction h as [|o h IH] using rev_ind; intros b.
  - cbn. intros [= <-] _ _. exists []. split; [split; cbn; auto|]. intros r Hr. split; auto. intros x [].
  - rewrite run_app. intros R NR Hi. destruct (bb_run G empty_blackboard h) as [b0| |] eqn:E; try discriminate. cbn [cbind] in R.
    assert (NR' : no_renaming h) by (intros o' Ho; apply NR; apply in_or_app; auto).
    rewrite flat_map_app in *. pose proof (proj1 (increasing_app _ _) Hi) as (Hi1 & _ & _).
    destruct (IH b0 eq_refl NR' Hi1) as (names & S & SB). pose proof (run_inv G h b0 E) as (D & _ & BI).
    destruct o as [z e|z e|old new|f e|f e]; cbn [bb_step flat_map new_name app] in *.
    + injection R as <-. exists (names ++ [z]). split; [|now apply sub_snoc]. apply (insert_step b0 names z e S). now apply SB.
    + unfold find_symbol in R. destruct (find_loop (defs b0) (index b0) e) as [[k|]| |]; try discriminate; cbn [cbind fst] in R; injection R as <-.
      * exists names. split; auto. now apply sub_skip.
      * exists (names ++ [z]). split; [|now apply sub_snoc]. apply (insert_step b0 names z e S). now apply SB.
    + exfalso. eapply NR; [apply in_or_app; right; left; reflexivity|reflexivity].
    + rewrite app_nil_r. exists names. split; auto.
      pose proof (rewrite_inv G b0 D f e BI) as P. destruct (rewrite_bb G f b0 e) as [[b1 v]| |] eqn:Er; try discriminate. injection R as <-.
      apply caches_only in Er as Ei. destruct S as [S1 S2 S3]. split; cbn [fst]; try congruence.
      unfold rewrite_bb in Er. pose proof (rw_sound G (index b0) (map rhs (defs b0)) (timestamp b0) (b_range G _ _ BI) _ (rw_def_sound G _ _ _ (b_range G _ _ BI) f) e _ (b_defs G _ _ BI)) as Q.
      destruct (rw_expr G (index b0) (rw_def G (index b0) (timestamp b0) f) (defs b0) e) as [p| |]; try discriminate. injection Er as <- <-. cbn [post defs fst] in *.
      destruct Q as [[Q _] _]. apply (f_equal (@List.length expr)) in Q. rewrite !map_length in Q. congruence.
    + rewrite app_nil_r. exists names. split; auto.
      destruct (size_norm_bb f b0 e) as [[b1 v]| |] eqn:Er; try discriminate. injection R as <-.
      pose proof (proj2 (caches_only f b0 e) _ _ Er) as Ei. destruct S as [S1 S2 S3]. split; cbn [fst]; try congruence.
      unfold size_norm_bb in Er. pose proof (sz_sound G (index b0) (map rhs (defs b0)) (timestamp b0) (b_range G _ _ BI) _ (sz_def_sound G _ _ _ (b_range G _ _ BI) f) e _ (b_defs G _ _ BI)) as Q.
      destruct (sz_expr (index b0) (sz_def (index b0) (timestamp b0) f) (defs b0) e) as [p| |]; try discriminate. injection Er as <- <-. cbn [post defs fst] in *.
      destruct Q as [[Q _] _]. apply (f_equal (@List.length expr)) in Q. rewrite !map_length in Q. congruence.
Qed.
Theorem find_symbol_ok h b z e : bb_run G empty_blackboard h = Done b -> no_renaming h -> increasing (flat_map new_name h ++ [z]) ->
  exists b' k, find_symbol b z e = Done (b', k) /\ get_definition b' k = Done e /\
  ((b' = b /\ In k (flat_map new_name h)) \/
   (k = z /\ ~ In z (flat_map new_name h) /\ (forall y, get_definition b y = Done e -> e = Sym y) /\ forall y, y <> z -> get_definition b' y = get_definition b y)).
Proof.
  intros R NR Hi. pose proof (proj1 (increasing_app _ _) Hi) as (Hi1 & _ & Hi3).
  destruct (run_in_step h b R NR Hi1) as (names & S & SB). destruct (SB [z] Hi) as [SI Incl]. pose proof S as [S1 S2 S3].
  pose proof (find_loop_spec (defs b) names 0 e S2) as L. fold (numbered names) in L. rewrite <- S1 in L. unfold find_symbol.
  destruct (find_loop (defs b) (index b) e) as [[k|]| |]; try tauto.
  - destruct L as (i & d & A & B & C). exists b, k. split; [auto|split].
    + unfold get_definition. rewrite S1. unfold numbered. rewrite (find_combine names 0 i k S3 A). cbn. rewrite B. congruence.
    + left. split; auto. apply Incl. eapply nth_error_In; eauto.
  - exists (fst (insert_definition b z e)), z. split; [auto|].
    assert (NI : ~ In z (flat_map new_name h)).
    { intros X. eapply Forall_forall in Hi3; eauto. inversion Hi3; subst. rewrite ltb_irrefl in *. discriminate. }
    assert (FN : map_find z (index b) = None).
    { destruct (map_find z (index b)) as [j|] eqn:F; auto. rewrite S1 in F. apply find_combine_inv in F as [F _]. apply nth_error_In in F. exfalso. auto. }
    pose proof (run_inv G h b R) as (D & _ & BI). pose proof (insert_inv G b D z e BI) as BI'.
    rewrite (get_inv G _ _ z BI'). pose proof (b_dict G _ _ BI z) as Dz. unfold benv, env in Dz. rewrite FN in Dz.
    assert (DI : forall y, d_insert D z e y = if String.eqb y z then Some e else D y) by (intros y; unfold d_insert; rewrite <- Dz; reflexivity).
    rewrite DI, String.eqb_refl. split; auto. right. split; auto. split; auto. split.
    + intros y Hy. unfold get_definition in Hy. destruct (map_find y (index b)) as [j|] eqn:F; [|congruence].
      destruct (nth_error (defs b) j) as [d|] eqn:N; [|discriminate]. exfalso. apply (L d); [eapply nth_error_In; eauto|congruence].
    + intros y Hy. rewrite (get_inv G _ _ y BI'), (get_inv G _ _ y BI), DI. apply String.eqb_neq in Hy. now rewrite Hy.
Qed.
(** The name given to new symbols is "symbol" followed by a serial number: symbol10 < symbol9. *)
Theorem find_symbol_refuted :
  ~ (forall h b z e b' k, bb_run G empty_blackboard h = Done b -> no_renaming h -> NoDup (flat_map new_name h ++ [z]) ->
     find_symbol b z e = Done (b', k) -> get_definition b' k = Done e).
Proof.
  intros H. set (h := [OInsert "symbol9" (Num (zq 1)); OInsert "symbol10" (Num (zq 2))]).
  assert (X : get_definition (fst (insert_definition (fst (insert_definition empty_blackboard "symbol9" (Num (zq 1)))) "symbol10" (Num (zq 2)))) "symbol10" = Done (Num (zq 1))).
  { apply (H h _ "symbol11" (Num (zq 1)) _ "symbol10" eq_refl); [|repeat (constructor; [cbn; intuition discriminate|]); constructor|reflexivity].
    intros o [<-|[<-|[]]]; discriminate. }
  cbn in X. injection X. discriminate.
Qed.
Theorem find_symbol_undefined_refuted :
  ~ (forall h b z e, bb_run G empty_blackboard h = Done b -> NoDup (flat_map new_name h ++ [z]) -> find_symbol b z e <> Undefined).
Proof.
  intros H. apply (H [OInsert "symbol1" (Num (zq 1)); OSubst "symbol1" "a"] _ "symbol2" (Num (zq 2)) eq_refl); [|reflexivity].
  repeat (constructor; [cbn; intuition discriminate|]); constructor.
Qed.
End Run.

(** * size_norm *)
Lemma nodes_list l : list_sum (map nodes l) = fold_right (fun t n => nodes t + n) 0 l.
Proof. induction l; cbn; auto. Qed.
Theorem size_norm_nodes e : exists t, unfolds (fun _ => None) e t /\ size_norm e = nodes t.
Proof.
  assert (FL : forall l, Forall (fun e => exists t, unfolds (fun _ => None) e t /\ size_norm e = nodes t) l ->
    exists ts, unfolds_all (fun _ => None) l ts /\ fold_right (fun a n => n + size_norm a) 1 l = S (list_sum (map nodes ts))).
  { induction 1 as [|a l (t & H1 & H2) Hl (ts & H3 & H4)]; [exists []; split; [constructor|reflexivity]|].
    exists (t :: ts). split; [now constructor|]. cbn. rewrite H4, H2. fold (list_sum (map nodes ts)). lia. }
  induction e using expr_ind'.
  - exists Leaf. split; auto. apply uf_leaf. eauto.
  - exists Leaf. split; auto. apply uf_leaf. eauto.
  - exists Leaf. split; auto. apply uf_leaf. eauto.
  - destruct (FL l H) as (ts & A & B). exists (Node ts). split; [now apply uf_node|exact B].
  - destruct (FL l H) as (ts & A & B). exists (Node ts). split; [now apply uf_node|exact B].
  - destruct IHe1 as (t1 & A1 & B1), IHe2 as (t2 & A2 & B2). exists (Node [t1; t2]). split; [apply uf_node; cbn; auto; repeat constructor; auto|]. cbn. lia.
  - destruct (FL l H) as (ts & A & B). exists (Node ts). split; [now apply uf_node|exact B].
  - destruct IHe1 as (t1 & A1 & B1), IHe2 as (t2 & A2 & B2), IHe3 as (t3 & A3 & B3). exists (Node [Leaf; t1; t2; t3]).
    split; [apply uf_node; [exact Coq.Init.Logic.I|]; cbn [ops]; repeat (apply ufs_cons; auto); [apply uf_leaf; eauto 6|apply ufs_nil]|]. cbn. lia.
  - destruct IHe1 as (t1 & A1 & B1), IHe2 as (t2 & A2 & B2), IHe3 as (t3 & A3 & B3). exists (Node [Leaf; t1; t2; t3]).
    split; [apply uf_node; [exact Coq.Init.Logic.I|]; cbn [ops]; repeat (apply ufs_cons; auto); [apply uf_leaf; eauto 6|apply ufs_nil]|]. cbn. lia.
Qed.
Theorem size_norm_pos e : 1 <= size_norm e.
Proof. destruct (size_norm_nodes e) as (t & _ & ->). destruct t; cbn; lia. Qed.
Theorem size_expanded_refuted :
  ~ (forall h b f e b1 b2 n v, bb_run G0 empty_blackboard h = Done b -> size_norm_bb f b e = Done (b1, n) -> rewrite_bb G0 f b e = Done (b2, v) -> n = size_norm v).
Proof.
  intros H. specialize (H [OInsert "z" (Add [Sym "a"; Sym "b"])] _ 1 (Add [Sym "z"; Sym "c"]) _ _ _ _ eq_refl eq_refl eq_refl).
  vm_compute in H. discriminate.
Qed.

(** * Renaming *)
(** Another definition uses the renamed symbol. *)
Theorem rename_dangling_refuted :
  ~ (forall h b b' old new e v, bb_run G0 empty_blackboard h = Done b -> substitute_symbol b old new = Done b' -> 
      (forall x, In x (flat_map new_name h) -> x <> new) -> has old e = false -> has new e = false ->
      (exists f b1, rewrite_bb G0 f b e = Done (b1, v)) -> exists f b1, rewrite_bb G0 f b' e = Done (b1, v)).
Proof.
  intros H.
  set (h := [OInsert "symbol1" (Num (zq 5)); OInsert "symbol2" (Add [Num (zq 1); Sym "symbol1"])]).
  destruct (H h _ _ "symbol1" "a" (Sym "symbol2") (Num (zq 6)) eq_refl eq_refl) as (f & b1 & E); try reflexivity.
  - intros x [<-|[<-|[]]]; discriminate.
  - exists 2. eexists. vm_compute. repeat f_equal; apply Qc_is_canon; reflexivity.
  - destruct f as [|[|f]]; cbn in E; discriminate.
Qed.
(** Two symbols are given the same new name. *)
Theorem rename_merge_refuted :
  ~ (forall h b b1 b2 old old' new, bb_run G0 empty_blackboard h = Done b -> substitute_symbol b old new = Done b1 -> 
      substitute_symbol b1 old' new = Done b2 -> old <> old' -> get_definition b2 new = get_definition b old').
Proof.
  intros H.
  set (h := [OInsert "symbol1" (Num (zq 5)); OInsert "symbol2" (Num (zq 7))]).
  specialize (H h _ _ _ "symbol1" "symbol2" "a" eq_refl eq_refl eq_refl ltac:(discriminate)). cbn in H. injection H. discriminate.
Qed.
(** The new name occurs in the definition: the expansion never ends. *)
Theorem rename_loop_refuted :
  ~ (forall h b b' old new, bb_run G0 empty_blackboard h = Done b -> substitute_symbol b old new = Done b' ->
      (exists f, rewrite_bb G0 f b (Sym old) <> Deeper) -> exists f, rewrite_bb G0 f b' (Sym new) <> Deeper).
Proof.
  intros H.
  destruct (H [OInsert "symbol1" (Pow (Sym "a") (Num (Q2Qc (1#2))))] _ _ "symbol1" "a" eq_refl eq_refl) as [f Hf].
  - exists 1. cbn. discriminate.
  - apply Hf. clear. 
    assert (L : forall fu ds d, nth_error ds 1 = Some d -> exp_ts d = 0 -> rhs d = Pow (Sym "a") (Num (Q2Qc (1#2))) -> rw_def G0 [("a", 1)] 3 fu ds 1 = Deeper).
    { induction fu as [|fu IH]; intros ds d A B C; auto. cbn [rw_def]. rewrite A, B, C. cbn [Nat.ltb Nat.leb rw_expr rw_sym map_find].
      change (rw_sym [("a", 1)] (rw_def G0 [("a", 1)] 3 fu) ds "a") with (rw_def G0 [("a", 1)] 3 fu ds 1). rewrite (IH _ _ A B C). reflexivity. }
    cbn [fst bb_run bb_step cbind insert_definition substitute_symbol]. unfold rewrite_bb. cbn. erewrite L; try reflexivity.
Qed.
