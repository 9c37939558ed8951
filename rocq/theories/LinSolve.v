(** Linear systems: what the code asks of GiNaC's [lsolve] and [matrix::solve]. *)
From Coq Require Import ZArith List Lia Field Arith Bool.
From Verif Require Import Fld FPoly.
Import ListNotations.

Section S.
Context {K : Fld}.
Add Field KFls : (fth K).
Local Open Scope fld_scope.

Fixpoint dot (l u : list K) : K :=
  match l, u with a :: l, b :: u => a * b + dot l u | _, _ => 0 end.
(** The assignment [u] satisfies the equation (coefficients, right-hand side). *)
Definition sat (u : list K) (e : list K * K) : Prop := dot (fst e) u = snd e.
(** Contract of a linear solver in [n] unknowns: it returns a solution whenever there is one
    (undetermined unknowns have been given the value 0 by the caller). *)
Definition lsolve_ok (ls : nat -> list (list K * K) -> option (list K)) : Prop :=
  forall n es, match ls n es with
  | Some u => length u = n /\ Forall (sat u) es
  | None => ~ exists u, length u = n /\ Forall (sat u) es
  end.

(** Gaussian elimination, an instance of the contract. *)
Fixpoint pivot (es : list (list K * K)) : option (K * list K * K) :=
  match es with
  | [] => None
  | e :: es => if hd 0 (fst e) =? 0 then pivot es else Some (hd 0 (fst e), tl (fst e), snd e)
  end.
Fixpoint gauss (n : nat) (es : list (list K * K)) : option (list K) :=
  match n with
  | O => if forallb (fun e => snd e =? 0) es then Some [] else None
  | S m =>
    match pivot es with
    | None => option_map (cons 0) (gauss m (map (fun e => (tl (fst e), snd e)) es))
    | Some (c, l, r) =>
      option_map (fun u => (r - dot l u) / c :: u)
        (gauss m (map (fun e => (padd (tl (fst e)) (pscal (- (hd 0 (fst e) / c)) l),
                                 snd e - hd 0 (fst e) / c * r)) es))
    end
  end.

Lemma dot_nil_r l : dot l [] = 0. Proof. destruct l; reflexivity. Qed.
Lemma dot_padd p q u : dot (padd p q) u = dot p u + dot q u.
Proof. revert q u. induction p as [|a p IH]; intros [|b q] [|c u]; cbn [padd dot]; try ring. rewrite IH. ring. Qed.
Lemma dot_pscal c p u : dot (pscal c p) u = c * dot p u.
Proof. revert u. induction p as [|a p IH]; intros [|b u]; cbn [pscal map dot]; try ring. unfold pscal in IH. rewrite IH. ring. Qed.
Lemma dot_cons l b u : dot l (b :: u) = hd 0 l * b + dot (tl l) u.
Proof. destruct l; cbn [dot hd tl]; [ring|reflexivity]. Qed.

Lemma pivot_none es : pivot es = None -> Forall (fun e => hd 0 (fst e) = 0) es.
Proof.
  induction es as [|e es IH]; cbn [pivot]; intros H; constructor.
  - destruct (feqb (hd 0 (fst e)) 0) eqn:E; [now apply feqb_eq in E|discriminate].
  - destruct (feqb (hd 0 (fst e)) 0) eqn:E; [auto|discriminate].
Qed.
Lemma pivot_some es c l r : pivot es = Some (c, l, r) ->
  c <> 0 /\ exists e, In e es /\ hd 0 (fst e) = c /\ tl (fst e) = l /\ snd e = r.
Proof.
  induction es as [|e es IH]; cbn [pivot]; [discriminate|].
  destruct (feqb (hd 0 (fst e)) 0) eqn:E.
  - intros H. destruct (IH H) as (A & e' & B & C). split; auto. exists e'. split; [right|]; auto.
  - intros H. injection H as <- <- <-. apply feqb_neq in E. split; auto. exists e. split; [left|]; auto.
Qed.

Lemma gauss_ok : lsolve_ok gauss.
Proof.
  intros n. induction n as [|m IH]; intros es; cbn [gauss].
  - destruct (forallb _ es) eqn:E.
    + split; auto. apply Forall_forall. intros e He. unfold sat. rewrite dot_nil_r.
      rewrite forallb_forall in E. symmetry. apply feqb_eq. now apply E.
    + intros (u & L & H). destruct u; [|discriminate].
      assert (forallb (fun e : list K * K => snd e =? 0) es = true); [|congruence].
      apply forallb_forall. intros e He. rewrite Forall_forall in H. specialize (H e He).
      unfold sat in H. rewrite dot_nil_r in H. apply feqb_eq. auto.
  - destruct (pivot es) as [((c, l), r)|] eqn:P.
    + destruct (pivot_some _ _ _ _ P) as (Hc & e0 & I0 & A & B & C).
      match goal with |- context [gauss m ?es'] => specialize (IH es'); destruct (gauss m es') as [u|] end; cbn [option_map].
      * destruct IH as (L & H). split; [cbn; lia|]. apply Forall_forall. intros e He.
        rewrite Forall_forall in H.
        specialize (H _ (in_map _ _ e He)). unfold sat in *. cbn [fst snd] in H.
        rewrite dot_padd, dot_pscal in H. rewrite dot_cons.
        assert (E : snd e = dot (tl (fst e)) u + - (hd 0 (fst e) / c) * dot l u + hd 0 (fst e) / c * r)
          by (rewrite H; ring).
        rewrite E. field; auto.
      * intros (u & L & H). apply IH. destruct u as [|b u]; [discriminate|]. exists u. split; [cbn in L; lia|].
        apply Forall_map, Forall_forall. intros e He. rewrite Forall_forall in H.
        pose proof (H e He) as H1. pose proof (H e0 I0) as H2. unfold sat in *. cbn [fst snd].
        rewrite dot_cons in H1, H2. rewrite A, B, C in H2. rewrite dot_padd, dot_pscal.
        rewrite <- H1, <- H2. field; auto.
    + apply pivot_none in P.
      match goal with |- context [gauss m ?es'] => specialize (IH es'); destruct (gauss m es') as [u|] end; cbn [option_map].
      * destruct IH as (L & H). split; [cbn; lia|].
        rewrite Forall_forall in *. intros e He. specialize (H _ (in_map _ _ e He)). unfold sat in *. cbn [fst snd] in H.
        rewrite dot_cons, H. rewrite (P e He). ring.
      * intros (u & L & H). apply IH. destruct u as [|b u]; [discriminate|]. exists u. split; [cbn in L; lia|].
        apply Forall_map. rewrite Forall_forall in *. intros e He. specialize (H e He). unfold sat in *. cbn [fst snd].
        rewrite dot_cons, (P e He) in H. rewrite <- H. ring.
Qed.
End S.
