(** A concrete engine for the class Recurrence: the recurrences x(n) = x(n-1) + c, functional
    equations with coinciding bounds, and recurrences of order zero; histories that go wrong. *)
From Coq Require Import ZArith QArith Qcanon List Bool Arith Lia.
From Verif Require Import Ast ExprModel ExprCases RecModel RecSpec RecProofs2 RecProofs3.
Import ListNotations.
Local Open Scope list_scope.
Local Open Scope nat_scope.

Section Coincide.
(** Functional equations whose bounds coincide, for every engine. *)
Context (G : engine).
Variables (g r l : E G) (i : info).
Hypothesis Heq : forall a b, e_eqb G a b = true <-> a = b.
Hypothesis Hc : e_classify G g = (CL_SUCCESS, r, i).
Hypothesis Ht : i_type i = FUNCTIONAL_EQUATION.
Hypothesis Hl : e_approx G LOWER r i = inl l.
Hypothesis Hu : e_approx G UPPER r i = inl l.
Lemma eqb_refl_l a : e_eqb G a a = true. Proof. now apply Heq. Qed.
(** Facts about the states met. *)
Definition fe_state (ex lo up : option (E G)) (s : state G) : Prop :=
  rhs G s = r /\ inf G s = i /\ cls G s = CL_SUCCESS /\ ics G s = [] /\ exact G s = ex /\ lower G s = lo /\ upper G s = up.
Definition new_state (s : state G) : Prop := rhs G s = g /\ cls G s = NOT_CLASSIFIED /\ ics G s = [] /\ exact G s = None /\ lower G s = None /\ upper G s = None.
Lemma fe_classified s : new_state s -> fe_state None None None (classify G s).
Proof. intros (A & B & C & D & F & K). unfold classify. rewrite B, A, Hc. repeat split; auto. Qed.
Lemma fe_classify ex lo up s : fe_state ex lo up s -> classify G s = s.
Proof. intros (_ & _ & B & _). unfold classify. now rewrite B. Qed.
Ltac fe H := destruct H as (?R & ?I & ?C & ?M & ?X & ?L & ?U).
Ltac done_fe := repeat split; cbn; auto.
Lemma fe_by_type lo up s : (lo = None \/ lo = Some l) -> (up = None \/ up = Some l) -> fe_state None lo up s ->
  exists s', exact_by_type G s = (s', Ok SUCCESS) /\ fe_state (Some l) (Some l) (Some l) s'.
Proof.
  intros Lo Up H. fe H. unfold exact_by_type. rewrite I, Ht. unfold approximate at 1. rewrite R, I, Hl. cbn -[approximate]. rewrite U.
  destruct Up as [-> | ->]; [|rewrite eqb_refl_l]; cbn -[approximate]; unfold approximate; cbn; rewrite ?R, ?I, ?Hu; cbn; rewrite ?eqb_refl_l; cbn; rewrite ?eqb_refl_l; unfold has_ics; cbn; rewrite ?M; eexists; (split; [reflexivity|]); done_fe.
Qed.
Lemma fe_exact_new s : new_state s -> exists s', compute_exact_solution G s = (s', Ok SUCCESS) /\ fe_state (Some l) (Some l) (Some l) s'.
Proof.
  intros H. unfold compute_exact_solution. assert (H' : new_state (set_tried G true s)) by exact H. pose proof (fe_classified _ H') as F.
  destruct H' as (_ & _ & _ & X & L & _). rewrite X, L. assert (C : cls G (classify G (set_tried G true s)) = CL_SUCCESS) by (now fe F). rewrite C.
  exact (fe_by_type None None _ (or_introl eq_refl) (or_introl eq_refl) F).
Qed.
Lemma fe_exact_one lo up s : (lo = None /\ up = Some l \/ lo = Some l /\ up = None) -> fe_state None lo up s -> exists s', compute_exact_solution G s = (s', Ok SUCCESS) /\ fe_state (Some l) (Some l) (Some l) s'.
Proof.
  intros Q H. unfold compute_exact_solution. assert (H' : fe_state None lo up (set_tried G true s)) by exact H. rewrite (fe_classify _ _ _ _ H').
  pose proof H' as F. fe F. rewrite X, C, L, U.
  destruct Q as [[-> ->] | [-> ->]]; [exact (fe_by_type None (Some l) _ (or_introl eq_refl) (or_intror eq_refl) H')|exact (fe_by_type (Some l) None _ (or_intror eq_refl) (or_introl eq_refl) H')].
Qed.
Lemma fe_exact_done v lo up s : fe_state (Some v) lo up s -> exists s', compute_exact_solution G s = (s', Ok SUCCESS) /\ fe_state (Some v) lo up s'.
Proof.
  intros H. unfold compute_exact_solution. cbn. pose proof H as F. fe F. rewrite X. unfold has_ics. cbn. rewrite M. destruct (ev_exact G s); eexists; (split; [reflexivity|]); exact H.
Qed.
Lemma fe_bound_new b s : new_state s -> exists s', compute_bound_top G b s = (s', Ok SUCCESS) /\ fe_state None (match b with LOWER => Some l | UPPER => None end) (match b with LOWER => None | UPPER => Some l end) s'.
Proof.
  intros H. pose proof (fe_classified _ H) as F. unfold compute_bound_top. destruct H as (_ & _ & _ & X & L & U).
  assert (B0 : bound_of G b s = None) by (destruct b; auto). rewrite B0, X. fe F. rewrite C, I, Ht. unfold compute_bound. rewrite I, Ht. unfold approximate. rewrite R, I.
  destruct b; [rewrite Hl|rewrite Hu]; cbn; rewrite ?U0, ?L0; cbn; unfold has_ics; cbn; rewrite M; eexists; (split; [reflexivity|]); done_fe.
Qed.
Lemma fe_bound_second b s : fe_state None (match b with LOWER => None | UPPER => Some l end) (match b with LOWER => Some l | UPPER => None end) s ->
  exists s', compute_bound_top G b s = (s', Ok SUCCESS) /\ fe_state (Some (e_one G)) (Some l) (Some l) s'.
Proof.
  intros H. unfold compute_bound_top. rewrite (fe_classify _ _ _ _ H). fe H. assert (B0 : bound_of G b s = None) by (destruct b; cbn; auto). rewrite B0, X, C, I, Ht. unfold compute_bound. rewrite I, Ht.
  unfold approximate. rewrite R, I.
  destruct b; [rewrite Hl|rewrite Hu]; cbn; rewrite ?U, ?L; cbn; rewrite eqb_refl_l; cbn; unfold has_ics; cbn; rewrite M; eexists; (split; [reflexivity|]); done_fe.
Qed.
Lemma fe_read v lo up s : fe_state (Some v) lo up s -> exists s', exact_solution G s = (s', Ok (e_rename G v)).
Proof. intros H. fe H. unfold exact_solution, has_ics. rewrite X, M. unfold finish. cbn. rewrite C. unfold first_for_solution. rewrite M, I, Ht. eexists. reflexivity. Qed.
Lemma construct_new : new_state (construct G g). Proof. repeat split. Qed.
Lemma exact_first : map ev_answer (history [New 0 g; Call 0 ComputeExact; Call 0 ReadExact]) = [Status (Ok SUCCESS); Read None (Ok (e_rename G l))].
Proof.
  destruct (fe_exact_new _ construct_new) as (s1 & E1 & F1). destruct (fe_read _ _ _ _ F1) as (s2 & E2).
  unfold history, run, step, put. cbn [Nat.eqb call]. rewrite E1. cbn [Nat.eqb]. rewrite E2. reflexivity.
Qed.
Lemma exact_after_one b : map ev_answer (history [New 0 g; Call 0 (ComputeBound b); Call 0 ComputeExact; Call 0 ReadExact]) = [Status (Ok SUCCESS); Status (Ok SUCCESS); Read None (Ok (e_rename G l))].
Proof.
  destruct (fe_bound_new b _ construct_new) as (s0 & E0 & F0).
  assert (Q : exists s', compute_exact_solution G s0 = (s', Ok SUCCESS) /\ fe_state (Some l) (Some l) (Some l) s') by (apply (fe_exact_one _ _ s0) in F0; auto; destruct b; auto).
  destruct Q as (s1 & E1 & F1). destruct (fe_read _ _ _ _ F1) as (s2 & E2).
  unfold history, run, step, put. cbn [Nat.eqb call]. rewrite E0. cbn [Nat.eqb]. rewrite E1. cbn [Nat.eqb]. rewrite E2. reflexivity.
Qed.
Lemma exact_after_both b b' : b <> b' -> map ev_answer (history [New 0 g; Call 0 (ComputeBound b); Call 0 (ComputeBound b'); Call 0 ComputeExact; Call 0 ReadExact]) =
  [Status (Ok SUCCESS); Status (Ok SUCCESS); Status (Ok SUCCESS); Read None (Ok (e_rename G (e_one G)))].
Proof.
  intros N. destruct (fe_bound_new b _ construct_new) as (s0 & E0 & F0).
  assert (Q : exists s', compute_bound_top G b' s0 = (s', Ok SUCCESS) /\ fe_state (Some (e_one G)) (Some l) (Some l) s') by (apply fe_bound_second; destruct b, b'; auto; congruence).
  destruct Q as (s1 & E1 & F1). destruct (fe_exact_done _ _ _ _ F1) as (s2 & E2 & F2). destruct (fe_read _ _ _ _ F2) as (s3 & E3).
  unfold history, run, step, put. cbn [Nat.eqb call]. rewrite E0. cbn [Nat.eqb]. rewrite E1. cbn [Nat.eqb]. rewrite E2. cbn [Nat.eqb]. rewrite E3. reflexivity.
Qed.
End Coincide.

(** * The toy engine *)
Inductive T := Rhs (c : nat) | Line (c : nat) | LineAt (c i : nat) (t : T) | NumT (v : nat) | X (k : nat) | FE (c : nat) | Bd (c : nat) | BdAt (c : nat) (t : T)
  | Zero (c : nat) | At (t : T) (a : Z) (b : positive) | Two (b : bound) | TwoAt (b : bound) (t : T).
Definition T_dec (a b : T) : {a = b} + {a <> b}.
Proof. repeat decide equality. Defined.
Definition last_ic (m : list (nat * T)) : nat * T := match rev m with [] => (0, X 0) | p :: _ => p end.
Definition toy : engine := {|
  E := T;
  e_eqb := fun a b => if T_dec a b then true else false;
  e_one := NumT 1;
  e_number := fun t => match t with NumT v => Some (q_of_nat v) | _ => None end;
  e_classify := fun t => match t with
    | Rhs c => (CL_SUCCESS, Rhs c, MkInfo CONST_COEFF 1 false false 0 0)
    | FE c => (CL_SUCCESS, FE c, MkInfo FUNCTIONAL_EQUATION 0 false false 1 1)
    | Zero c => (CL_SUCCESS, Zero c, MkInfo ORDER_ZERO 0 false false 0 0)
    | _ => (CL_TOO_COMPLEX, t, no_info) end;
  e_solve := fun t i => match t with Rhs c => inl (Line c) | Zero c => inl (Zero c) | _ => inr TOO_COMPLEX end;
  e_approx := fun b t i => match t with FE c => inl (if c =? 0 then Two b else Bd c) | _ => inr TOO_COMPLEX end;
  e_on_ic := fun i m t => match t with Line c => LineAt c (fst (last_ic m)) (snd (last_ic m)) | Bd c => BdAt c (snd (last_ic m)) | Two b => TwoAt b (snd (last_ic m)) | _ => t end;
  e_rename := fun t => t;
  e_x := X;
  e_subst := fun t q => At t (Qnum (this q)) (Qden (this q)) |}.
(** What the formulas mean. *)
Definition toy_sol (g e : T) : Prop := match g with Rhs c => e = Line c | FE (S c) => e = Bd (S c) | Zero c => e = Zero c | _ => False end.
Definition toy_sol_at (g : T) (m : list (nat * T)) (e : T) : Prop :=
  match g with Rhs c => e = LineAt c (fst (last_ic m)) (snd (last_ic m)) | FE (S c) => e = BdAt (S c) (snd (last_ic m)) | Zero c => e = Zero c | _ => False end.
Definition toy_meaning : meaning toy := @MkMeaning toy toy_sol
  (fun b g e => match g with FE 0 => e = Two b | _ => toy_sol g e end) toy_sol_at
  (fun b g m e => match g with FE 0 => e = TwoAt b (snd (last_ic m)) | _ => toy_sol_at g m e end).
Lemma toy_sound : sound toy toy_meaning.
Proof.
  constructor; cbn [E e_eqb e_one e_number e_classify e_solve e_approx e_on_ic e_rename e_x e_subst toy toy_meaning Sol Bnd SolAt BndAt]; auto.
  - intros a b. destruct (T_dec a b); split; congruence.
  - intros g r i e. destruct g; intros [= <- <-]; try intros [= <-]; cbn; congruence.
  - intros r i st. destruct r; intros [= <-]; discriminate.
  - intros b g r i e. destruct g; intros [= <- <-]; try discriminate. destruct c; intros [= <-]; cbn; congruence.
  - intros b r i st. destruct r; intros [= <-]; discriminate.
  - intros b g e. destruct g; cbn; auto. destruct c; tauto.
  - intros b g m e. destruct g; cbn; auto. destruct c; tauto.
  - intros g e. destruct g; cbn; auto. destruct c; intros; congruence.
  - intros g r i m e H. destruct g; inversion H; cbn; intros _ _; try (intros ->; reflexivity). destruct c; [tauto|]. intros ->. reflexivity.
  - intros b g r i m e H. destruct g; inversion H; cbn; intros _ _; try (intros ->; reflexivity). destruct c; intros ->; reflexivity.
  - intros g. destruct g; discriminate.
Qed.
Lemma toy_well_formed : well_formed toy.
Proof. intros g r i. cbn. destruct g; intros [= <- <-]; cbn; auto. Qed.
(** Its restriction to recurrences without coinciding bounds. *)
Definition toy2 : engine := {|
  E := T; e_eqb := e_eqb toy; e_one := e_one toy; e_number := e_number toy; e_classify := e_classify toy; e_solve := e_solve toy;
  e_approx := fun b t i => match t with FE 0 => inl (Two b) | _ => inr TOO_COMPLEX end;
  e_on_ic := e_on_ic toy; e_rename := e_rename toy; e_x := e_x toy; e_subst := e_subst toy |}.
Definition toy2_meaning : meaning toy2 := @MkMeaning toy2 toy_sol (Bnd toy_meaning) toy_sol_at (BndAt toy_meaning).
Lemma toy2_sound : sound toy2 toy2_meaning.
Proof.
  pose proof toy_sound as TS. destruct TS. constructor; auto.
  - intros b g r i e H A. apply (s_approx b g r i e H). cbn in *. destruct r; try discriminate. destruct c; auto; discriminate.
  - intros b r i st. cbn. destruct r; try (intros [= <-]; discriminate). destruct c; intros [= <-]; discriminate.
Qed.
Lemma toy2_bounds_differ : bounds_differ toy2.
Proof.
  intros g r i l u j k H Ty. cbn in *. destruct g; inversion H; subst; try discriminate. destruct c; try discriminate. intros [= <-] [= <-].
  change (Nat.iter j (fun t : RecCases.T => t) (Two LOWER) <> Nat.iter k (fun t : RecCases.T => t) (Two UPPER)).
  assert (I' : forall n (t : RecCases.T), Nat.iter n (fun t : RecCases.T => t) t = t) by (induction n; cbn; auto). rewrite !I'. discriminate.
Qed.
Lemma toy2_well_formed : well_formed toy2. Proof. exact toy_well_formed. Qed.

(** * What goes wrong *)

Definition stale_replace : list (cmd toy) := [New 0 (Rhs 1 : E toy); Call 0 ComputeExact; Call 0 (Replace (Rhs 2 : E toy)); Call 0 (SetIC [(0, NumT 5 : E toy)]); Call 0 ReadExact].
Definition stale_assign : list (cmd toy) :=
  [New 0 (Rhs 1 : E toy); Call 0 (SetIC [(0, NumT 5 : E toy)]); Call 0 ComputeExact; New 1 (Rhs 2 : E toy); Call 1 (SetIC [(0, NumT 7 : E toy)]); Call 1 ComputeExact; AssignTo 0 1; Call 0 ReadExact].
Lemma stale_replace_wrong : ~ Forall (right toy_meaning) (history stale_replace).
Proof.
  intros H. assert (E0 : exists l, history stale_replace = l ++ [@MkEvent toy (Rhs 2) [(0, NumT 5)] (@Read toy None (Ok (LineAt 1 0 (NumT 5))))]).
  { eexists [_; _; _]. vm_compute. reflexivity. }
  destruct E0 as [l E0]. rewrite E0 in H. apply Forall_app in H as [_ H]. inversion H as [|? ? H1]. subst. cbn in H1. discriminate.
Qed.
Lemma stale_assign_wrong : ~ Forall (right toy_meaning) (history stale_assign).
Proof.
  intros H. assert (E0 : exists l, history stale_assign = l ++ [@MkEvent toy (Rhs 2) [(0, NumT 7)] (@Read toy None (Ok (LineAt 1 0 (NumT 5))))]).
  { eexists [_; _; _; _]. vm_compute. reflexivity. }
  destruct E0 as [l E0]. rewrite E0 in H. apply Forall_app in H as [_ H]. inversion H as [|? ? H1]. subst. cbn in H1. discriminate.
Qed.
Lemma stale_both : ~ Forall (right toy_meaning) (history [New 0 (FE 1 : E toy); Call 0 (ComputeBound LOWER); Call 0 (ComputeBound UPPER); Call 0 ComputeExact; Call 0 ReadExact]).
Proof.
  intros H. assert (E0 : exists l, history [New 0 (FE 1 : E toy); Call 0 (ComputeBound LOWER); Call 0 (ComputeBound UPPER); Call 0 ComputeExact; Call 0 ReadExact] = l ++ [@MkEvent toy (FE 1) [] (@Read toy None (Ok (NumT 1)))]).
  { eexists [_; _; _]. vm_compute. reflexivity. }
  destruct E0 as [l E0]. rewrite E0 in H. apply Forall_app in H as [_ H]. inversion H as [|? ? H1]. subst. cbn in H1. discriminate.
Qed.
(** A state with a gap between the initial conditions. *)
Definition with_gap : state toy := fst (compute_exact_solution toy (fst (set_initial_conditions toy [(0, NumT 5); (3, NumT 8)] (construct toy (Rhs 1))))).
Definition zero_state : state toy := fst (compute_exact_solution toy (construct toy (Zero 1))).
