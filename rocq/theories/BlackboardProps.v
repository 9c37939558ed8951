(** C07, C08, C10, C61: class Blackboard. *)
From Coq Require Import ZArith QArith Qcanon List String Bool Reals.
From Verif Require Import Ast ExprModel BlackboardModel BlackboardSpec BlackboardProofs BlackboardProofs2 BlackboardCases.
Import ListNotations.
Local Open Scope string_scope.
Local Open Scope list_scope.
Local Open Scope nat_scope.

(** * C07 *)
(** After any history: the definitions are those recorded; rewriting gives the cache-free
    expansion, is never undefined, and is complete given enough stack. *)
Theorem C07_caches_are_transparent :
  forall G h b, bb_run G empty_blackboard h = Done b -> exists D, records h D /\
  (forall z, get_definition b z = Done (match D z with Some e => e | None => Sym z end)) /\
  (forall f e, match rewrite_bb G f b e with Done p => expands G D e (snd p) | Undefined => False | Deeper => True end) /\
  (forall e v, expands G D e v -> exists f0, forall f, f0 <= f -> exists b', rewrite_bb G f b e = Done (b', v)).
Proof. exact transparent. Qed.
Print Assumptions C07_caches_are_transparent.
(** The expansion is unique, and exists when the definitions are not circular. *)
Theorem C07_expansion_is_unique :
  forall G D e v w, expands G D e v -> expands G D e w -> v = w.
Proof. exact (fun G D e v w H K => proj1 (expands_det G D) e v H w K). Qed.
Print Assumptions C07_expansion_is_unique.
Theorem C07_acyclic_definitions_expand :
  forall G D, acyclic D -> forall e, exists v, expands G D e v.
Proof. exact acyclic_expands. Qed.
Print Assumptions C07_acyclic_definitions_expand.
(** The expansion has the value of the expression wherever the definitions hold as equations. *)
Theorem C07_expansion_has_the_same_value :
  forall G I, ginac_ok I G -> forall D, (forall z d, D z = Some d -> indices_apart D d) -> forall e e', expands G D e e' ->
  forall rho v, satisfies I D rho -> indices_apart D e -> eval I rho e = Some v -> eval I rho e' = Some v.
Proof. exact (fun G I HG D DA => proj1 (expands_value G I HG D DA)). Qed.
Print Assumptions C07_expansion_has_the_same_value.
Example C07_case :
  let h := [OInsert "s" (Add [Sym "a"; Sym "c"]); OInsert "t" (Mul [Sym "s"; Sym "s"]); ORewrite 9 (Sym "t"); OSize 9 (Sym "t"); OSubst "t" "u"] in
  exists b b', bb_run G0 empty_blackboard h = Done b /\
  rewrite_bb G0 9 b (Pow (Sym "u") (Sym "t")) = Done (b', Pow (Mul [Add [Sym "c"; Sym "a"]; Add [Sym "c"; Sym "a"]]) (Sym "t")).
Proof. cbv zeta. eexists. eexists. split. { vm_compute. reflexivity. } { vm_compute. reflexivity. } Qed.

(** * C08 *)
(** As long as symbols are created in increasing order of their names and none is renamed. *)
Theorem C08_find_symbol :
  forall G h b z e, bb_run G empty_blackboard h = Done b -> no_renaming h -> increasing (flat_map new_name h ++ [z]) ->
  exists b' k, find_symbol b z e = Done (b', k) /\ get_definition b' k = Done e /\
  ((b' = b /\ In k (flat_map new_name h)) \/
   (k = z /\ ~ In z (flat_map new_name h) /\ (forall y, get_definition b y = Done e -> e = Sym y) /\
    forall y, y <> z -> get_definition b' y = get_definition b y)).
Proof. exact find_symbol_ok. Qed.
Print Assumptions C08_find_symbol.
(** symbol9 and symbol10 are not in this order: the symbol of another definition is returned. *)
Theorem C08_find_symbol_any_names_refuted :
  forall G, ~ (forall h b z e b' k, bb_run G empty_blackboard h = Done b -> no_renaming h -> NoDup (flat_map new_name h ++ [z]) ->
     find_symbol b z e = Done (b', k) -> get_definition b' k = Done e).
Proof. exact find_symbol_refuted. Qed.
Print Assumptions C08_find_symbol_any_names_refuted.
(** After a renaming the two containers have different lengths: past-the-end access. *)
Theorem C08_find_symbol_defined_refuted :
  forall G, ~ (forall h b z e, bb_run G empty_blackboard h = Done b -> NoDup (flat_map new_name h ++ [z]) -> find_symbol b z e <> Undefined).
Proof. exact find_symbol_undefined_refuted. Qed.
Print Assumptions C08_find_symbol_defined_refuted.
Example C08_case :
  let h := [OInsert "symbol1" (Num (zq 1)); OFind "symbol2" (Num (zq 2)); OFind "symbol3" (Num (zq 1))] in
  no_renaming h /\ increasing (flat_map new_name h ++ ["symbol4"]) /\
  exists b, bb_run G0 empty_blackboard h = Done b /\ find_symbol b "symbol4" (Num (zq 2)) = Done (b, "symbol2").
Proof.
  cbv zeta. split; [intros o Ho x y E; subst o; cbn in Ho; intuition discriminate|]. split; [cbn; repeat split; repeat constructor|].
  eexists. split. { vm_compute. reflexivity. } { vm_compute. reflexivity. }
Qed.

(** * C10 *)
Theorem C10_size_is_number_of_nodes :
  forall e, exists t, unfolds (fun _ => None) e t /\ size_norm e = nodes t.
Proof. exact size_norm_nodes. Qed.
Print Assumptions C10_size_is_number_of_nodes.
Theorem C10_size_is_positive :
  forall e, 1 <= size_norm e.
Proof. exact size_norm_pos. Qed.
Print Assumptions C10_size_is_positive.
(** On a blackboard: the number of nodes of the unfolded term (operators kept as they are). *)
Theorem C10_size_on_blackboard :
  forall G h b, bb_run G empty_blackboard h = Done b -> exists D, records h D /\
  (forall f e, match size_norm_bb f b e with Done p => exists t, unfolds D e t /\ nodes t = snd p | Undefined => False | Deeper => True end) /\
  (forall e t, unfolds D e t -> exists f0, forall f, f0 <= f -> exists b', size_norm_bb f b e = Done (b', nodes t)).
Proof. exact size_transparent. Qed.
Print Assumptions C10_size_on_blackboard.
(** Not the size of the expanded expression, where nested sums are merged. *)
Theorem C10_size_of_expansion_refuted :
  ~ (forall h b f e b1 b2 n v, bb_run G0 empty_blackboard h = Done b -> size_norm_bb f b e = Done (b1, n) ->
     rewrite_bb G0 f b e = Done (b2, v) -> n = size_norm v).
Proof. exact size_expanded_refuted. Qed.
Print Assumptions C10_size_of_expansion_refuted.
Example C10_case :
  size_norm (Add [Pow (Sym "n") (Num (zq 2)); Fun FLog [Sym "n"]; Num (zq 7)]) = 7 /\
  exists b b', bb_run G0 empty_blackboard [OInsert "s" (Fun FLog [Sym "n"])] = Done b /\ size_norm_bb 5 b (Mul [Sym "s"; Sym "s"; Sym "m"]) = Done (b', 6).
Proof. split; [reflexivity|]. eexists. eexists. split. { vm_compute. reflexivity. } { vm_compute. reflexivity. } Qed.

(** * C61 *)
(** Renaming is transparent if neither name occurs in a definition and the new name has none. *)
Theorem C61_renaming_keeps_expansions :
  forall G D old new, old <> new -> D old <> None -> D new = None ->
  (forall z d, D z = Some d -> has old d = false /\ has new d = false) ->
  (forall v, expands G D (Sym old) v <-> expands G (d_rename D old new) (Sym new) v) /\
  (forall e v, has old e = false -> has new e = false -> expands G D e v <-> expands G (d_rename D old new) e v).
Proof. exact rename_ok. Qed.
Print Assumptions C61_renaming_keeps_expansions.
(** symbol2 = 1 + symbol1, symbol1 renamed to a: symbol2 does not expand any more. *)
Theorem C61_other_definitions_refuted :
  ~ (forall h b b' old new e v, bb_run G0 empty_blackboard h = Done b -> substitute_symbol b old new = Done b' ->
      (forall x, In x (flat_map new_name h) -> x <> new) -> has old e = false -> has new e = false ->
      (exists f b1, rewrite_bb G0 f b e = Done (b1, v)) -> exists f b1, rewrite_bb G0 f b' e = Done (b1, v)).
Proof. exact rename_dangling_refuted. Qed.
Print Assumptions C61_other_definitions_refuted.
(** Two symbols given the same name: the second definition is lost. *)
Theorem C61_same_name_refuted :
  ~ (forall h b b1 b2 old old' new, bb_run G0 empty_blackboard h = Done b -> substitute_symbol b old new = Done b1 ->
      substitute_symbol b1 old' new = Done b2 -> old <> old' -> get_definition b2 new = get_definition b old').
Proof. exact rename_merge_refuted. Qed.
Print Assumptions C61_same_name_refuted.
(** symbol1 = a^(1/2), symbol1 renamed to a: the expansion of a does not terminate. *)
Theorem C61_termination_refuted :
  ~ (forall h b b' old new, bb_run G0 empty_blackboard h = Done b -> substitute_symbol b old new = Done b' ->
      (exists f, rewrite_bb G0 f b (Sym old) <> Deeper) -> exists f, rewrite_bb G0 f b' (Sym new) <> Deeper).
Proof. exact rename_loop_refuted. Qed.
Print Assumptions C61_termination_refuted.
Example C61_case :
  let D : dict := dset (dset (fun _ => None) "s" (Some (Num (zq 5)))) "t" (Some (Sym "n")) in
  "s" <> "a" /\ D "s" <> None /\ D "a" = None /\ (forall z d, D z = Some d -> has "s" d = false /\ has "a" d = false).
Proof.
  cbv zeta. repeat split; try discriminate; unfold dset in H; destruct (String.eqb z "t"); try (injection H as <-; reflexivity);
  destruct (String.eqb z "s"); try (injection H as <-; reflexivity); discriminate.
Qed.
