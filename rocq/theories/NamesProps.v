(** C09: names given to system-generated symbols. *)
From Coq Require Import ZArith QArith Qcanon List String Bool Reals.
From Verif Require Import Ast ExprModel BlackboardModel BlackboardSpec NamesModel NamesSpec NamesProofs.
Import ListNotations.
Local Open Scope string_scope.
Local Open Scope list_scope.
Local Open Scope nat_scope.

Theorem C09_names_are_distinct :
  forall i j, new_symbol_name i = new_symbol_name j -> i = j.
Proof. exact name_inj. Qed.
Print Assumptions C09_names_are_distinct.
Theorem C09_generated_symbols_recognised :
  forall s, is_system_generated s = true <-> looks_generated s.
Proof. exact system_generated_spec. Qed.
Print Assumptions C09_generated_symbols_recognised.
(** The loop terminates; exactly the generated symbols are renamed, to distinct names that do
    not occur in the expression and do not look generated; the new expression has the value of
    the old one under the renaming. *)
Theorem C09_symbols_are_renamed_apart :
  forall I G, ginac_ok I G -> no_new_symbols G -> forall h b e, bb_run G empty_blackboard h = Done b -> exists f0, forall f, f0 <= f ->
  exists e' b' ren, replace_system_generated_symbols G f e b = Done (e', b', ren) /\
  NoDup (map fst ren) /\ (forall s, In s (map fst ren) <-> has s e = true /\ looks_generated s) /\
  NoDup (map snd ren) /\ (forall n, In n (map snd ren) -> has n e = false /\ ~ looks_generated n) /\
  (forall s, has s e' = true -> ~ looks_generated s) /\
  (forall rho v, eval I (fun s => rho (renamed ren s)) e = Some v -> eval I rho e' = Some v).
Proof. exact replace_ok. Qed.
Print Assumptions C09_symbols_are_renamed_apart.
Theorem C09_hypotheses_hold_of_an_instance : no_new_symbols G0.
Proof. exact G0_no_new_symbols. Qed.
Print Assumptions C09_hypotheses_hold_of_an_instance.
Example C09_cases :
  map new_symbol_name [0; 4; 22; 23; 300] = ["a"; "f"; "z"; "a1"; "b13"] /\
  is_system_generated "symbol42" = true /\ is_system_generated "symbolic" = false /\ is_system_generated "symbol" = false /\
  exists b', replace_system_generated_symbols G0 9 (Add [Sym "symbol7"; Sym "a"; Pow (Sym "symbol12") (Sym "n")]) empty_blackboard
   = Done (Add [Sym "c"; Sym "a"; Pow (Sym "b") (Sym "n")], b', [("symbol12", "b"); ("symbol7", "c")]).
Proof. repeat split; try reflexivity. eexists. vm_compute. reflexivity. Qed.
