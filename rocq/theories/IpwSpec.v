(** Powers of intervals. The power of two real numbers is [rpow] of Ast. *)
From Coq Require Import ZArith QArith Qcanon Reals Bool.
From Verif Require Import Bool3Model Ast IvlModel IvlSpec IpwModel.
Local Open Scope R_scope.

(** The power of the C library is rounded in the right direction; its limits at infinity are the ones of the C standard. *)
Record directed_power (pw : power) (rep : Qc -> Prop) : Prop := {
  pw_down : forall s q s' c v, rpow (rv q) (rv c) = Some v -> under (fst (pw false (Fin s q) (Fin s' c))) (snd (pw false (Fin s q) (Fin s' c))) v;
  pw_up : forall s q s' c v, rpow (rv q) (rv c) = Some v -> over (fst (pw true (Fin s q) (Fin s' c))) (snd (pw true (Fin s q) (Fin s' c))) v;
  pw_to_rep : forall dir v w s p, fst (pw dir v w) = Fin s p -> rep p;
  pw_inf : forall dir s c, 0 < rv c -> pw dir (Inf false) (Fin s c) = (Inf false, false);
  pw_inf_neg : forall dir s c, rv c < 0 -> exists s', pw dir (Inf false) (Fin s c) = (Fin s' 0%Qc, false);
  pw_odd : forall dir s z, Z.even z = false -> (0 < z)%Z -> pw dir (Inf true) (Fin s (zq z)) = (Inf true, false);
  pw_to_inf : forall dir s q, 1 < rv q -> pw dir (Fin s q) (Inf false) = (Inf false, false);
  pw_to_zero : forall dir s q, 0 < rv q < 1 -> exists s', pw dir (Fin s q) (Inf false) = (Fin s' 0%Qc, false);
  pw_inf_inf : forall dir, pw dir (Inf false) (Inf false) = (Inf false, false) }.
