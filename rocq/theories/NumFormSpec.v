(** Values of the numbers of NumFormModel.v. *)
From Coq Require Import ZArith QArith Qcanon Reals List.
From Coquelicot Require Import Complex.
From Verif Require Import Fld CplxF Ast NumFormModel.

(** i^sgn * snum / sden * irr^(1/idx) as a complex number. *)
Definition std_value (s : stdform) : C :=
  Cmult (fpow (K := CF) Ci (sgn s)) (RtoC (IZR (snum s) / IZR (sden s) * Rpower (IZR (irr s)) (/ IZR (idx s)))).
(** Integer powers of complex numbers. *)
Definition cpow (z : C) (k : Z) : C := zpow (K := CF) z k.
