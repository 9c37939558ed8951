(** Model of src/Bool3.defs.hh and src/Bool3.inlines.hh. *)

(** src/Bool3.defs.hh: [enum Bool3 { ALWAYS, NEVER, MAYBE }]. *)
Inductive bool3 : Set := ALWAYS | NEVER | MAYBE.

(** The built-in [==] on the enumeration. *)
Definition b3eq (a b : bool3) : bool :=
  match a, b with
  | ALWAYS, ALWAYS | NEVER, NEVER | MAYBE, MAYBE => true
  | _, _ => false
  end.

Local Open Scope bool_scope.

(** src/Bool3.inlines.hh:30-36 [lor] (and [operator||], 38-41). *)
Definition lor (a b : bool3) : bool3 :=
  if b3eq a ALWAYS || b3eq b ALWAYS then ALWAYS
  else if b3eq a NEVER && b3eq b NEVER then NEVER
  else MAYBE.

(** src/Bool3.inlines.hh:43-49 [land] (and [operator&&], 51-54). *)
Definition land (a b : bool3) : bool3 :=
  if b3eq a NEVER || b3eq b NEVER then NEVER
  else if b3eq a ALWAYS && b3eq b ALWAYS then ALWAYS
  else MAYBE.

(** src/Bool3.inlines.hh:56-62 [lnot] (and [operator!], 64-67). *)
Definition lnot (a : bool3) : bool3 :=
  if b3eq a NEVER then ALWAYS
  else if b3eq a ALWAYS then NEVER
  else MAYBE.

(** src/Bool3.inlines.hh:69-72 [is_strong]. *)
Definition is_strong (a : bool3) : bool := b3eq a ALWAYS || b3eq a NEVER.

(** src/Bool3.inlines.hh:74-77 [stronger]. *)
Definition stronger (a b : bool3) : bool :=
  b3eq b MAYBE && (b3eq a ALWAYS || b3eq a NEVER).

(** src/Bool3.inlines.hh:79-82 [stronger_eq]. *)
Definition stronger_eq (a b : bool3) : bool :=
  b3eq a b || (b3eq b MAYBE && (b3eq a ALWAYS || b3eq a NEVER)).
