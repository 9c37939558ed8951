(** C89-C91: the MathML output. *)
From Coq Require Import List String Ascii Bool.
From Verif Require Import MmlSpec MmlModel MmlProofs MmlRead MmlBad.
Import ListNotations.
Local Open Scope string_scope.

(** C89: the output is a well-formed XML document, whatever the expression, if no text in it contains markup. *)
Theorem C89_well_formed_partial : forall t, texts markup_free t ->
  exists l, document (mathml_output t) l /\ Forall well_formed l.
Proof. exact well_formed_output. Qed.
(** Names are not escaped. *)
Theorem C89_escape_refuted : ~ exists l, document (mathml_output (Symbol "a<b")) l /\ Forall well_formed l.
Proof. intros (l & D & F). pose proof (balanced_document _ l D F) as E. vm_compute in E. discriminate E. Qed.
(** C90: it is MathML, for exact numbers. *)
Theorem C90_mathml_partial : forall t, texts nonempty_text t -> exact (fun _ => True) (fun _ => True) t ->
  exists l, document (mathml_output t) l /\ Forall mathml l.
Proof. exact (mathml_valid (fun _ => True) (fun _ => True)). Qed.
(** A floating point number is written as mfenced inside mn, pi as text outside all tokens. *)
Theorem C90_decimal_refuted : ~ exists l, document (mathml_output (Decimal "0.5")) l /\ Forall mathml l.
Proof. intros (l & D & F). pose proof (run_document _ l D F) as E. vm_compute in E. discriminate E. Qed.
Theorem C90_constant_refuted : ~ exists l, document (mathml_output (Constant "constant" "Pi")) l /\ Forall mathml l.
Proof. intros (l & D & F). pose proof (run_document _ l D F) as E. vm_compute in E. discriminate E. Qed.
(** C91: different expressions are written differently (blanks apart), if no symbol has the name of a function. *)
Theorem C91_readable_partial : forall (functions symbols : string -> Prop), (forall n, functions n -> symbols n -> False) ->
  forall t t', exact functions symbols t -> texts visible_text t -> exact functions symbols t' -> texts visible_text t' ->
  without_blanks (mathml_output t) = without_blanks (mathml_output t') -> t = t'.
Proof. intros f s A t t' H1 H2 H3 H4. exact (readable f s A t t' (conj H1 H2) (conj H3 H4)). Qed.
(** The largest of floor(log) and n, and of floor and log(n). *)
Theorem C91_shared_name_refuted : exists t t', t <> t' /\
  exact (fun _ => True) (fun _ => True) t /\ exact (fun _ => True) (fun _ => True) t' /\
  without_blanks (mathml_output t) = without_blanks (mathml_output t').
Proof.
  exists (Function "max" [Function "floor" [Symbol "log"]; Symbol "n"]), (Function "max" [Symbol "floor"; Function "log" [Symbol "n"]]).
  split; [discriminate|]. split; [|split].
  - repeat (constructor; try discriminate).
  - repeat (constructor; try discriminate).
  - vm_compute. reflexivity.
Qed.

(** n^2*log(n+1)/3 *)
Definition sample : tree := Product [Power (Symbol "n") (Integer "2"); Function "log" [Sum [Symbol "n"; Integer "1"]]; Fraction "1" "3"].
Example C89_case : texts markup_free sample.
Proof. unfold sample, markup_free. repeat (constructor; cbn; try (repeat split; discriminate)). Qed.
Example C90_case : texts nonempty_text sample /\ exact (fun _ => True) (fun _ => True) sample.
Proof. unfold sample, nonempty_text. split; repeat (constructor; cbn; try (repeat split; discriminate)). Qed.
Example C91_case : texts visible_text sample /\ exact (fun n => n = "log") (fun n => n = "n") sample /\ (forall n, n = "log" -> n = "n" -> False).
Proof.
  unfold sample, visible_text. split; [|split]; [repeat (constructor; cbn; try (repeat split; discriminate))| |congruence].
  repeat (constructor; cbn; try discriminate).
Qed.
Example C89_output : without_blanks (mathml_output (Power (Symbol "n") (Fraction "1" "2"))) =
  "<mathxmlns=""http://www.w3.org/1998/Math/MathML""><msup><mrow><mi>n</mi></mrow><mrow><mfrac><mn>1</mn><mn>2</mn></mfrac></mrow></msup></math>".
Proof. vm_compute. reflexivity. Qed.

Print Assumptions C89_well_formed_partial.
Print Assumptions C89_escape_refuted.
Print Assumptions C90_mathml_partial.
Print Assumptions C90_decimal_refuted.
Print Assumptions C90_constant_refuted.
Print Assumptions C91_readable_partial.
Print Assumptions C91_shared_name_refuted.
