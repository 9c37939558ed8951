(** What MathML output means: XML elements and how they are written, which of them are MathML, and the
    expressions that are written. *)
From Coq Require Import List String Ascii Bool.
Import ListNotations.
Local Open Scope string_scope.

(** Expressions as GiNaC shows them to a program that prints them: a function with its arguments, numbers by the text
    that [operator<<] prints for them, symbols by their names; [Constant] stands for the objects of any other class
    (Pi, for example: class "constant", printed "Pi"). *)
Inductive tree :=
  | Function (name : string) (l : list tree)
  | Integer (text : string)
  | Fraction (numer denom : string)
  | Decimal (text : string)
  | Symbol (name : string)
  | Sum (l : list tree)
  | Product (l : list tree)
  | Power (base exponent : tree)
  | Constant (class text : string).

(** XML without attributes: text and elements. *)
Inductive xml := Text (s : string) | Element (tag : string) (l : list xml).
Fixpoint written (x : xml) : string :=
  match x with
  | Text s => s
  | Element tag l =>
    "<" ++ tag ++ ">" ++ (fix go l := match l with [] => "" | y :: l => written y ++ go l end) l ++ "</" ++ tag ++ ">"
  end.
Fixpoint all_written (l : list xml) : string := match l with [] => "" | y :: l => written y ++ all_written l end.

Fixpoint every (p : ascii -> Prop) (s : string) : Prop :=
  match s with EmptyString => True | String c s => p c /\ every p s end.
Definition plain (c : ascii) : Prop := c <> "<"%char /\ c <> ">"%char /\ c <> "&"%char.
Definition is_blank (c : ascii) : bool := Ascii.eqb c " " || Ascii.eqb c (ascii_of_nat 10).
Definition blank (s : string) : Prop := every (fun c => is_blank c = true) s.

(** Well-formed: no markup characters in the text, and element names made of letters. *)
Definition letter (c : ascii) : Prop := exists n, c = ascii_of_nat n /\ 97 <= n /\ n <= 122.
Inductive well_formed : xml -> Prop :=
  | WfText s : every plain s -> well_formed (Text s)
  | WfElement tag l : tag <> "" -> every letter tag -> Forall well_formed l -> well_formed (Element tag l).

Definition newline : string := String (ascii_of_nat 10) "".
Definition in_math (s : string) : string :=
  "<math xmlns=""http://www.w3.org/1998/Math/MathML"">" ++ newline ++ s ++ "</math>" ++ newline.
(** A document with the given contents. *)
Definition document (s : string) (l : list xml) : Prop := s = in_math (all_written l).

(** MathML: text only in mi, mn and mo; msup and mfrac with exactly two parts; blank text anywhere. *)
Definition item (x : xml) : bool := match x with Element _ _ => true | Text _ => false end.
Inductive mathml : xml -> Prop :=
  | MBlank s : blank s -> mathml (Text s)
  | MToken tag s : tag = "mi" \/ tag = "mn" \/ tag = "mo" -> s <> "" -> every plain s -> mathml (Element tag [Text s])
  | MRow tag l : tag = "mrow" \/ tag = "mfenced" -> Forall mathml l -> mathml (Element tag l)
  | MPair tag l : tag = "msup" \/ tag = "mfrac" -> List.length (filter item l) = 2 -> Forall mathml l -> mathml (Element tag l).

(** The texts in an expression; its names. *)
Section Induction.
Variable P : tree -> Prop.
Hypothesis HF : forall n l, Forall P l -> P (Function n l).
Hypothesis HI : forall t, P (Integer t).
Hypothesis HQ : forall a b, P (Fraction a b).
Hypothesis HD : forall t, P (Decimal t).
Hypothesis HY : forall n, P (Symbol n).
Hypothesis HS : forall l, Forall P l -> P (Sum l).
Hypothesis HP : forall l, Forall P l -> P (Product l).
Hypothesis HW : forall a b, P a -> P b -> P (Power a b).
Hypothesis HC : forall c t, P (Constant c t).
Fixpoint tree_induction (t : tree) : P t :=
  let fix go (l : list tree) : Forall P l := match l with [] => Forall_nil _ | a :: l => Forall_cons _ (tree_induction a) (go l) end in
  match t with
  | Function n l => HF n l (go l) | Integer t => HI t | Fraction a b => HQ a b | Decimal t => HD t | Symbol n => HY n
  | Sum l => HS l (go l) | Product l => HP l (go l) | Power a b => HW a b (tree_induction a) (tree_induction b)
  | Constant c t => HC c t
  end.
End Induction.

(** Every text and name in the expression satisfies [p]. *)
Inductive texts (p : string -> Prop) : tree -> Prop :=
  | TFunction n l : p n -> Forall (texts p) l -> texts p (Function n l)
  | TInteger t : p t -> texts p (Integer t)
  | TFraction a b : p a -> p b -> texts p (Fraction a b)
  | TDecimal t : p t -> texts p (Decimal t)
  | TSymbol n : p n -> texts p (Symbol n)
  | TSum l : Forall (texts p) l -> texts p (Sum l)
  | TProduct l : Forall (texts p) l -> texts p (Product l)
  | TPower a b : texts p a -> texts p b -> texts p (Power a b)
  | TConstant c t : p c -> p t -> texts p (Constant c t).
(** Only integers and fractions as numbers, no constants; functions have arguments, sums and products at least two
    terms; [f] is what holds of the names of functions, [s] of those of symbols. *)
Inductive exact (f s : string -> Prop) : tree -> Prop :=
  | EFunction n l : f n -> l <> [] -> Forall (exact f s) l -> exact f s (Function n l)
  | EInteger t : exact f s (Integer t)
  | EFraction a b : exact f s (Fraction a b)
  | ESymbol n : s n -> exact f s (Symbol n)
  | ESum a b l : Forall (exact f s) (a :: b :: l) -> exact f s (Sum (a :: b :: l))
  | EProduct a b l : Forall (exact f s) (a :: b :: l) -> exact f s (Product (a :: b :: l))
  | EPower a b : exact f s a -> exact f s b -> exact f s (Power a b).

(** The output as a reader of XML sees it: without the blanks. *)
Fixpoint without_blanks (s : string) : string :=
  match s with
  | EmptyString => EmptyString
  | String c s => if is_blank c then without_blanks s else String c (without_blanks s)
  end.
Definition visible (c : ascii) : Prop := is_blank c = false.
Definition markup_free (s : string) : Prop := every plain s.
Definition nonempty_text (s : string) : Prop := s <> "" /\ every plain s.
Definition visible_text (s : string) : Prop := every plain s /\ every visible s.
