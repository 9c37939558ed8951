(** Model of the MathML output (src/Expr.cc).  [endl] is the newline character; the attributes of GiNaC objects
    are those of the class of the tree (MmlSpec). *)
From Coq Require Import List String Ascii Bool Arith.
From Verif Require Import MmlSpec.
Import ListNotations.
Local Open Scope string_scope.

(** GiNaC: basic::class_name, nops/op, info_flags::integer, info_flags::rational and operator<< (external). A function
    without arguments, a sum without terms (which do not occur) are printed as "f()" and "0". *)
Definition class_name (t : tree) : string :=
  match t with
  | Function _ _ => "function" | Integer _ | Fraction _ _ | Decimal _ => "numeric" | Symbol _ => "symbol"
  | Sum _ => "add" | Product _ => "mul" | Power _ _ => "power" | Constant c _ => c
  end.
Definition operands (t : tree) : list tree :=
  match t with Function _ l | Sum l | Product l => l | Power a b => [a; b] | _ => [] end.
Definition nops (t : tree) : nat := List.length (operands t).
Definition info_integer (t : tree) : bool := match t with Integer _ => true | _ => false end.
Definition info_rational (t : tree) : bool := match t with Integer _ | Fraction _ _ => true | _ => false end.
Definition numer (t : tree) : string := match t with Fraction a _ => a | Integer a => a | _ => "" end.
Definition denom (t : tree) : string := match t with Fraction _ b => b | _ => "1" end.
Definition printed (t : tree) : string :=
  match t with
  | Function n _ => n ++ "()" | Integer s | Decimal s | Symbol s | Constant _ s => s | Fraction a b => a ++ "/" ++ b
  | Sum _ => "0" | Product _ => "1" | Power _ _ => ""
  end.

(** Expr.cc:1262-1304 mathml_print: what is written before the operands, the tag before, between and after them. *)
Definition tags (t : tree) : string * (string * string * string) :=
  match t with
  | Function name _ => ("<mi>" ++ name ++ "</mi>", ("", "", ""))
  | _ =>
    if class_name t =? "numeric" then
      if info_rational t && negb (info_integer t) then ("", ("", "", ""))
      else if info_integer t then ("", ("<mn>", "", "</mn>"))
      else ("", ("<mn><mfenced>", "", "</mfenced></mn>"))
    else if class_name t =? "symbol" then ("", ("<mi>", "", "</mi>"))
    else if class_name t =? "add" then ("", ("<mrow>", "<mo>+</mo>", "</mrow>"))
    else if class_name t =? "mul" then ("", ("<mrow>", "<mo>*</mo>", "</mrow>"))
    else if class_name t =? "power" then ("", ("<msup><mrow>", "</mrow><mrow>", "</mrow></msup>"))
    else ("UNKNOWN:" ++ class_name t, ("", "", ""))
  end.
Definition prefix (t : tree) : string := fst (tags t).
Definition open_tag (t : tree) : string := fst (fst (snd (tags t))).
Definition middle_tag (t : tree) : string := snd (fst (snd (tags t))).
Definition close_tag (t : tree) : string := snd (snd (tags t)).

(** Expr.cc:1309-1316: one operand. *)
Definition fence (t : tree) (s : string) : string := if Nat.ltb 1 (nops t) then "<mfenced>" ++ s ++ "</mfenced>" else s.
(** Expr.cc:1258-1326 mathml_print. *)
Fixpoint mathml_print (t : tree) : string :=
  let fix items (sep : string) (l : list tree) : string :=
    match l with
    | [] => ""
    | [a] => fence a (mathml_print a)
    | a :: l => fence a (mathml_print a) ++ sep ++ items sep l
    end in
  prefix t ++ open_tag t ++
  match t with
  | Function _ ((_ :: _) as l) | Sum ((_ :: _) as l) | Product ((_ :: _) as l) => items (middle_tag t) l
  | Power a b => items (middle_tag t) [a; b]
  | _ => if info_rational t && negb (info_integer t) then "<mfrac><mn>" ++ numer t ++ "</mn><mn>" ++ denom t ++ "</mn></mfrac> "
         else printed t
  end ++ close_tag t ++ newline.
(** Expr.cc:1328-1334 Expr::mathml_output. *)
Definition mathml_output (t : tree) : string :=
  "<math xmlns=""http://www.w3.org/1998/Math/MathML"">" ++ newline ++ mathml_print t ++ "</math>" ++ newline.
