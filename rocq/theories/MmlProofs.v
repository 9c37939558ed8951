(** Proofs for MmlProps.v. *)
From Coq Require Import List String Ascii Bool Arith Lia.
From Verif Require Import MmlSpec MmlModel.
Import ListNotations.
Local Open Scope string_scope.
Set Bullet Behavior "Strict Subproofs".

Lemma sapp (a b c : string) : (a ++ b) ++ c = a ++ (b ++ c).
Proof. induction a as [|x a IH]; cbn; [reflexivity|]. now rewrite IH. Qed.
Lemma sapp_nil (a : string) : a ++ "" = a.
Proof. induction a as [|x a IH]; cbn; [reflexivity|]. now rewrite IH. Qed.

Definition unit (t : tree) : string := fence t (mathml_print t).
Fixpoint join (sep : string) (l : list string) : string :=
  match l with [] => "" | [a] => a | a :: l => a ++ sep ++ join sep l end.
Lemma items_join sep l :
  (fix items (sep : string) (l : list tree) : string :=
    match l with
    | [] => ""
    | [a] => fence a (mathml_print a)
    | a :: l => fence a (mathml_print a) ++ sep ++ items sep l
    end) sep l = join sep (map unit l).
Proof.
  induction l as [|a l IH]; [reflexivity|]. destruct l as [|b l]; [reflexivity|].
  change (map unit (a :: b :: l)) with (unit a :: map unit (b :: l)).
  change (join sep (unit a :: map unit (b :: l))) with (unit a ++ sep ++ join sep (map unit (b :: l))).
  rewrite <- IH. reflexivity.
Qed.
Lemma print_function n a l : mathml_print (Function n (a :: l)) = "<mi>" ++ n ++ "</mi>" ++ join "" (map unit (a :: l)) ++ newline.
Proof.
  rewrite <- items_join. cbn [mathml_print]. unfold prefix, open_tag, middle_tag, close_tag. cbn [tags fst snd].
  cbn [append]. rewrite !sapp. reflexivity.
Qed.
Lemma print_sum a l : mathml_print (Sum (a :: l)) = "<mrow>" ++ join "<mo>+</mo>" (map unit (a :: l)) ++ "</mrow>" ++ newline.
Proof. rewrite <- items_join. reflexivity. Qed.
Lemma print_product a l : mathml_print (Product (a :: l)) = "<mrow>" ++ join "<mo>*</mo>" (map unit (a :: l)) ++ "</mrow>" ++ newline.
Proof. rewrite <- items_join. reflexivity. Qed.
Lemma print_power a b : mathml_print (Power a b) = "<msup><mrow>" ++ unit a ++ "</mrow><mrow>" ++ unit b ++ "</mrow></msup>" ++ newline.
Proof.
  change (mathml_print (Power a b)) with ("<msup><mrow>" ++ (unit a ++ "</mrow><mrow>" ++ unit b) ++ "</mrow></msup>" ++ newline).
  rewrite !sapp. reflexivity.
Qed.
Lemma print_fraction a b : mathml_print (Fraction a b) = "<mfrac><mn>" ++ a ++ "</mn><mn>" ++ b ++ "</mn></mfrac> " ++ newline.
Proof.
  change (mathml_print (Fraction a b)) with (("<mfrac><mn>" ++ a ++ "</mn><mn>" ++ b ++ "</mn></mfrac> ") ++ newline).
  rewrite !sapp. reflexivity.
Qed.
Lemma print_function0 n : mathml_print (Function n []) = "<mi>" ++ n ++ "</mi>" ++ (n ++ "()") ++ newline.
Proof. change (mathml_print (Function n [])) with (("<mi>" ++ n ++ "</mi>") ++ (n ++ "()") ++ newline). now rewrite !sapp. Qed.
Lemma print_constant c t : mathml_print (Constant c t) = prefix (Constant c t) ++ open_tag (Constant c t) ++ t ++ close_tag (Constant c t) ++ newline.
Proof. reflexivity. Qed.

(** * XML *)
Lemma all_written_app a b : all_written (a ++ b)%list = all_written a ++ all_written b.
Proof. induction a as [|x a IH]; cbn; [reflexivity|]. now rewrite IH, sapp. Qed.
Lemma written_element tag l : written (Element tag l) = "<" ++ tag ++ ">" ++ all_written l ++ "</" ++ tag ++ ">".
Proof.
  cbn [written]. reflexivity.
Qed.
Definition elem tag (l : list xml) : string := "<" ++ tag ++ ">" ++ all_written l ++ "</" ++ tag ++ ">".

Section Forest.
Variable good : xml -> Prop.
Variable tok : string -> Prop.
Hypothesis tok_plus : tok "+".
Hypothesis tok_times : tok "*".
Hypothesis good_blank : forall s, blank s -> good (Text s).
Hypothesis good_token : forall tag s, tag = "mi" \/ tag = "mn" \/ tag = "mo" -> tok s -> good (Element tag [Text s]).
Hypothesis good_row : forall tag l, tag = "mrow" \/ tag = "mfenced" -> Forall good l -> good (Element tag l).
Hypothesis good_pair : forall tag l, tag = "msup" \/ tag = "mfrac" -> List.length (filter item l) = 2 -> Forall good l -> good (Element tag l).
Definition forest (s : string) : Prop := exists l, s = all_written l /\ Forall good l.
Lemma forest_app a b : forest a -> forest b -> forest (a ++ b).
Proof. intros (l & -> & Hl) (m & -> & Hm). exists (l ++ m)%list. split; [now rewrite all_written_app|now apply Forall_app]. Qed.
Lemma forest_nil : forest "".
Proof. exists []. split; [reflexivity|constructor]. Qed.
Lemma forest_one x : good x -> forest (written x).
Proof. intros H. exists [x]. split; [cbn; now rewrite sapp_nil|]. constructor; auto. Qed.
Lemma forest_newline : forest newline.
Proof. apply (forest_one (Text newline)). apply good_blank. cbn. auto. Qed.
Lemma forest_token tag s : tag = "mi" \/ tag = "mn" \/ tag = "mo" -> tok s -> forest ("<" ++ tag ++ ">" ++ s ++ "</" ++ tag ++ ">").
Proof.
  intros H1 H2. pose proof (forest_one _ (good_token tag s H1 H2)) as F. rewrite written_element in F. cbn [all_written written] in F. now rewrite sapp_nil in F.
Qed.
Lemma forest_row tag s : tag = "mrow" \/ tag = "mfenced" -> forest s -> forest ("<" ++ tag ++ ">" ++ s ++ "</" ++ tag ++ ">").
Proof.
  intros H1 (l & -> & Hl). pose proof (forest_one _ (good_row tag l H1 Hl)) as F. now rewrite written_element in F.
Qed.
Lemma forest_fence t : forest (mathml_print t) -> forest (unit t).
Proof.
  intros H. unfold unit, fence. destruct (1 <? nops t)%nat; [|exact H].
  pose proof (forest_row "mfenced" _ (or_intror eq_refl) H) as F. cbn in F |- *. exact F.
Qed.
Lemma forest_join sep l : forest sep -> Forall (fun t => forest (mathml_print t)) l -> forest (join sep (map unit l)).
Proof.
  intros Hs H. induction H as [|a l Ha Hl IH]; [apply forest_nil|]. destruct l as [|b l]; [cbn; now apply forest_fence|].
  change (join sep (map unit (a :: b :: l))) with (unit a ++ sep ++ join sep (map unit (b :: l))).
  apply forest_app; [now apply forest_fence|]. now apply forest_app.
Qed.
Lemma forest_operator c : tok c -> forest ("<mo>" ++ c ++ "</mo>").
Proof. intros Hc. apply (forest_token "mo" c); [tauto|]. exact Hc. Qed.
Lemma good_function n a l : tok n -> Forall (fun t => forest (mathml_print t)) (a :: l) -> forest (mathml_print (Function n (a :: l))).
Proof.
  intros Hn H. rewrite print_function. pose proof (forest_token "mi" n (or_introl eq_refl) Hn) as F.
  replace ("<mi>" ++ n ++ "</mi>" ++ join "" (map unit (a :: l)) ++ newline)
    with (("<" ++ "mi" ++ ">" ++ n ++ "</" ++ "mi" ++ ">") ++ join "" (map unit (a :: l)) ++ newline) by (cbn [append]; now rewrite !sapp).
  apply forest_app; [exact F|]. apply forest_app; [|apply forest_newline]. apply forest_join; [apply forest_nil|exact H].
Qed.
Lemma good_sum a l : Forall (fun t => forest (mathml_print t)) (a :: l) -> forest (mathml_print (Sum (a :: l))).
Proof.
  intros H. rewrite print_sum.
  pose proof (forest_row "mrow" _ (or_introl eq_refl) (forest_join "<mo>+</mo>" _ (forest_operator "+" tok_plus) H)) as F.
  replace ("<mrow>" ++ join "<mo>+</mo>" (map unit (a :: l)) ++ "</mrow>" ++ newline)
    with (("<" ++ "mrow" ++ ">" ++ join "<mo>+</mo>" (map unit (a :: l)) ++ "</" ++ "mrow" ++ ">") ++ newline) by (cbn [append]; now rewrite !sapp).
  apply forest_app; [exact F|apply forest_newline].
Qed.
Lemma good_product a l : Forall (fun t => forest (mathml_print t)) (a :: l) -> forest (mathml_print (Product (a :: l))).
Proof.
  intros H. rewrite print_product.
  pose proof (forest_row "mrow" _ (or_introl eq_refl) (forest_join "<mo>*</mo>" _ (forest_operator "*" tok_times) H)) as F.
  replace ("<mrow>" ++ join "<mo>*</mo>" (map unit (a :: l)) ++ "</mrow>" ++ newline)
    with (("<" ++ "mrow" ++ ">" ++ join "<mo>*</mo>" (map unit (a :: l)) ++ "</" ++ "mrow" ++ ">") ++ newline) by (cbn [append]; now rewrite !sapp).
  apply forest_app; [exact F|apply forest_newline].
Qed.
Lemma good_power a b : forest (mathml_print a) -> forest (mathml_print b) -> forest (mathml_print (Power a b)).
Proof.
  intros Ha Hb. rewrite print_power. destruct (forest_fence a Ha) as (la & Ea & Ga), (forest_fence b Hb) as (lb & Eb & Gb).
  assert (G : good (Element "msup" [Element "mrow" la; Element "mrow" lb])).
  { apply good_pair; [auto|reflexivity|]. constructor; [apply good_row; auto|]. constructor; [apply good_row; auto|constructor]. }
  pose proof (forest_one _ G) as F. rewrite written_element in F. cbn [all_written] in F. rewrite !written_element in F.
  rewrite <- Ea, <- Eb in F.
  replace ("<msup><mrow>" ++ unit a ++ "</mrow><mrow>" ++ unit b ++ "</mrow></msup>" ++ newline) with
   (("<" ++ "msup" ++ ">" ++ (("<" ++ "mrow" ++ ">" ++ unit a ++ "</" ++ "mrow" ++ ">") ++ ("<" ++ "mrow" ++ ">" ++ unit b ++ "</" ++ "mrow" ++ ">") ++ "") ++ "</" ++ "msup" ++ ">") ++ newline)
   by (cbn [append]; rewrite !sapp; cbn [append]; now rewrite ?sapp).
  apply forest_app; [exact F|apply forest_newline].
Qed.
Lemma good_fraction a b : tok a -> tok b -> forest (mathml_print (Fraction a b)).
Proof.
  intros Ha Hb. rewrite print_fraction.
  assert (G : good (Element "mfrac" [Element "mn" [Text a]; Element "mn" [Text b]])).
  { apply good_pair; [auto|reflexivity|]. constructor; [apply good_token; auto|]. constructor; [apply good_token; auto|constructor]. }
  pose proof (forest_one _ G) as F. rewrite written_element in F. cbn [all_written] in F. rewrite !written_element in F. cbn [all_written written] in F.
  rewrite !sapp_nil in F.
  replace ("<mfrac><mn>" ++ a ++ "</mn><mn>" ++ b ++ "</mn></mfrac> " ++ newline) with
   (("<" ++ "mfrac" ++ ">" ++ (("<" ++ "mn" ++ ">" ++ a ++ "</" ++ "mn" ++ ">") ++ ("<" ++ "mn" ++ ">" ++ b ++ "</" ++ "mn" ++ ">")) ++ "</" ++ "mfrac" ++ ">") ++ " " ++ newline)
   by (cbn [append]; rewrite !sapp; cbn [append]; now rewrite ?sapp).
  apply forest_app; [exact F|]. apply forest_app; [|apply forest_newline].
  apply (forest_one (Text " ")). apply good_blank. cbn. auto.
Qed.
Lemma good_integer t : tok t -> forest (mathml_print (Integer t)).
Proof.
  intros H. pose proof (forest_token "mn" t (or_intror (or_introl eq_refl)) H) as F.
  replace (mathml_print (Integer t)) with (("<" ++ "mn" ++ ">" ++ t ++ "</" ++ "mn" ++ ">") ++ newline) by (cbn [append]; now rewrite !sapp).
  apply forest_app; [exact F|apply forest_newline].
Qed.
Lemma good_symbol t : tok t -> forest (mathml_print (Symbol t)).
Proof.
  intros H. pose proof (forest_token "mi" t (or_introl eq_refl) H) as F.
  replace (mathml_print (Symbol t)) with (("<" ++ "mi" ++ ">" ++ t ++ "</" ++ "mi" ++ ">") ++ newline) by (cbn [append]; now rewrite !sapp).
  apply forest_app; [exact F|apply forest_newline].
Qed.
End Forest.
Lemma plain_plus : every plain "+". Proof. cbn. repeat split; discriminate. Qed.
Lemma plain_times : every plain "*". Proof. cbn. repeat split; discriminate. Qed.
Lemma nonempty_plus : nonempty_text "+". Proof. split; [discriminate|exact plain_plus]. Qed.
Lemma nonempty_times : nonempty_text "*". Proof. split; [discriminate|exact plain_times]. Qed.

Lemma mathml_forest f s t : texts nonempty_text t -> exact f s t -> forest mathml (mathml_print t).
Proof.
  pose proof nonempty_plus as N1. pose proof nonempty_times as N2.
  assert (B : forall s, blank s -> mathml (Text s)) by (intros; now constructor).
  assert (T : forall tag s, tag = "mi" \/ tag = "mn" \/ tag = "mo" -> nonempty_text s -> mathml (Element tag [Text s])) by (intros tag s0 H [H1 H2]; now constructor).
  assert (W : forall tag l, tag = "mrow" \/ tag = "mfenced" -> Forall mathml l -> mathml (Element tag l)) by (intros; now apply MRow).
  assert (P : forall tag l, tag = "msup" \/ tag = "mfrac" -> List.length (filter item l) = 2 -> Forall mathml l -> mathml (Element tag l)) by (intros; now apply MPair).
  induction t using tree_induction; intros HT HE; inversion HT; inversion HE; subst.
  - destruct l as [|a l]; [congruence|]. apply (good_function mathml nonempty_text); auto.
    rewrite Forall_forall in *. eauto.
  - apply (good_integer mathml nonempty_text); auto.
  - apply (good_fraction mathml nonempty_text); auto.
  - apply (good_symbol mathml nonempty_text); auto.
  - apply (good_sum mathml nonempty_text); auto. rewrite Forall_forall in *; eauto.
  - apply (good_product mathml nonempty_text); auto. rewrite Forall_forall in *; eauto.
  - apply (good_power mathml); auto.
Qed.

Lemma letters s : forallb (fun c => (97 <=? nat_of_ascii c)%nat && (nat_of_ascii c <=? 122)%nat) (list_ascii_of_string s) = true -> every letter s.
Proof.
  induction s as [|c s IH]; cbn [list_ascii_of_string forallb every]; intros H; [exact Logic.I|].
  apply andb_true_iff in H. destruct H as [H1 H2]. split; [|auto]. apply andb_true_iff in H1. destruct H1 as [Ha Hb].
  exists (nat_of_ascii c). split; [now rewrite ascii_nat_embedding|]. split; [now apply Nat.leb_le|now apply Nat.leb_le].
Qed.
Lemma every_impl (p q : ascii -> Prop) s : (forall c, p c -> q c) -> every p s -> every q s.
Proof. intros H. induction s as [|c s IH]; cbn; [auto|]. intros [H1 H2]. auto. Qed.
Lemma every_app (p : ascii -> Prop) a b : every p (a ++ b) <-> every p a /\ every p b.
Proof. induction a as [|c a IH]; cbn; [tauto|]. rewrite IH. tauto. Qed.
Lemma blank_plain c : is_blank c = true -> plain c.
Proof. unfold is_blank. rewrite orb_true_iff, !Ascii.eqb_eq. intros [-> | ->]; repeat split; discriminate. Qed.
Ltac tagname := split; [discriminate|now apply letters].
Lemma wf_text s : every plain s -> forest well_formed s.
Proof. intros H. apply (forest_one well_formed (Text s)). now constructor. Qed.
Lemma wf_elem tag s : tag <> "" /\ every letter tag -> forest well_formed s -> forest well_formed ("<" ++ tag ++ ">" ++ s ++ "</" ++ tag ++ ">").
Proof.
  intros [H1 H2] (l & -> & Hl). pose proof (forest_one well_formed (Element tag l) (WfElement tag l H1 H2 Hl)) as F. now rewrite written_element in F.
Qed.
Lemma wf_decimal t : every plain t -> forest well_formed ("<mn><mfenced>" ++ t ++ "</mfenced></mn>" ++ newline).
Proof.
  intros H.
  pose proof (wf_elem "mn" _ ltac:(tagname) (wf_elem "mfenced" t ltac:(tagname) (wf_text t H))) as F.
  replace ("<mn><mfenced>" ++ t ++ "</mfenced></mn>" ++ newline)
    with (("<" ++ "mn" ++ ">" ++ ("<" ++ "mfenced" ++ ">" ++ t ++ "</" ++ "mfenced" ++ ">") ++ "</" ++ "mn" ++ ">") ++ newline) by (cbn [append]; rewrite !sapp; cbn [append]; now rewrite ?sapp).
  apply (forest_app well_formed); [exact F|]. apply wf_text. cbn. repeat split; discriminate.
Qed.
Lemma wf_open tag s : tag <> "" /\ every letter tag -> every plain s -> forest well_formed ("<" ++ tag ++ ">" ++ s ++ "</" ++ tag ++ ">" ++ newline).
Proof.
  intros H Hs. replace ("<" ++ tag ++ ">" ++ s ++ "</" ++ tag ++ ">" ++ newline) with (("<" ++ tag ++ ">" ++ s ++ "</" ++ tag ++ ">") ++ newline)
    by (rewrite !sapp; cbn [append]; now rewrite ?sapp).
  apply (forest_app well_formed); [apply wf_elem; [exact H|now apply wf_text]|]. apply wf_text. cbn. repeat split; discriminate.
Qed.
Lemma wf_power t : every plain t -> forest well_formed ("<msup><mrow>" ++ t ++ "</mrow></msup>" ++ newline).
Proof.
  intros H.
  pose proof (wf_elem "msup" _ ltac:(tagname) (wf_elem "mrow" t ltac:(tagname) (wf_text t H))) as F.
  replace ("<msup><mrow>" ++ t ++ "</mrow></msup>" ++ newline)
    with (("<" ++ "msup" ++ ">" ++ ("<" ++ "mrow" ++ ">" ++ t ++ "</" ++ "mrow" ++ ">") ++ "</" ++ "msup" ++ ">") ++ newline) by (cbn [append]; rewrite !sapp; cbn [append]; now rewrite ?sapp).
  apply (forest_app well_formed); [exact F|]. apply wf_text. cbn. repeat split; discriminate.
Qed.
Lemma wf_forest t : texts markup_free t -> forest well_formed (mathml_print t).
Proof.
  assert (N1 : every plain "+") by exact plain_plus. assert (N2 : every plain "*") by exact plain_times.
  assert (B : forall s, blank s -> well_formed (Text s)) by (intros s H; constructor; exact (every_impl _ _ s blank_plain H)).
  assert (T : forall tag s, tag = "mi" \/ tag = "mn" \/ tag = "mo" -> every plain s -> well_formed (Element tag [Text s])).
  { intros tag s H1 H2. constructor; [destruct H1 as [-> | [-> | ->]]; discriminate|destruct H1 as [-> | [-> | ->]]; now apply letters|]. constructor; [now constructor|constructor]. }
  assert (W : forall tag l, tag = "mrow" \/ tag = "mfenced" -> Forall well_formed l -> well_formed (Element tag l)).
  { intros tag s H1 H2. constructor; [destruct H1 as [-> | ->]; discriminate|destruct H1 as [-> | ->]; now apply letters|exact H2]. }
  assert (P : forall tag l, tag = "msup" \/ tag = "mfrac" -> List.length (filter item l) = 2 -> Forall well_formed l -> well_formed (Element tag l)).
  { intros tag s H1 _ H2. constructor; [destruct H1 as [-> | ->]; discriminate|destruct H1 as [-> | ->]; now apply letters|exact H2]. }
  assert (NL : every plain newline) by (cbn; repeat split; discriminate).
  induction t using tree_induction; intros HT; inversion HT; subst.
  - destruct l as [|a l].
    + rewrite print_function0. change ("<mi>" ++ n ++ "</mi>" ++ (n ++ "()") ++ newline) with ("<" ++ "mi" ++ ">" ++ n ++ "</" ++ "mi" ++ ">" ++ (n ++ "()") ++ newline).
      replace ("<" ++ "mi" ++ ">" ++ n ++ "</" ++ "mi" ++ ">" ++ (n ++ "()") ++ newline) with
       (("<" ++ "mi" ++ ">" ++ n ++ "</" ++ "mi" ++ ">") ++ (n ++ "()") ++ newline) by (cbn [append]; now rewrite !sapp).
      apply (forest_app well_formed); [apply wf_elem; [tagname|now apply wf_text]|]. apply wf_text. rewrite !every_app.
      split; [split; [assumption|cbn; repeat split; discriminate]|exact NL].
    + apply (good_function well_formed (every plain)); auto. rewrite Forall_forall in *; eauto.
  - apply (good_integer well_formed (every plain)); auto.
  - apply (good_fraction well_formed (every plain)); auto.
  - apply wf_decimal. assumption.
  - apply (good_symbol well_formed (every plain)); auto.
  - destruct l as [|a l]; [apply (wf_open "mrow" "0"); [tagname|cbn; repeat split; discriminate]|].
    apply (good_sum well_formed (every plain)); auto. rewrite Forall_forall in *; eauto.
  - destruct l as [|a l]; [apply (wf_open "mrow" "1"); [tagname|cbn; repeat split; discriminate]|].
    apply (good_product well_formed (every plain)); auto. rewrite Forall_forall in *; eauto.
  - apply (good_power well_formed); auto.
  - rewrite print_constant. unfold prefix, open_tag, close_tag, tags. cbn [class_name info_rational info_integer andb].
    destruct (c =? "numeric") eqn:E1; [cbn [fst snd]; exact (wf_decimal t H2)|].
    destruct (c =? "symbol") eqn:E2; [cbn [fst snd]; exact (wf_open "mi" t ltac:(tagname) H2)|].
    destruct (c =? "add") eqn:E3; [cbn [fst snd]; exact (wf_open "mrow" t ltac:(tagname) H2)|].
    destruct (c =? "mul") eqn:E4; [cbn [fst snd]; exact (wf_open "mrow" t ltac:(tagname) H2)|].
    destruct (c =? "power") eqn:E5; [cbn [fst snd]; exact (wf_power t H2)|].
    cbn [fst snd]. apply wf_text. rewrite !every_app. repeat split; try assumption; try exact NL; cbn; repeat split; discriminate.
Qed.
Lemma well_formed_output t : texts markup_free t -> exists l, document (mathml_output t) l /\ Forall well_formed l.
Proof. intros H. destruct (wf_forest t H) as (l & E & F). exists l. split; [unfold document, mathml_output, in_math; now rewrite E|exact F]. Qed.
Lemma mathml_valid f s t : texts nonempty_text t -> exact f s t -> exists l, document (mathml_output t) l /\ Forall mathml l.
Proof. intros H1 H2. destruct (mathml_forest f s t H1 H2) as (l & E & F). exists l. split; [unfold document, mathml_output, in_math; now rewrite E|exact F]. Qed.
