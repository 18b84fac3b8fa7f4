(** C72: names in snake case and in camel case. *)
From Verif Require Import Base Meta Gen RsGen RsDecl.
From Coq Require Import String Ascii.
Import String.StringSyntax.
Local Open Scope string_scope.
Local Open Scope list_scope.
Local Open Scope N_scope.

(** The letters, small and capital; what words are made of. *)
Definition small : list ascii := list_ascii_of_string "abcdefghijklmnopqrstuvwxyz".
Definition capital : list ascii := list_ascii_of_string "ABCDEFGHIJKLMNOPQRSTUVWXYZ".
Definition letter (c C : ascii) : Prop := In (c, C) (combine small capital).
Definition plain (c : ascii) : Prop := In c (list_ascii_of_string "abcdefghijklmnopqrstuvwxyz0123456789").
Fixpoint all_plain (s : string) : Prop := match s with "" => True | String c s => plain c /\ all_plain s end.
(** [camel ws s]: [s] is the words [ws], each with a capital first letter. *)
Inductive camel : list string -> string -> Prop :=
| camel_nil : camel [] ""
| camel_word c C w ws s : letter c C -> all_plain w -> camel ws s -> camel (String c w :: ws) (String C (w +++ s)).
(** The words with an underscore between them. *)
Definition snake (ws : list string) : string := String.concat "_" ws.

Ltac each H := cbn in H; repeat (destruct H as [H|H]; [try (injection H as <- <-)|]); try contradiction.
Lemma letter_upper c C : letter c C -> to_upper c = C /\ c <> "_"%char.
Proof. intros H. each H; split; try reflexivity; discriminate. Qed.
Lemma letter_lower c C : letter c C -> to_lower C = c /\ is_upper C = true /\ plain c.
Proof. intros H. each H; (split; [reflexivity|]); (split; [reflexivity|]); cbn; tauto. Qed.
Lemma plain_same c : plain c -> to_lower c = c /\ is_upper c = false /\ c <> "_"%char.
Proof. intros H. cbn in H; repeat (destruct H as [<-|H]; [split; [reflexivity|]; split; [reflexivity|discriminate]|]); contradiction. Qed.

Lemma snake_plain w s : all_plain w -> snake_rest (w +++ s) = w +++ snake_rest s.
Proof. induction w as [|c w IH]; intros P; [reflexivity|]. destruct P as [P Q]. destruct (plain_same c P) as (E1 & E2 & _). cbn. rewrite E1, E2. cbn. now rewrite IH. Qed.
Lemma append_nil s : s +++ "" = s.
Proof. induction s; cbn; congruence. Qed.
Lemma snake_cons w ws : snake (w :: ws) = w +++ match ws with [] => "" | _ => String "_" (snake ws) end.
Proof. destruct ws; cbn; [now rewrite append_nil|reflexivity]. Qed.
Lemma snake_camel ws s : camel ws s -> snake_rest s = match ws with [] => "" | _ => String "_" (snake ws) end.
Proof.
  induction 1 as [|c C w ws s L P H IH]; [reflexivity|]. destruct (letter_lower c C L) as (E1 & E2 & _). cbn [snake_rest]. rewrite E1, E2, (snake_plain w s P), IH.
  now rewrite snake_cons.
Qed.
(** A name in camel case becomes its words in snake case: names of constructors, setters, and of the constant. *)
Theorem c72_snake : forall ws s, camel ws s -> to_snake_case s = snake ws.
Proof.
  intros ws s H. destruct H as [|c C w ws s L P H]; [reflexivity|]. destruct (letter_lower c C L) as (E1 & _). cbn [to_snake_case].
  now rewrite E1, (snake_plain w s P), (snake_camel ws s H), snake_cons.
Qed.
Print Assumptions c72_snake.

Lemma camel_plain w s : all_plain w -> to_camel_case (w +++ s) false = w +++ to_camel_case s false.
Proof.
  induction w as [|c w IH]; intros P; [reflexivity|]. destruct P as [P Q]. destruct (plain_same c P) as (_ & _ & N).
  change (String c w +++ s) with (String c (w +++ s)). cbn [to_camel_case]. rewrite (proj2 (Ascii.eqb_neq c "_") N), (IH Q). reflexivity.
Qed.
(** And back: names of properties and of nested classes. *)
Theorem c72_camel : forall ws s, camel ws s -> to_camel_case (snake ws) true = s.
Proof.
  induction 1 as [|c C w ws s L P H IH]; [reflexivity|]. destruct (letter_upper c C L) as [E N]. rewrite snake_cons.
  change (String c w +++ ?x) with (String c (w +++ x)). cbn [append to_camel_case]. rewrite (proj2 (Ascii.eqb_neq c "_") N), E, (camel_plain w _ P). do 2 f_equal.
  destruct ws as [|w' ws]; [inversion H; reflexivity|]. cbn [to_camel_case]. rewrite Ascii.eqb_refl. exact IH.
Qed.
Print Assumptions c72_camel.

(** So different names in camel case stay different, *)
Theorem c72_distinct : forall ws ws' s s', camel ws s -> camel ws' s' -> to_snake_case s = to_snake_case s' -> s = s'.
Proof. intros ws ws' s s' H H' E. rewrite (c72_snake ws s H), (c72_snake ws' s' H') in E. rewrite <- (c72_camel ws s H), <- (c72_camel ws' s' H'). now f_equal. Qed.
Print Assumptions c72_distinct.
(** even in capitals: types with such names can share a module. *)
Definition snakey (c : ascii) : Prop := plain c \/ c = "_"%char.
Fixpoint all_snakey (s : string) : Prop := match s with "" => True | String c s => snakey c /\ all_snakey s end.
Lemma upper_inj c c' : snakey c -> snakey c' -> to_upper c = to_upper c' -> c = c'.
Proof.
  assert (U : forall c, snakey c -> to_lower (to_upper c) = c).
  { intros x [H| ->]; [|reflexivity]. cbn in H; repeat (destruct H as [<-|H]; [reflexivity|]); contradiction. }
  intros H H' E. rewrite <- (U c H), <- (U c' H'). now f_equal.
Qed.
Lemma uppercase_inj s : forall s', all_snakey s -> all_snakey s' -> to_uppercase s = to_uppercase s' -> s = s'.
Proof.
  induction s as [|c s IH]; intros [|c' s'] H H'; try easy. destruct H as [H1 H2], H' as [H1' H2']. cbn. intros E. injection E as E1 E2.
  f_equal; [now apply upper_inj|now apply IH].
Qed.
Lemma snakey_app a b : all_snakey a -> all_snakey b -> all_snakey (a +++ b).
Proof. induction a as [|c a IH]; [easy|]. intros [H H'] B. cbn. split; [exact H|now apply IH]. Qed.
Lemma plain_snakey w : all_plain w -> all_snakey w.
Proof. induction w as [|c w IH]; [easy|]. intros [H H']. split; [now left|now apply IH]. Qed.
Lemma snake_snakey ws s : camel ws s -> all_snakey (snake ws).
Proof.
  induction 1 as [|c C w ws s L P H IH]; [exact I|]. rewrite snake_cons. change (String c w +++ ?x) with (String c (w +++ x)). split; [left; now apply (letter_lower c C)|].
  apply snakey_app; [now apply plain_snakey|]. destruct ws; [exact I|]. split; [now right|exact IH].
Qed.
Lemma append_inj a : forall s s', a +++ s = a +++ s' -> s = s'.
Proof. induction a as [|c a IH]; intros s s' E; [exact E|]. cbn in E. injection E as E. now apply IH. Qed.
Theorem c72_const : forall ws ws' s s', camel ws s -> camel ws' s' -> const_name s = const_name s' -> s = s'.
Proof.
  intros ws ws' s s' H H' E. unfold const_name in E. apply append_inj in E. apply (c72_distinct ws ws' s s' H H').
  rewrite (c72_snake ws s H), (c72_snake ws' s' H') in *. apply uppercase_inj; [now apply (snake_snakey ws s)|now apply (snake_snakey ws' s')|exact E].
Qed.
Print Assumptions c72_const.

(** Other names can clash: [FooBar] and [Foo_bar] have the same constant and, as variants, the same
    constructor and setters; [HTTPCode] is taken apart. *)
Theorem c72_distinct_refuted : ~ (forall s s', s <> "" -> s' <> "" -> const_name s = const_name s' -> s = s').
Proof. intros H. specialize (H "FooBar" "Foo_bar"). discriminate H; [discriminate|discriminate|reflexivity]. Qed.
Print Assumptions c72_distinct_refuted.

Lemma letter_of c C : existsb (fun p => Ascii.eqb c (fst p) && Ascii.eqb C (snd p)) (combine small capital) = true -> letter c C.
Proof.
  intros E. apply existsb_exists in E. destruct E as ([x y] & I & E). apply Bool.andb_true_iff in E. destruct E as [E1 E2].
  apply Ascii.eqb_eq in E1, E2. cbn in *. now subst.
Qed.
Example c72_case : camel ["list"; "push"] "ListPush" /\ to_snake_case "ListPush" = "list_push" /\ to_camel_case "list_push" true = "ListPush" /\
  const_name "ListPush" = "_IMPL_STEIT_FOR_LIST_PUSH" /\ to_snake_case "HTTPCode" = "h_t_t_p_code" /\ to_camel_case "f_1_x" true = "F1X".
Proof.
  split; [|repeat split].
  apply (camel_word "l" "L" "ist"); [now apply letter_of|cbn; tauto|]. apply (camel_word "p" "P" "ush"); [now apply letter_of|cbn; tauto|]. constructor.
Qed.
