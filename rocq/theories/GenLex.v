(** Lexing what the generator writes: proofs for PropGen.v. *)
From Verif Require Import Base Varint WireFmt Types Meta Gen CsRead GenSpec.
From Coq Require Ascii DecimalString DecimalFacts DecimalN.
From Coq Require Import String Lia.
Import Ascii String.StringSyntax.
Local Open Scope string_scope.
Local Open Scope list_scope.
Local Open Scope N_scope.

Lemma sapp_assoc (a b c : string) : (a +++ b) +++ c = a +++ (b +++ c).
Proof. induction a as [|x a IH]; cbn; [reflexivity|now rewrite IH]. Qed.
Lemma sapp_nil (a : string) : a +++ "" = a.
Proof. induction a as [|x a IH]; cbn; [reflexivity|now rewrite IH]. Qed.
Lemma all_chars_app p a b : all_chars p (a +++ b) = all_chars p a && all_chars p b.
Proof. induction a as [|x a IH]; cbn; [reflexivity|now rewrite IH, andb_assoc]. Qed.

(** ** Words *)

Definition word (w : string) : bool := match w with "" => false | _ => all_chars id_char w end.
Lemma ident_word w : ident w = true -> word w = true.
Proof.
  unfold ident, word. destruct w as [|c w]; [discriminate|]. cbn. intros H.
  apply andb_prop in H. destruct H as [H _]. apply andb_prop in H. destruct H as [H H'].
  unfold id_char at 1. now rewrite H, H'.
Qed.
Lemma lex_word acc w s : all_chars id_char w = true ->
  lex_from (Some acc) (w +++ s) = lex_from (Some (acc +++ w)) s.
Proof.
  revert acc. induction w as [|c w IH]; intros acc H; cbn [String.append all_chars] in *.
  - now rewrite sapp_nil.
  - apply andb_prop in H. destruct H as [Hc H]. cbn [lex_from]. rewrite Hc, IH by assumption.
    now rewrite sapp_assoc.
Qed.

(** ** Printing of type names *)

Fixpoint cprint (t : cname) : string :=
  match t with
  | CN n args =>
      n +++ match args with [] => "" | _ => "<" +++ join ", " (map cprint args) +++ ">" end
  end.
Definition sep_toks (f : cname -> list tok) : list cname -> list tok :=
  fix go l := match l with [] => [] | [t] => f t | t :: l => f t ++ Pc "," :: go l end.
Fixpoint ctoks (t : cname) : list tok :=
  match t with
  | CN n args => Id n :: match args with [] => [] | _ => Pc "<" :: sep_toks ctoks args ++ [Pc ">"] end
  end.
Section CnameInd.
  Variable P : cname -> Prop.
  Hypothesis HCN : forall n args, Forall P args -> P (CN n args).
  Fixpoint cname_ind' (t : cname) : P t :=
    match t with
    | CN n args => HCN n args ((fix go l : Forall P l := match l with [] => Forall_nil _ | t :: l => Forall_cons _ (cname_ind' t) (go l) end) args)
    end.
End CnameInd.

(** Text that does not begin with a character of a word. *)
Definition stops (s : string) : bool := match s with "" => true | String c _ => negb (id_char c) end.
Lemma lex_stop w s : word w = true -> stops s = true -> lex_from (Some w) s = Id w :: lex_from (Some "") s.
Proof.
  destruct w as [|x w]; [discriminate|]. intros _. destruct s as [|c s]; [reflexivity|].
  cbn [stops]. intros H. apply negb_true_iff in H. cbn [lex_from]. rewrite H. reflexivity.
Qed.
Lemma lex_pc c s : id_char c = false -> blank c = false -> Ascii.eqb c "/" = false ->
  lex_from (Some "") (String c s) = Pc c :: lex_from (Some "") s.
Proof. intros H1 H2 H3. cbn [lex_from]. now rewrite H1, H2, H3. Qed.

Lemma lex_cprint t : cn_all word t = true -> forall s, stops s = true ->
  lex_from (Some "") (cprint t +++ s) = ctoks t ++ lex_from (Some "") s.
Proof.
  induction t as [n args IH] using cname_ind'. cbn [cn_all cprint ctoks]. intros H s Hs.
  apply andb_prop in H. destruct H as [Hn Ha].
  assert (Hn' : all_chars id_char n = true) by (destruct n; [discriminate|exact Hn]).
  rewrite sapp_assoc, lex_word by assumption. cbn [String.append].
  destruct args as [|a args].
  - cbn [String.append]. now rewrite lex_stop.
  - rewrite lex_stop by (assumption || reflexivity).
    cbn [String.append].
    rewrite lex_pc by reflexivity. rewrite sapp_assoc. cbn [String.append].
    rewrite <- !app_comm_cons. do 2 f_equal. rewrite <- app_assoc. cbn [app].
    enough (G : lex_from (Some "") (join ", " (map cprint (a :: args)) +++ String ">" s) =
      sep_toks ctoks (a :: args) ++ Pc ">" :: lex_from (Some "") s) by exact G.
    revert a Ha IH. induction args as [|b args IHa]; intros a Ha IH.
    + cbn [map join sep_toks]. inversion IH as [|? ? Hx _]; subst. cbn in Ha. apply andb_prop in Ha.
      rewrite Hx by (apply Ha || reflexivity). rewrite lex_pc by reflexivity. reflexivity.
    + cbn [forallb] in Ha. apply andb_prop in Ha. destruct Ha as [H1 H2].
      inversion IH as [|? ? Hx Hy]; subst.
      cbn [map join sep_toks] in *. rewrite !sapp_assoc, Hx by (assumption || reflexivity).
      rewrite <- app_assoc. f_equal. cbn [String.append]. rewrite lex_pc by reflexivity. cbn [app]. f_equal.
      change (lex_from (Some "") (String " " (join ", " (cprint b :: map cprint args) +++ String ">" s)) =
         sep_toks ctoks (b :: args) ++ Pc ">" :: lex_from (Some "") s).
      cbn [lex_from]. change (id_char " ") with false. change (blank " ") with true. cbn [flush].
      apply IHa; [exact H2|exact Hy].
Qed.

(** ** Lines *)

(** A line in pieces: constant text, a word, a type name. *)
Inductive piece := C (s : string) | W (w : string) | Y (t : cname).
Definition ptext (p : piece) : string := match p with C s => s | W w => w | Y t => cprint t end.
Fixpoint text (l : list piece) : string :=
  match l with [] => "" | [p] => ptext p | p :: l => ptext p +++ text l end.
Definition no_slash (s : string) : bool := all_chars (fun c => negb (Ascii.eqb c "/")) s.
Definition piece_ok (p : piece) : bool :=
  match p with C s => no_slash s | W w => word w | Y t => cn_all word t end.

Fixpoint sconcat (l : list string) : string :=
  match l with [] => "" | [s] => s | s :: l => s +++ sconcat l end.
Definition close (ws : list string) (cur : string) : list string := match cur with "" => ws | _ => ws ++ [cur] end.
Definition word_toks (ws : list string) : list tok := match ws with [] => [] | _ => [Id (sconcat ws)] end.
Fixpoint snoc (s : string) (c : ascii) : string :=
  match s with "" => String c "" | String x s => String x (snoc s c) end.
(** Constant text: the word it begins with; unless that is all, the tokens between and the word at the end. *)
Fixpoint const (cur s : string) : string * option (list tok * string) :=
  match s with
  | "" => (cur, None)
  | String c s =>
      if id_char c then const (snoc cur c) s
      else
        let p := if blank c then [] else [Pc c] in
        (cur, Some match const "" s with
                   | (pre, None) => (p, pre)
                   | (pre, Some (ts, post)) => (p ++ flush pre [] ++ ts, post)
                   end)
  end.
Fixpoint ptoks (ws : list string) (l : list piece) : list tok :=
  match l with
  | [] => word_toks ws
  | C s :: l =>
      match const "" s with
      | (pre, None) => ptoks (close ws pre) l
      | (pre, Some (ts, post)) => word_toks (close ws pre) ++ ts ++ ptoks (close [] post) l
      end
  | W w :: l => ptoks (ws ++ [w]) l
  | Y t :: l => ctoks t ++ ptoks [] l
  end.
Definition stopped (l : list piece) : bool :=
  match l with [] => true | C (String c _) :: _ => negb (id_char c) | _ => false end.
(** Type names stand alone. *)
Fixpoint shape (ws : list string) (l : list piece) : bool :=
  match l with
  | [] => true
  | C s :: l =>
      match const "" s with
      | (pre, None) => shape (close ws pre) l
      | (_, Some (_, post)) => shape (close [] post) l
      end
  | W w :: l => shape (ws ++ [w]) l
  | Y t :: l => match ws with [] => stopped l | _ => false end && shape [] l
  end.

Lemma text_cons p l : text (p :: l) = ptext p +++ text l.
Proof. destruct l; cbn; [now rewrite sapp_nil|reflexivity]. Qed.
Lemma sconcat_app a b : sconcat (a ++ [b]) = sconcat a +++ b.
Proof.
  induction a as [|x a IH]; [reflexivity|]. cbn [app].
  assert (E : forall l, l <> [] -> sconcat (x :: l) = x +++ sconcat l) by (intros [|]; [congruence|reflexivity]).
  rewrite E by (destruct a; discriminate). rewrite IH. destruct a; cbn; [reflexivity|now rewrite sapp_assoc].
Qed.
Lemma sconcat_cons x l : sconcat (x :: l) = x +++ sconcat l.
Proof. destruct l; cbn; [now rewrite sapp_nil|reflexivity]. Qed.
Definition nonempty (s : string) : Prop := s <> "".
Lemma close_ok ws cur : sconcat (close ws cur) = sconcat ws +++ cur.
Proof. destruct cur; cbn [close]; [now rewrite sapp_nil|apply sconcat_app]. Qed.
Lemma close_nonempty ws cur : Forall nonempty ws -> Forall nonempty (close ws cur).
Proof. intros H. destruct cur; cbn [close]; [exact H|]. apply Forall_app. split; [exact H|]. constructor; [discriminate|constructor]. Qed.
Lemma flush_words ws k : Forall nonempty ws -> flush (sconcat ws) k = word_toks ws ++ k.
Proof.
  destruct ws as [|w ws]; [reflexivity|]. intros H. inversion H as [|? ? Hw _]; subst.
  rewrite sconcat_cons. destruct w as [|c w]; [now contradict Hw|]. cbn [String.append flush].
  cbn [word_toks]. rewrite sconcat_cons. reflexivity.
Qed.
Lemma snoc_app s c : snoc s c = s +++ String c "".
Proof. induction s as [|x s IH]; cbn; [reflexivity|now rewrite IH]. Qed.
Lemma flush_app w k x : flush w (k ++ x) = flush w k ++ x.
Proof. destruct w; reflexivity. Qed.
Lemma const_ok s : no_slash s = true -> forall a cur x,
  lex_from (Some (a +++ cur)) (s +++ x) =
  match const cur s with
  | (pre, None) => lex_from (Some (a +++ pre)) x
  | (pre, Some (ts, post)) => flush (a +++ pre) (ts ++ lex_from (Some post) x)
  end.
Proof.
  induction s as [|c s IH]; intros Hs a cur x; cbn [String.append const]; [reflexivity|].
  cbn in Hs. apply andb_prop in Hs. destruct Hs as [Hc Hs]. apply negb_true_iff in Hc.
  cbn [lex_from]. destruct (id_char c) eqn:Hi.
  - rewrite sapp_assoc, <- snoc_app. now apply IH.
  - rewrite Hc. specialize (IH Hs "" "" x). cbn [String.append] in IH. f_equal.
    destruct (const "" s) as [pre [[ts post]|]].
    + destruct (blank c); cbn [app]; rewrite IH, <- !app_assoc, <- flush_app; reflexivity.
    + destruct (blank c); cbn [app]; now rewrite IH.
Qed.
Lemma stopped_stops l : stopped l = true -> stops (text l) = true.
Proof. destruct l as [|[[|c s]|w|t] l]; try discriminate; [reflexivity|]. rewrite text_cons. cbn. auto. Qed.
Lemma lex_pieces l : Forall (fun p => piece_ok p = true) l -> forall ws, Forall nonempty ws -> shape ws l = true ->
  lex_from (Some (sconcat ws)) (text l) = ptoks ws l.
Proof.
  induction 1 as [|p l Hp Hl IH]; intros ws Hw Hs.
  - cbn [text lex_from ptoks]. rewrite flush_words by assumption. apply app_nil_r.
  - rewrite text_cons. destruct p as [s|w|t]; cbn [ptext ptoks shape piece_ok] in *.
    + pose proof (const_ok s Hp (sconcat ws) "" (text l)) as E. rewrite sapp_nil in E. rewrite E. clear E.
      destruct (const "" s) as [pre [[ts post]|]].
      * rewrite <- close_ok, flush_words by now apply close_nonempty. do 2 f_equal.
        rewrite <- (IH (close [] post)); [|now apply close_nonempty|assumption]. now rewrite close_ok.
      * rewrite <- close_ok. apply IH; [now apply close_nonempty|assumption].
    + destruct w as [|c w]; [discriminate|]. rewrite lex_word by exact Hp. rewrite <- sconcat_app.
      apply IH; [|exact Hs]. apply Forall_app. split; [exact Hw|]. constructor; [discriminate|constructor].
    + apply andb_prop in Hs. destruct Hs as [H1 H2]. destruct ws; [|discriminate]. cbn [sconcat].
      rewrite lex_cprint by (assumption || now apply stopped_stops). f_equal. now apply (IH []).
Qed.
Lemma lex_line l : Forall (fun p => piece_ok p = true) l -> shape [] l = true -> lex (text l) = ptoks [] l.
Proof. intros H S. exact (lex_pieces l H [] (Forall_nil _) S). Qed.

(** ** Sequences of writes *)

Definition optoks (op : wop) : list tok := match op with WWrite s => lex s | _ => [] end.
Definition lexops (ops : list wop) : list tok := flat_map optoks ops.
(** Text after which a new line or anything else may follow. *)
Definition closed (s : string) : Prop := forall x, lex (s +++ x) = lex s ++ lex x.
Fixpoint tidy (ops : list wop) : Prop :=
  match ops with
  | [] => True
  | WWrite s :: ops => (closed s \/ match ops with WNewline :: _ => True | _ => False end) /\ tidy ops
  | _ :: ops => tidy ops
  end.
Lemma lex_nl st s x : lex_from st (s +++ nl +++ x) = lex_from st s ++ lex x.
Proof.
  assert (F : forall w k x, flush w (k ++ x) = flush w k ++ x) by (intros [|]; reflexivity).
  unfold lex. revert st. induction s as [|c s IH]; intros st.
  - change ("" +++ nl +++ x) with (String "010" x). cbn [lex_from]. change (code "010" =? 10) with true.
    change (id_char "010") with false. change (blank "010") with true. cbn match.
    destruct st as [w|]; [|reflexivity]. now rewrite <- F.
  - cbn [String.append lex_from]. destruct st as [w|].
    + destruct (id_char c); [apply IH|]. rewrite <- F. f_equal. destruct (blank c); [apply IH|].
      destruct (Ascii.eqb c "/") eqn:Ec; [|now rewrite IH].
      destruct s as [|c' s]; cbn [String.append] in *.
      * change (Ascii.eqb "010" "/") with false. cbn match. now rewrite IH.
      * destruct (Ascii.eqb c' "/"); [apply IH|now rewrite IH].
    + destruct (code c =? 10); apply IH.
Qed.
Lemma lex_spaces n x : lex (spaces n +++ x) = lex x.
Proof. induction n as [|n IH]; [reflexivity|]. exact IH. Qed.
Lemma lex_emit ops : tidy ops -> forall size lvl, lex (emit size lvl ops) = lexops ops.
Proof.
  induction ops as [|op ops IH]; [reflexivity|]. intros H size lvl. unfold lexops. cbn [flat_map]. fold (lexops ops).
  destruct op as [| |s| |]; cbn [emit tidy optoks app] in *; try (apply IH; assumption).
  - destruct H as [[Hc|Hn] H].
    + now rewrite Hc, IH.
    + destruct ops as [|[] ops]; try now destruct Hn. cbn [emit]. unfold lex at 1. rewrite lex_nl. fold (lex s).
      f_equal. cbn [tidy emit] in *. exact (IH H size lvl).
  - rewrite lex_spaces. now apply IH.
Qed.
Lemma lexops_app a b : lexops (a ++ b) = lexops a ++ lexops b.
Proof. apply flat_map_app. Qed.
Lemma tidy_app a b : tidy a -> tidy b -> tidy (a ++ b).
Proof.
  induction a as [|op a IH]; [auto|]. destruct op; cbn [app tidy]; auto.
  intros [H Ha] Hb. split; [|auto]. destruct H as [H|H]; [now left|right]. destruct a; [now destruct H|exact H].
Qed.
Lemma tidy_writeln s : tidy (writeln s).
Proof. cbn. auto. Qed.
Lemma tidy_flat {A} (f : A -> list wop) l : (forall a, tidy (f a)) -> tidy (flat_map f l).
Proof. intros H. induction l; cbn; [exact I|]. apply tidy_app; auto. Qed.
Lemma tidy_when b l : tidy l -> tidy (when b l).
Proof. destruct b; cbn; auto. Qed.
(** A constant ending in a character that is not part of a word. *)
Fixpoint ends (s : string) : bool :=
  match s with "" => true | String c "" => negb (id_char c) && negb (Ascii.eqb c "/") | String _ s => ends s end.
