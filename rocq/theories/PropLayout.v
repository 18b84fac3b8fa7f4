(** The layout of the generated C# text (C100). *)
From Verif Require Import Base Varint WireFmt Types Meta Gen MetaProofs CsRead GenLex GenParse GenFile.
From Coq Require Ascii.
From Coq Require Import String Lia.
Import Ascii String.StringSyntax.
Local Open Scope string_scope.
Local Open Scope list_scope.
Local Open Scope N_scope.

(** ** What is claimed *)

(** The character that closes what [c] opens. *)
Definition closer (c : ascii) : option ascii :=
  if Ascii.eqb c "{" then Some "}"%char else if Ascii.eqb c "(" then Some ")"%char else if Ascii.eqb c "<" then Some ">"%char else None.
Definition closes (c : ascii) : bool := Ascii.eqb c "}" || Ascii.eqb c ")" || Ascii.eqb c ">".
(** Where a reader of the text is: after that many spaces at the start of a line, or further on in it. *)
Inductive place := Start (n : nat) | Within.
(** One character, with the closing characters still to come.  A line that is not empty starts with four
    spaces for each of them, not counting the one that it starts with. *)
Definition read_char (st : list ascii) (p : place) (c : ascii) : option (list ascii * place) :=
  let go st' := match p with Start n => if Nat.eqb n (List.length st' * 4) then true else false | Within => true end in
  if Ascii.eqb c "010" then match p with Start (S _) => None | _ => Some (st, Start 0) end
  else match p with
  | Start n => if Ascii.eqb c " " then Some (st, Start (S n))
               else if closes c then
                 match st with k :: st' => if Ascii.eqb k c && go st' then Some (st', Within) else None | [] => None end
               else if go st then Some (match closer c with Some k => k :: st | None => st end, Within) else None
  | Within => if closes c then match st with k :: st' => if Ascii.eqb k c then Some (st', Within) else None | [] => None end
              else Some (match closer c with Some k => k :: st | None => st end, Within)
  end.
Fixpoint scan (st : list ascii) (p : place) (s : string) : option (list ascii * place) :=
  match s with
  | "" => Some (st, p)
  | String c s => match read_char st p c with Some (st', p') => scan st' p' s | None => None end
  end.
(** A text of whole lines that is indented by its brackets, all of which are closed, each by its own kind. *)
Definition laid_out (text : string) : Prop := scan [] (Start 0) text = Some ([], Start 0).

(** A name without blanks, line ends and brackets. *)
Definition quiet (c : ascii) : bool :=
  negb (Ascii.eqb c " " || Ascii.eqb c "010" || closes c || match closer c with Some _ => true | None => false end).
Definition is_quiet (s : string) : Prop := all_chars quiet s = true.
(** All names in a description. *)
Fixpoint type_names (t : tmeta) : list string :=
  match t with MPrim n _ => [cs_name n] | MRef n args => cs_name n :: flat_map type_names args | MParam s => [s] end.
Definition struct_names (s : smeta) : list string :=
  cs_name (sm_name s) :: sm_params s ++ flat_map (fun f => cs_name (fm_name f) :: type_names (fm_ty f)) (sm_fields s).
Definition message_names (m : message) : list string :=
  match m with
  | MStruct s => struct_names s
  | MEnum e => cs_name (em_name e) :: em_params e ++ flat_map (fun v => struct_names (fst v)) (em_variants e)
  end.

(** ** Proofs *)

Lemma scan_app a : forall st p b, scan st p (a +++ b) = match scan st p a with Some (st', p') => scan st' p' b | None => None end.
Proof.
  induction a as [|c a IH]; intros; [reflexivity|]. cbn [String.append scan]. destruct (read_char st p c) as [[st' p']|]; [apply IH|reflexivity].
Qed.
Lemma scan_spaces n : forall st k, scan st (Start k) (spaces n) = Some (st, Start (n + k)).
Proof.
  induction n as [|n IH]; intros; [reflexivity|]. cbn [spaces scan]. unfold read_char. cbn. rewrite IH. do 2 f_equal. f_equal. lia.
Qed.
(** A text that leaves the brackets as they are. *)
Definition flat (s : string) : Prop := forall st, scan st Within s = Some (st, Within).
Lemma flat_app a b : flat a -> flat b -> flat (a +++ b).
Proof. intros A B st. rewrite scan_app, A. apply B. Qed.
Lemma quiet_read c : quiet c = true -> Ascii.eqb c " " = false /\ Ascii.eqb c "010" = false /\ closes c = false /\ closer c = None.
Proof.
  unfold quiet. intros H. apply negb_true_iff, orb_false_elim in H as [H D]. apply orb_false_elim in H as [H C]. apply orb_false_elim in H as [A B].
  repeat split; auto. destruct (closer c); [discriminate|reflexivity].
Qed.
Lemma flat_quiet s : is_quiet s -> flat s.
Proof.
  unfold is_quiet. induction s as [|c s IH]; intros H st; [reflexivity|]. cbn in H. apply andb_prop in H as [Hc H]. apply quiet_read in Hc as (A & B & C & D).
  cbn [scan]. unfold read_char. rewrite B, C, D. now apply IH.
Qed.
Lemma quiet_id c : id_char c = true -> quiet c = true.
Proof. destruct c as [[] [] [] [] [] [] [] []]; vm_compute; congruence. Qed.
Lemma quiet_dec n : is_quiet (dec n).
Proof.
  pose proof (word_chars _ (word_dec n)) as H. unfold is_quiet. revert H. induction (dec n) as [|c s IH]; [reflexivity|]. cbn. intros H.
  apply andb_prop in H as [A B]. now rewrite (quiet_id _ A), (IH B).
Qed.
Lemma quiet_upper c : quiet c = true -> quiet (to_upper c) = true.
Proof. destruct c as [[] [] [] [] [] [] [] []]; vm_compute; congruence. Qed.
Lemma quiet_lower c : quiet c = true -> quiet (to_lower c) = true.
Proof. destruct c as [[] [] [] [] [] [] [] []]; vm_compute; congruence. Qed.
Lemma quiet_camel s : is_quiet s -> forall b, is_quiet (to_camel_case s b).
Proof.
  unfold is_quiet. induction s as [|c s IH]; intros H b; [reflexivity|]. cbn in H. apply andb_prop in H as [A B]. cbn [to_camel_case].
  destruct (Ascii.eqb c "_"); [now apply IH|]. destruct b; cbn [all_chars]; [rewrite quiet_upper by exact A|rewrite A]; now apply IH.
Qed.
Lemma quiet_uncap s : is_quiet s -> is_quiet (uncap_first_char s).
Proof.
  unfold is_quiet. destruct s as [|c s]; intros H; [reflexivity|]. cbn in *. apply andb_prop in H as [A B]. now rewrite quiet_lower, B.
Qed.
Lemma flat_join l : Forall flat l -> flat (join ", " l).
Proof.
  induction 1 as [|x l H F IH]; [now intros st|]. destruct l as [|y l]; [exact H|]. change (flat (x +++ ", " +++ join ", " (y :: l))).
  apply flat_app; [exact H|]. apply flat_app; [now intros st|exact IH].
Qed.
Lemma flat_angle l : Forall flat l -> flat ("<" +++ join ", " l +++ ">").
Proof.
  intros F st. rewrite scan_app. cbn [scan]. unfold read_char. cbn -[scan]. rewrite scan_app, (flat_join _ F). reflexivity.
Qed.
Lemma flat_params l : Forall is_quiet l -> flat (type_params l).
Proof.
  intros F. unfold type_params. destruct l as [|x l]; [now intros st|]. apply flat_angle. eapply Forall_impl; [|exact F]. intros. now apply flat_quiet.
Qed.

(** The calls on the writer, one by one. *)
Fixpoint follow (lvl : nat) (st : list ascii) (p : place) (ops : list wop) : option (nat * list ascii * place) :=
  match ops with
  | [] => Some (lvl, st, p)
  | WIndent :: ops => follow (S lvl) st p ops
  | WOutdent :: ops => follow (pred lvl) st p ops
  | WWrite s :: ops => match scan st p s with Some (st', p') => follow lvl st' p' ops | None => None end
  | WIndentation :: ops => match scan st p (spaces (lvl * 4)) with Some (st', p') => follow lvl st' p' ops | None => None end
  | WNewline :: ops => match scan st p nl with Some (st', p') => follow lvl st' p' ops | None => None end
  end.
Lemma follow_emit ops : forall lvl st p, scan st p (emit 4 lvl ops) = match follow lvl st p ops with Some (_, st', p') => Some (st', p') | None => None end.
Proof.
  induction ops as [|o ops IH]; intros; [reflexivity|].
  destruct o; cbn [emit follow]; try apply IH; rewrite scan_app; destruct (scan st p _) as [[? ?]|]; try reflexivity; apply IH.
Qed.
Lemma follow_app a : forall lvl st p b, follow lvl st p (a ++ b) = match follow lvl st p a with Some (l', st', p') => follow l' st' p' b | None => None end.
Proof.
  induction a as [|o a IH]; intros; [reflexivity|].
  destruct o; cbn [app follow]; try apply IH; destruct (scan st p _) as [[? ?]|]; try reflexivity; apply IH.
Qed.
(** Between lines the level is the number of open brackets. *)
Definition level_of (ops : list wop) : Prop := forall st, follow (List.length st) st (Start 0) ops = Some (List.length st, st, Start 0).
Lemma level_nil : level_of [].
Proof. intros st. reflexivity. Qed.
Lemma level_app a b : level_of a -> level_of b -> level_of (a ++ b).
Proof. intros A B st. rewrite follow_app, A. apply B. Qed.
Lemma level_flat {A} (f : A -> list wop) l : Forall (fun x => level_of (f x)) l -> level_of (flat_map f l).
Proof. induction 1; [exact level_nil|]. cbn [flat_map]. now apply level_app. Qed.
Lemma level_concat l : Forall level_of l -> level_of (List.concat l).
Proof. induction 1; [exact level_nil|]. cbn [List.concat]. now apply level_app. Qed.
Lemma level_when b l : level_of l -> level_of (when b l).
Proof. destruct b; [auto|intros; exact level_nil]. Qed.
Lemma level_newline : level_of newline.
Proof. intros st. reflexivity. Qed.

(** Reading the start of a line. *)
Definition starts (s : string) : Prop :=
  match s with "" => False | String c _ => Ascii.eqb c " " = false /\ Ascii.eqb c "010" = false /\ closes c = false end.
Lemma scan_start st s : starts s -> scan st (Start (List.length st * 4)) s = scan st Within s.
Proof.
  destruct s as [|c s]; [easy|]. intros (A & B & C). cbn [scan]. unfold read_char. rewrite A, B, C. now rewrite Nat.eqb_refl.
Qed.
Lemma starts_app a b : starts a -> starts (a +++ b).
Proof. destruct a; [easy|auto]. Qed.
Lemma starts_quiet a b : is_quiet a -> starts b -> starts (a +++ b).
Proof.
  destruct a as [|c a]; [auto|]. intros H _. unfold is_quiet in H. cbn in H. apply andb_prop in H as [H _]. apply quiet_read in H as (A & B & C & _). cbn. auto.
Qed.
(** A line, from a level that fits, to whatever brackets it leaves. *)
Lemma follow_line st s st' rest : starts s -> scan st Within s = Some (st', Within) ->
  follow (List.length st) st (Start 0) (writeln s ++ rest) = follow (List.length st) st' (Start 0) rest.
Proof.
  intros A B. cbn [writeln app follow]. rewrite scan_spaces, Nat.add_0_r. rewrite scan_start by exact A. now rewrite B.
Qed.
(** A line that starts with a closing bracket. *)
Lemma follow_close k st s st' rest : closes k = true -> scan st Within s = Some (st', Within) ->
  follow (List.length st) (k :: st) (Start 0) (writeln (String k s) ++ rest) = follow (List.length st) st' (Start 0) rest.
Proof.
  intros A B. cbn [writeln app follow]. rewrite scan_spaces, Nat.add_0_r. cbn [scan]. unfold read_char.
  assert (N : Ascii.eqb k "010" = false /\ Ascii.eqb k " " = false).
  { unfold closes in A. destruct (Ascii.eqb_spec k "}") as [->|]; [now split|]. destruct (Ascii.eqb_spec k ")") as [->|]; [now split|].
    destruct (Ascii.eqb_spec k ">") as [->|]; [now split|discriminate]. }
  destruct N as [-> ->]. rewrite A, Ascii.eqb_refl, Nat.eqb_refl. cbn [andb]. now rewrite B.
Qed.
Lemma level_line s : starts s -> flat s -> level_of (writeln s).
Proof. intros A B st. rewrite <- (app_nil_r (writeln s)). now rewrite (follow_line st s st). Qed.

Create HintDb lay.
#[local] Hint Resolve flat_quiet quiet_dec flat_params flat_app : lay.
Ltac literal s := lazymatch s with EmptyString => idtac | String _ ?r => literal r end.
(** Read a line made of literals and flat texts. *)
Ltac read_one st p a := first
  [ literal a; let v := eval cbv in (scan st p a) in change (scan st p a) with v
  | let F := fresh in assert (F : flat a) by eauto with lay; rewrite (F st); clear F ]; cbv beta iota.
Ltac read_line := repeat lazymatch goal with
  | |- scan ?st ?p (?a +++ ?b) = _ => rewrite scan_app; read_one st p a
  | |- scan ?st ?p ?a = Some _ => read_one st p a
  end; reflexivity.
Ltac start_line := first [exact (conj eq_refl (conj eq_refl eq_refl))|assumption|apply starts_app; start_line|apply starts_quiet; [solve [eauto with lay]|start_line]|match goal with H : _ |- _ => apply H; start_line end].
(** Carry on with the next call of the writer. *)
Ltac step := lazymatch goal with
  | |- follow _ _ _ (writeln _ ++ _) = _ =>
      first [refine (eq_trans (follow_line _ _ _ _ _ _) _); [start_line|read_line|] | refine (eq_trans (follow_close _ _ _ _ _ _ _) _); [reflexivity|read_line|]]
  | |- follow _ ?st ?p (WIndent :: ?r) = ?x => change (follow (List.length st) st p r = x)
  | |- follow (List.length (?k :: ?t)) ?st ?p (WOutdent :: ?r) = ?x => change (follow (List.length t) st p r = x)
  | |- follow ?l ?st (Start 0) (WNewline :: ?r) = ?x => change (follow l st (Start 0) r = x)
  | |- follow _ _ _ (?a ++ _) = _ => rewrite follow_app; let F := fresh in assert (F : level_of a) by eauto with lay; rewrite (F _); clear F; cbv beta iota
  | |- follow _ _ _ [] = _ => reflexivity
  end.
Ltac whole := let st := fresh "st" in intros st; unfold indent_writeln, outdent_writeln, newline;
  match goal with |- follow _ _ _ ?ops = _ => rewrite <- (app_nil_r ops) end; rewrite <- ?app_assoc; cbn [app]; rewrite <- ?app_assoc.
Ltac flat_tac := let st := fresh in intros st; read_line.
Ltac line := rewrite ?sapp_assoc; apply level_line; [start_line|flat_tac].
#[local] Hint Resolve level_nil level_app level_flat level_concat level_when level_newline : lay.

Lemma level_opening s : Forall is_quiet (cs_namespace s :: cs_used s) -> forall rest,
  follow 0 [] (Start 0) (gen_file_opening s ++ rest) = follow 1 ["}"%char] (Start 0) rest.
Proof.
  intros F rest. inversion_clear F as [|? ? N U].
  assert (L : level_of (flat_map (fun u => writeln ("using " +++ u +++ ";")) (ssort (["Steit.Builtins"; "Steit.Codec"; "Steit.Collections"; "Steit.State"; "Steit.State.Event"] ++ cs_used s)))).
  { apply level_flat, Forall_forall. intros u I. apply (proj1 (ssort_in _ _)) in I. assert (Q : is_quiet u).
    { apply in_app_or in I as [I|I]; [cbn in I; repeat destruct I as [<-|I]; try reflexivity; contradiction|]. rewrite Forall_forall in U. auto. }
    line. }
  unfold gen_file_opening, newline. rewrite <- ?app_assoc. cbn [app]. rewrite <- ?app_assoc. change 0%nat with (@List.length ascii []).
  step. step. step. step. step. step. reflexivity.
Qed.

Section Parts.
  Variables (access name type_name var_name : string) (params : list string) (fields : list csfield) (metas : list fmeta).
  Hypotheses (HA : starts access) (HA' : flat access) (HN : is_quiet name) (HT : flat type_name) (HT' : forall s, starts s -> starts (type_name +++ s))
    (HV : is_quiet var_name) (HP : Forall is_quiet params).
  Definition field_fits (f : csfield) : Prop :=
    is_quiet (cf_name f) /\ flat (cf_type f) /\ (forall p, fm_ty (cf_meta f) = MParam p -> is_quiet p).
  Definition meta_fits (f : fmeta) : Prop := forall p, fm_ty f = MParam p -> is_quiet p.
  Hypotheses (HF : Forall field_fits fields) (HM : Forall meta_fits metas).

  Lemma level_each (f : csfield -> list wop) : (forall x, field_fits x -> level_of (f x)) -> level_of (flat_map f fields).
  Proof. intros H. apply level_flat. eapply Forall_impl; [|exact HF]. exact H. Qed.
  Lemma level_init f : field_fits f -> level_of (field_init f).
  Proof. intros (A & B & C). unfold field_init. unfold cf_tag. destruct (fm_ty (cf_meta f)) as [| |p]; [exact level_nil|line|]. specialize (C p eq_refl). line. Qed.
  Lemma level_clear b f : field_fits f -> level_of (field_clear b f).
  Proof.
    intros (A & B & C) st. unfold field_clear.
    assert (X : scan st Within ("public static void Clear" +++ cf_name f +++ "UpdateHandlers() {") = Some ("}"%char :: st, Within)) by read_line.
    assert (Y : scan ("}"%char :: st) Within ("On" +++ cf_name f +++ "Update = null;") = Some ("}"%char :: st, Within)) by read_line.
    assert (N : scan ("}"%char :: st) (Start (S (List.length st) * 4)) ("On" +++ cf_name f +++ "Update = null;") = Some ("}"%char :: st, Within)).
    { change (S (List.length st)) with (List.length ("}"%char :: st)). rewrite scan_start by start_line. exact Y. }
    cbn [app follow]. rewrite scan_spaces, Nat.add_0_r, scan_start by start_line. rewrite X. cbv beta iota.
    destruct b; cbn [app follow].
    - change (scan ("}"%char :: st) Within " ") with (Some ("}"%char :: st, Within)). cbv beta iota. rewrite Y. reflexivity.
    - change (scan ("}"%char :: st) Within nl) with (Some ("}"%char :: st, Start 0)). cbv beta iota. rewrite scan_spaces, Nat.add_0_r. rewrite N. cbv beta iota.
      change (scan ("}"%char :: st) Within nl) with (Some ("}"%char :: st, Start 0)). cbv beta iota. rewrite scan_spaces, Nat.add_0_r. cbn [pred scan]. unfold read_char at 1.
      cbn [List.length]. change (closes "}") with true. cbn [Ascii.eqb Bool.eqb andb]. cbv beta iota. rewrite Nat.eqb_refl. reflexivity.
  Qed.
  Lemma level_wire f : meta_fits f -> level_of (field_wire f).
  Proof. intros H. unfold field_wire. unfold meta_fits in H. destruct (fm_ty f) as [n []| |p]; [line|line|line|]. specialize (H p eq_refl). line. Qed.
  Lemma level_nested f : field_fits f -> level_of (field_nested f).
  Proof. intros (A & B & C). unfold field_nested, cf_tag. destruct (fm_ty (cf_meta f)); [exact level_nil|line|line]. Qed.
  Lemma level_replace f : field_fits f -> level_of (field_replace f).
  Proof. intros (A & B & C). unfold field_replace, cf_tag. destruct (fm_ty (cf_meta f)); rewrite ?sapp_assoc; line. Qed.
  Lemma level_validate : level_of (validate params).
  Proof. unfold validate. apply level_flat. eapply Forall_impl; [|exact HP]. intros p Q. cbv beta. line. Qed.

  Lemma struct_properties_opens st rest :
    follow (List.length st) st (Start 0) (struct_properties type_name fields ++ rest) = follow (S (List.length st)) ("}"%char :: st) (Start 0) rest.
  Proof.
    unfold struct_properties, newline. rewrite <- ?app_assoc. cbn [app]. step. step. step.
    assert (level_of (flat_map (fun f => writeln ("public " +++ cf_type f +++ " " +++ cf_name f +++ " { get; private set; }")) fields)).
    { apply level_each. intros f (A & B & C). line. }
    step. step. reflexivity.
  Qed.
  Lemma level_ctor : level_of (struct_ctor access name params fields).
  Proof.
    assert (A : level_of (flat_map field_init fields)) by (apply level_each, level_init). pose proof level_validate as B.
    unfold struct_ctor. whole. repeat step.
  Qed.
  Lemma clear_all fs : Forall field_fits fs -> forall st, follow (S (List.length st)) ("}"%char :: st) Within
    (flat_map (fun f => [WNewline; WIndentation; WWrite ("On" +++ cf_name f +++ "Update = null;")]) fs) = Some (S (List.length st), "}"%char :: st, Within).
  Proof.
    induction 1 as [|f fs (A & _) F IH]; intros st; [reflexivity|]. cbn [flat_map app follow].
    change (scan ("}"%char :: st) Within nl) with (Some ("}"%char :: st, Start 0)). cbv beta iota. rewrite scan_spaces, Nat.add_0_r.
    change (S (List.length st)) with (List.length ("}"%char :: st)). rewrite scan_start by start_line.
    assert (Y : scan ("}"%char :: st) Within ("On" +++ cf_name f +++ "Update = null;") = Some ("}"%char :: st, Within)) by read_line.
    rewrite Y. apply IH.
  Qed.
  Lemma level_events : level_of (struct_events type_name fields).
  Proof.
    unfold struct_events. apply level_app.
    { apply level_each. intros f (A & B & C). line. }
    apply level_app; [apply level_when, level_newline|]. apply level_app; [apply level_each, level_clear|]. apply level_app; [apply level_when, level_newline|].
    intros st. cbn [app follow]. rewrite scan_spaces, Nat.add_0_r, scan_start by start_line.
    change (scan st Within "public static void ClearUpdateHandlers() {") with (Some ("}"%char :: st, Within)). cbv beta iota.
    pose proof (clear_all fields HF st) as C. destruct fields as [|f fs]; [reflexivity|]. cbn [some when app follow]. rewrite follow_app, C. cbv beta iota. cbn [app follow pred].
    change (scan ("}"%char :: st) Within nl) with (Some ("}"%char :: st, Start 0)). cbv beta iota. rewrite scan_spaces, Nat.add_0_r. cbn [scan]. unfold read_char at 1.
    change (closes "}") with true. cbn [Ascii.eqb Bool.eqb andb]. cbv beta iota. rewrite Nat.eqb_refl. reflexivity.
  Qed.
  Lemma level_deserialize : level_of (gen_deserialize access type_name var_name).
  Proof. unfold gen_deserialize. whole. repeat step. Qed.
  Lemma level_swire : level_of (struct_wire metas).
  Proof.
    assert (A : level_of (flat_map field_wire metas)) by (apply level_flat; eapply Forall_impl; [|exact HM]; exact level_wire).
    unfold struct_wire. whole. repeat step.
  Qed.
  Lemma level_snested : level_of (struct_nested fields).
  Proof. assert (A : level_of (flat_map field_nested fields)) by (apply level_each, level_nested). unfold struct_nested. whole. repeat step. Qed.
  Lemma level_sreplace : level_of (struct_replace fields).
  Proof. assert (A : level_of (flat_map field_replace fields)) by (apply level_each, level_replace). unfold struct_replace. whole. repeat step. Qed.
  Lemma level_replay : level_of gen_replay.
  Proof. unfold gen_replay. whole. repeat step. Qed.
  Lemma level_notify : level_of (struct_notify type_name).
  Proof. unfold struct_notify. whole. repeat step. Qed.
End Parts.

Lemma Forall_tl {A} (P : A -> Prop) l : Forall P l -> Forall P (tl l).
Proof. destruct 1; [constructor|assumption]. Qed.
Fixpoint flat_type (t : tmeta) : forall s, Forall is_quiet (type_names t) -> cs_field_type t = Ok s -> flat s.
Proof.
  destruct t as [n w|n args|p]; cbn [type_names cs_field_type]; intros s F E.
  - inversion_clear F as [|? ? Q _]. unfold cs_name in Q. destruct (n_csharp n); [|discriminate]. injection E as <-. now apply flat_quiet.
  - inversion_clear F as [|? ? Q G]. assert (L : forall l, all_ok (map cs_field_type args) = Ok l -> Forall flat l).
    { revert G. clear - flat_type. induction args as [|a args IH]; cbn [flat_map map all_ok]; intros G l E.
      - injection E as <-. constructor.
      - apply Forall_app in G as [G1 G2]. specialize (flat_type a). destruct (cs_field_type a) as [x| | |]; try discriminate. cbn [bind] in E.
        destruct (all_ok (map cs_field_type args)) as [l'| | |]; try discriminate. cbn [bind] in E. injection E as <-. constructor; [now apply flat_type|now apply IH]. }
    destruct args as [|a args]; [injection E as <-; now apply flat_quiet|]. destruct (all_ok _) as [l| | |]; try discriminate. cbn [bind] in E.
    specialize (L l eq_refl). destruct (String.eqb (cs_name n) "Box").
    + injection E as <-. destruct L; [now intros st|assumption].
    + injection E as <-. apply flat_app; [now apply flat_quiet|]. apply flat_angle. destruct (String.eqb _ _); [now apply Forall_tl|exact L].
  - inversion_clear F. injection E as <-. now apply flat_quiet.
Qed.
Lemma fields_fit fs l : Forall is_quiet (flat_map (fun f => cs_name (fm_name f) :: type_names (fm_ty f)) fs) ->
  all_ok (map field_from_meta fs) = Ok l -> Forall field_fits l /\ Forall meta_fits fs.
Proof.
  revert l. induction fs as [|f fs IH]; intros l F E; cbn [flat_map map all_ok] in *.
  - injection E as <-. auto.
  - apply Forall_app in F as [F1 F2]. inversion_clear F1 as [|? ? N T]. pose proof (flat_type (fm_ty f)) as X.
    assert (M : meta_fits f) by (intros p P; rewrite P in T; now inversion T).
    unfold field_from_meta in E at 1. destruct (cs_field_type (fm_ty f)) as [s| | |]; try discriminate. cbn [bind] in E.
    destruct (all_ok (map field_from_meta fs)) as [l'| | |]; try discriminate. cbn [bind] in E. injection E as <-.
    destruct (IH l' F2 eq_refl) as [A B]. split; constructor; auto. repeat split; cbn; auto using quiet_camel.
Qed.

(** The class of a struct, or of a variant. *)
Definition class_ops (access name type_name : string) (params : list string) (fields : list csfield) (metas : list fmeta) : list wop :=
  struct_properties type_name fields ++ struct_ctor access name params fields ++ struct_events type_name fields ++
  gen_deserialize access type_name (uncap_first_char name) ++ struct_wire metas ++ struct_nested fields ++ struct_replace fields ++
  gen_replay ++ struct_notify type_name ++ outdent_writeln "}".
Lemma level_class access name type_name params fields metas : starts access -> flat access -> is_quiet name -> flat type_name ->
  Forall is_quiet params -> Forall field_fits fields -> Forall meta_fits metas -> level_of (class_ops access name type_name params fields metas).
Proof.
  intros A A' N T P F M. unfold class_ops. unfold outdent_writeln. intros st.
  rewrite <- (app_nil_r (_ ++ _)), <- ?app_assoc. rewrite (struct_properties_opens type_name fields T F). change (S (List.length st)) with (List.length ("}"%char :: st)).
  pose proof (level_ctor access name params fields A A' N P F). pose proof (level_events type_name fields T F).
  pose proof (level_deserialize access type_name (uncap_first_char name) A A' T (quiet_uncap _ N)).
  pose proof (level_swire metas M). pose proof (level_snested fields F). pose proof (level_sreplace fields F). pose proof level_replay. pose proof (level_notify type_name T).
  step. step. step. step. step. step. step. step. cbn [app]. step. step. step.
Qed.
Lemma ok_eq {A} (a b : A) : Ok a = Ok b -> b = a.
Proof. congruence. Qed.
Lemma gen_struct_level s b cs ops : Forall is_quiet (struct_names s) -> gen_struct s b cs = Ok ops ->
  exists body, level_of body /\ ops = when (negb b) (gen_file_opening cs) ++ body ++ when (negb b) gen_file_closing.
Proof.
  intros F E. unfold struct_names in F. inversion_clear F as [|? ? N G]. apply Forall_app in G as [P G]. unfold gen_struct in E.
  destruct (all_ok (map field_from_meta (sm_fields s))) as [l| | |] eqn:X; try discriminate. cbn [bind] in E. apply ok_eq in E. subst ops.
  destruct (fields_fit _ _ G X) as [FF MF].
  exists (class_ops (if b then "internal" else "public") (cs_name (sm_name s)) (if b then cs_name (sm_name s) else cs_name (sm_name s) +++ type_params (sm_params s)) (sm_params s) l (sm_fields s)).
  split; [|unfold class_ops; rewrite <- ?app_assoc; reflexivity]. apply level_class; auto.
  - destruct b; exact (conj eq_refl (conj eq_refl eq_refl)).
  - destruct b; intros st; reflexivity.
  - destruct b; auto using flat_quiet, flat_app, flat_params.
Qed.

Lemma file_closes st : follow (S (List.length st)) ("}"%char :: st) (Start 0) gen_file_closing = Some (List.length st, st, Start 0).
Proof.
  change (S (List.length st)) with (List.length ("}"%char :: st)). unfold gen_file_closing, outdent_writeln. 
  change (WOutdent :: writeln "}") with (WOutdent :: writeln "}" ++ []). step. step. step.
Qed.
(** The class of an enum. *)
Section Enum.
  Variables (name type_name : string) (params : list string) (vs : list (smeta * N)) (d : smeta * N).
  Hypotheses (HN : is_quiet name) (HT : flat type_name) (HT' : forall s, starts s -> starts (type_name +++ s)) (HP : Forall is_quiet params)
    (HV : Forall (fun v => is_quiet (vname v)) vs) (HD : is_quiet (vname d)).
  Lemma level_variants (f : smeta * N -> list wop) : (forall v, is_quiet (vname v) -> level_of (f v)) -> level_of (flat_map f vs).
  Proof. intros H. apply level_flat. eapply Forall_impl; [|exact HV]. exact H. Qed.
  Lemma enum_properties_opens st rest :
    follow (List.length st) st (Start 0) (enum_properties type_name vs ++ rest) = follow (S (List.length st)) ("}"%char :: st) (Start 0) rest.
  Proof.
    assert (A : level_of (flat_map (fun v => writeln ("public const UInt32 " +++ variant_name v +++ "Tag = " +++ dec (snd v) +++ ";")) vs)).
    { apply level_variants. intros v Q. assert (is_quiet (variant_name v)) by (now apply quiet_camel). line. }
    assert (B : level_of (flat_map (fun v => writeln ("public " +++ vname v +++ " " +++ vname v +++ "Variant { get { return this.Variant as " +++ vname v +++ "; } }")) vs)).
    { apply level_variants. intros v Q. line. }
    unfold enum_properties, newline. rewrite <- ?app_assoc. cbn [app]. rewrite <- ?app_assoc. repeat step. reflexivity.
  Qed.
  Lemma level_ector : level_of (enum_ctor name params vs d).
  Proof.
    assert (A : level_of (flat_map (fun v => writeln ("case " +++ dec (snd v) +++ ": this.Variant = new " +++ vname v +++ "(this.Path.GetNested(" +++ dec (snd v) +++ ")); break;")) vs)).
    { apply level_variants. intros v Q. line. }
    pose proof (level_validate params HP) as B. unfold enum_ctor. whole. repeat step.
  Qed.
  Lemma level_eevents : level_of (enum_events name type_name vs).
  Proof.
    assert (A : level_of (flat_map (fun v => writeln ("public static " +++ name +++ " New" +++ variant_name v +++ "(Path path = null) { return new " +++ name +++ "(path, " +++ dec (snd v) +++ "); }")) vs)).
    { apply level_variants. intros v Q. assert (is_quiet (variant_name v)) by (now apply quiet_camel). line. }
    unfold enum_events. whole. repeat step.
  Qed.
  Lemma level_ewire : level_of (enum_wire vs).
  Proof.
    assert (A : level_of (flat_map (fun v : smeta * N => writeln ("case " +++ dec (snd v) +++ ": return WireType.Sized;")) vs)).
    { apply level_variants. intros v Q. line. }
    unfold enum_wire. whole. repeat step.
  Qed.
  Lemma level_enested : level_of enum_nested.
  Proof. unfold enum_nested. whole. repeat step. Qed.
  Lemma level_ereplace : level_of (enum_replace vs).
  Proof.
    assert (A : level_of (flat_map (fun v => writeln ("case " +++ dec (snd v) +++ ": this.UpdateAndNotify(" +++ dec (snd v) +++ ", " +++ vname v +++
      ".Deserialize(reader, this.Path.GetNested(" +++ dec (snd v) +++ ")), shouldNotify); break;")) vs)).
    { apply level_variants. intros v Q. line. }
    unfold enum_replace. whole. repeat step.
  Qed.
  Lemma level_enotify : level_of (enum_notify type_name).
  Proof. unfold enum_notify. whole. repeat step. Qed.
End Enum.
Lemma variants_level cs vs l : Forall (fun v : smeta * N => Forall is_quiet (struct_names (fst v))) vs -> all_ok (map (enum_variant cs) vs) = Ok l -> Forall level_of l.
Proof.
  intros F. revert l. induction F as [|v vs Q F IH]; intros l E; cbn [map all_ok] in E; [injection E as <-; constructor|].
  unfold enum_variant in E at 1. destruct (gen_struct (fst v) true cs) as [ops| | |] eqn:X; try discriminate. cbn [bind] in E.
  destruct (all_ok (map (enum_variant cs) vs)) as [l'| | |]; try discriminate. cbn [bind] in E. apply ok_eq in E. subst l. constructor; [|now apply IH].
  destruct (gen_struct_level _ _ _ _ Q X) as (body & B & ->). cbn [negb when app]. rewrite app_nil_r.
  assert (N : is_quiet (vname v)) by (unfold struct_names in Q; now inversion_clear Q).
  apply level_app; [exact level_newline|]. apply level_app; [line|]. apply level_app; [exact level_newline|exact B].
Qed.

(** C100. *)
Theorem c100_layout : forall m cs text, Forall is_quiet (message_names m) -> Forall is_quiet (cs_namespace cs :: cs_used cs) ->
  gen_text m cs = Ok text -> laid_out text.
Proof.
  intros m cs text F US E. unfold gen_text in E. destruct (gen_message m cs) as [ops| | |] eqn:G; try discriminate. cbn [bind] in E. apply ok_eq in E. subst text.
  unfold laid_out. rewrite follow_emit. destruct m as [s|e]; cbn [gen_message message_names] in *.
  - destruct (gen_struct_level _ _ _ _ F G) as (body & B & ->). cbn [negb when]. rewrite level_opening by exact US. rewrite follow_app.
    change 1%nat with (List.length ["}"%char]). rewrite B. change (List.length ["}"%char]) with (Datatypes.S (@List.length ascii [])). rewrite (file_closes []). reflexivity.
  - inversion_clear F as [|? ? Q0 F']. apply Forall_app in F' as [P V]. unfold gen_enum in G.
    destruct (find _ _) as [d|] eqn:D; [|discriminate]. destruct (all_ok (map (enum_variant cs) (em_variants e))) as [structs| | |] eqn:A; try discriminate.
    cbn [bind] in G. apply ok_eq in G. subst ops.
    assert (V' : Forall (fun v : smeta * N => Forall is_quiet (struct_names (fst v))) (em_variants e)).
    { revert V. clear. induction (em_variants e) as [|v vs IH]; [constructor|]. cbn [flat_map]. intros V. apply Forall_app in V as [V1 V2]. constructor; auto. }
    assert (VN : Forall (fun v => is_quiet (vname v)) (em_variants e)) by (eapply Forall_impl; [|exact V']; intros v Q; unfold struct_names in Q; now inversion_clear Q).
    assert (DN : is_quiet (vname d)) by (apply find_some in D as [I _]; rewrite Forall_forall in VN; auto).
    pose proof (level_concat _ (variants_level _ _ _ V' A)) as L.
    set (name := cs_name (em_name e)) in *. set (tn := name +++ type_params (em_params e)).
    assert (T : flat tn) by (apply flat_app; [now apply flat_quiet|now apply flat_params]).
    assert (T' : forall s, starts s -> starts (tn +++ s)).
    { intros s I. unfold tn. rewrite sapp_assoc. apply starts_quiet; [exact Q0|]. unfold type_params. destruct (em_params e); [exact I|].
      exact (conj eq_refl (conj eq_refl eq_refl)). }
    rewrite level_opening by exact US. change 1%nat with (List.length ["}"%char]). rewrite (enum_properties_opens tn (em_variants e) T VN).
    change (Datatypes.S (List.length ["}"%char])) with (List.length ["}"%char; "}"%char]).
    pose proof (level_ector name (em_params e) (em_variants e) d Q0 P VN DN). pose proof (level_eevents name tn (em_variants e) Q0 T VN).
    assert (level_of (gen_deserialize "public" tn (uncap_first_char name))).
    { apply level_deserialize; [exact (conj eq_refl (conj eq_refl eq_refl))|now intros st|exact T|now apply quiet_uncap]. }
    pose proof (level_ewire (em_variants e) VN). pose proof level_enested. pose proof (level_ereplace (em_variants e) VN). pose proof level_replay.
    pose proof (level_enotify tn T T'). unfold outdent_writeln.
    match goal with |- match ?f with _ => _ end = _ => assert (R : f = Some (0%nat, [], Start 0)); [|now rewrite R] end.
    do 9 step. cbn [app]. step. step. exact (file_closes []).
Qed.
Print Assumptions c100_layout.

(** ** When there is a text *)

(** Every primitive type in it has a name in C#. *)
Fixpoint named (t : tmeta) : Prop :=
  match t with MPrim n _ => n_csharp n <> None | MRef _ args => fold_right (fun a P => named a /\ P) True args | MParam _ => True end.
Definition all_named (s : smeta) : Prop := Forall (fun f => named (fm_ty f)) (sm_fields s).
Definition generable (m : message) : Prop :=
  match m with
  | MStruct s => all_named s
  | MEnum e => Forall (fun v => all_named (fst v)) (em_variants e) /\ Exists (fun v => snd v = 0) (em_variants e)
  end.

Lemma all_ok_total {A B} (f : A -> res B) (P : A -> Prop) l :
  (forall x, In x l -> (P x /\ exists y, f x = Ok y) \/ (~ P x /\ f x = Panic)) ->
  (Forall P l /\ exists r, all_ok (map f l) = Ok r) \/ (~ Forall P l /\ all_ok (map f l) = Panic).
Proof.
  induction l as [|x l IH]; intros H; [left; split; [constructor|]; now exists []|]. cbn [map all_ok].
  destruct (H x (or_introl eq_refl)) as [[Px [y E]]|[Px E]]; rewrite E; cbn [bind].
  - destruct IH as [[F [r R]]|[F R]]; [intros; apply H; now right| |]; rewrite R; cbn [bind].
    + left. split; [now constructor|]. eauto.
    + right. split; [|reflexivity]. intros X. inversion X. auto.
  - right. split; [|reflexivity]. intros X. inversion X. auto.
Qed.
Lemma fold_and {A} (P : A -> Prop) l : fold_right (fun a Q => P a /\ Q) True l <-> Forall P l.
Proof. induction l as [|x l IH]; cbn; split; intros H; auto; [destruct H; constructor; tauto|inversion H; tauto]. Qed.
Lemma type_total t : (named t /\ exists s, cs_field_type t = Ok s) \/ (~ named t /\ cs_field_type t = Panic).
Proof.
  induction t as [n w|n args IH|p] using tmeta_ind'; cbn [named cs_field_type].
  - destruct (n_csharp n); [left; split; [discriminate|eauto]|right; split; [tauto|reflexivity]].
  - destruct args as [|a args]; [left; split; [exact I|eauto]|].
    rewrite fold_and. destruct (all_ok_total cs_field_type named (a :: args)) as [[F [r R]]|[F R]].
    + rewrite Forall_forall in IH. exact IH.
    + left. split; [exact F|]. rewrite R. cbn [bind]. destruct (String.eqb _ _); eauto.
    + right. split; [exact F|]. rewrite R. reflexivity.
  - left. split; [exact I|eauto].
Qed.
Lemma struct_total s b cs : (all_named s /\ exists o, gen_struct s b cs = Ok o) \/ (~ all_named s /\ gen_struct s b cs = Panic).
Proof.
  unfold gen_struct, all_named. destruct (all_ok_total field_from_meta (fun f => named (fm_ty f)) (sm_fields s)) as [[F [r R]]|[F R]].
  - intros f _. unfold field_from_meta. destruct (type_total (fm_ty f)) as [[A [x B]]|[A B]]; rewrite B; cbn [bind]; eauto.
  - left. split; [exact F|]. rewrite R. cbn [bind]. eauto.
  - right. split; [exact F|]. rewrite R. reflexivity.
Qed.
(** There is a text exactly if all primitive types have names and an enum has a variant with tag 0; else the
    generator panics. *)
Theorem c100_total : forall m cs,
  (generable m -> exists text, gen_text m cs = Ok text) /\ (~ generable m -> gen_text m cs = Panic).
Proof.
  intros m cs. assert (T : (generable m /\ exists o, gen_message m cs = Ok o) \/ (~ generable m /\ gen_message m cs = Panic)).
  { destruct m as [s|e]; cbn [generable gen_message]; [apply struct_total|]. unfold gen_enum.
    destruct (find (fun v : smeta * N => snd v =? 0) (em_variants e)) as [d|] eqn:D.
    - destruct (all_ok_total (enum_variant cs) (fun v => all_named (fst v)) (em_variants e)) as [[F [r R]]|[F R]].
      + intros v _. unfold enum_variant. destruct (struct_total (fst v) true cs) as [[A [x B]]|[A B]]; rewrite B; cbn [bind]; eauto.
      + left. split; [split; [exact F|]|rewrite R; cbn [bind]; eauto]. apply find_some in D as [I Z]. apply Exists_exists. exists d. split; [exact I|lia].
      + right. split; [tauto|]. rewrite R. reflexivity.
    - right. split; [|reflexivity]. intros [_ X]. apply Exists_exists in X as (v & I & Z). pose proof (find_none _ _ D v I) as Y. cbv beta in Y. lia. }
  unfold gen_text. destruct T as [[G [o E]]|[G E]]; rewrite E; cbn [bind]; split; intros; try contradiction; eauto.
Qed.
Print Assumptions c100_total.

(** ** From declarations *)

(** All names in a declaration. *)
Definition field_names (fs : list field) : list string := map (fun f => cs_name (fd_name f)) fs.
Definition decl_names (d : decl) : list string :=
  cs_name (d_name d) :: d_params d ++
  match d_body d with BStruct fs => field_names fs | BEnum vs => flat_map (fun v => cs_name (fst (fst v)) :: field_names (snd v)) vs end.
Lemma decl_of_quiet e i : Forall (fun d => Forall is_quiet (decl_names d)) e -> Forall is_quiet (decl_names (decl_of e i)).
Proof.
  intros F. unfold decl_of. destruct (nth_in_or_default i e no_decl) as [H| ->]; [rewrite Forall_forall in F; now apply F|].
  repeat constructor.
Qed.
Lemma name_of_quiet e i : Forall (fun d => Forall is_quiet (decl_names d)) e -> is_quiet (cs_name (d_name (decl_of e i))).
Proof. intros F. apply (decl_of_quiet e i) in F. unfold decl_names in F. now inversion_clear F. Qed.
Lemma quiet_types e (E : Forall (fun d => Forall is_quiet (decl_names d)) e) t : Forall is_quiet (type_names (type_of e t)) /\ named (type_of e t).
Proof.
  induction t as [k| | | |t IH|t IH|n t IH|t IH|k t IH|t IH|d args IH|i|t IH] using rty_ind'; cbn [type_of type_names named flat_map fold_right];
    try (split; [repeat constructor; fail|try discriminate; try exact I]); rewrite ?app_nil_r;
    try (destruct IH as [A B]; split; [constructor; [reflexivity|exact A]|now split]); try exact IH.
  - split; [destruct k; repeat constructor|destruct k; discriminate].
  - split; [constructor; [now apply name_of_quiet|]|].
    + induction IH as [|a args [A _] _ IHl]; [constructor|]. cbn [map flat_map]. now apply Forall_app.
    + apply fold_and. apply Forall_map. eapply Forall_impl; [|exact IH]. now intros a [_ B].
Qed.
Lemma quiet_field_types e ps (E : Forall (fun d => Forall is_quiet (decl_names d)) e) (P : Forall is_quiet ps) t :
  Forall is_quiet (type_names (field_type_meta e ps t)) /\ named (field_type_meta e ps t).
Proof.
  induction t as [k| | | |t IH|t IH|n t IH|t IH|k t IH|t IH|d args IH|i|t IH] using rty_ind'; cbn [field_type_meta];
    try (apply quiet_types; exact E); cbn [type_names named flat_map fold_right]; rewrite ?app_nil_r;
    try (destruct IH as [A B]; split; [constructor; [reflexivity|exact A]|now split]).
  - destruct IH as [A B]. split; [constructor; [reflexivity|]; apply Forall_app; split; [destruct k; repeat constructor|exact A]|].
    split; [destruct k; discriminate|now split].
  - split; [constructor; [now apply name_of_quiet|]|].
    + induction IH as [|a args [A _] _ IHl]; [constructor|]. cbn [map flat_map]. now apply Forall_app.
    + apply fold_and. apply Forall_map. eapply Forall_impl; [|exact IH]. now intros a [_ B].
  - split; [constructor; [|constructor]|exact I]. destruct (nth_in_or_default i ps "") as [H| ->]; [rewrite Forall_forall in P; now apply P|reflexivity].
Qed.
Lemma quiet_fields e ps fs : Forall (fun d => Forall is_quiet (decl_names d)) e -> Forall is_quiet ps -> Forall is_quiet (field_names fs) ->
  Forall is_quiet (flat_map (fun f => cs_name (fm_name f) :: type_names (fm_ty f)) (map (field_meta e ps) fs)).
Proof.
  intros E P. induction fs as [|f fs IH]; intros F; [constructor|]. cbn [map flat_map field_names] in *. inversion_clear F as [|? ? A B].
  apply Forall_app. split; [constructor; [exact A|apply quiet_field_types; assumption]|now apply IH].
Qed.
Lemma quiet_decl e d : Forall (fun d => Forall is_quiet (decl_names d)) e -> Forall is_quiet (decl_names d) -> Forall is_quiet (message_names (decl_msg e d)).
Proof.
  intros E D. unfold decl_names in D. inversion_clear D as [|? ? A B]. apply Forall_app in B as [P B]. unfold decl_msg. destruct (d_body d) as [fs|vs]; cbn [message_names].
  - unfold struct_names. constructor; [exact A|]. apply Forall_app. split; [exact P|]. now apply quiet_fields.
  - constructor; [exact A|]. apply Forall_app. split; [exact P|]. cbn [em_variants]. induction vs as [|[[n tag] fs] vs IH]; [constructor|]. cbn [flat_map map fst snd] in *.
    apply Forall_app in B as [B1 B2]. inversion_clear B1 as [|? ? N F]. apply Forall_app. split; [|now apply IH].
    unfold struct_names. constructor; [exact N|]. cbn [sm_params struct_meta app]. now apply quiet_fields.
Qed.
Lemma collected_from e g (P : message -> Prop) : (forall i, P (decl_msg e (decl_of e i))) -> forall fuel t st st',
  visit_link rty (type_of e) (msg_of e) (links_of e) g fuel t st = Ok st' -> Forall (fun p => P (snd p)) (snd st) -> Forall (fun p => P (snd p)) (snd st').
Proof.
  intros H. assert (M : forall t m, msg_of e t = Some m -> P m).
  { induction t; cbn [msg_of]; intros m X; try discriminate; auto. injection X as <-. apply H. }
  induction fuel as [|f IH]; intros t [seen msgs] st' E F; [discriminate|]. cbn [visit_link] in E. cbn [snd] in F.
  assert (F' : Forall (fun p => P (snd p)) (match msg_of e t with Some m => or_insert (g m) m msgs | None => msgs end)).
  { destruct (msg_of e t) as [m|] eqn:X; [|exact F]. unfold or_insert. destruct (str_mem _ _); [exact F|]. apply Forall_app. split; [exact F|]. constructor; [|constructor]. eauto. }
  destruct (tmem _ _); [injection E as <-; exact F'|].
  assert (L : forall ls st st', each_link rty (visit_link rty (type_of e) (msg_of e) (links_of e) g f) ls st = Ok st' -> Forall (fun p => P (snd p)) (snd st) -> Forall (fun p => P (snd p)) (snd st')).
  { induction ls as [|l ls IHl]; intros s1 s2 E1 F1; cbn [each_link] in E1; [injection E1 as <-; exact F1|].
    destruct (visit_link _ _ _ _ _ f l s1) as [s3| | |] eqn:V; try discriminate. cbn [bind] in E1. apply (IHl _ _ E1). exact (IH _ _ _ V F1). }
  exact (L _ _ _ E F').
Qed.
Lemma gen_each_sub s l l' : gen_each s l = Ok l' -> forall p, In p l' -> In p l.
Proof.
  revert l'. induction l as [|[n m] l IH]; intros l' E p I; cbn [gen_each] in E; [injection E as <-; contradiction|].
  destruct (_ && _); [right; eauto|]. destruct (str_mem _ _); [right; eauto|]. destruct (gen_ok m); [|discriminate].
  destruct (gen_each s l) as [x| | |]; try discriminate. cbn [bind] in E. injection E as <-. destruct I as [<-|I]; [now left|right; eauto].
Qed.
(** Every file generated from declarations is laid out. *)
Theorem c100_files : forall fuel e s cs root files, Forall (fun d => Forall is_quiet (decl_names d)) e -> Forall is_quiet (cs_namespace cs :: cs_used cs) ->
  gen_files fuel e s cs root = Ok files -> Forall (fun f => laid_out (snd f)) files.
Proof.
  intros fuel e s cs root files E US G. unfold gen_files in G. destruct (generate fuel e s root) as [l| | |] eqn:X; try discriminate. cbn [bind] in G.
  assert (Q : Forall (fun p => Forall is_quiet (message_names (snd p))) l).
  { unfold generate, collect_meta, collect in X. destruct (visit_link _ _ _ _ _ fuel root _) as [[seen msgs]| | |] eqn:V; try discriminate. cbn [bind] in X.
    apply (collected_from e _ (fun m => Forall is_quiet (message_names m))) in V; [|intros i; apply quiet_decl; [exact E|now apply decl_of_quiet]|constructor].
    apply Forall_forall. intros p I. apply (gen_each_sub _ _ _ X) in I. rewrite Forall_forall in V. exact (V p I). }
  clear X. revert files G. induction Q as [|p l Q _ IH]; intros files G; cbn [map all_ok] in G; [injection G as <-; constructor|].
  destruct (gen_text (snd p) cs) as [t| | |] eqn:T; try discriminate. cbn [bind] in G. destruct (all_ok _) as [r| | |]; try discriminate. cbn [bind] in G.
  apply ok_eq in G. subst files. constructor; [|now apply IH]. exact (c100_layout _ _ _ Q US T).
Qed.
Print Assumptions c100_files.
(** A declaration has a text unless it is an enum without a variant of tag 0. *)
Theorem c100_declared : forall e d cs,
  match d_body d with BEnum vs => ~ Exists (fun v => snd (fst v) = 0) vs -> gen_text (decl_msg e d) cs = Panic | BStruct _ => True end /\
  (match d_body d with BEnum vs => Exists (fun v => snd (fst v) = 0) vs | BStruct _ => True end -> exists text, gen_text (decl_msg e d) cs = Ok text).
Proof.
  assert (T : forall e t, named (type_of e t)).
  { intros e. induction t as [k| | | |t IH|t IH|n t IH|t IH|k t IH|t IH|d args IH|i|t IH] using rty_ind'; cbn [type_of named fold_right]; try discriminate; auto;
      [destruct k; discriminate|]. apply fold_and, Forall_map. exact IH. }
  assert (F : forall e ps t, named (field_type_meta e ps t)).
  { intros e ps. induction t as [k| | | |t IH|t IH|n t IH|t IH|k t IH|t IH|d args IH|i|t IH] using rty_ind'; cbn [field_type_meta]; try apply T; cbn [named fold_right]; auto.
    apply fold_and, Forall_map. exact IH. }
  assert (A : forall e d n ps fs, all_named (struct_meta e d n ps fs)).
  { intros e d n ps fs. unfold all_named. cbn [struct_meta sm_fields]. apply Forall_map, Forall_forall. intros f _. apply F. }
  intros e d cs. destruct (c100_total (decl_msg e d) cs) as [Y N]. revert Y N. unfold decl_msg. destruct (d_body d) as [fs|vs]; cbn [generable em_variants]; intros Y N.
  - split; [exact I|]. intros _. apply Y, A.
  - split.
    + intros X. apply N. intros [_ Z]. apply X. apply Exists_exists in Z as (v & I1 & Z). apply in_map_iff in I1 as ([[n tag] fs] & <- & I1).
      apply Exists_exists. exists ((n, tag), fs). split; [exact I1|exact Z].
    + intros X. apply Y. split.
      * apply Forall_map, Forall_forall. intros [[n tag] fs] _. apply A.
      * apply Exists_exists in X as ([[n tag] fs] & I1 & Z). apply Exists_exists. exists (struct_meta e d n [] fs, tag). split; [|exact Z].
        apply in_map_iff. exists ((n, tag), fs). split; [reflexivity|exact I1].
Qed.
Print Assumptions c100_declared.

(** A generic enum of two variants, and its text. *)
Example c100_case :
  let a := SM (NM "Alone" None) [] [] false in
  let b := SM (NM "With" None) [] [FM (NM "the_map" None) (MRef (NM "Map" (Some "StateMap")) [MPrim (NM "u8" (Some "Byte")) Varint; MParam "T"]) 3;
                                   FM (NM "n" None) (MPrim (NM "i32" (Some "Int32")) Varint) 7] false in
  let m := MEnum (EM (NM "Pair" None) ["T"; "U"] [(b, 4); (a, 0)] false) in
  generable m /\ Forall is_quiet (message_names m) /\
  match gen_text m (CS "A.B" ["Zed"]) with
  | Ok text => laid_out text /\ (String.length text > 4000)%nat /\ ~ laid_out (text +++ "}" +++ nl) /\ ~ laid_out (" " +++ text)
  | _ => False
  end /\
  gen_text (MEnum (EM (NM "Pair" None) [] [(a, 1)] false)) (CS "A" []) = Panic /\
  match gen_text (MStruct (SM (NM "A" (Some "A{")) [] [] false)) (CS "A" []) with Ok text => ~ laid_out text | _ => False end.
Proof.
  cbv zeta. split.
  { split; [repeat constructor; cbn; try discriminate; auto|]. apply Exists_cons_tl, Exists_cons_hd. reflexivity. }
  split; [repeat (constructor; [reflexivity|]); constructor|].
  split; [|split; [reflexivity|vm_compute; discriminate]].
  set (t := gen_text _ _). vm_compute in t. subst t. cbv beta iota.
  split; [vm_compute; reflexivity|]. split; [apply Nat.ltb_lt; vm_compute; reflexivity|]. split; vm_compute; discriminate.
Qed.
(** Two declarations, the second one reached from the first. *)
Example c100_env :
  let e := [DL (NM "Outer" None) ["T"] (BStruct [FD (NM "inner" None) (RUser 1 []) 0; FD (NM "t" None) (RMap K8 (RVar 0)) 1]) false;
            DL (NM "Inner" None) [] (BEnum [((NM "Nothing" None, 0), []); ((NM "Much" None, 5), [FD (NM "x" None) (RInt U8) 0])]) false] in
  Forall (fun d => Forall is_quiet (decl_names d)) e /\
  match gen_files 5 e (GS csharp_name true []) (CS "A" []) (RUser 0 [RBool]) with
  | Ok files => map fst files = ["Outer.cs"; "Inner.cs"] /\ Forall (fun f => laid_out (snd f)) files
  | _ => False
  end /\
  gen_text (decl_msg e (DL (NM "Bad" None) [] (BEnum [((NM "One" None, 1), [])]) false)) (CS "A" []) = Panic.
Proof.
  cbv zeta. split; [repeat constructor|]. split; [|reflexivity].
  set (t := gen_files _ _ _ _ _). vm_compute in t. subst t. cbv beta iota. split; [reflexivity|]. repeat (constructor; [vm_compute; reflexivity|]). constructor.
Qed.
