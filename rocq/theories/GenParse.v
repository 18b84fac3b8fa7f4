(** Parsing what the generator writes: proofs for PropGen.v. *)
From Verif Require Import Base Varint WireFmt Types Meta Gen CsRead GenSpec GenLex.
From Coq Require Ascii DecimalString DecimalFacts DecimalPos DecimalN.
From Coq Require Import String Lia.
Import Ascii String.StringSyntax.
Local Open Scope string_scope.
Local Open Scope list_scope.
Local Open Scope N_scope.

(** ** Numbers and names *)

Lemma to_uint_not_nil n : N.to_uint n <> Decimal.Nil.
Proof.
  destruct n as [|p]; [discriminate|]. cbn. intros H.
  pose proof (DecimalPos.Unsigned.of_to p) as E. rewrite H in E. discriminate.
Qed.
Lemma number_dec n : number (dec n) = Some n.
Proof.
  unfold number, dec. rewrite DecimalString.NilZero.usu by apply to_uint_not_nil. cbn.
  now rewrite DecimalN.Unsigned.of_to.
Qed.
Lemma digits_word d : all_chars id_char (DecimalString.NilEmpty.string_of_uint d) = true.
Proof. induction d; cbn [DecimalString.NilEmpty.string_of_uint all_chars]; rewrite ?IHd; reflexivity. Qed.
Lemma word_dec n : word (dec n) = true.
Proof.
  unfold dec, DecimalString.NilZero.string_of_uint. pose proof (to_uint_not_nil n) as H.
  pose proof (digits_word (N.to_uint n)) as D. destruct (N.to_uint n); [now contradict H|..]; exact D.
Qed.
Lemma start_not_digit c : id_start c = true -> is_digit c = false.
Proof.
  unfold id_start, is_digit, is_lower, is_upper. destruct (Ascii.eqb_spec c "_") as [->|]; [reflexivity|].
  rewrite orb_false_r. intros H. apply orb_prop in H. apply andb_false_iff. right. apply N.leb_gt.
  destruct H as [H|H]; apply andb_prop in H; destruct H as [H _]; apply N.leb_le in H; lia.
Qed.
Lemma uint_of_char_start c d : id_start c = true -> DecimalString.uint_of_char c d = None.
Proof.
  intros H. apply start_not_digit in H. destruct d as [d|]; [|reflexivity].
  destruct c as [[] [] [] [] [] [] [] []]; try discriminate H; reflexivity.
Qed.
Lemma ident_number w : ident w = true -> number w = None.
Proof.
  unfold ident. destruct w as [|c w]; [discriminate|]. intros H. apply andb_prop in H. destruct H as [H _].
  apply andb_prop in H. destruct H as [H _]. unfold number, DecimalString.NilZero.uint_of_string.
  cbn [DecimalString.NilEmpty.uint_of_string]. now rewrite uint_of_char_start.
Qed.
Lemma ident_not_keyword w k : ident w = true -> str_mem k keywords = true -> String.eqb w k = false.
Proof.
  intros H K. destruct (String.eqb_spec w k) as [->|]; [|reflexivity].
  unfold ident in H. rewrite K in H. now rewrite andb_false_r in H.
Qed.
Lemma type_ident_word w : type_ident w = true -> type_word w = true.
Proof. intros H. unfold type_word. now rewrite H. Qed.
Lemma type_ident_ident w : type_ident w = true -> ident w = true.
Proof. intros H. apply andb_prop in H. apply H. Qed.
(** Keywords begin with lower-case letters. *)
Lemma keywords_lower w : str_mem w keywords = true -> match w with "" => False | String c _ => is_upper c = false end.
Proof.
  assert (E : forallb (fun k => match k with "" => false | String c _ => negb (is_upper c) end) keywords = true) by reflexivity.
  unfold str_mem. intros H. apply existsb_exists in H. destruct H as (k & Hk & Ek). apply String.eqb_eq in Ek. subst k.
  rewrite forallb_forall in E. specialize (E w Hk). destruct w; [discriminate|]. now apply negb_true_iff.
Qed.
Lemma ident_upper c w : is_upper c = true -> all_chars id_char w = true -> ident (String c w) = true.
Proof.
  intros Hc Hw. unfold ident. rewrite Hw. unfold id_start. rewrite Hc, orb_true_r. cbn [orb andb].
  destruct (str_mem (String c w) keywords) eqn:E; [|reflexivity]. apply keywords_lower in E. congruence.
Qed.
Lemma word_chars w : word w = true -> all_chars id_char w = true.
Proof. destruct w; [discriminate|auto]. Qed.
Lemma ident_glue c a w b : is_upper c = true -> all_chars id_char a = true -> word w = true -> all_chars id_char b = true ->
  ident (String c (a +++ w +++ b)) = true.
Proof. intros. apply ident_upper; [assumption|]. rewrite !all_chars_app, H0, H2, word_chars; auto. Qed.
Lemma ident_chars w : ident w = true -> all_chars id_char w = true.
Proof. intros H. apply word_chars, ident_word, H. Qed.

(** ** Types *)

Definition not_lt (l : list tok) : bool := match l with Pc "<" :: _ => false | _ => true end.
Definition reads_type (t : cname) : Prop := forall f rest, not_lt rest = true ->
  (2 * List.length (ctoks t) <= S f)%nat -> ptype f (ctoks t ++ rest) = Some (t, rest).
Lemma ptypes_ok a args : Forall reads_type (a :: args) -> forall f rest,
  (2 * List.length (sep_toks ctoks (a :: args)) <= f)%nat ->
  ptypes f (sep_toks ctoks (a :: args) ++ Pc ">" :: rest) = Some (a :: args, rest).
Proof.
  revert a. induction args as [|b args IHa]; intros a IH f rest Hf.
  - cbn [sep_toks] in *. inversion IH as [|? ? Hx _]; subst.
    destruct f as [|f]; [destruct a; cbn in Hf; lia|]. cbn [ptypes].
    rewrite Hx by (reflexivity || lia). reflexivity.
  - inversion IH as [|? ? Hx Hy]; subst.
    assert (E : sep_toks ctoks (a :: b :: args) = ctoks a ++ Pc "," :: sep_toks ctoks (b :: args)) by reflexivity.
    rewrite E in *. rewrite <- app_assoc. cbn [app].
    destruct f as [|f]; [destruct a; cbn in Hf; lia|]. cbn [ptypes].
    rewrite app_length in Hf. cbn [List.length] in Hf.
    rewrite Hx by (reflexivity || lia). cbn [pbind].
    rewrite IHa by (assumption || lia). reflexivity.
Qed.
Lemma ptype_ok t : cn_all type_word t = true -> reads_type t.
Proof.
  induction t as [n args IH] using cname_ind'. cbn [cn_all]. intros H f rest Hr Hf.
  apply andb_prop in H. destruct H as [Hn Ha]. cbn [ctoks] in *.
  destruct f as [|f]; [cbn in Hf; lia|]. cbn [app ptype]. rewrite Hn.
  destruct args as [|a args].
  - cbn [app]. destruct rest as [|[w|c] rest]; try reflexivity.
    destruct c as [[] [] [] [] [] [] [] []]; try reflexivity. discriminate Hr.
  - cbn [app]. rewrite <- app_assoc. cbn [app]. rewrite ptypes_ok; [reflexivity| |].
    + rewrite Forall_forall in *. rewrite forallb_forall in Ha. auto.
    + cbn [List.length] in Hf. rewrite app_length in Hf. cbn [List.length] in Hf. lia.
Qed.
Lemma a_type_ok t rest : cn_all type_word t = true -> not_lt rest = true -> a_type (ctoks t ++ rest) = Some (t, rest).
Proof. intros H Hr. apply ptype_ok; [assumption|assumption|]. unfold fuel_for. rewrite app_length. lia. Qed.
Lemma a_type_word w rest : type_word w = true -> not_lt rest = true -> a_type (Id w :: rest) = Some (CN w [], rest).
Proof. intros H Hr. apply (a_type_ok (CN w []) rest); [cbn [cn_all forallb]; now rewrite H|assumption]. Qed.
Lemma type_args_ok ts rest : ts <> [] -> forallb (cn_all type_word) ts = true ->
  type_args (sep_toks ctoks ts ++ Pc ">" :: rest) = Some (ts, rest).
Proof.
  intros Hn H. destruct ts as [|t ts]; [congruence|]. apply ptypes_ok.
  - rewrite forallb_forall in H. apply Forall_forall. auto using ptype_ok.
  - unfold fuel_for. rewrite app_length. lia.
Qed.

(** ** Statements *)

Definition parses (f0 : nat) (l : list tok) (ss : list stmt) (r : list tok) : Prop :=
  forall f, (f0 <= f)%nat -> pstmts f l = Some (ss, r).
Definition reads_stmts (ts : list tok) (l : list stmt) : Prop :=
  forall f0 rest ss r, parses f0 rest ss r -> parses (List.length ts + f0) (ts ++ rest) (l ++ ss) r.
Definition reads_stmt (ts : list tok) (s : stmt) : Prop :=
  (exists w ts', ts = Id w :: ts') /\
  forall f rest, (List.length ts <= S f)%nat -> pstmt f (ts ++ rest) = Some (s, rest).
Lemma reads_nil : reads_stmts [] [].
Proof. intros f0 rest ss r H. exact H. Qed.
Lemma reads_app a b la lb : reads_stmts a la -> reads_stmts b lb -> reads_stmts (a ++ b) (la ++ lb).
Proof.
  intros Ha Hb f0 rest ss r H. rewrite <- !app_assoc, app_length, <- Nat.add_assoc. apply Ha. now apply Hb.
Qed.
Lemma reads_one ts s : reads_stmt ts s -> reads_stmts ts [s].
Proof.
  intros [(w & ts' & ->) H] f0 rest ss r Hr f Hf. destruct f as [|f]; [cbn in Hf; lia|].
  cbn [app]. cbn [pstmts]. specialize (H f rest). rewrite <- app_comm_cons in H. rewrite H by lia. cbn [pbind].
  rewrite Hr by (cbn in Hf; lia). reflexivity.
Qed.
Lemma reads_flat {A} (g : A -> list tok) (h : A -> list stmt) (l : list A) :
  (forall a, In a l -> reads_stmts (g a) (h a)) -> reads_stmts (flat_map g l) (flat_map h l).
Proof.
  induction l as [|a l IH]; intros H; [apply reads_nil|]. cbn. apply reads_app; [apply H; now left|].
  apply IH. intros x Hx. apply H. now right.
Qed.
Lemma reads_block ts l rest f : reads_stmts ts l -> (List.length ts <= f)%nat ->
  pstmts f (ts ++ Pc "}" :: rest) = Some (l, rest).
Proof.
  intros H Hf. specialize (H 0%nat (Pc "}" :: rest) [] rest). rewrite app_nil_r in H. apply H; [|lia].
  intros [|g] _; reflexivity.
Qed.
Lemma a_block_ok ts l rest : reads_stmts ts l -> a_block (Pc "{" :: ts ++ Pc "}" :: rest) = Some (l, rest).
Proof. intros H. cbn. apply reads_block; [exact H|]. rewrite app_length. lia. Qed.

Ltac reify s :=
  lazymatch s with
  | ?a +++ ?b => let p := reify1 a in let q := reify b in constr:(p :: q)
  | _ => let p := reify1 s in constr:([p])
  end
with reify1 a :=
  lazymatch a with
  | String _ _ => constr:(C a)
  | "" => constr:(C a)
  | cprint ?t => constr:(Y t)
  | _ => constr:(W a)
  end.
Ltac piece_tac :=
  match goal with
  | |- piece_ok (C _) = true => vm_compute; reflexivity
  | |- piece_ok (W ?w) = true => change (word w = true)
  | |- piece_ok (Y ?w) = true => change (cn_all word w = true)
  end.
Ltac consts :=
  repeat match goal with |- context [const ?a ?s] =>
    let v := eval vm_compute in (const a s) in change (const a s) with v
  end.
(** [lex] of a line becomes its tokens. *)
Ltac lexline :=
  match goal with |- context [lex ?s] =>
    let l := reify s in
    let E := fresh in
    assert (E : lex s = ptoks [] l);
    [ change (lex (text l) = ptoks [] l); apply lex_line; [repeat (apply Forall_cons; [piece_tac|]); try apply Forall_nil|reflexivity]
    | rewrite E; clear E; cbn [ptoks]; consts; cbn [ptoks close app word_toks sconcat] ]
  end.


(** ** Expressions *)

Lemma pu_num f w n l : number w = Some n -> punary (S f) (Id w :: l) = Some (ENum n, l).
Proof. intros H. cbn [punary]. now rewrite H. Qed.
Lemma pu_null f l : punary (S f) (Id "null" :: l) = Some (ENull, l).
Proof. reflexivity. Qed.
Lemma pu_false f l : punary (S f) (Id "false" :: l) = Some (EBool false, l).
Proof. reflexivity. Qed.
Lemma pu_this f l x : ppost f EThis l = x -> punary (S f) (Id "this" :: l) = x.
Proof. intros <-. reflexivity. Qed.
Lemma pu_new f l t l1 args l2 x : a_type l = Some (t, Pc "(" :: l1) -> pargs f l1 = Some (args, l2) ->
  ppost f (ENew t args) l2 = x -> punary (S f) (Id "new" :: l) = x.
Proof. intros H1 H2 <-. change (punary (S f) (Id "new" :: l)) with
  (pbind (a_type l) (fun t l => pbind (pc "(" l) (fun _ l => pbind (pargs f l) (fun args l => ppost f (ENew t args) l)))).
  rewrite H1. cbn [pbind pc Ascii.eqb Bool.eqb]. now rewrite H2. Qed.
Lemma pu_typeof f l t l1 x : a_type l = Some (t, Pc ")" :: l1) ->
  ppost f (ETypeof t) l1 = x -> punary (S f) (Id "typeof" :: Pc "(" :: l) = x.
Proof. intros H1 <-. change (punary (S f) (Id "typeof" :: Pc "(" :: l)) with
  (pbind (a_type l) (fun t l => pbind (pc ")" l) (fun _ l => ppost f (ETypeof t) l))).
  now rewrite H1. Qed.
Lemma pu_ident f w l : ident w = true -> punary (S f) (Id w :: l) =
  match l with
  | Pc "<" :: l => pbind (type_args l) (fun a l => ppost f (EGen w a) l)
  | _ => ppost f (EName w) l
  end.
Proof.
  intros H. cbn [punary]. rewrite ident_number, H by assumption.
  rewrite !(ident_not_keyword w _ H) by reflexivity. reflexivity.
Qed.
Lemma pu_name f w l x : ident w = true -> not_lt l = true -> ppost f (EName w) l = x -> punary (S f) (Id w :: l) = x.
Proof.
  intros H Hl <-. rewrite pu_ident by assumption. destruct l as [|[v|c] l]; try reflexivity.
  destruct c as [[] [] [] [] [] [] [] []]; try reflexivity. discriminate Hl.
Qed.
(** A type name before a dot. *)
Definition texpr (t : cname) : expr := match t with CN n [] => EName n | CN n a => EGen n a end.
Lemma pu_type f t l x : match t with CN n _ => ident n end = true -> cn_all type_word t = true -> not_lt l = true ->
  ppost f (texpr t) l = x -> punary (S f) (ctoks t ++ l) = x.
Proof.
  intros Hi Ht Hl <-. destruct t as [n [|a args]]; cbn [ctoks texpr app].
  - now apply pu_name.
  - rewrite pu_ident by assumption. rewrite <- app_assoc. cbn [app]. rewrite type_args_ok; [reflexivity|discriminate|].
    cbn [cn_all] in Ht. apply andb_prop in Ht. apply Ht.
Qed.

Lemma po_mem f e n l x : ident n = true -> not_lt l = true -> ppost f (EMem e n) l = x -> ppost (S f) e (Pc "." :: Id n :: l) = x.
Proof.
  intros H Hl <-. cbn [ppost pname pbind]. rewrite H. cbn [pbind]. destruct l as [|[v|c] l]; try reflexivity.
  destruct c as [[] [] [] [] [] [] [] []]; try reflexivity. discriminate Hl.
Qed.
Lemma po_memgen f e n t l x : ident n = true -> cn_all type_word t = true -> ppost f (EMemGen e n [t]) l = x ->
  ppost (S f) e (Pc "." :: Id n :: Pc "<" :: ctoks t ++ Pc ">" :: l) = x.
Proof.
  intros H Ht <-. cbn [ppost pname pbind]. rewrite H. cbn [pbind].
  pose proof (type_args_ok [t] l) as E. cbn [sep_toks] in E. rewrite E; [reflexivity|discriminate|].
  cbn [forallb]. now rewrite Ht.
Qed.
Lemma po_qmem f e n l x : ident n = true -> ppost f (EQMem e n) l = x -> ppost (S f) e (Pc "?" :: Pc "." :: Id n :: l) = x.
Proof. intros H <-. cbn [ppost pname pbind]. now rewrite H. Qed.
Lemma po_call f e l args l1 x : pargs f l = Some (args, l1) -> ppost f (ECall e args) l1 = x -> ppost (S f) e (Pc "(" :: l) = x.
Proof. intros H <-. cbn [ppost]. now rewrite H. Qed.
Definition no_post (l : list tok) : bool :=
  match l with Pc "." :: _ | Pc "(" :: _ | Pc "?" :: Pc "." :: _ => false | _ => true end.
Lemma po_end f e l : no_post l = true -> ppost (S f) e l = Some (e, l).
Proof.
  intros H. destruct l as [|[w|c] l]; try reflexivity. cbn [ppost].
  destruct c as [[] [] [] [] [] [] [] []]; try reflexivity; try discriminate H.
  destruct l as [|[w|c] l]; try reflexivity.
  destruct c as [[] [] [] [] [] [] [] []]; try reflexivity; discriminate H.
Qed.

Definition starts (l : list tok) : bool :=
  match l with Id _ :: Pc ":" :: _ => false | Id _ :: _ => true | _ => false end.
Lemma pa_end f l : pargs (S f) (Pc ")" :: l) = Some ([], l).
Proof. reflexivity. Qed.
Lemma pa_plain f l : starts l = true -> pargs (S f) l =
  pbind (pexpr f l) (fun e l => match l with
          | Pc "," :: l => pbind (pargs f l) (fun args l => Some ((None, e) :: args, l))
          | Pc ")" :: l => Some ([(None, e)], l)
          | _ => None
          end).
Proof.
  intros H. destruct l as [|[w|c] l]; try discriminate H. cbn [pargs].
  destruct l as [|[v|c] l].
  1, 2: destruct (pexpr f _) as [[e l']|]; reflexivity.
  destruct c as [[] [] [] [] [] [] [] []]; try discriminate H; destruct (pexpr f _) as [[e l']|]; reflexivity.
Qed.
Definition pnext (f : nat) (e : expr) (l : list tok) : option (list (option string * expr) * list tok) :=
  match l with
  | Pc "," :: l => pbind (pargs f l) (fun args l => Some ((None, e) :: args, l))
  | Pc ")" :: l => Some ([(None, e)], l)
  | _ => None
  end.
Lemma pa_step f l e l1 x : starts l = true -> pexpr f l = Some (e, l1) -> pnext f e l1 = x -> pargs (S f) l = x.
Proof. intros H E <-. rewrite pa_plain, E by assumption. reflexivity. Qed.
Lemma pn_last f e l : pnext f e (Pc ")" :: l) = Some ([(None, e)], l).
Proof. reflexivity. Qed.
Lemma pn_more f e l args l1 : pargs f l = Some (args, l1) -> pnext f e (Pc "," :: l) = Some ((None, e) :: args, l1).
Proof. intros H. cbn [pnext]. now rewrite H. Qed.
Lemma pa_named f n l e l1 : ident n = true -> pexpr f l = Some (e, Pc ")" :: l1) ->
  pargs (S f) (Id n :: Pc ":" :: l) = Some ([(Some n, e)], l1).
Proof. intros H E. cbn [pargs]. rewrite H, E. reflexivity. Qed.

Definition no_op (l : list tok) : bool :=
  match l with
  | Id w :: _ => negb (String.eqb w "as")
  | Pc "=" :: Pc "=" :: _ | Pc "?" :: _ => false
  | _ => true
  end.
Definition ptail (f : nat) (a : expr) (l : list tok) : option (expr * list tok) :=
  pbind (match l with
         | Id w :: l' => if String.eqb w "as" then pbind (a_type l') (fun t l => Some (EAs a t, l)) else Some (a, l)
         | _ => Some (a, l)
         end) (fun a l =>
  pbind (match l with
         | Pc "=" :: Pc "=" :: l => pbind (punary f l) (fun b l => Some (EEq a b, l))
         | _ => Some (a, l)
         end) (fun a l =>
  pbind (match l with
         | Pc "?" :: Pc "?" :: l => pbind (punary f l) (fun b l => Some (ECoal a b, l))
         | _ => Some (a, l)
         end) (fun a l =>
  match l with
  | Pc "?" :: l =>
      pbind (pexpr f l) (fun b l => pbind (pc ":" l) (fun _ l => pbind (pexpr f l) (fun c l => Some (ECond a b c, l))))
  | _ => Some (a, l)
  end))).
Lemma px f l a l1 x : punary f l = Some (a, l1) -> ptail f a l1 = x -> pexpr (S f) l = x.
Proof. intros H <-. cbn [pexpr]. now rewrite H. Qed.
Lemma pt_end f a l : no_op l = true -> ptail f a l = Some (a, l).
Proof.
  intros H. destruct l as [|[w|c] l]; [reflexivity| |].
  - cbn [no_op] in H. apply negb_true_iff in H. unfold ptail. rewrite H. reflexivity.
  - destruct c as [[] [] [] [] [] [] [] []]; try reflexivity; try discriminate H.
    destruct l as [|[w|c] l]; try reflexivity.
    destruct c as [[] [] [] [] [] [] [] []]; try reflexivity; discriminate H.
Qed.
Lemma pt_as f a l t l1 : a_type l = Some (t, l1) -> no_op l1 = true -> ptail f a (Id "as" :: l) = Some (EAs a t, l1).
Proof.
  intros H N. pose proof (pt_end f (EAs a t) l1 N) as E. unfold ptail in *. cbn [String.eqb Ascii.eqb Bool.eqb].
  rewrite H. cbn [pbind]. destruct l1 as [|[w|c] l1]; cbn [pbind]; try exact E.
  cbn [no_op] in N. apply negb_true_iff in N. rewrite N in E. exact E.
Qed.
Lemma pt_coal f a l b l1 : punary f l = Some (b, l1) -> no_op l1 = true -> ptail f a (Pc "?" :: Pc "?" :: l) = Some (ECoal a b, l1).
Proof.
  intros H N. unfold ptail. cbn [pbind]. rewrite H. cbn [pbind]. destruct l1 as [|[w|c] l1]; try reflexivity.
  destruct c as [[] [] [] [] [] [] [] []]; try reflexivity; discriminate N.
Qed.
Definition no_q (l : list tok) : bool := match l with Id _ :: _ => true | _ => false end.
Lemma pt_cond f a l b l1 c l2 : no_q l = true -> pexpr f l = Some (b, Pc ":" :: l1) -> pexpr f l1 = Some (c, l2) ->
  ptail f a (Pc "?" :: l) = Some (ECond a b c, l2).
Proof.
  intros Q H1 H2. destruct l as [|[w|d] l]; try discriminate Q. unfold ptail. cbn [pbind]. rewrite H1. cbn [pbind pc Ascii.eqb Bool.eqb].
  now rewrite H2.
Qed.
Lemma pt_eqcond f a l a2 l0 b l1 c l2 : punary f l = Some (a2, Pc "?" :: l0) -> no_q l0 = true ->
  pexpr f l0 = Some (b, Pc ":" :: l1) -> pexpr f l1 = Some (c, l2) ->
  ptail f a (Pc "=" :: Pc "=" :: l) = Some (ECond (EEq a a2) b c, l2).
Proof.
  intros H0 Q H1 H2. destruct l0 as [|[w|d] l0]; try discriminate Q. unfold ptail. cbn [pbind]. rewrite H0. cbn [pbind].
  rewrite H1. cbn [pbind pc Ascii.eqb Bool.eqb]. now rewrite H2.
Qed.

Lemma starts_ctoks t l : starts (ctoks t ++ Pc "." :: l) = true.
Proof. destruct t as [n [|a args]]; reflexivity. Qed.

(** *** Search for derivations *)

Ltac side :=
  match goal with
  | H : ?g |- ?g => exact H
  | H : type_ident ?w = true |- type_word ?w = true => exact (type_ident_word w H)
  | H : type_ident ?w = true |- ident ?w = true => exact (type_ident_ident w H)
  | |- _ => vm_compute; reflexivity
  end.
Ltac pty :=
  lazymatch goal with
  | |- a_type (Id _ :: _) = _ => apply a_type_word; [side|reflexivity]
  | |- a_type (ctoks _ ++ _) = _ => apply a_type_ok; [side|reflexivity]
  end.
Ltac pexp :=
  lazymatch goal with |- pexpr (S ?f) _ = _ => eapply (px f); [pun|ptl] end
with pun :=
  lazymatch goal with
  | |- punary (S _) (Id "null" :: _) = _ => apply pu_null
  | |- punary (S _) (Id "false" :: _) = _ => apply pu_false
  | |- punary (S _) (Id "this" :: _) = _ => apply pu_this; pos
  | |- punary (S _) (Id "new" :: _) = _ => eapply pu_new; [pty|par|pos]
  | |- punary (S _) (Id "typeof" :: Pc "(" :: _) = _ => eapply pu_typeof; [pty|pos]
  | |- punary (S _) (Id (dec _) :: _) = _ => apply pu_num; apply number_dec
  | |- punary (S _) (Id _ :: _) = _ => apply pu_name; [side|reflexivity|pos]
  | |- punary (S _) (ctoks _ ++ _) = _ => apply pu_type; [side|side|reflexivity|pos]
  end
with pos :=
  lazymatch goal with
  | |- ppost (S _) _ (Pc "." :: Id _ :: Pc "<" :: ctoks _ ++ _) = _ => apply po_memgen; [side|side|pos]
  | |- ppost (S _) _ (Pc "." :: Id _ :: Pc "<" :: Id ?w :: Pc ">" :: ?l) = _ =>
      change (Id w :: Pc ">" :: l) with (ctoks (CN w []) ++ Pc ">" :: l); apply po_memgen; [side|cbn [cn_all forallb]; rewrite ?andb_true_r; side|pos]
  | |- ppost (S _) _ (Pc "." :: _) = _ => apply po_mem; [side|reflexivity|pos]
  | |- ppost (S _) _ (Pc "?" :: Pc "." :: _) = _ => apply po_qmem; [side|pos]
  | |- ppost (S _) _ (Pc "(" :: _) = _ => eapply po_call; [par|pos]
  | |- ppost (S _) _ _ = _ => apply po_end; reflexivity
  end
with par :=
  lazymatch goal with
  | |- pargs (S _) (Pc ")" :: _) = _ => apply pa_end
  | |- pargs (S _) (Id _ :: Pc ":" :: _) = _ => eapply pa_named; [side|pexp]
  | |- pargs (S _) _ = _ => eapply pa_step; [first [reflexivity|apply starts_ctoks]|pexp|pnx]
  end
with pnx :=
  lazymatch goal with
  | |- pnext _ _ (Pc ")" :: _) = _ => apply pn_last
  | |- pnext _ _ (Pc "," :: _) = _ => eapply pn_more; par
  end
with ptl :=
  lazymatch goal with
  | |- ptail _ _ (Id "as" :: _) = _ => eapply pt_as; [pty|reflexivity]
  | |- ptail _ _ (Pc "=" :: Pc "=" :: _) = _ => eapply pt_eqcond; [pun|reflexivity|pexp|pexp]
  | |- ptail _ _ (Pc "?" :: Pc "?" :: _) = _ => eapply pt_coal; [pun|reflexivity]
  | |- ptail _ _ (Pc "?" :: _) = _ => eapply pt_cond; [reflexivity|pexp|pexp]
  | |- ptail _ _ _ = _ => apply pt_end; reflexivity
  end.


(** *** Statements *)

Lemma ps_return f l e rest : an_expr l = Some (e, Pc ";" :: rest) -> pstmt (S f) (Id "return" :: l) = Some (SReturn e, rest).
Proof. intros H. change (pstmt (S f) (Id "return" :: l)) with (pbind (an_expr l) (fun e l => semi (SReturn e) l)). now rewrite H. Qed.
Lemma ps_throw f l e rest : an_expr l = Some (e, Pc ";" :: rest) -> pstmt (S f) (Id "throw" :: l) = Some (SThrow e, rest).
Proof. intros H. change (pstmt (S f) (Id "throw" :: l)) with (pbind (an_expr l) (fun e l => semi (SThrow e) l)). now rewrite H. Qed.
Lemma ps_break f rest : pstmt (S f) (Id "break" :: Pc ";" :: rest) = Some (SBreak, rest).
Proof. reflexivity. Qed.
Lemma ps_case f w n rest : number w = Some n -> pstmt (S f) (Id "case" :: Id w :: Pc ":" :: rest) = Some (SCase n, rest).
Proof. intros H. change (pstmt (S f) (Id "case" :: Id w :: Pc ":" :: rest)) with
  (pbind (pnum (Id w :: Pc ":" :: rest)) (fun n l => pbind (pc ":" l) (fun _ l => Some (SCase n, l)))). cbn [pnum]. now rewrite H. Qed.
Lemma ps_default f rest : pstmt (S f) (Id "default" :: Pc ":" :: rest) = Some (SDefault, rest).
Proof. reflexivity. Qed.
Lemma ps_var f x l e rest : ident x = true -> an_expr l = Some (e, Pc ";" :: rest) ->
  pstmt (S f) (Id "var" :: Id x :: Pc "=" :: l) = Some (SVar x e, rest).
Proof. intros I H. change (pstmt (S f) (Id "var" :: Id x :: Pc "=" :: l)) with
  (if ident x then pbind (an_expr l) (fun e l => semi (SVar x e) l) else None). now rewrite I, H. Qed.
Lemma ps_if f l c l1 b rest : an_expr l = Some (c, Pc ")" :: Pc "{" :: l1) -> pstmts f l1 = Some (b, rest) ->
  pstmt (S f) (Id "if" :: Pc "(" :: l) = Some (SIf c b, rest).
Proof.
  intros H H1. change (pstmt (S f) (Id "if" :: Pc "(" :: l)) with
  (pbind (an_expr l) (fun c l => pbind (pc ")" l) (fun _ l => pbind (pc "{" l) (fun _ l => pbind (pstmts f l) (fun b l => Some (SIf c b, l)))))).
  rewrite H. cbn [pbind pc Ascii.eqb Bool.eqb]. now rewrite H1.
Qed.
Lemma ps_switch f l c l1 b rest : an_expr l = Some (c, Pc ")" :: Pc "{" :: l1) -> pstmts f l1 = Some (b, rest) ->
  pstmt (S f) (Id "switch" :: Pc "(" :: l) = Some (SSwitch c b, rest).
Proof.
  intros H H1. change (pstmt (S f) (Id "switch" :: Pc "(" :: l)) with
  (pbind (an_expr l) (fun c l => pbind (pc ")" l) (fun _ l => pbind (pc "{" l) (fun _ l => pbind (pstmts f l) (fun b l => Some (SSwitch c b, l)))))).
  rewrite H. cbn [pbind pc Ascii.eqb Bool.eqb]. now rewrite H1.
Qed.
Definition stmt_words : list string := ["return"; "throw"; "break"; "if"; "switch"; "case"; "default"].
Definition not_id (l : list tok) : bool := match l with Id _ :: _ => false | _ => true end.
Lemma ps_simple f w l : str_mem w stmt_words = false -> not_id l = true -> pstmt (S f) (Id w :: l) = psimple (Id w :: l).
Proof.
  intros H N. unfold str_mem in H. cbn [stmt_words existsb] in H.
  repeat (apply orb_false_elim in H; let H' := fresh in destruct H as [H' H]).
  cbn [pstmt]. repeat match goal with E : String.eqb w _ = false |- _ => rewrite E; clear E end.
  destruct l as [|[v|c] l]; [reflexivity|discriminate|reflexivity].
Qed.
Lemma psimple_call l e rest : an_expr l = Some (e, Pc ";" :: rest) -> psimple l = Some (SExpr e, rest).
Proof. intros H. unfold psimple. now rewrite H. Qed.
Lemma psimple_assign l a l1 b rest : an_expr l = Some (a, Pc "=" :: l1) -> an_expr l1 = Some (b, Pc ";" :: rest) ->
  psimple l = Some (SAssign a b, rest).
Proof. intros H H1. unfold psimple. rewrite H. cbn [pbind]. now rewrite H1. Qed.
Lemma ident_not_stmt w : ident w = true -> str_mem w stmt_words = false.
Proof.
  intros H. unfold str_mem, stmt_words. cbn [existsb]. now rewrite !(ident_not_keyword w _ H) by reflexivity.
Qed.
