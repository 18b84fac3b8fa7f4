(** Lemmas about the metadata that the derive macro writes. *)
From Verif Require Import Base Varint WireFmt Types Meta Gen RsGen Derive DeriveProofs RsDecl RsMeta.
From Coq Require Import String.
Import String.StringSyntax.
Local Open Scope string_scope.
Local Open Scope list_scope.
Local Open Scope N_scope.

Lemma yty_ind' (P : yty -> Prop) : (forall t, P t -> P (YParen t)) -> (forall t, P t -> P (YRef t)) -> (forall n t, P t -> P (YArray n t)) ->
  (forall q p a, match a with YAngle l => Forall (fun x => match x with YType t => P t | _ => True end) l | _ => True end -> P (YPath q p a)) ->
  P YOther -> forall t, P t.
Proof.
  intros H1 H2 H3 H4 H5. fix IH 1. intros [t|t|n t|q p a|]; [apply H1, IH|apply H2, IH|apply H3, IH| |exact H5].
  apply H4. destruct a as [|l|]; [exact I| |exact I].
  revert l. fix IHl 1. intros [|x l]; constructor; [destruct x as [|t|]; [exact I|apply IH|exact I]|apply IHl].
Qed.
Lemma mexpr_ind' (P : mexpr -> Prop) : (forall s, P (XParam s)) -> (forall t, P (XType t)) -> (forall t l, Forall P l -> P (XRef t l)) -> forall x, P x.
Proof.
  intros H1 H2 H3. fix IH 1. intros [s|t|t l]; [apply H1|apply H2|]. apply H3. revert l. fix IHl 1. intros [|x l]; constructor; [apply IH|apply IHl].
Qed.
Lemma rty_ind' (P : rty -> Prop) : (forall k, P (RInt k)) -> P RBool -> P RStr -> P RBytes ->
  (forall t, P t -> P (ROpt t)) -> (forall t, P t -> P (RVec t)) -> (forall n t, P t -> P (RArr n t)) -> (forall t, P t -> P (RList t)) ->
  (forall k t, P t -> P (RMap k t)) -> (forall t, P t -> P (RBox t)) -> (forall d l, Forall P l -> P (RUser d l)) -> (forall i, P (RVar i)) ->
  (forall t, P t -> P (RAlias t)) -> forall t, P t.
Proof.
  intros H1 H2 H3 H4 H5 H6 H7 H8 H9 H10 H11 H12 H13. fix IH 1.
  intros [k| | | |t|t|n t|t|k t|t|d l|i|t]; [apply H1|exact H2|exact H3|exact H4|apply H5, IH|apply H6, IH|apply H7, IH|apply H8, IH|apply H9, IH|apply H10, IH| |apply H12|apply H13, IH].
  apply H11. revert l. fix IHl 1. intros [|x l]; constructor; [apply IH|apply IHl].
Qed.

(** ** Lists *)

Lemma index_of_mem x ps : str_mem x ps = match index_of x ps with Some _ => true | None => false end.
Proof. induction ps as [|y ps IH]; [reflexivity|]. cbn. destruct (String.eqb x y); [reflexivity|]. cbn. unfold str_mem in IH. rewrite IH. now destruct (index_of x ps). Qed.
Lemma index_of_nth x ps i : index_of x ps = Some i -> nth i ps "" = x.
Proof.
  revert i. induction ps as [|y ps IH]; intros i; [discriminate|]. cbn. destruct (String.eqb_spec x y) as [->|]; [now intros [= <-]|].
  destruct (index_of x ps) as [j|]; [|discriminate]. intros [= <-]. now apply IH.
Qed.
Lemma arg_of_params {A} (ps : list string) : NoDup ps -> forall (l : list A) dfl, List.length l = List.length ps -> map (arg_of ps l dfl) ps = l.
Proof.
  induction 1 as [|p ps N D IH]; intros [|a l] dfl E; try discriminate; [reflexivity|]. cbn [map]. unfold arg_of at 1. cbn [index_of]. rewrite String.eqb_refl. cbn [nth]. f_equal.
  rewrite <- (IH l dfl) at 2 by (cbn in E; lia). apply map_ext_in. intros x I. unfold arg_of. cbn [index_of]. destruct (String.eqb_spec x p) as [->|]; [contradiction|].
  now destruct (index_of x ps).
Qed.
Lemma collect_args_all {A B} (f : A -> option B) l r : Forall2 (fun a b => f a = Some b) l r -> collect_args f l = Some r.
Proof. induction 1 as [|a b l r E F IH]; [reflexivity|]. cbn. now rewrite E, IH. Qed.
Lemma collect_args_inv {A B} (f : A -> option B) l : forall r, collect_args f l = Some r -> Forall2 (fun a b => f a = Some b) l r.
Proof.
  induction l as [|a l IH]; intros r; cbn; [intros [= <-]; constructor|]. destruct (f a) as [b|] eqn:E; [|discriminate].
  destruct (collect_args f l) as [bs|]; [|discriminate]. intros [= <-]. constructor; auto.
Qed.

(** ** Well-formed types *)

(** Types with as many arguments as parameters. *)
Fixpoint wf (e : env) (t : rty) : bool :=
  match t with
  | RInt _ | RBool | RStr | RBytes | RVar _ => true
  | ROpt t | RVec t | RArr _ t | RList t | RMap _ t | RBox t | RAlias t => wf e t
  | RUser d l => Nat.eqb (List.length l) (List.length (d_params (decl_of e d))) && forallb (wf e) l
  end.
(** No parameters but the first [n]. *)
Fixpoint vars_below (n : nat) (t : rty) : bool :=
  match t with
  | RInt _ | RBool | RStr | RBytes => true
  | ROpt t | RVec t | RArr _ t | RList t | RMap _ t | RBox t | RAlias t => vars_below n t
  | RUser _ l => forallb (vars_below n) l
  | RVar i => Nat.ltb i n
  end.
Lemma subst_closed t : vars_below 0 t = true -> forall l, subst l t = t.
Proof.
  induction t using rty_ind'; intros V l'; cbn in *; try reflexivity; try (f_equal; auto; fail); [|discriminate].
  f_equal. rewrite <- (map_id l) at 2. apply map_ext_in. intros x I. rewrite Forall_forall in H. rewrite forallb_forall in V. auto.
Qed.
Lemma subst_wf e l t : forallb (wf e) l = true -> wf e t = true -> wf e (subst l t) = true.
Proof.
  intros W. induction t using rty_ind'; intros V; cbn in *; auto.
  - rewrite map_length. apply andb_prop in V. destruct V as [-> V]. cbn. rewrite forallb_forall in *. rewrite Forall_forall in H. intros x I. apply in_map_iff in I. destruct I as (y & <- & I). auto.
  - destruct (nth_in_or_default i l (RVar i)) as [I|E]; [rewrite forallb_forall in W; auto|now rewrite E].
Qed.

(** ** The scope *)

(** What rustc guarantees: an item has its number of parameters, an alias is a type, [i8] is [i8]. *)
Definition scope_ok (sc : scope) (e : env) : Prop :=
  (forall p d n, sc p = Some (DItem d n) -> (d < List.length e)%nat /\ n = List.length (d_params (decl_of e d))) /\
  (forall p n t, sc p = Some (DAlias n t) -> wf e t = true /\ vars_below n t = true) /\
  sc ["i8"] = Some (DInt I8).
Lemma applied_wf sc e p d rs r : scope_ok sc e -> sc p = Some d -> applied d rs = Some r -> forallb (wf e) rs = true -> wf e r = true.
Proof.
  intros (S1 & S2 & _) E A W. destruct d as [k| | | |c|d n|n t]; cbn in A.
  1-4: destruct rs; [|discriminate]; now injection A as <-.
  - destruct c, rs as [|x [|y [|? ?]]]; try discriminate; cbn in W; try (injection A as <-; cbn; now rewrite Bool.andb_true_r in W).
    destruct (key_of x); [|discriminate]. injection A as <-. cbn. apply andb_prop in W. destruct W as [_ W]. now rewrite Bool.andb_true_r in W.
  - destruct (S1 _ _ _ E) as [_ ->]. destruct (Nat.eqb_spec (List.length rs) (List.length (d_params (decl_of e d)))) as [L|]; [|discriminate].
    injection A as <-. cbn [wf]. rewrite L, Nat.eqb_refl. exact W.
  - destruct (S2 _ _ _ E) as [W' _]. destruct (Nat.eqb (List.length rs) n) eqn:L; [|discriminate]. injection A as <-. cbn [wf]. now apply subst_wf.
Qed.
(** The arguments of a path. *)
Fixpoint args_mean (sc : scope) (ps : list string) (self : rty) (l : list yarg) : option (list rty) :=
  match l with
  | [] => Some []
  | YLife :: l => args_mean sc ps self l
  | YType t :: l => match means sc ps self t, args_mean sc ps self l with Some r, Some rs => Some (r :: rs) | _, _ => None end
  | YRest :: _ => None
  end.
Definition named (sc : scope) (p : list string) (rs : list rty) : option rty := match sc p with Some d => applied d rs | None => None end.
Lemma means_angle sc ps self p l : means sc ps self (YPath false p (YAngle l)) = match args_mean sc ps self l with Some rs => named sc p rs | None => None end.
Proof.
  cbn [means]. match goal with |- match ?a with _ => _ end = _ => replace a with (args_mean sc ps self l) end.
  - unfold named. destruct (args_mean sc ps self l), (sc p); reflexivity.
  - induction l as [|[|t|] l IH]; cbn [args_mean]; [reflexivity|exact IH|now rewrite IH|reflexivity].
Qed.
Lemma means_plain sc ps self p : means sc ps self (YPath false p YNone) =
  match (match path_ident p with Some x => index_of x ps | None => None end) with
  | Some i => Some (RVar i)
  | None => if match path_ident p with Some x => String.eqb x "Self" | None => false end then Some self else named sc p []
  end.
Proof. cbn [means]. now destruct p as [|x [|y p]]. Qed.

Lemma means_wf sc e ps self t : scope_ok sc e -> wf e self = true -> forall r, means sc ps self t = Some r -> wf e r = true.
Proof.
  intros So Ws. induction t as [t IH|t IH|n t IH|q p a H|] using yty_ind'; intros r; [apply IH|discriminate| | |discriminate].
  - cbn [means]. destruct (means sc ps self t) as [x|]; [|discriminate]. intros [= <-]. cbn. now apply IH.
  - destruct q; [discriminate|]. destruct a as [|l|]; [| |discriminate].
    + rewrite means_plain. destruct (match path_ident p with Some x => index_of x ps | None => None end); [now intros [= <-]|].
      destruct (match path_ident p with Some x => String.eqb x "Self" | None => false end); [now intros [= <-]|].
      unfold named. destruct (sc p) as [d|] eqn:E; [|discriminate]. intros A. now apply (applied_wf sc e p d [] r So E A).
    + rewrite means_angle. destruct (args_mean sc ps self l) as [rs|] eqn:A; [|discriminate]. unfold named. destruct (sc p) as [d|] eqn:E; [|discriminate].
      intros X. apply (applied_wf sc e p d rs r So E X). clear -H A. revert rs A. induction H as [|x l Hx H IH]; intros rs A; cbn [args_mean] in A; [now injection A as <-|].
      destruct x as [|t|]; [now apply IH| |discriminate]. destruct (means sc ps self t) as [r|]; [|discriminate]. destruct (args_mean sc ps self l) as [rs'|]; [|discriminate].
      injection A as <-. cbn. rewrite (Hx r eq_refl). cbn. now apply IH.
Qed.

(** ** Code for types *)

Fixpoint args_code (ps : list string) (l : list yarg) : option (list mexpr) :=
  match l with
  | [] => Some []
  | YLife :: l => args_code ps l
  | YType t :: l => match field_type_code ps t, args_code ps l with Some x, Some xs => Some (x :: xs) | _, _ => None end
  | YRest :: _ => None
  end.
Lemma token_code ps t : match type_param ps (token_string t) with Some x => Some (XParam x) | None => field_type_code ps t end = field_type_code ps t.
Proof.
  destruct t as [t|t|n t|[|] [|x [|y p]] [|l|]|]; try reflexivity. cbn [token_string field_type_code path_ident]. now destruct (type_param ps (Some x)).
Qed.
Lemma array_code ps n t : field_type_code ps (YArray n t) = option_map (fun x => XRef (YArray 1 (YPath false ["i8"] YNone)) [x]) (field_type_code ps t).
Proof. cbn [field_type_code]. rewrite token_code. now destruct (field_type_code ps t). Qed.
Lemma angle_code ps p l : field_type_code ps (YPath false p (YAngle l)) = option_map (XRef (YPath false p (YAngle l))) (args_code ps l).
Proof.
  cbn [field_type_code]. f_equal. induction l as [|[|t|] l IH]; cbn [args_code]; [reflexivity|exact IH| |reflexivity].
  rewrite token_code, IH. reflexivity.
Qed.
(** Code is written for the types that Derive.v does not refuse. *)
Lemma code_supported ps t : (exists x, field_type_code ps t = Some x) <-> type_err (bare_type t) = None.
Proof.
  induction t as [t IH|t IH|n t IH|q p a H|] using yty_ind'; [exact IH|exact IH| | |split; [intros (x & E); discriminate|discriminate]].
  - rewrite array_code. cbn [bare_type type_err]. rewrite <- IH. destruct (field_type_code ps t) as [x|]; cbn; [split; eauto|split; intros (y & E); discriminate].
  - destruct q; [split; [intros (x & E); discriminate|discriminate]|]. destruct a as [|l|]; [split; [reflexivity|cbn; eauto]| |split; [intros (x & E); discriminate|discriminate]].
    rewrite angle_code. cbn [bare_type type_err]. transitivity (exists xs, args_code ps l = Some xs).
    { destruct (args_code ps l) as [xs|]; cbn; split; eauto; intros (y & E); discriminate. }
    induction H as [|x l Hx H IH]; cbn [map args_code]; [split; eauto|]. destruct x as [|t|]; [exact IH| |split; [intros (x & E); discriminate|discriminate]].
    destruct (type_err (bare_type t)).
    + split; [|discriminate]. intros (xs & E). destruct (field_type_code ps t) as [y|]; [|discriminate]. assert (Some d = None) by (apply Hx; eauto). discriminate.
    + rewrite <- IH. destruct (proj2 Hx eq_refl) as [y ->]. destruct (args_code ps l) as [ys|]; split; eauto; intros (z & E); discriminate.
Qed.

(** ** What it evaluates to *)

(** Types that are described as they are: no alias with arguments, no [Self] in generic items. *)
Fixpoint plain (sc : scope) (ps : list string) (t : yty) : bool :=
  match t with
  | YParen t | YRef t | YArray _ t => plain sc ps t
  | YPath _ p YNone => negb (match ps, path_ident p with _ :: _, Some x => String.eqb x "Self" && negb (str_mem x ps) | _, _ => false end)
  | YPath _ p (YAngle l) =>
      match sc p with Some (DCon _) | Some (DItem _ _) => true | _ => false end &&
      forallb (fun x => match x with YType t => plain sc ps t | _ => true end) l
  | YPath _ _ YParens | YOther => false
  end.

Section Crate.
  Variable sc : scope.
  Variable impls : list ximpl.
  Variable e : env.
  Hypothesis So : scope_ok sc e.
  (** The implementations have the names and parameters of the declarations. *)
  Hypothesis names : forall d, x_name (impl_of impls d) = d_name (decl_of e d).
  Hypothesis params : forall d, x_params (impl_of impls d) = d_params (decl_of e d).
  Hypothesis type : forall d, x_type (impl_of impls d) = d_params (decl_of e d).
  Hypothesis unique_params : forall d, NoDup (d_params (decl_of e d)).

  Lemma type_consts t : wf e t = true -> type_const impls t = type_of e t.
  Proof.
    induction t using rty_ind'; intros W; cbn in *; try reflexivity; try (now rewrite IHt).
    apply andb_prop in W. destruct W as [W1 W2]. apply Nat.eqb_eq in W1. rewrite names, params, type, arg_of_params; [|apply unique_params|now rewrite map_length].
    f_equal. apply map_ext_in. intros x I. rewrite Forall_forall in H. rewrite forallb_forall in W2. auto.
  Qed.

  Variable d : nat.
  Definition ps := d_params (decl_of e d).
  Definition self := self_type d ps.
  Lemma written_means args t : written sc impls d args t = option_map (subst args) (means sc ps self t).
  Proof. unfold written. now rewrite params. Qed.
  Fixpoint args_eval (args : list rty) (l : list mexpr) : option (list tmeta) :=
    match l with
    | [] => Some []
    | x :: l => match eval_type sc impls d args x, args_eval args l with Some y, Some ys => Some (y :: ys) | _, _ => None end
    end.
  Lemma eval_ref args t l : eval_type sc impls d args (XRef t l) =
    match written sc impls d args t, args_eval args l with Some r, Some ys => Some (MRef (name_const impls r) ys) | _, _ => None end.
  Proof.
    cbn [eval_type]. destruct (written sc impls d args t) as [r|]; [|reflexivity].
    match goal with |- match ?a with _ => _ end = _ => replace a with (args_eval args l) end; [reflexivity|].
    induction l as [|x l IH]; [reflexivity|]. cbn [args_eval]. now rewrite IH.
  Qed.

  Lemma key_meta k i : key_of k = Some i -> field_type_meta e ps k = type_of e (RInt (key_kind i)).
  Proof.
    destruct k as [k| | | |k|k|n k|k|x k|k|u l|v|k]; cbn [key_of]; try discriminate.
    - destruct k; try discriminate; now intros [= <-].
    - cbn [field_type_meta]. induction k as [k| | | |k|k|n k|k|x k|k|u l|v|k]; cbn [key_of]; try discriminate; [|assumption].
      destruct k; try discriminate; now intros [= <-].
  Qed.
  Lemma named_type p r args : named sc p [] = Some r -> type_const impls (subst args r) = field_type_meta e ps r.
  Proof.
    unfold named. destruct (sc p) as [df|] eqn:Es; [|discriminate]. intros E. pose proof (applied_wf sc e p df [] r So Es E eq_refl) as W.
    destruct df as [k| | | |c|u n|n t]; cbn in E; try (injection E as <-; reflexivity); [now destruct c| |].
    - destruct n; [|discriminate]. injection E as <-. exact (type_consts (RUser u []) W).
    - destruct n; [|discriminate]. injection E as <-. destruct (proj1 (proj2 So) _ _ _ Es) as [_ V]. rewrite (subst_closed t V) in *.
      cbn [subst field_type_meta]. rewrite (subst_closed t V). exact (type_consts (RAlias t) W).
  Qed.
  (** The description of a field's type. *)
  Lemma field_type_eval t : plain sc ps t = true -> forall r, means sc ps self t = Some r ->
    exists x, field_type_code ps t = Some x /\ forall args, eval_type sc impls d args x = Some (field_type_meta e ps r).
  Proof.
    induction t as [t IH|t IH|n t IH|q p a H|] using yty_ind'; intros P r E; [exact (IH P r E)|discriminate| | |discriminate].
    - cbn [means] in E. destruct (means sc ps self t) as [r'|] eqn:E'; [|discriminate]. injection E as <-. destruct (IH P r' eq_refl) as (x & C & V).
      rewrite array_code, C. cbn [option_map]. eexists. split; [reflexivity|]. intros args. rewrite eval_ref, written_means. cbn [args_eval]. rewrite V. cbn [means].
      destruct So as (_ & _ & S8). rewrite S8. destruct (index_of "i8" ps); reflexivity.
    - destruct q; [discriminate|]. destruct a as [|l|]; [| |discriminate].
      + rewrite means_plain in E. cbn [field_type_code]. eexists. split; [reflexivity|]. intros args. unfold type_param.
        destruct (path_ident p) as [x|] eqn:Ep.
        * rewrite index_of_mem. destruct (index_of x ps) as [i|] eqn:Ei.
          { injection E as <-. cbn. now rewrite (index_of_nth _ _ _ Ei). }
          cbn [eval_type]. rewrite written_means, means_plain, Ep, Ei. destruct (String.eqb_spec x "Self") as [->|N].
          { injection E as <-. cbn [plain] in P. rewrite Ep in P. unfold self, self_type. destruct ps as [|y ps'] eqn:Eps.
            - cbn. f_equal. rewrite names, params, type. change (d_params (decl_of e d)) with ps. now rewrite Eps.
            - cbn [String.eqb andb] in P. rewrite index_of_mem, Ei in P. discriminate. }
          rewrite E. cbn [option_map]. f_equal. now apply named_type with (p := p).
        * cbn [eval_type]. rewrite written_means, means_plain, Ep, E. cbn [option_map]. f_equal. now apply named_type with (p := p).
      + rewrite means_angle in E. rewrite angle_code. cbn [plain] in P. apply andb_prop in P. destruct P as [P1 P2].
        destruct (args_mean sc ps self l) as [rs|] eqn:Er; [|discriminate].
        assert (A : exists xs, args_code ps l = Some xs /\ forall args, args_eval args xs = Some (map (field_type_meta e ps) rs)).
        { clear -H Er P2. revert rs Er. induction H as [|x l Hx H IH]; intros rs Er; cbn [args_mean args_code forallb] in *.
          - injection Er as <-. exists []. split; reflexivity.
          - apply andb_prop in P2. destruct P2 as [P P2]. destruct x as [|t|]; [now apply IH| |discriminate].
            destruct (means sc ps self t) as [r|]; [|discriminate]. destruct (args_mean sc ps self l) as [rs'|]; [|discriminate]. injection Er as <-.
            destruct (Hx P r eq_refl) as (x & -> & Vx). destruct (IH P2 rs' eq_refl) as (xs & -> & Vs). eexists. split; [reflexivity|]. intros args. cbn [args_eval map]. now rewrite Vx, Vs. }
        destruct A as (xs & -> & V). cbn [option_map]. eexists. split; [reflexivity|]. intros args. rewrite eval_ref, written_means, means_angle, Er, E, V. cbn [option_map]. f_equal.
        unfold named in E. destruct (sc p) as [df|]; [|discriminate]. destruct df as [k| | | |c|u n|n t]; try discriminate.
        * destruct c, rs as [|y [|z [|? ?]]]; try discriminate; cbn in E; try (injection E as <-; reflexivity).
          destruct (key_of y) as [k|] eqn:Ek; [|discriminate]. injection E as <-. cbn [subst name_const field_type_meta map]. now rewrite (key_meta y k Ek).
        * cbn in E. destruct (Nat.eqb (List.length rs) n); [|discriminate]. injection E as <-. cbn [subst name_const field_type_meta]. now rewrite names.
  Qed.
End Crate.
