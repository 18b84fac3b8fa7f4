(** C46: the messages collected for the C# generator.  C52: the C# names of field types. *)
From Verif Require Import Base Varint WireFmt Types Meta MetaProofs.
From Coq Require String.
Import String.StringSyntax.
Local Open Scope string_scope.
Local Open Scope N_scope.

(** A type mentions the types of its fields, with type parameters replaced, and the type arguments of a
    built-in type; an alias mentions what its type mentions. *)
Inductive mentions (e : env) : rty -> rty -> Prop :=
| by_opt t : mentions e (ROpt t) t
| by_vec t : mentions e (RVec t) t
| by_arr n t : mentions e (RArr n t) t
| by_list t : mentions e (RList t) t
| by_map k t : mentions e (RMap k t) t
| by_box t : mentions e (RBox t) t
| by_struct d args fs f : d_body (decl_of e d) = BStruct fs -> In f fs -> mentions e (RUser d args) (subst args (fd_ty f))
| by_enum d args vs n tag fs f : d_body (decl_of e d) = BEnum vs -> In ((n, tag), fs) vs -> In f fs ->
    mentions e (RUser d args) (subst args (fd_ty f))
| by_alias t u : mentions e t u -> mentions e (RAlias t) u.
(** [t] is reached from [root]: a path is the types passed on the way, the last one first. *)
Inductive way (e : env) (root : rty) : list rty -> rty -> Prop :=
| way_root : way e root [] root
| way_step p t u : way e root p t -> mentions e t u -> way e root (t :: p) u.
Definition reaches (e : env) (root t : rty) : Prop := exists p, way e root p t.
(** The types that have a message of their own: those declared. *)
Inductive declared_as (e : env) : rty -> message -> Prop :=
| as_user d args : declared_as e (RUser d args) (decl_msg e (decl_of e d))
| as_alias t m : declared_as e t m -> declared_as e (RAlias t) m.

Lemma mentions_links e t u : mentions e t u <-> In u (links_of e t).
Proof.
  split.
  - induction 1 as [| | | | | |d args fs f E H|d args vs n tag fs f E H1 H2|t u H IH]; cbn [links_of]; try (now left); [| |exact IH].
    + rewrite E. cbn [body_fields]. apply (in_map (fun f => subst args (fd_ty f))). exact H.
    + rewrite E. cbn [body_fields]. apply (in_map (fun f => subst args (fd_ty f))). apply in_flat_map. exists ((n, tag), fs). auto.
  - induction t as [| | | |t IH|t IH|n t IH|t IH|k t IH|t IH|d l IH|i|t IH] using rty_ind'; cbn [links_of];
      try (intros []; fail); try (intros [<-|[]]; constructor; fail).
    + intros H. apply in_map_iff in H. destruct H as (f & <- & H). destruct (d_body (decl_of e d)) as [fs|vs] eqn:E; cbn [body_fields] in H.
      * eapply by_struct; eauto.
      * apply in_flat_map in H. destruct H as ([[n tag] fs] & H1 & H2). eapply by_enum; eauto.
    + intros H. apply by_alias. auto.
Qed.
Lemma way_walk e root p t : way e root p t <-> walk rty (links_of e) root p t.
Proof. split; (induction 1; constructor; [assumption|now apply mentions_links]). Qed.
Lemma reaches_walk e root t : reaches e root t <-> reachable rty (links_of e) root t.
Proof. split; intros [p H]; exists p; now apply way_walk. Qed.
Lemma declared_msg e t m : declared_as e t m <-> msg_of e t = Some m.
Proof.
  split.
  - induction 1; [reflexivity|assumption].
  - induction t as [| | | |t IH|t IH|n t IH|t IH|k t IH|t IH|d l IH|i|t IH] using rty_ind'; cbn [msg_of]; try discriminate.
    + intros [= <-]. constructor.
    + intros H. constructor. auto.
Qed.

(** Recursive types are no problem: if the types reached have finitely many descriptions, more fuel than
    descriptions is enough, and then any amount of fuel gives the same result. *)
Theorem c46_terminates e gn root L :
  (forall t, reaches e root t -> In (type_of e t) L) ->
  exists msgs, forall fuel, (length L < fuel)%nat -> collect_meta fuel e gn root = Ok msgs.
Proof.
  intros H. setoid_rewrite reaches_walk in H. unfold collect_meta, collect.
  destruct (visit_total rty (type_of e) (msg_of e) (links_of e) gn root L H (S (length L)) root ([], []))
    as [st E].
  - exists []. constructor.
  - unfold fresh. cbn [fst]. assert (forall l : list tmeta, filter (fun t => negb (tmem t [])) l = l) as ->.
    { induction l as [|x l IH]; cbn; [reflexivity|now f_equal]. }
    lia.
  - exists (snd st). intros fuel Hf. rewrite (visit_fuel _ _ _ _ _ _ _ _ _ fuel E) by lia. now destruct st.
Qed.

(** For a program without type parameters there is nothing to assume: the types reached are written in it. *)
Fixpoint no_vars (t : rty) : bool :=
  match t with
  | RVar _ => false
  | ROpt t | RVec t | RArr _ t | RList t | RMap _ t | RBox t | RAlias t => no_vars t
  | RUser _ args => forallb no_vars args
  | _ => true
  end.
Fixpoint parts (t : rty) : list rty :=
  t :: match t with
       | ROpt t | RVec t | RArr _ t | RList t | RMap _ t | RBox t | RAlias t => parts t
       | _ => []
       end.
Definition written (e : env) (root : rty) : list rty :=
  parts root ++ flat_map (fun d => flat_map (fun f => parts (fd_ty f)) (body_fields (d_body d))) e.
Lemma subst_closed args t : no_vars t = true -> subst args t = t.
Proof.
  induction t as [| | | |t IH|t IH|n t IH|t IH|k t IH|t IH|d l IH|i|t IH] using rty_ind'; cbn; intros H;
    try reflexivity; try discriminate H; try (now rewrite (IH H)).
  f_equal. rewrite Forall_forall in IH. rewrite forallb_forall in H.
  rewrite <- (map_id l) at 2. apply map_ext_in. intros x Hx. now apply IH; [|apply H].
Qed.
Lemma parts_refl t : In t (parts t).
Proof. destruct t; now left. Qed.
Lemma parts_links e t u c : In t (parts u) -> In c (links_of e t) ->
  In c (parts u) \/ exists d args, real t = RUser d args.
Proof.
  revert t. induction u as [| | | |u IH|u IH|n u IH|u IH|k u IH|u IH|d l IH|i|u IH] using rty_ind';
    intros t; cbn [parts]; intros [<-|Ht] Hc;
    try (cbn in Hc; destruct Hc; fail); try (cbn in Hc; destruct Hc as [<-|[]]; left; right; apply parts_refl; fail);
    try (destruct Ht; fail); try (destruct (IH t Ht Hc) as [H|H]; [left; now right|now right]).
  - right. cbn. eauto.
  - cbn in Hc. destruct (IH u (parts_refl u) Hc) as [H|H]; [left; now right|right; exact H].
Qed.
Theorem c46_terminates_closed e gn root :
  (forall d f, In d e -> In f (body_fields (d_body d)) -> no_vars (fd_ty f) = true) ->
  exists msgs, forall fuel, (length (written e root) < fuel)%nat -> collect_meta fuel e gn root = Ok msgs.
Proof.
  intros Hv. rewrite <- (map_length (type_of e)). apply c46_terminates. intros t [p W]. apply in_map. apply way_walk in W.
  induction W as [|p l c W IH Hc]; [apply in_app_iff; left; apply parts_refl|].
  assert (K : In c (written e root) \/ exists d args, real l = RUser d args).
  { unfold written in *. rewrite in_app_iff in *. destruct IH as [IH|IH].
    - destruct (parts_links e l root c IH Hc); auto.
    - rewrite in_flat_map in IH. destruct IH as (d & Hd & IH). rewrite in_flat_map in IH. destruct IH as (f & Hf & IH).
      destruct (parts_links e l _ c IH Hc) as [H|H]; [|auto]. left. right.
      apply in_flat_map. exists d. split; [exact Hd|]. apply in_flat_map. eauto. }
  destruct K as [K|(d & args & E)]; [exact K|]. rewrite <- (real_links e l), E in Hc. cbn [links_of] in Hc.
  apply in_map_iff in Hc. destruct Hc as (f & <- & Hf). unfold written. apply in_app_iff. right.
  destruct (decl_of_in e d) as [N|I]; [rewrite <- N in Hf; destruct Hf|].
  rewrite subst_closed by (eapply Hv; eauto). apply in_flat_map. exists (decl_of e d). split; [exact I|].
  apply in_flat_map. exists f. split; [exact Hf|apply parts_refl].
Qed.

(** Every name is collected once, with the message of a type that is reached and has that name. *)
Theorem c46_once fuel e gn root msgs : collect_meta fuel e gn root = Ok msgs ->
  NoDup (map fst msgs) /\
  forall n m, In (n, m) msgs -> n = gn m /\ exists t, reaches e root t /\ declared_as e t m.
Proof.
  unfold collect_meta, collect. intros H.
  destruct (visit_link _ _ _ _ _ fuel root ([], [])) as [[seen ms]| | |] eqn:E; cbn in H; try discriminate H.
  inversion H; subst.
  assert (R0 : reachable rty (links_of e) root root) by (exists []; constructor).
  assert (S0 : sound rty (msg_of e) (links_of e) gn root ([], [])) by (split; [intros n m []|constructor]).
  destruct (visit_sound _ _ _ _ _ _ _ _ _ _ R0 S0 E) as [A B]. split; [exact B|]. intros n m I. destruct (A n m I) as (l & R & Em & En). split; [exact En|]. exists l. split; [now apply reaches_walk|now apply declared_msg].
Qed.

(** Every type reached has its name collected, provided declared names differ and boxes are met only
    on ways that already passed the type in the box. *)
Theorem c46_covers fuel e gn root msgs : names_ok e ->
  (forall p t, way e root p t -> boxed t -> exists u, In u p /\ ~ boxed u /\ type_of e u = type_of e t) ->
  collect_meta fuel e gn root = Ok msgs ->
  forall t m, reaches e root t -> declared_as e t m -> In (gn m) (map fst msgs).
Proof.
  intros Hn Hd H t m R Em. apply reaches_walk in R. apply declared_msg in Em. unfold collect_meta, collect in H.
  destruct (visit_link _ _ _ _ _ fuel root ([], [])) as [[seen ms]| | |] eqn:E; cbn in H; try discriminate H.
  inversion H; subst.
  assert (D : forall l, ~ boxed l \/ ~ ~ boxed l).
  { intros l. unfold boxed. destruct (real l) eqn:El; try (left; intros [u X]; discriminate X). right. eauto. }
  assert (DD : forall l, ~ ~ boxed l -> boxed l).
  { intros l X. unfold boxed in *. destruct (real l); try (exfalso; apply X; intros [u Y]; discriminate Y). eauto. }
  assert (C1 : forall l, ~ ~ boxed l -> msg_of e l = None).
  { intros l X. destruct (DD l X) as [u Eu]. rewrite <- (real_msg e l), Eu. reflexivity. }
  assert (C2 : forall l c, ~ ~ boxed l -> In c (links_of e l) -> type_of e c = type_of e l).
  { intros l c X. destruct (DD l X) as [u Eu]. rewrite <- (real_links e l), <- (real_type e l), Eu. cbn. now intros [<-|[]]. }
  assert (C3 : forall l l', reachable rty (links_of e) root l -> reachable rty (links_of e) root l' ->
            ~ boxed l -> ~ boxed l' -> type_of e l = type_of e l' ->
            (forall m, msg_of e l = Some m -> exists m', msg_of e l' = Some m' /\ gn m' = gn m) /\
            (forall c, In c (links_of e l) -> exists c', In c' (links_of e l') /\ type_of e c' = type_of e c)).
  { intros l l' _ _ F F' Et. destruct (same_type e l l' Hn F F' Et) as [E1 E2]. split.
    - intros m' X. exists m'. split; [congruence|reflexivity].
    - intros c Hc. assert (I : In (type_of e c) (map (type_of e) (links_of e l'))) by (rewrite <- E2; now apply in_map).
      apply in_map_iff in I. destruct I as (c' & X & Y). eauto. }
  assert (C4 : forall p l, walk rty (links_of e) root p l -> ~ ~ boxed l -> exists u, In u p /\ ~ boxed u /\ type_of e u = type_of e l).
  { intros p l W X. apply DD in X. apply way_walk in W. exact (Hd p l W X). }
  destruct (cover rty (type_of e) (msg_of e) (links_of e) gn root (fun l => ~ boxed l) D C1 C2 C3 C4 fuel (seen, msgs) E t R) as [_ K].
  unfold named in K. now rewrite Em in K.
Qed.

(** If moreover names tell messages apart, it is the type's own message that is collected. *)
Corollary c46_covers_exactly fuel e gn root msgs : names_ok e ->
  (forall p t, way e root p t -> boxed t -> exists u, In u p /\ ~ boxed u /\ type_of e u = type_of e t) ->
  (forall t u m m', reaches e root t -> reaches e root u -> declared_as e t m -> declared_as e u m' -> gn m = gn m' -> m = m') ->
  collect_meta fuel e gn root = Ok msgs ->
  forall n m, In (n, m) msgs <-> n = gn m /\ exists t, reaches e root t /\ declared_as e t m.
Proof.
  intros Hn Hd Hi H n m. destruct (c46_once _ _ _ _ _ H) as [_ A]. split; [apply A|].
  intros (-> & t & R & Em). pose proof (c46_covers _ _ _ _ _ Hn Hd H t m R Em) as I.
  apply in_map_iff in I. destruct I as ([n' m'] & X & Y). cbn in X. subst n'.
  destruct (A _ _ Y) as (X & u & Ru & Eu). rewrite (Hi t u m m' R Ru Em Eu X). now rewrite <- X.
Qed.

(** In particular without boxes, and with boxes around the root type only. *)
Corollary c46_no_box fuel e gn root msgs : names_ok e -> (forall t, reaches e root t -> ~ boxed t) ->
  collect_meta fuel e gn root = Ok msgs ->
  forall t m, reaches e root t -> declared_as e t m -> In (gn m) (map fst msgs).
Proof. intros Hn Hb. apply c46_covers; [exact Hn|]. intros p t W B. exfalso. apply (Hb t); [now exists p|exact B]. Qed.
Corollary c46_root_box fuel e gn root msgs : names_ok e -> ~ boxed root ->
  (forall t, reaches e root t -> boxed t -> type_of e t = type_of e root) ->
  collect_meta fuel e gn root = Ok msgs ->
  forall t m, reaches e root t -> declared_as e t m -> In (gn m) (map fst msgs).
Proof.
  intros Hn Hr Hb. apply c46_covers; [exact Hn|]. intros p t W B.
  exists root. split; [|split; [exact Hr|symmetry; apply Hb; [now exists p|exact B]]].
  assert (K : forall p t, way e root p t -> (p = [] /\ t = root) \/ In root p).
  { clear. intros p t W. induction W as [|p l c W IH Hc]; [auto|]. right. destruct IH as [[-> ->]|I]; cbn; auto. }
  destruct (K p t W) as [[_ ->]|I]; [contradiction|exact I].
Qed.

(** What files are written: everything collected except what is to be skipped; an enum without a variant
    of tag 0 makes the generator panic. *)
Theorem c46_files fuel e s root msgs : collect_meta fuel e (g_name s) root = Ok msgs ->
  match generate fuel e s root with
  | Ok files => forall n m, In (n, m) files <->
      In (n, m) msgs /\ ~ (is_builtin m = true /\ g_skip_builtins s = true) /\ ~ In n (g_skip s)
  | Panic => exists n m, In (n, m) msgs /\ gen_ok m = false
  | _ => False
  end.
Proof.
  intros H. unfold generate. rewrite H. cbn [bind]. clear H.
  induction msgs as [|[n m] l IH]; cbn [gen_each]; [cbn; tauto|].
  destruct (is_builtin m && g_skip_builtins s) eqn:E1.
  - apply andb_true_iff in E1. destruct (gen_each s l); [|contradiction|destruct IH as (a & b & I & G); exists a, b; cbn; auto|contradiction].
    intros n' m'. rewrite IH. cbn. split; [tauto|]. intros [[X|X] Y]; [inversion X; subst; tauto|tauto].
  - destruct (str_mem n (g_skip s)) eqn:E2.
    + apply str_mem_spec in E2. destruct (gen_each s l); [|contradiction|destruct IH as (a & b & I & G); exists a, b; cbn; auto|contradiction].
      intros n' m'. rewrite IH. cbn. split; [tauto|]. intros [[X|X] Y]; [inversion X; subst; tauto|tauto].
    + assert (E2' : ~ In n (g_skip s)) by (rewrite <- str_mem_spec; now rewrite E2).
      destruct (gen_ok m) eqn:E3; [|exists n, m; cbn; auto].
      destruct (gen_each s l); cbn [bind]; [|contradiction|destruct IH as (a & b & I & G); exists a, b; cbn; auto|contradiction].
      intros n' m'. cbn. rewrite IH. split; [|tauto]. intros [X|X]; [|tauto]. inversion X; subst. repeat split; auto.
      intros [Y Z]. rewrite Y, Z in E1. discriminate E1.
Qed.

(** ** Examples *)

Definition fd (n : string) (t : rty) (tag : N) : field := FD (NM n None) t tag.
Definition nm (n : string) : nmeta := NM n None.
(** Mutually recursive, generic and aliased types:
    struct Tree { kids: List<Tree>, pair: Pair<Leaf, Option<Box<Tree>>>, m: Leaves }
    struct Pair<A, B> { a: A, b: Vec<B> }
    enum Leaf { Empty, Back { t: Vec<Tree> } }
    type Leaves = Map<u16, Leaf> *)
Definition ex_env : env :=
  [ DL (nm "Tree") [] (BStruct [fd "kids" (RList (RUser 0 [])) 0;
                                fd "pair" (RUser 1 [RUser 2 []; ROpt (RBox (RUser 0 []))]) 1;
                                fd "m" (RAlias (RMap K16 (RUser 2 []))) 2]) false;
    DL (nm "Pair") ["A"; "B"] (BStruct [fd "a" (RVar 0) 0; fd "b" (RVec (RVar 1)) 1]) true;
    DL (NM "Leaf" (Some "Blatt")) [] (BEnum [((nm "Empty", 0), []); ((nm "Back", 1), [fd "t" (RVec (RUser 0 [])) 0])]) false ].
Definition names (r : res (list (string * message))) : list string :=
  match r with Ok l => map fst l | _ => [] end.
Definition ex_types : list rty :=
  [ RUser 0 []; RList (RUser 0 []); RUser 1 [RUser 2 []; ROpt (RBox (RUser 0 []))]; RAlias (RMap K16 (RUser 2 []));
    RUser 2 []; RVec (ROpt (RBox (RUser 0 []))); ROpt (RBox (RUser 0 [])); RBox (RUser 0 []); RVec (RUser 0 []) ].
Lemma ex_reaches t : reaches ex_env (RUser 0 []) t -> In t ex_types.
Proof.
  intros [p W]. induction W as [|p l c W IH Hc]; [now left|]. apply mentions_links in Hc.
  repeat (destruct IH as [<-|IH]; [cbn in Hc; repeat (destruct Hc as [<-|Hc]; [cbn; tauto|]); destruct Hc|]). destruct IH.
Qed.
Lemma ex_names_ok : names_ok ex_env.
Proof.
  split.
  - repeat constructor; cbn; intros H; repeat (destruct H as [H|H]; [discriminate H|]); exact H.
  - intros n H. cbn in H. repeat (destruct H as [<-|H]; [cbn; intros H; repeat (destruct H as [H|H]; [discriminate H|]); exact H|]).
    destruct H.
Qed.
Example c46_case :
  names (collect_meta 10 ex_env csharp_name (RUser 0 [])) = ["Tree"; "Pair"; "Blatt"] /\
  names (generate 10 ex_env (GS rust_name true ["Leaf"]) (RUser 0 [])) = ["Tree"] /\
  collect_meta 2 ex_env csharp_name (RUser 0 []) = NoFuel /\
  (forall t m, reaches ex_env (RUser 0 []) t -> declared_as ex_env t m -> In (csharp_name m) ["Tree"; "Pair"; "Blatt"]).
Proof.
  repeat split; try (vm_compute; reflexivity).
  apply (c46_root_box 10 ex_env csharp_name (RUser 0 [])
           (match collect_meta 10 ex_env csharp_name (RUser 0 []) with Ok l => l | _ => [] end) ex_names_ok).
  - intros [u E]. discriminate E.
  - intros t R [u E]. apply ex_reaches in R.
    repeat (destruct R as [<-|R]; [try discriminate E; reflexivity|]). destruct R.
  - vm_compute. reflexivity.
Qed.

(** Not in general: a box has the description of the type in it, so meeting [Box<Foo>] first marks
    [Foo] as visited, and the types of its fields are never looked at.
    struct Root { b: Box<Foo> }   struct Foo { x: Bar }   struct Bar {} *)
Definition box_env : env :=
  [ DL (nm "Root") [] (BStruct [fd "b" (RBox (RUser 1 [])) 0]) false;
    DL (nm "Foo") [] (BStruct [fd "x" (RUser 2 []) 0]) false;
    DL (nm "Bar") [] (BStruct []) false ].
Theorem c46_box_refuted : ~ (forall fuel e gn root msgs, names_ok e ->
  collect_meta fuel e gn root = Ok msgs ->
  forall t m, reaches e root t -> declared_as e t m -> In (gn m) (map fst msgs)).
Proof.
  intros H. specialize (H 10%nat box_env csharp_name (RUser 0 []) [("Root", decl_msg box_env (decl_of box_env 0)); ("Foo", decl_msg box_env (decl_of box_env 1))]).
  assert (N : names_ok box_env).
  { split.
    - repeat constructor; cbn; intros X; repeat (destruct X as [X|X]; [discriminate X|]); exact X.
    - intros n X. cbn in X. repeat (destruct X as [<-|X]; [cbn; intros X; repeat (destruct X as [X|X]; [discriminate X|]); exact X|]).
      destruct X. }
  specialize (H N eq_refl (RUser 2 []) (decl_msg box_env (decl_of box_env 2))).
  assert (R : reaches box_env (RUser 0 []) (RUser 2 [])).
  { exists [RUser 1 []; RBox (RUser 1 []); RUser 0 []].
    repeat (econstructor; [|apply mentions_links; cbn; left; reflexivity]). constructor. }
  specialize (H R (as_user box_env 2 [])). cbn in H. repeat (destruct H as [H|H]; [discriminate H|]). exact H.
Qed.
(** Every box does this to the fields of what it holds, if met first. *)
Theorem c46_box_first f e gn t seen msgs : ~ In (type_of e t) seen ->
  visit_link rty (type_of e) (msg_of e) (links_of e) gn (S (S f)) (RBox t) (seen, msgs) =
  Ok (type_of e t :: seen, match msg_of e t with Some m => or_insert (gn m) m msgs | None => msgs end).
Proof.
  intros H. rewrite visit_S. cbn [type_of links_of].
  destruct (tmem (type_of e t) seen) eqn:E; [apply tmem_spec in E; contradiction|].
  cbn [each_link]. rewrite visit_S. assert (tmem (type_of e t) (type_of e t :: seen) = true) as -> by (apply tmem_spec; now left).
  reflexivity.
Qed.

(** ** C52 *)

(** What the C# type of a field should be called: boxes vanish, maps lose the type of their keys. *)
Definition int_cs (k : ikind) : string :=
  match k with U8 => "Byte" | U16 => "UInt16" | U32 => "UInt32" | U64 => "UInt64"
             | I8 => "SByte" | I16 => "Int16" | I32 => "Int32" | I64 => "Int64" end.
Fixpoint cs_type (e : env) (params : list string) (t : rty) : string :=
  match t with
  | RInt k => int_cs k | RBool => "Boolean" | RStr => "String" | RBytes => "Bytes"
  | ROpt t => "Option<" +++ cs_type e params t +++ ">"
  | RVec t | RArr _ t => "Vector<" +++ cs_type e params t +++ ">"
  | RList t => "StateList<" +++ cs_type e params t +++ ">"
  | RMap _ t => "StateMap<" +++ cs_type e params t +++ ">"
  | RBox t | RAlias t => cs_type e params t
  | RUser d [] => cs_name (d_name (decl_of e d))
  | RUser d args => cs_name (d_name (decl_of e d)) +++ "<" +++ join ", " (map (cs_type e params) args) +++ ">"
  | RVar i => nth i params ""
  end.
(** No map behind an alias, no parameter behind an alias. *)
Fixpoint plain (t : rty) : bool :=
  match t with
  | RMap _ _ | RVar _ => false
  | ROpt t | RVec t | RArr _ t | RList t | RBox t | RAlias t => plain t
  | RUser _ args => forallb plain args
  | _ => true
  end.
Fixpoint aliases_plain (t : rty) : bool :=
  match t with
  | ROpt t | RVec t | RArr _ t | RList t | RBox t | RMap _ t => aliases_plain t
  | RAlias t => plain t
  | RUser _ args => forallb aliases_plain args
  | _ => true
  end.
Definition cs_names_ok (e : env) : Prop :=
  forall d, cs_name (d_name (decl_of e d)) <> "Box" /\ cs_name (d_name (decl_of e d)) <> "StateMap".

Lemma all_ok_map {A} (f : A -> res string) (g : A -> string) l : Forall (fun x => f x = Ok (g x)) l ->
  all_ok (map f l) = Ok (map g l).
Proof. induction 1 as [|x l H _ IH]; cbn; [reflexivity|]. now rewrite H, IH. Qed.
Lemma user_ref e g d (l : list rty) (h : rty -> string) : cs_names_ok e -> Forall (fun x => cs_field_type (g x) = Ok (h x)) l ->
  cs_field_type (MRef (d_name (decl_of e d)) (map g l)) =
  Ok (match l with [] => cs_name (d_name (decl_of e d))
      | _ => cs_name (d_name (decl_of e d)) +++ "<" +++ join ", " (map h l) +++ ">" end).
Proof.
  intros Hc H. destruct (Hc d) as [N1 N2]. apply String.eqb_neq in N1, N2.
  assert (E : all_ok (map cs_field_type (map g l)) = Ok (map h l)).
  { rewrite map_map. now apply all_ok_map. }
  destruct l as [|x l]; [reflexivity|]. change (map g (x :: l)) with (g x :: map g l) in *.
  set (n := d_name (decl_of e d)) in *. 
  change (cs_field_type (MRef n (g x :: map g l))) with
    (do l0 <- all_ok (map cs_field_type (g x :: map g l));
     if String.eqb (cs_name n) "Box" then Ok (nth 0 l0 "")
     else Ok (cs_name n +++ "<" +++ join ", " (if String.eqb (cs_name n) "StateMap" then tl l0 else l0) +++ ">")).
  rewrite E. cbn [bind]. now rewrite N1, N2.
Qed.

Lemma plain_type e params t : cs_names_ok e -> plain t = true -> cs_field_type (type_of e t) = Ok (cs_type e params t).
Proof.
  intros Hc. induction t as [k| | | |t IH|t IH|n t IH|t IH|k t IH|t IH|d l IH|i|t IH] using rty_ind';
    cbn [plain]; intros P; try discriminate P; try (cbn; rewrite (IH P); reflexivity); try reflexivity.
  - now destruct k.
  - cbn [type_of cs_type]. rewrite (user_ref e (type_of e) d l (cs_type e params) Hc); [now destruct l|].
    rewrite Forall_forall in *. rewrite forallb_forall in P. intros x Hx. apply IH; auto.
Qed.

Theorem c52_field_types e params t : cs_names_ok e -> aliases_plain t = true ->
  cs_field_type (field_type_meta e params t) = Ok (cs_type e params t).
Proof.
  intros Hc. induction t as [k| | | |t IH|t IH|n t IH|t IH|k t IH|t IH|d l IH|i|t IH] using rty_ind';
    cbn [aliases_plain]; intros P; try (cbn; rewrite (IH P); reflexivity); try reflexivity.
  - now destruct k.
  - cbn. rewrite (IH P). destruct k; reflexivity.
  - cbn [field_type_meta cs_type]. rewrite (user_ref e (field_type_meta e params) d l (cs_type e params) Hc); [now destruct l|].
    rewrite Forall_forall in *. rewrite forallb_forall in P. intros x Hx. apply IH; auto.
  - cbn [field_type_meta cs_type]. now apply plain_type.
Qed.

(** A map behind an alias gets no type argument at all, whatever its contents. *)
Theorem c52_aliased_map e params k t s : cs_field_type (type_of e t) = Ok s ->
  cs_field_type (field_type_meta e params (RAlias (RMap k t))) = Ok "StateMap<>".
Proof. intros H. cbn. now rewrite H. Qed.
Theorem c52_alias_refuted : ~ (forall e params t, cs_names_ok e ->
  cs_field_type (field_type_meta e params t) = Ok (cs_type e params t)).
Proof.
  intros H. specialize (H [] [] (RAlias (RMap K16 RBool))). cbn in H.
  assert (N : cs_names_ok []). { intros d. unfold decl_of. destruct d; cbn; split; discriminate. }
  specialize (H N). discriminate H.
Qed.

Example c52_case :
  cs_field_type (field_type_meta ex_env ["A"; "B"] (RMap K8 (RUser 1 [RBox (RUser 2 []); ROpt (RArr 3 (RVar 1))]))) =
  Ok "StateMap<Pair<Blatt, Option<Vector<B>>>>" /\
  cs_field_type (field_type_meta ex_env [] (RAlias (RMap K16 (RUser 2 [])))) = Ok "StateMap<>" /\
  cs_names_ok ex_env.
Proof.
  repeat split; try reflexivity; destruct d as [|[|[|[|d]]]]; discriminate.
Qed.

Print Assumptions c46_terminates.
Print Assumptions c46_terminates_closed.
Print Assumptions c46_once.
Print Assumptions c46_covers.
Print Assumptions c46_covers_exactly.
Print Assumptions c46_no_box.
Print Assumptions c46_root_box.
Print Assumptions c46_files.
Print Assumptions c46_box_refuted.
Print Assumptions c46_box_first.
Print Assumptions c52_field_types.
Print Assumptions c52_aliased_map.
Print Assumptions c52_alias_refuted.
