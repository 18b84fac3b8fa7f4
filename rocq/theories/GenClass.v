(** The classes the text of the generator reads as: proofs for PropGen.v. *)
From Verif Require Import Base Varint WireFmt Types Meta Gen CsRead GenSpec GenLex GenParse GenStmt GenMember.
From Coq Require Import String Lia.
Import Ascii String.StringSyntax.
Local Open Scope string_scope.
Local Open Scope list_scope.
Local Open Scope N_scope.

(** ** What a struct is read as *)

Definition p_path : param := PM (CN "Path" []) "path" true.
Definition p_tag : param := PM (CN "UInt32" []) "tag" false.
Definition p_reader : param := PM (CN "IReader" []) "reader" false.
Definition p_wire : param := PM (CN "WireType" []) "wireType" false.
Definition p_notify : param := PM (CN "bool" []) "shouldNotify" false.
Definition void : cname := CN "void" [].
Definition set_path : stmt := SAssign (sub "Path") (ECoal (EName "path") (EMem (EName "Path") "Root")).
Definition x_prop (v : vfield) : member := KProp ["public"] (v_type v) (v_name v) true.
Definition x_ctor (acc n : string) (ps : list string) (vs : list vfield) : member :=
  KCtor [acc] n [p_path] None (map x_validate ps ++ set_path :: flat_map x_init vs).
Definition x_event (own : cname) (v : vfield) : member :=
  KEvent ["public"; "static"] (CN "EventHandler" [CN "FieldUpdateEventArgs" [v_type v; own]]) (on v).
Definition x_clear (v : vfield) : member :=
  KMethod ["public"; "static"] void ("Clear" +++ v_name v +++ "UpdateHandlers") [] [] [x_off v].
Definition x_clear_all (vs : list vfield) : member :=
  KMethod ["public"; "static"] void "ClearUpdateHandlers" [] [] (map x_off vs).
Definition x_deserialize (acc : string) (own : cname) (var : string) : member :=
  KMethod [acc; "static"] own "Deserialize" [] [p_reader; p_path]
    [SVar var (ENew own [(None, EName "path")]);
     SExpr (ECall (EMem (EName var) "Replace") [(None, EName "reader"); (Some "shouldNotify", EBool false)]);
     SReturn (EName var)].
Definition on_tag (body : list stmt) : list stmt := [SSwitch (EName "tag") body].
Definition x_wire (vs : list vfield) : member :=
  KMethod ["public"] (CN "Nullable" [CN "WireType" []]) "GetWireType" [] [p_tag]
    (on_tag (flat_map (fun v => x_wire1 (v_meta v)) vs ++ [SDefault; SReturn ENull])).
Definition x_nested (vs : list vfield) : member :=
  KMethod ["public"] (CN "IState" []) "GetNested" [] [p_tag] (on_tag (flat_map x_nested1 vs ++ [SDefault; SReturn ENull])).
Definition skip_call : stmt := SExpr (ECall (EMem (EName "reader") "SkipField") [(None, EName "wireType")]).
Definition x_replace (vs : list vfield) : member :=
  KMethod ["public"] void "ReplaceAt" [] [p_tag; p_wire; p_reader; p_notify]
    (on_tag (flat_map x_replace1 vs ++ [SDefault; skip_call; SBreak])).
Definition unsupported : list stmt := [SThrow (ENew (CN "NotSupportedException" []) [])].
Definition x_replay : list member :=
  [KMethod ["public"] void "ReplayListPush" [] [p_reader] unsupported;
   KMethod ["public"] void "ReplayListPop" [] [] unsupported;
   KMethod ["public"] void "ReplayMapRemove" [] [PM (CN "UInt32" []) "key" false] unsupported].
Definition tvalue : cname := CN "TValue" [].
Definition notify_params (own : cname) : list param :=
  [p_tag; PM tvalue "newValue" false; PM tvalue "oldValue" false;
   PM (CN "EventHandler" [CN "FieldUpdateEventArgs" [tvalue; own]]) "handler" false; p_notify].
Definition notify_body (own : cname) : list stmt :=
  [SIf (EName "shouldNotify")
     [SVar "args" (ENew (CN "FieldUpdateEventArgs" [tvalue; own])
        [(None, EName "tag"); (None, EName "newValue"); (None, EName "oldValue"); (None, EThis)]);
      SExpr (ECall (EQMem (EName "handler") "Invoke") [(None, EThis); (None, EName "args")])];
   SReturn (EName "newValue")].
Definition x_notify (own : cname) : member :=
  KMethod ["private"] tvalue "MaybeNotify" ["TValue"] (notify_params own) (notify_body own).
Definition x_struct_members (acc n : string) (ps vps : list string) (vs : list vfield) : list member :=
  let own := own_type n ps in
  KProp ["public"] (CN "Path" []) "Path" false :: map x_prop vs ++
  [x_ctor acc n vps vs] ++
  map (x_event own) vs ++ map x_clear vs ++
  [x_clear_all vs; x_deserialize acc own (uncap_first_char n); x_wire vs; x_nested vs; x_replace vs] ++
  x_replay ++ [x_notify own].
(** [ps]: the type parameters declared; [vps]: those checked by the constructor. *)
Definition x_struct (acc n : string) (ps vps : list string) (vs : list vfield) : member :=
  KClass ["public"; "sealed"; "partial"] n ps (CN "IState" []) (x_struct_members acc n ps vps vs).

(** ** The parts *)

Ltac tokens := repeat (progress (rewrite <- ?app_assoc, <- ?app_comm_cons, ?app_nil_l)).
Lemma cons_app {A} (a : A) l : a :: l = [a] ++ l.
Proof. reflexivity. Qed.
Lemma lexops_cons s l : lexops (writeln s ++ l) = lex s ++ lexops l.
Proof. now rewrite lexops_app, lexops_writeln. Qed.

Lemma read_own own : cn_all type_ident own = true -> cn_all word own = true /\ cn_all type_word own = true /\
  match own with CN n _ => ident n end = true.
Proof. intros H. split; [now apply cn_word|]. split; [now apply cn_type_word|]. now apply cn_head. Qed.

Lemma read_props vs : Forall v_ok vs ->
  reads_members (lexops (flat_map (fun f => writeln ("public " +++ cf_type f +++ " " +++ cf_name f +++ " { get; private set; }")) (map v_cs vs)))
    (map x_prop vs).
Proof.
  intros H. rewrite lexops_flat. rewrite flat_map_concat_map, map_map, <- flat_map_concat_map.
  apply reads_m_map. intros v Hv. rewrite Forall_forall in H. generalize (H v Hv). vprep v.
  rewrite lexops_writeln. unfold v_cs. cbn [cf_type cf_name]. lexline; try wd.
  exact (read_prop ["public"] (v_type v) (v_name v) true eq_refl Htt Hn).
Qed.
Lemma read_set_path : reads_stmts (lex "this.Path = path ?? Path.Root;") [set_path].
Proof. lexline. stmt_with (@nil tok); [simple_assign|apply reads_nil]. Qed.
Lemma lex_ctor acc n : acc = "public" \/ acc = "internal" -> word n = true ->
  lex (acc +++ " " +++ n +++ "(Path path = null) {") = Id acc :: Id n :: Pc "(" :: param_toks [p_path] ++ [Pc ")"; Pc "{"].
Proof. intros Ha Hn. lexline; [destruct Ha as [-> | ->]; reflexivity|wd|]. reflexivity. Qed.
Ltac nothing :=
  repeat match goal with
  | |- context [lexops newline] => replace (lexops newline) with (@nil tok) by reflexivity
  | |- context [lexops [WIndent]] => replace (lexops [WIndent]) with (@nil tok) by reflexivity
  | |- context [lexops (when ?b newline)] => replace (lexops (when b newline)) with (@nil tok) by (destruct b; reflexivity)
  | |- context [lexops (outdent_writeln "}")] => replace (lexops (outdent_writeln "}")) with [Pc "}"] by reflexivity
  end.
Ltac parts := repeat (rewrite lexops_app || rewrite lexops_writeln); nothing; rewrite ?app_nil_l, ?app_nil_r.
Lemma lexops_indent s : lexops (indent_writeln s) = lex s.
Proof. unfold indent_writeln. rewrite <- lexops_writeln. reflexivity. Qed.
Lemma lexops_outdent s : lexops (outdent_writeln s) = lex s.
Proof. unfold outdent_writeln. rewrite <- lexops_writeln. reflexivity. Qed.

Lemma read_struct_ctor acc n ps vs : acc = "public" \/ acc = "internal" -> type_ident n = true -> forallb type_ident ps = true ->
  Forall v_ok vs -> reads_members (lexops (struct_ctor acc n ps (map v_cs vs))) [x_ctor acc n ps vs].
Proof.
  intros Ha Hn Hps Hvs.
  assert (Hb : reads_stmts (lexops (validate ps) ++ lex "this.Path = path ?? Path.Root;" ++ lexops (flat_map field_init (map v_cs vs)))
    (map x_validate ps ++ [set_path] ++ flat_map x_init vs)).
  { apply reads_app; [now apply read_validate|]. apply reads_app; [exact read_set_path|].
    rewrite lexops_flat, flat_map_concat_map, map_map, <- flat_map_concat_map. apply reads_flat. intros v Hv.
    rewrite Forall_forall in Hvs. apply read_init. auto. }
  apply reads_m_one. unfold x_ctor, struct_ctor. parts.
  rewrite (lex_ctor acc n Ha (ident_word _ (type_ident_ident _ Hn))).
  pose proof (read_ctor [acc] n [p_path] _ _ [] None ltac:(destruct Ha as [-> | ->]; reflexivity) Hn eq_refl Hb eq_refl) as R.
  revert R. unfold ctor_toks. cbn [map]. tokens. exact (fun R => R).
Qed.
Lemma ident_clear n : word n = true -> ident ("Clear" +++ n +++ "UpdateHandlers") = true.
Proof. intros H. apply (ident_glue "C" "lear" n "UpdateHandlers"); [reflexivity..|assumption|reflexivity]. Qed.
Lemma lex_clear n : word n = true -> lex ("public static void Clear" +++ n +++ "UpdateHandlers() {") =
  [Id "public"; Id "static"; Id "void"; Id ("Clear" +++ n +++ "UpdateHandlers"); Pc "("; Pc ")"; Pc "{"].
Proof. intros Hw. lexline; [wd|]. reflexivity. Qed.
Lemma lexops_write s l : lexops (WWrite s :: l) = lex s ++ lexops l.
Proof. reflexivity. Qed.
Lemma lexops_layout o l : match o with WWrite _ => False | _ => True end -> lexops (o :: l) = lexops l.
Proof. now destruct o. Qed.
Ltac ops := repeat first [rewrite lexops_app | rewrite lexops_write | rewrite lexops_layout by exact I].
Lemma lexops_none : lexops [] = [].
Proof. reflexivity. Qed.
Lemma lex_close : lex "}" = [Pc "}"].
Proof. reflexivity. Qed.
Lemma lex_blank : lex " " = [].
Proof. reflexivity. Qed.
Lemma lex_field_clear b v : word (v_name v) = true -> lexops (field_clear b (v_cs v)) =
  [Id "public"; Id "static"; Id "void"; Id ("Clear" +++ v_name v +++ "UpdateHandlers"); Pc "("; Pc ")"; Pc "{"] ++
  lex ("On" +++ v_name v +++ "Update = null;") ++ [Pc "}"].
Proof.
  intros Hw. unfold field_clear, v_cs. cbn [cf_name]. ops. rewrite (lex_clear _ Hw), lex_close.
  destruct b; ops; rewrite lexops_none, ?lex_blank, ?app_nil_r, ?app_nil_l; reflexivity.
Qed.
Lemma lex_event own v : cn_all word own = true -> cn_all word (v_type v) = true -> word (v_name v) = true ->
  lex ("public static event EventHandler<FieldUpdateEventArgs<" +++ cprint (v_type v) +++ ", " +++ cprint own +++ ">> On" +++ v_name v +++ "Update;") =
  event_toks ["public"; "static"] (CN "EventHandler" [CN "FieldUpdateEventArgs" [v_type v; own]]) (on v).
Proof.
  intros Ho Ht Hn. lexline; try wd. unfold event_toks, on. cbn [map ctoks sep_toks]. tokens. reflexivity.
Qed.
Lemma lexops_map {A B} (g : A -> B) (f : B -> list wop) l : lexops (flat_map f (map g l)) = flat_map (fun v => lexops (f (g v))) l.
Proof. now rewrite lexops_flat, flat_map_concat_map, map_map, <- flat_map_concat_map. Qed.
Lemma read_events own vs : cn_all type_ident own = true -> Forall v_ok vs ->
  reads_members (lexops (flat_map (fun f => writeln ("public static event EventHandler<FieldUpdateEventArgs<" +++ cf_type f +++ ", " +++ cprint own +++
    ">> On" +++ cf_name f +++ "Update;")) (map v_cs vs))) (map (x_event own) vs).
Proof.
  intros Ho Hvs. destruct (read_own own Ho) as (How & Hot & Hoh). rewrite Forall_forall in Hvs. rewrite lexops_map. apply reads_m_map.
  intros v Hv. rewrite lexops_writeln. generalize (Hvs v Hv). vprep v. cbn [cf_type cf_name]. rewrite (lex_event own v How Htw Hw).
  apply read_event; [reflexivity| |exact Hon]. cbn [cn_all forallb]; rewrite Htt, Hot; reflexivity.
Qed.
Lemma read_clears b vs : Forall v_ok vs -> reads_members (lexops (flat_map (field_clear b) (map v_cs vs))) (map x_clear vs).
Proof.
  intros Hvs. rewrite Forall_forall in Hvs. rewrite lexops_map. apply reads_m_map.
  intros v Hv. generalize (Hvs v Hv). intros Hok. assert (Hw : word (v_name v) = true) by (apply ident_word, Hok).
  rewrite (lex_field_clear b v Hw). 
  exact (read_method ["public"; "static"] void false _ [] _ _ eq_refl eq_refl (ident_clear _ Hw) eq_refl (read_off (v_name v) Hw)).
Qed.
Lemma lex_clear_all : lex "public static void ClearUpdateHandlers() {" =
  [Id "public"; Id "static"; Id "void"; Id "ClearUpdateHandlers"; Pc "("; Pc ")"; Pc "{"].
Proof. reflexivity. Qed.
Lemma read_offs vs : Forall v_ok vs ->
  reads_stmts (lexops (flat_map (fun f => [WNewline; WIndentation; WWrite ("On" +++ cf_name f +++ "Update = null;")]) (map v_cs vs))) (map x_off vs).
Proof.
  intros Hvs. rewrite Forall_forall in Hvs. rewrite lexops_map.
  replace (map x_off vs) with (flat_map (fun v => [x_off v]) vs) by (clear; induction vs; cbn; congruence).
  apply reads_flat. intros v Hv. ops. rewrite lexops_none, app_nil_r. exact (read_off (v_name v) (ident_word _ (proj1 (Hvs v Hv)))).
Qed.
Lemma read_struct_events own vs : cn_all type_ident own = true -> Forall v_ok vs ->
  reads_members (lexops (struct_events (cprint own) (map v_cs vs))) (map (x_event own) vs ++ map x_clear vs ++ [x_clear_all vs]).
Proof.
  intros Ho Hvs. unfold struct_events. rewrite lexops_app. apply reads_m_app; [now apply read_events|].
  rewrite lexops_app. nothing. rewrite app_nil_l, lexops_app. apply reads_m_app; [now apply read_clears|].
  apply reads_m_one. ops. nothing. rewrite app_nil_l, lex_clear_all, lex_close, lexops_none.
  pose proof (read_offs vs Hvs) as B. revert B. generalize (lexops (flat_map (fun f => [WNewline; WIndentation; WWrite ("On" +++ cf_name f +++ "Update = null;")]) (map v_cs vs))).
  intros l B. 
  assert (E1 : lexops (if some (map v_cs vs) then [WIndent] else [WWrite " "]) = []) by (destruct (some (map v_cs vs)); reflexivity).
  assert (E2 : lexops (when (some (map v_cs vs)) [WOutdent; WNewline; WIndentation]) = []) by (destruct (some (map v_cs vs)); reflexivity).
  rewrite E1, E2, !app_nil_l, ?app_nil_r.
  exact (read_method ["public"; "static"] void false "ClearUpdateHandlers" [] _ _ eq_refl eq_refl eq_refl eq_refl B).
Qed.

Lemma read_deserialize acc own var : acc = "public" \/ acc = "internal" -> cn_all type_ident own = true -> ident var = true ->
  reads_members (lexops (gen_deserialize acc (cprint own) var)) [x_deserialize acc own var].
Proof.
  intros Ha Ho Hv. destruct (read_own own Ho) as (How & Hot & Hoh). pose proof (ident_word _ Hv) as Hvw.
  apply reads_m_one. unfold gen_deserialize.
  parts. rewrite lexops_indent.
  assert (L : lex (acc +++ " static " +++ cprint own +++ " Deserialize(IReader reader, Path path = null) {") =
    Id acc :: Id "static" :: ctoks own ++ Id "Deserialize" :: Pc "(" :: param_toks [p_reader; p_path] ++ [Pc ")"; Pc "{"]).
  { lexline; [destruct Ha as [-> | ->]; reflexivity|wd|]. reflexivity. }
  rewrite L. clear L.
  assert (B : reads_stmts (lex ("var " +++ var +++ " = new " +++ cprint own +++ "(path);") ++ lex (var +++ ".Replace(reader, shouldNotify: false);")
     ++ lex ("return " +++ var +++ ";"))
    [SVar var (ENew own [(None, EName "path")]);
     SExpr (ECall (EMem (EName var) "Replace") [(None, EName "reader"); (Some "shouldNotify", EBool false)]);
     SReturn (EName var)]).
  { rewrite cons_app, (cons_app (SExpr _)). apply reads_app; [|apply reads_app].
    - lexline; try wd. brk.
    - lexline; try wd. stmt_with (@nil tok); [simple_call|apply reads_nil].
    - lexline; try wd. brk. }
  pose proof (read_method [acc; "static"] own false "Deserialize" [p_reader; p_path] _ _
    ltac:(destruct Ha as [-> | ->]; reflexivity) Hot eq_refl eq_refl B) as R.
  revert R. unfold method_toks. cbn [map]. tokens. exact (fun R => R).
Qed.

Lemma tag_switch body b : reads_stmts body b -> reads_stmts (Id "switch" :: Pc "(" :: Id "tag" :: Pc ")" :: Pc "{" :: body ++ [Pc "}"]) (on_tag b).
Proof.
  intros H. apply (reads_switch [Id "tag"] (EName "tag")); [|exact H]. intros l. reflexivity.
Qed.
Lemma read_struct_wire vs : Forall v_ok vs -> reads_members (lexops (struct_wire (map v_meta vs))) [x_wire vs].
Proof.
  intros Hvs. rewrite Forall_forall in Hvs. apply reads_m_one. unfold struct_wire. parts. rewrite lexops_indent.
  replace (lex "public WireType? GetWireType(UInt32 tag) {") with
    [Id "public"; Id "WireType"; Pc "?"; Id "GetWireType"; Pc "("; Id "UInt32"; Id "tag"; Pc ")"; Pc "{"] by reflexivity.
  replace (lex "switch (tag) {") with [Id "switch"; Pc "("; Id "tag"; Pc ")"; Pc "{"] by reflexivity.
  assert (B : reads_stmts (lexops (flat_map field_wire (map v_meta vs)) ++ lex "default: return null;")
    (flat_map (fun v => x_wire1 (v_meta v)) vs ++ [SDefault; SReturn ENull])).
  { apply reads_app.
    - rewrite lexops_flat, flat_map_concat_map, map_map, <- flat_map_concat_map. apply reads_flat. intros v Hv.
      apply read_wire1. auto.
    - lexline. stmt_with [Id "return"; Id "null"; Pc ";"]. brk. }
  pose proof (read_method ["public"] (CN "WireType" []) true "GetWireType" [p_tag] _ _ eq_refl eq_refl eq_refl eq_refl (tag_switch _ _ B)) as R.
  revert R. unfold method_toks. cbn [map]. tokens. exact (fun R => R).
Qed.
Lemma read_struct_nested vs : Forall v_ok vs -> reads_members (lexops (struct_nested (map v_cs vs))) [x_nested vs].
Proof.
  intros Hvs. rewrite Forall_forall in Hvs. apply reads_m_one. unfold struct_nested. parts. rewrite lexops_indent.
  replace (lex "public IState GetNested(UInt32 tag) {") with
    [Id "public"; Id "IState"; Id "GetNested"; Pc "("; Id "UInt32"; Id "tag"; Pc ")"; Pc "{"] by reflexivity.
  replace (lex "switch (tag) {") with [Id "switch"; Pc "("; Id "tag"; Pc ")"; Pc "{"] by reflexivity.
  assert (B : reads_stmts (lexops (flat_map field_nested (map v_cs vs)) ++ lex "default: return null;")
    (flat_map x_nested1 vs ++ [SDefault; SReturn ENull])).
  { apply reads_app.
    - rewrite lexops_flat, flat_map_concat_map, map_map, <- flat_map_concat_map. apply reads_flat. intros v Hv.
      apply read_nested1. auto.
    - lexline. stmt_with [Id "return"; Id "null"; Pc ";"]. brk. }
  pose proof (read_method ["public"] (CN "IState" []) false "GetNested" [p_tag] _ _ eq_refl eq_refl eq_refl eq_refl (tag_switch _ _ B)) as R.
  revert R. unfold method_toks. cbn [map]. tokens. exact (fun R => R).
Qed.
Lemma read_struct_replace vs : Forall v_ok vs -> reads_members (lexops (struct_replace (map v_cs vs))) [x_replace vs].
Proof.
  intros Hvs. rewrite Forall_forall in Hvs. apply reads_m_one. unfold struct_replace. parts. rewrite lexops_indent.
  replace (lex "public void ReplaceAt(UInt32 tag, WireType wireType, IReader reader, bool shouldNotify) {") with
    (Id "public" :: Id "void" :: Id "ReplaceAt" :: Pc "(" :: param_toks [p_tag; p_wire; p_reader; p_notify] ++ [Pc ")"; Pc "{"]) by reflexivity.
  replace (lex "switch (tag) {") with [Id "switch"; Pc "("; Id "tag"; Pc ")"; Pc "{"] by reflexivity.
  assert (B : reads_stmts (lexops (flat_map field_replace (map v_cs vs)) ++ lex "default: reader.SkipField(wireType); break;")
    (flat_map x_replace1 vs ++ [SDefault; skip_call; SBreak])).
  { apply reads_app.
    - rewrite lexops_flat, flat_map_concat_map, map_map, <- flat_map_concat_map. apply reads_flat. intros v Hv.
      apply read_replace1. auto.
    - lexline. match goal with |- reads_stmts (_ :: _ :: ?l) _ => stmt_with l end.
      stmt_with [Id "break"; Pc ";"]; [simple_call|brk]. }
  pose proof (read_method ["public"] void false "ReplaceAt" [p_tag; p_wire; p_reader; p_notify] _ _ eq_refl eq_refl eq_refl eq_refl (tag_switch _ _ B)) as R.
  revert R. unfold method_toks. cbn [map]. tokens. exact (fun R => R).
Qed.
Lemma read_replay : reads_members (lexops gen_replay) x_replay.
Proof.
  unfold gen_replay. parts.
  assert (B : reads_stmts [Id "throw"; Id "new"; Id "NotSupportedException"; Pc "("; Pc ")"; Pc ";"] unsupported) by brk.
  unfold x_replay. rewrite cons_app, (cons_app (KMethod _ _ "ReplayListPop" _ _ _)).
  apply reads_m_app; [|apply reads_m_app]; apply reads_m_one.
  - exact (read_method ["public"] void false "ReplayListPush" [p_reader] _ _ eq_refl eq_refl eq_refl eq_refl B).
  - exact (read_method ["public"] void false "ReplayListPop" [] _ _ eq_refl eq_refl eq_refl eq_refl B).
  - exact (read_method ["public"] void false "ReplayMapRemove" [PM (CN "UInt32" []) "key" false] _ _ eq_refl eq_refl eq_refl eq_refl B).
Qed.
Lemma a_type_two n p own rest : type_word n = true -> type_word p = true -> cn_all type_word own = true -> not_lt rest = true ->
  a_type (Id n :: Pc "<" :: Id p :: Pc "," :: ctoks own ++ Pc ">" :: rest) = Some (CN n [CN p []; own], rest).
Proof.
  intros Hn Hp Ho Hr. pose proof (a_type_ok (CN n [CN p []; own]) rest) as A. revert A. cbn [ctoks sep_toks]. tokens. intros A.
  apply A; [|assumption]. cbn [cn_all forallb]. rewrite Hn, Hp, Ho. reflexivity.
Qed.
Lemma a_type_gen n own rest : type_word n = true -> cn_all type_word own = true -> not_lt rest = true ->
  a_type (Id n :: Pc "<" :: ctoks own ++ Pc ">" :: rest) = Some (CN n [own], rest).
Proof.
  intros Hn Ho Hr. pose proof (a_type_ok (CN n [own]) rest) as A. revert A. cbn [ctoks sep_toks]. tokens. intros A.
  apply A; [|assumption]. cbn [cn_all forallb]. rewrite Hn, Ho. reflexivity.
Qed.
Lemma read_struct_notify own : cn_all type_ident own = true ->
  reads_members (lexops (struct_notify (cprint own))) [x_notify own].
Proof.
  intros Ho. destruct (read_own own Ho) as (How & Hot & Hoh). apply reads_m_one. unfold struct_notify. parts.
  rewrite !lexops_indent, lexops_outdent.
  assert (L : lex ("EventHandler<FieldUpdateEventArgs<TValue, " +++ cprint own +++ ">> handler,") =
    ctoks (CN "EventHandler" [CN "FieldUpdateEventArgs" [tvalue; own]]) ++ [Id "handler"; Pc ","]).
  { lexline; [wd|]. cbn [ctoks sep_toks]. tokens. reflexivity. }
  rewrite L. clear L.
  assert (B : reads_stmts (Id "if" :: Pc "(" :: [Id "shouldNotify"] ++ Pc ")" :: Pc "{" ::
      (lex ("var args = new FieldUpdateEventArgs<TValue, " +++ cprint own +++ ">(tag, newValue, oldValue, this);") ++ lex "handler?.Invoke(this, args);") ++ [Pc "}"])
    [SIf (EName "shouldNotify")
     ([SVar "args" (ENew (CN "FieldUpdateEventArgs" [tvalue; own])
        [(None, EName "tag"); (None, EName "newValue"); (None, EName "oldValue"); (None, EThis)])] ++
      [SExpr (ECall (EQMem (EName "handler") "Invoke") [(None, EThis); (None, EName "args")])])]).
  { apply reads_if; [intros l; reflexivity|]. apply reads_app.
    - lexline; [wd|]. apply (reads_cons _ (@nil tok)); [now do 2 eexists|lens|intros f rest; flatten|apply reads_nil].
      apply ps_var; [side|]. unfold an_expr. eapply px; [|apply pt_end; reflexivity]. eapply pu_new.
      + apply a_type_two; [reflexivity|reflexivity|exact Hot|reflexivity].
      + par.
      + pos.
    - lexline. stmt_with (@nil tok); [simple_call|apply reads_nil]. }
  assert (B' : reads_stmts (lex "return newValue;") [SReturn (EName "newValue")]) by (lexline; brk).
  pose proof (reads_app _ _ _ _ B B') as B2. clear B B'.
  assert (Hp : forallb pm_ok (notify_params own) = true).
  { cbn [forallb notify_params]. unfold pm_ok at 4. cbn [pm_type pm_name cn_all forallb]. rewrite Hot. reflexivity. }
  pose proof (read_generic ["private"] tvalue "MaybeNotify" "TValue" (notify_params own) _ _ eq_refl eq_refl eq_refl eq_refl Hp B2) as R.
  revert R.
  replace (lex "private TValue MaybeNotify<TValue>(") with
    [Id "private"; Id "TValue"; Id "MaybeNotify"; Pc "<"; Id "TValue"; Pc ">"; Pc "("] by reflexivity.
  replace (lex "UInt32 tag,") with [Id "UInt32"; Id "tag"; Pc ","] by reflexivity.
  replace (lex "TValue newValue,") with [Id "TValue"; Id "newValue"; Pc ","] by reflexivity.
  replace (lex "TValue oldValue,") with [Id "TValue"; Id "oldValue"; Pc ","] by reflexivity.
  replace (lex "bool shouldNotify") with [Id "bool"; Id "shouldNotify"] by reflexivity.
  replace (lex ") {") with [Pc ")"; Pc "{"] by reflexivity.
  replace (lex "if (shouldNotify) {") with [Id "if"; Pc "("; Id "shouldNotify"; Pc ")"; Pc "{"] by reflexivity.
  unfold generic_toks, notify_params, x_notify, notify_body. cbn [param_toks map]. unfold one_param. cbn [pm_type pm_name pm_null p_tag p_notify tvalue].
  generalize (lex ("var args = new FieldUpdateEventArgs<TValue, " +++ cprint own +++ ">(tag, newValue, oldValue, this);")) (lex "handler?.Invoke(this, args);") (lex "return newValue;").
  intros l1 l2 l3. cbn [ctoks sep_toks]. tokens. exact (fun R => R).
Qed.
