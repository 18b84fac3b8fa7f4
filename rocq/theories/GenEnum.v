(** The class of an enum: proofs for PropGen.v. *)
From Verif Require Import Base Varint WireFmt Types Meta Gen CsRead GenSpec GenLex GenParse GenStmt GenMember GenClass GenFile.
From Coq Require Import String Lia.
Import Ascii String.StringSyntax.
Local Open Scope string_scope.
Local Open Scope list_scope.
Local Open Scope N_scope.

(** ** What an enum is read as *)

Record evar := EV { ev_meta : smeta * N; ev_fields : list vfield }.
Definition ev_name (v : evar) : string := vname (ev_meta v).
Definition ev_camel (v : evar) : string := variant_name (ev_meta v).
Definition ev_tag (v : evar) : N := snd (ev_meta v).
Definition ev_params (v : evar) : list string := sm_params (fst (ev_meta v)).

Definition ty (n : string) : cname := CN n [].
Definition istate : cname := ty "IState".
Definition uint : cname := ty "UInt32".
Definition x_tag_const (v : evar) : member := KConst ["public"] uint (ev_camel v +++ "Tag") (ev_tag v).
Definition x_variant_get (v : evar) : member :=
  KGet ["public"] (ty (ev_name v)) (ev_name v +++ "Variant") [SReturn (EAs (sub "Variant") (ty (ev_name v)))].
Definition x_ctor1 (n : string) (default : N) : member :=
  KCtor ["public"] n [p_path] (Some [(None, EName "path"); (None, ENum default)]) [].
Definition x_make (v : evar) : stmt :=
  SAssign (sub "Variant") (ENew (ty (ev_name v)) [(None, nested_path (ev_tag v))]).
Definition x_ctor2 (n : string) (ps : list string) (vs : list evar) (default : evar) : member :=
  KCtor ["public"] n [PM (ty "Path") "path" false; p_tag] None
    (map x_validate ps ++ [set_path] ++ [SAssign (sub "Tag") (EName "tag")] ++
     on_tag (flat_map (fun v => [SCase (ev_tag v); x_make v; SBreak]) vs ++ [SDefault; x_make default; SBreak])).
Definition x_factory (n : string) (v : evar) : member :=
  KMethod ["public"; "static"] (ty n) ("New" +++ ev_camel v) [] [p_path]
    [SReturn (ENew (ty n) [(None, EName "path"); (None, ENum (ev_tag v))])].
Definition x_on_update (own : cname) : member :=
  KEvent ["public"; "static"] (CN "EventHandler" [CN "VariantUpdateEventArgs" [own]]) "OnUpdate".
Definition x_clear_update : member :=
  KMethod ["public"; "static"] void "ClearUpdateHandlers" [] [] [SAssign (EName "OnUpdate") ENull].
Definition x_enum_wire (vs : list evar) : member :=
  KMethod ["public"] (CN "Nullable" [CN "WireType" []]) "GetWireType" [] [p_tag]
    (on_tag (flat_map (fun v => [SCase (ev_tag v); SReturn (wire Sized)]) vs ++ [SDefault; SReturn ENull])).
Definition x_enum_nested : member :=
  KMethod ["public"] istate "GetNested" [] [p_tag]
    [SReturn (ECond (EEq (EName "tag") (sub "Tag")) (sub "Variant") ENull)].
Definition x_update (v : evar) : stmt :=
  SExpr (ECall (sub "UpdateAndNotify")
    [(None, ENum (ev_tag v));
     (None, ECall (EMem (EName (ev_name v)) "Deserialize") [(None, EName "reader"); (None, nested_path (ev_tag v))]);
     (None, EName "shouldNotify")]).
Definition skip_end : stmt := SExpr (ECall (EMem (EName "reader") "SkipToEnd") []).
Definition x_enum_replace (vs : list evar) : member :=
  KMethod ["public"] void "ReplaceAt" [] [p_tag; p_wire; p_reader; p_notify]
    (on_tag (flat_map (fun v => [SCase (ev_tag v); x_update v; SBreak]) vs ++ [SDefault; skip_end; SBreak])).
Definition x_enum_notify (own : cname) : member :=
  KMethod ["private"] void "UpdateAndNotify" [] [PM uint "newTag" false; PM istate "newVariant" false; p_notify]
    ([SIf (EName "shouldNotify")
       ([SVar "args" (ENew (CN "VariantUpdateEventArgs" [own])
          [(None, EName "newTag"); (None, EName "newVariant"); (None, sub "Tag"); (None, sub "Variant"); (None, EThis)])] ++
        [SExpr (ECall (EQMem (EMem (texpr own) "OnUpdate") "Invoke") [(None, EThis); (None, EName "args")])])] ++
     [SAssign (sub "Tag") (EName "newTag")] ++ [SAssign (sub "Variant") (EName "newVariant")]).
Definition x_variant (v : evar) : member := x_struct "internal" (ev_name v) [] (ev_params v) (ev_fields v).
Definition x_enum_members (n : string) (ps : list string) (vs : list evar) (default : evar) : list member :=
  let own := own_type n ps in
  map x_tag_const vs ++ [KProp ["public"] (ty "Path") "Path" false; KProp ["public"] uint "Tag" true; KProp ["public"] istate "Variant" true] ++
  map x_variant_get vs ++
  [x_ctor1 n (ev_tag default); x_ctor2 n ps vs default] ++ map (x_factory n) vs ++ [x_on_update own; x_clear_update] ++
  [x_deserialize "public" own (uncap_first_char n); x_enum_wire vs; x_enum_nested; x_enum_replace vs] ++ x_replay ++
  [x_enum_notify own] ++ map x_variant vs.
Definition x_enum (n : string) (ps : list string) (vs : list evar) (default : evar) : member :=
  KClass ["public"; "sealed"; "partial"] n ps (CN "IEnumState" []) (x_enum_members n ps vs default).

(** What a variant needs for its lines to be read. *)
Definition ev_ok (v : evar) : Prop :=
  type_ident (ev_name v) = true /\ ident (uncap_first_char (ev_name v)) = true /\ ident (ev_camel v) = true /\
  ident (ev_camel v +++ "Tag") = true /\ ident (ev_name v +++ "Variant") = true /\
  forallb type_ident (ev_params v) = true /\ Forall v_ok (ev_fields v).

Lemma read_tag_const v : ev_ok v ->
  reads_member (lex ("public const UInt32 " +++ ev_camel v +++ "Tag = " +++ dec (ev_tag v) +++ ";")) (x_tag_const v).
Proof.
  intros (_ & _ & Hc & Ht & _). pose proof (ident_word _ Hc) as Hw. lexline; try wd.
  exact (read_const ["public"] "UInt32" _ _ _ eq_refl eq_refl Ht (number_dec (ev_tag v))).
Qed.
Lemma read_variant_get v : ev_ok v ->
  reads_member (lex ("public " +++ ev_name v +++ " " +++ ev_name v +++ "Variant { get { return this.Variant as " +++ ev_name v +++ "; } }")) (x_variant_get v).
Proof.
  intros (Hn & _ & _ & _ & Hv & _). pose proof (ident_word _ (type_ident_ident _ Hn)) as Hw. pose proof (type_ident_word _ Hn) as Htw. lexline; try wd.
  assert (B : reads_stmts [Id "return"; Id "this"; Pc "."; Id "Variant"; Id "as"; Id (ev_name v); Pc ";"] [SReturn (EAs (sub "Variant") (ty (ev_name v)))]) by brk.
  assert (Ht : cn_all type_word (ty (ev_name v)) = true) by (cbn [ty cn_all forallb]; now rewrite Htw).
  exact (read_get ["public"] (ty (ev_name v)) (ev_name v +++ "Variant") _ _ eq_refl Ht Hv B).
Qed.
Lemma read_ctor1 n d : type_ident n = true ->
  reads_member (lex ("public " +++ n +++ "(Path path = null) : this(path, " +++ dec d +++ ") { }")) (x_ctor1 n d).
Proof.
  intros Hn. pose proof (ident_word _ (type_ident_ident _ Hn)) as Hw. lexline; try wd.
  refine (read_ctor ["public"] n [p_path] [] [] (Pc ":" :: Id "this" :: Pc "(" :: [Id "path"; Pc ","; Id (dec d); Pc ")"])
    (Some [(None, EName "path"); (None, ENum d)]) eq_refl Hn eq_refl reads_nil _).
  eexists. split; [reflexivity|]. intros l. cbn [app]. par.
Qed.

Lemma read_make_case v : ev_ok v ->
  reads_stmts (lex ("case " +++ dec (ev_tag v) +++ ": this.Variant = new " +++ ev_name v +++ "(this.Path.GetNested(" +++ dec (ev_tag v) +++ ")); break;"))
    [SCase (ev_tag v); x_make v; SBreak].
Proof.
  intros (Hn & _). pose proof (ident_word _ (type_ident_ident _ Hn)) as Hw. pose proof (type_ident_word _ Hn) as Htw. lexline; try wd.
  case_line. stmt_with [Id "break"; Pc ";"]; [simple_assign|brk].
Qed.
Lemma read_make_default v : ev_ok v ->
  reads_stmts (lex ("default: this.Variant = new " +++ ev_name v +++ "(this.Path.GetNested(" +++ dec (ev_tag v) +++ ")); break;"))
    [SDefault; x_make v; SBreak].
Proof.
  intros (Hn & _). pose proof (ident_word _ (type_ident_ident _ Hn)) as Hw. pose proof (type_ident_word _ Hn) as Htw. lexline; try wd.
  match goal with |- reads_stmts (_ :: _ :: ?l) _ => stmt_with l end. stmt_with [Id "break"; Pc ";"]; [simple_assign|brk].
Qed.
Lemma lex_ctor2 n : word n = true -> lex ("public " +++ n +++ "(Path path, UInt32 tag) {") =
  Id "public" :: Id n :: Pc "(" :: param_toks [PM (ty "Path") "path" false; p_tag] ++ [Pc ")"; Pc "{"].
Proof. intros Hn. lexline; [wd|]. reflexivity. Qed.
Lemma read_set_tag : reads_stmts (lex "this.Tag = tag;") [SAssign (sub "Tag") (EName "tag")].
Proof. lexline. stmt_with (@nil tok); [simple_assign|apply reads_nil]. Qed.
Lemma lex_switch : lex "switch (tag) {" = [Id "switch"; Pc "("; Id "tag"; Pc ")"; Pc "{"].
Proof. reflexivity. Qed.
Lemma reads_cases (g : smeta * N -> string) (h : evar -> list stmt) vs : Forall ev_ok vs ->
  (forall v, ev_ok v -> reads_stmts (lex (g (ev_meta v))) (h v)) ->
  reads_stmts (lexops (flat_map (fun v => writeln (g v)) (map ev_meta vs))) (flat_map h vs).
Proof.
  intros H G. rewrite Forall_forall in H. rewrite lexops_map. apply reads_flat. intros v Hv. rewrite lexops_writeln. auto.
Qed.
Lemma reads_lines (g : smeta * N -> string) (h : evar -> member) vs : Forall ev_ok vs ->
  (forall v, ev_ok v -> reads_member (lex (g (ev_meta v))) (h v)) ->
  reads_members (lexops (flat_map (fun v => writeln (g v)) (map ev_meta vs))) (map h vs).
Proof.
  intros H G. rewrite Forall_forall in H. rewrite lexops_map. apply reads_m_map. intros v Hv. rewrite lexops_writeln. auto.
Qed.
Lemma read_enum_properties vs own : Forall ev_ok vs -> cn_all type_ident own = true ->
  exists l, lexops (enum_properties (cprint own) (map ev_meta vs)) =
    map Id ["public"; "sealed"; "partial"] ++ Id "class" :: ctoks own ++ [Pc ":"; Id "IEnumState"; Pc "{"] ++ l /\
  reads_members l (map x_tag_const vs ++ [KProp ["public"] (ty "Path") "Path" false; KProp ["public"] uint "Tag" true; KProp ["public"] istate "Variant" true] ++
    map x_variant_get vs).
Proof.
  intros Hvs Ho. destruct (read_own _ Ho) as (How & Hot & Hoh).
  pose proof (lex_class own "IEnumState" How eq_refl) as L. replace (" : " +++ "IEnumState" +++ " {") with " : IEnumState {" in L by reflexivity.
  unfold enum_properties. rewrite !lexops_app, !lexops_writeln, L. clear L. nothing. rewrite !app_nil_l.
  eexists. split; [tokens; reflexivity|].
  apply reads_m_app; [apply (reads_lines (fun v => "public const UInt32 " +++ variant_name v +++ "Tag = " +++ dec (snd v) +++ ";")); [assumption|apply read_tag_const]|].
  rewrite (cons_app (KProp _ _ "Path" _)), (cons_app (KProp _ _ "Tag" _)), <- !app_assoc.
  apply reads_m_app; [apply reads_m_one; exact (read_prop ["public"] (ty "Path") "Path" false eq_refl eq_refl eq_refl)|].
  apply reads_m_app; [apply reads_m_one; exact (read_prop ["public"] uint "Tag" true eq_refl eq_refl eq_refl)|].
  apply reads_m_app; [apply reads_m_one; exact (read_prop ["public"] istate "Variant" true eq_refl eq_refl eq_refl)|].
  apply (reads_lines (fun v => "public " +++ vname v +++ " " +++ vname v +++ "Variant { get { return this.Variant as " +++ vname v +++ "; } }")); [assumption|apply read_variant_get].
Qed.
Lemma read_enum_ctor n ps vs d : type_ident n = true -> forallb type_ident ps = true -> Forall ev_ok vs -> ev_ok d ->
  reads_members (lexops (enum_ctor n ps (map ev_meta vs) (ev_meta d))) [x_ctor1 n (ev_tag d); x_ctor2 n ps vs d].
Proof.
  intros Hn Hps Hvs Hd. unfold enum_ctor. parts. rewrite (cons_app (x_ctor1 _ _)). apply reads_m_app; [apply reads_m_one; exact (read_ctor1 n (ev_tag d) Hn)|].
  apply reads_m_one. rewrite (lex_ctor2 n (ident_word _ (type_ident_ident _ Hn))), lex_switch.
  assert (B : reads_stmts (lexops (flat_map (fun v => writeln ("case " +++ dec (snd v) +++ ": this.Variant = new " +++ vname v +++ "(this.Path.GetNested(" +++ dec (snd v) +++ ")); break;")) (map ev_meta vs)) ++
    lex ("default: this.Variant = new " +++ vname (ev_meta d) +++ "(this.Path.GetNested(" +++ dec (snd (ev_meta d)) +++ ")); break;"))
    (flat_map (fun v => [SCase (ev_tag v); x_make v; SBreak]) vs ++ [SDefault; x_make d; SBreak])).
  { apply reads_app; [|exact (read_make_default d Hd)].
    apply (reads_cases (fun v => "case " +++ dec (snd v) +++ ": this.Variant = new " +++ vname v +++ "(this.Path.GetNested(" +++ dec (snd v) +++ ")); break;"));
      [assumption|exact read_make_case]. }
  pose proof (reads_app _ _ _ _ (read_validate ps Hps) (reads_app _ _ _ _ read_set_path (reads_app _ _ _ _ read_set_tag (tag_switch _ _ B)))) as B'. clear B.
  pose proof (read_ctor ["public"] n [PM (ty "Path") "path" false; p_tag] _ _ [] None eq_refl Hn eq_refl B' eq_refl) as R.
  revert R. unfold ctor_toks, x_ctor2.
  generalize (lexops (validate ps)) (lex "this.Path = path ?? Path.Root;") (lex "this.Tag = tag;")
    (lexops (flat_map (fun v => writeln ("case " +++ dec (snd v) +++ ": this.Variant = new " +++ vname v +++ "(this.Path.GetNested(" +++ dec (snd v) +++ ")); break;")) (map ev_meta vs)))
    (lex ("default: this.Variant = new " +++ vname (ev_meta d) +++ "(this.Path.GetNested(" +++ dec (snd (ev_meta d)) +++ ")); break;")).
  intros l1 l2 l3 l4 l5. cbn [map]. tokens. exact (fun R => R).
Qed.
Lemma read_factory n v : type_ident n = true -> ev_ok v ->
  reads_member (lex ("public static " +++ n +++ " New" +++ ev_camel v +++ "(Path path = null) { return new " +++ n +++ "(path, " +++ dec (ev_tag v) +++ "); }")) (x_factory n v).
Proof.
  intros Hn (_ & _ & Hc & _). pose proof (ident_word _ (type_ident_ident _ Hn)) as Hw. pose proof (type_ident_word _ Hn) as Htw.
  pose proof (ident_word _ Hc) as Hcw. lexline; try wd.
  assert (B : reads_stmts [Id "return"; Id "new"; Id n; Pc "("; Id "path"; Pc ","; Id (dec (ev_tag v)); Pc ")"; Pc ";"]
    [SReturn (ENew (ty n) [(None, EName "path"); (None, ENum (ev_tag v))])]) by brk.
  assert (Ht : cn_all type_word (ty n) = true) by (cbn [ty cn_all forallb]; now rewrite Htw).
  assert (Hi : ident ("New" +++ ev_camel v) = true).
  { pose proof (ident_glue "N" "ew" (ev_camel v) "" eq_refl eq_refl Hcw eq_refl) as G. rewrite sapp_nil in G. exact G. }
  exact (read_method ["public"; "static"] (ty n) false ("New" +++ ev_camel v) [p_path] _ _ eq_refl Ht Hi eq_refl B).
Qed.
Lemma read_enum_events n own vs : type_ident n = true -> cn_all type_ident own = true -> Forall ev_ok vs ->
  reads_members (lexops (enum_events n (cprint own) (map ev_meta vs))) (map (x_factory n) vs ++ [x_on_update own; x_clear_update]).
Proof.
  intros Hn Ho Hvs. destruct (read_own _ Ho) as (How & Hot & Hoh). unfold enum_events. parts. rewrite lexops_indent.
  apply reads_m_app.
  { apply (reads_lines (fun v => "public static " +++ n +++ " New" +++ variant_name v +++ "(Path path = null) { return new " +++ n +++ "(path, " +++ dec (snd v) +++ "); }"));
      [assumption|intros v Hv; now apply read_factory]. }
  rewrite (cons_app (x_on_update own)). apply reads_m_app; apply reads_m_one.
  - assert (L : lex ("public static event EventHandler<VariantUpdateEventArgs<" +++ cprint own +++ ">> OnUpdate;") =
      event_toks ["public"; "static"] (CN "EventHandler" [CN "VariantUpdateEventArgs" [own]]) "OnUpdate").
    { lexline; [wd|]. unfold event_toks. cbn [map ctoks sep_toks]. tokens. reflexivity. }
    rewrite L. apply read_event; [reflexivity| |reflexivity]. cbn [cn_all forallb]. rewrite Hot. reflexivity.
  - rewrite lex_clear_all.
    assert (B : reads_stmts (lex "OnUpdate = null;") [SAssign (EName "OnUpdate") ENull]).
    { lexline. stmt_with (@nil tok); [simple_assign|apply reads_nil]. }
    pose proof (read_method ["public"; "static"] void false "ClearUpdateHandlers" [] _ _ eq_refl eq_refl eq_refl eq_refl B) as R.
    revert R. generalize (lex "OnUpdate = null;"). intros l. unfold method_toks. cbn [map]. tokens. exact (fun R => R).
Qed.
Lemma read_enum_wire vs : Forall ev_ok vs -> reads_members (lexops (enum_wire (map ev_meta vs))) [x_enum_wire vs].
Proof.
  intros Hvs. apply reads_m_one. unfold enum_wire. parts. rewrite lexops_indent, lex_switch.
  replace (lex "public WireType? GetWireType(UInt32 tag) {") with
    [Id "public"; Id "WireType"; Pc "?"; Id "GetWireType"; Pc "("; Id "UInt32"; Id "tag"; Pc ")"; Pc "{"] by reflexivity.
  assert (B : reads_stmts (lexops (flat_map (fun v : smeta * N => writeln ("case " +++ dec (snd v) +++ ": return WireType.Sized;")) (map ev_meta vs)) ++ lex "default: return null;")
    (flat_map (fun v => [SCase (ev_tag v); SReturn (wire Sized)]) vs ++ [SDefault; SReturn ENull])).
  { apply reads_app.
    - apply (reads_cases (fun v => "case " +++ dec (snd v) +++ ": return WireType.Sized;")); [assumption|].
      intros v Hv. unfold ev_tag. lexline; try wd. case_line. brk.
    - lexline. stmt_with [Id "return"; Id "null"; Pc ";"]. brk. }
  pose proof (read_method ["public"] (CN "WireType" []) true "GetWireType" [p_tag] _ _ eq_refl eq_refl eq_refl eq_refl (tag_switch _ _ B)) as R.
  revert R. unfold method_toks. cbn [map]. tokens. exact (fun R => R).
Qed.
Lemma read_enum_nested : reads_members (lexops enum_nested) [x_enum_nested].
Proof.
  apply reads_m_one. unfold enum_nested. parts. rewrite lexops_indent.
  assert (B : reads_stmts (lex "return tag == this.Tag ? this.Variant : null;") [SReturn (ECond (EEq (EName "tag") (sub "Tag")) (sub "Variant") ENull)]).
  { lexline. brk. }
  replace (lex "public IState GetNested(UInt32 tag) {") with
    [Id "public"; Id "IState"; Id "GetNested"; Pc "("; Id "UInt32"; Id "tag"; Pc ")"; Pc "{"] by reflexivity.
  pose proof (read_method ["public"] istate false "GetNested" [p_tag] _ _ eq_refl eq_refl eq_refl eq_refl B) as R.
  revert R. generalize (lex "return tag == this.Tag ? this.Variant : null;"). intros l. unfold method_toks. cbn [map]. tokens. exact (fun R => R).
Qed.
Lemma read_update_case v : ev_ok v ->
  reads_stmts (lex ("case " +++ dec (ev_tag v) +++ ": this.UpdateAndNotify(" +++ dec (ev_tag v) +++ ", " +++ ev_name v +++
    ".Deserialize(reader, this.Path.GetNested(" +++ dec (ev_tag v) +++ ")), shouldNotify); break;"))
    [SCase (ev_tag v); x_update v; SBreak].
Proof.
  intros (Hn & _). pose proof (type_ident_ident _ Hn) as Hi. pose proof (ident_word _ Hi) as Hw. pose proof (type_ident_word _ Hn) as Htw. lexline; try wd.
  case_line. stmt_with [Id "break"; Pc ";"]; [simple_call|brk].
Qed.
Lemma read_enum_replace vs : Forall ev_ok vs -> reads_members (lexops (enum_replace (map ev_meta vs))) [x_enum_replace vs].
Proof.
  intros Hvs. apply reads_m_one. unfold enum_replace. parts. rewrite lexops_indent, lex_switch.
  replace (lex "public void ReplaceAt(UInt32 tag, WireType wireType, IReader reader, bool shouldNotify) {") with
    (Id "public" :: Id "void" :: Id "ReplaceAt" :: Pc "(" :: param_toks [p_tag; p_wire; p_reader; p_notify] ++ [Pc ")"; Pc "{"]) by reflexivity.
  assert (B : reads_stmts (lexops (flat_map (fun v => writeln ("case " +++ dec (snd v) +++ ": this.UpdateAndNotify(" +++ dec (snd v) +++ ", " +++ vname v +++
    ".Deserialize(reader, this.Path.GetNested(" +++ dec (snd v) +++ ")), shouldNotify); break;")) (map ev_meta vs)) ++ lex "default: reader.SkipToEnd(); break;")
    (flat_map (fun v => [SCase (ev_tag v); x_update v; SBreak]) vs ++ [SDefault; skip_end; SBreak])).
  { apply reads_app.
    - apply (reads_cases (fun v => "case " +++ dec (snd v) +++ ": this.UpdateAndNotify(" +++ dec (snd v) +++ ", " +++ vname v +++
        ".Deserialize(reader, this.Path.GetNested(" +++ dec (snd v) +++ ")), shouldNotify); break;")); [assumption|exact read_update_case].
    - lexline. match goal with |- reads_stmts (_ :: _ :: ?l) _ => stmt_with l end.
      stmt_with [Id "break"; Pc ";"]; [simple_call|brk]. }
  pose proof (read_method ["public"] void false "ReplaceAt" [p_tag; p_wire; p_reader; p_notify] _ _ eq_refl eq_refl eq_refl eq_refl (tag_switch _ _ B)) as R.
  revert R. unfold method_toks. cbn [map]. tokens. exact (fun R => R).
Qed.
Lemma ps_type f t l : match t with CN n _ => ident n end = true -> not_id l = true -> pstmt (S f) (ctoks t ++ l) = psimple (ctoks t ++ l).
Proof.
  destruct t as [n args]. intros Hn Hl. cbn [ctoks]. rewrite <- app_comm_cons. apply ps_simple; [now apply ident_not_stmt|].
  destruct args; [exact Hl|reflexivity].
Qed.
Definition plain_line (s : string) : bool := all_chars (fun c => negb (code c =? 10)) s.
Lemma read_enum_notify own : cn_all type_ident own = true -> reads_members (lexops (enum_notify (cprint own))) [x_enum_notify own].
Proof.
  intros Ho. destruct (read_own own Ho) as (How & Hot & Hoh). apply reads_m_one. unfold enum_notify. parts.
  rewrite !lexops_indent.
  assert (B : reads_stmts (Id "if" :: Pc "(" :: [Id "shouldNotify"] ++ Pc ")" :: Pc "{" ::
      (lex ("var args = new VariantUpdateEventArgs<" +++ cprint own +++ ">(newTag, newVariant, this.Tag, this.Variant, this);") ++
       lex (cprint own +++ ".OnUpdate?.Invoke(this, args);")) ++ [Pc "}"])
    [SIf (EName "shouldNotify")
       ([SVar "args" (ENew (CN "VariantUpdateEventArgs" [own])
          [(None, EName "newTag"); (None, EName "newVariant"); (None, sub "Tag"); (None, sub "Variant"); (None, EThis)])] ++
        [SExpr (ECall (EQMem (EMem (texpr own) "OnUpdate") "Invoke") [(None, EThis); (None, EName "args")])])]).
  { apply reads_if; [intros l; reflexivity|]. apply reads_app.
    - lexline; [wd|]. apply (reads_cons _ (@nil tok)); [now do 2 eexists|lens|intros f rest; flatten|apply reads_nil].
      apply ps_var; [side|]. unfold an_expr. eapply px; [|apply pt_end; reflexivity]. eapply pu_new.
      + apply a_type_gen; [reflexivity|exact Hot|reflexivity].
      + par.
      + pos.
    - lexline; [wd|]. apply (reads_cons _ (@nil tok)); [apply head_ctoks|lens|intros f rest; flatten|apply reads_nil].
      rewrite ps_type by (assumption || reflexivity). apply psimple_call. unfold an_expr. pexp. }
  assert (B1 : reads_stmts (lex "this.Tag = newTag;") [SAssign (sub "Tag") (EName "newTag")]) by (lexline; stmt_with (@nil tok); [simple_assign|apply reads_nil]).
  assert (B2 : reads_stmts (lex "this.Variant = newVariant;") [SAssign (sub "Variant") (EName "newVariant")]) by (lexline; stmt_with (@nil tok); [simple_assign|apply reads_nil]).
  pose proof (reads_app _ _ _ _ B (reads_app _ _ _ _ B1 B2)) as R0. clear B B1 B2.
  replace (lex "private void UpdateAndNotify(UInt32 newTag, IState newVariant, bool shouldNotify) {") with
    (Id "private" :: Id "void" :: Id "UpdateAndNotify" :: Pc "(" :: param_toks [PM uint "newTag" false; PM istate "newVariant" false; p_notify] ++ [Pc ")"; Pc "{"]) by reflexivity.
  replace (lex "if (shouldNotify) {") with [Id "if"; Pc "("; Id "shouldNotify"; Pc ")"; Pc "{"] by reflexivity.
  pose proof (read_method ["private"] void false "UpdateAndNotify" [PM uint "newTag" false; PM istate "newVariant" false; p_notify] _ _ eq_refl eq_refl eq_refl eq_refl R0) as R.
  revert R. unfold method_toks, x_enum_notify.
  generalize (lex ("var args = new VariantUpdateEventArgs<" +++ cprint own +++ ">(newTag, newVariant, this.Tag, this.Variant, this);"))
    (lex (cprint own +++ ".OnUpdate?.Invoke(this, args);")) (lex "this.Tag = newTag;") (lex "this.Variant = newVariant;").
  intros l1 l2 l3 l4. cbn [map]. tokens. exact (fun R => R).
Qed.

(** The comment before a variant. *)
Lemma lex_comment s : plain_line s = true -> lex ("// " +++ s) = [].
Proof.
  intros H. change (lex ("// " +++ s)) with (lex_from None s). unfold plain_line in H. induction s as [|c s IH]; [reflexivity|].
  cbn [all_chars] in H. apply andb_prop in H. destruct H as [H1 H2]. cbn [lex_from]. apply negb_true_iff in H1. rewrite H1. auto.
Qed.

(** ** The class *)

Definition variant_text (v : evar) : list wop :=
  newline ++ writeln ("// Variant (" +++ dec (ev_tag v) +++ "): " +++ ev_name v) ++ newline ++
  struct_ops "internal" (ev_name v) (ev_name v) (ev_params v) (map v_meta (ev_fields v)) (map v_cs (ev_fields v)).
Definition enum_ops (n : string) (ps : list string) (vs : list evar) (d : evar) : list wop :=
  enum_properties (cprint (own_type n ps)) (map ev_meta vs) ++
  enum_ctor n ps (map ev_meta vs) (ev_meta d) ++
  enum_events n (cprint (own_type n ps)) (map ev_meta vs) ++
  gen_deserialize "public" (cprint (own_type n ps)) (uncap_first_char n) ++
  enum_wire (map ev_meta vs) ++
  enum_nested ++
  enum_replace (map ev_meta vs) ++
  gen_replay ++
  enum_notify (cprint (own_type n ps)) ++
  flat_map variant_text vs ++
  outdent_writeln "}".

Lemma plain_line_app a b : plain_line (a +++ b) = plain_line a && plain_line b.
Proof. apply all_chars_app. Qed.
Lemma plain_line_word w : word w = true -> plain_line w = true.
Proof.
  intros H. apply word_chars in H. unfold plain_line. induction w as [|c w IH]; [reflexivity|]. cbn [all_chars] in *.
  apply andb_prop in H. destruct H as [H1 H2]. rewrite (IH H2), andb_true_r. destruct (N.eqb_spec (code c) 10) as [E|]; [|reflexivity].
  exfalso. assert (c = "010"%char) as -> by (rewrite <- (ascii_N_embedding c); unfold code in E; rewrite E; reflexivity). discriminate.
Qed.
Lemma read_variant v : ev_ok v -> reads_member (lexops (variant_text v)) (x_variant v).
Proof.
  intros (Hn & Hu & _ & _ & _ & Hp & Hf). unfold variant_text. rewrite !lexops_app, lexops_writeln. nothing. rewrite !app_nil_l.
  change ("// Variant (" +++ dec (ev_tag v) +++ "): " +++ ev_name v) with ("// " +++ ("Variant (" +++ dec (ev_tag v) +++ "): " +++ ev_name v)).
  rewrite lex_comment.
  - rewrite app_nil_l. unfold x_variant.
    pose proof (read_struct "internal" (ev_name v) [] (ev_params v) (ev_fields v) (or_intror eq_refl) Hn Hu eq_refl Hp Hf) as R.
    change (type_params []) with "" in R. rewrite sapp_nil in R. exact R.
  - rewrite !plain_line_app. rewrite (plain_line_word (dec (ev_tag v))), (plain_line_word (ev_name v)); [reflexivity| |].
    + apply ident_word, type_ident_ident, Hn.
    + wd.
Qed.
Lemma read_enum n ps vs d : type_ident n = true -> ident (uncap_first_char n) = true -> forallb type_ident ps = true -> Forall ev_ok vs -> ev_ok d ->
  reads_member (lexops (enum_ops n ps vs d)) (x_enum n ps vs d).
Proof.
  intros Hn Hu Hps Hvs Hd. pose proof (own_ok n ps Hn Hps) as Ho.
  destruct (read_own _ Ho) as (How & Hot & Hoh).
  destruct (read_enum_properties vs _ Hvs Ho) as (l0 & E0 & R0).
  pose proof (read_enum_ctor n ps vs d Hn Hps Hvs Hd) as R1.
  pose proof (read_enum_events n _ vs Hn Ho Hvs) as R2.
  pose proof (read_deserialize "public" _ (uncap_first_char n) (or_introl eq_refl) Ho Hu) as R3.
  pose proof (read_enum_wire vs Hvs) as R4.
  pose proof read_enum_nested as R5.
  pose proof (read_enum_replace vs Hvs) as R6.
  pose proof read_replay as R7.
  pose proof (read_enum_notify _ Ho) as R8.
  assert (R9 : reads_members (lexops (flat_map variant_text vs)) (map x_variant vs)).
  { rewrite lexops_flat. apply reads_m_map. intros v Hv. rewrite Forall_forall in Hvs. apply read_variant, (Hvs v Hv). }
  unfold enum_ops. rewrite !lexops_app, lexops_outdent, lex_close, E0.
  pose proof (reads_m_app _ _ _ _ R0 (reads_m_app _ _ _ _ R1 (reads_m_app _ _ _ _ R2 (reads_m_app _ _ _ _ R3
    (reads_m_app _ _ _ _ R4 (reads_m_app _ _ _ _ R5 (reads_m_app _ _ _ _ R6 (reads_m_app _ _ _ _ R7 (reads_m_app _ _ _ _ R8 R9))))))))) as R.
  clear R0 R1 R2 R3 R4 R5 R6 R7 R8 R9 E0. revert R.
  generalize (lexops (enum_ctor n ps (map ev_meta vs) (ev_meta d))) (lexops (enum_events n (cprint (own_type n ps)) (map ev_meta vs)))
    (lexops (gen_deserialize "public" (cprint (own_type n ps)) (uncap_first_char n))) (lexops (enum_wire (map ev_meta vs)))
    (lexops enum_nested) (lexops (enum_replace (map ev_meta vs))) (lexops gen_replay)
    (lexops (enum_notify (cprint (own_type n ps)))) (lexops (flat_map variant_text vs)).
  intros l1 l2 l3 l4 l5 l6 l7 l8 l9 R.
  pose proof (read_class ["public"; "sealed"; "partial"] n ps "IEnumState" _ _ eq_refl Hn Hps eq_refl R) as K.
  revert K. unfold x_enum, x_enum_members, class_toks. generalize (ctoks (own_type n ps)). intros lo. cbn [map]. tokens. exact (fun K => K).
Qed.
Lemma tidy_enum n ps vs d : Forall ev_ok vs -> tidy (enum_ops n ps vs d).
Proof.
  intros H. unfold enum_ops.
  do 9 (apply tidy_app; [unfold enum_properties, enum_ctor, validate, enum_events, gen_deserialize, enum_wire, enum_nested, enum_replace, gen_replay, enum_notify; solve [tidy_parts]|]).
  apply tidy_app; [|tidy_parts]. apply tidy_flat_in. intros v Hv. rewrite Forall_forall in H. destruct (H v Hv) as (_ & _ & _ & _ & _ & _ & Hf).
  unfold variant_text. apply tidy_app; [tidy_parts|]. apply tidy_app; [tidy_parts|]. apply tidy_app; [tidy_parts|].
  apply tidy_struct. rewrite Forall_forall in *. intros f Hi. apply in_map_iff in Hi. destruct Hi as (x & <- & Hx). apply ident_word. apply (Hf x Hx).
Qed.
