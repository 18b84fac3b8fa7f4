(** Running the class of an enum: proofs for PropGen.v. *)
From Verif Require Import Base Varint WireFmt Types De Meta Gen CSharp CsRead CsRun GenSpec GenLex GenParse GenStmt GenMember GenClass GenEnum GenRun.
From Coq Require Import String Lia.
Import Ascii String.StringSyntax.
Local Open Scope string_scope.
Local Open Scope list_scope.
Local Open Scope N_scope.

Section More.
  Context {V : Type}.
  Variable w : world V.
  Variable ty : cname -> option cty.
  Variable cls : member.
  Variable outer : list (string * meaning).
  Notation ev := (eval V w ty cls outer).
  Notation ex := (exec V w ty cls outer).
  Notation cl := (call V w ty cls outer).

  Lemma construct_init f args s ps es body : find_ctor (List.length args) (c_members cls) = Some (ps, Some es, body) ->
    construct V w ty cls outer (S f) args s =
    do s <- (do (vs, s) <- evals V (ev f) (bind_params V ps args) es s; do vs <- CsRun.plain V vs; construct V w ty cls outer f vs s);
    do (o, s) <- ex f (bind_params V ps args) body s;
    match o with OBreak _ => NoFuel | _ => Ok s end.
  Proof. intros H. cbn [construct]. rewrite H. reflexivity. Qed.
  Lemma validate_all f loc s l r : free ty cls outer "StateFactory" -> sassoc "StateFactory" loc = None -> Forall (fun p => exists c, ty (CN p []) = Some c) l ->
    stmts V (ev (S (S f))) (ex (S (S f))) loc (map x_validate l ++ r) s = stmts V (ev (S (S f))) (ex (S (S f))) loc r s.
  Proof.
    intros Hf Hl H. induction H as [|p l [c Hc] Hr IH]; [reflexivity|]. cbn [map app]. unfold x_validate at 1. cbn [stmts].
    rewrite (ev_validate w ty cls outer f loc p c s) by assumption. cbn [bind]. exact IH.
  Qed.
  Lemma ev_or f loc a b s : ev (S f) loc (ECoal a b) s = do (v, s) <- ev f loc a s; match v with VNull => ev f loc b s | _ => Ok (v, s) end.
  Proof. reflexivity. Qed.
  Lemma set_path_run f loc a old rest bs lg r : sassoc "Path" (names cls outer) = Some (IsProp (CN "Path" [])) -> (forall a, ty (CN "Path" a) = None) ->
    sassoc "path" loc = Some (a_path a) -> sassoc "Path" loc = None ->
    stmts V (ev (S (S f))) (ex (S (S f))) loc (set_path :: r) (ST (Some (("Path", old) :: rest)) bs lg) =
    stmts V (ev (S (S f))) (ex (S (S f))) loc r (ST (Some (("Path", VPath (root_or a)) :: rest)) bs lg).
  Proof.
    intros Hn Ht H1 H2. unfold set_path, sub. cbn [stmts]. rewrite ev_or, (ev_loc w ty cls outer f loc "path" (a_path a)) by assumption. cbn [bind].
    destruct a as [p|]; cbn [a_path root_or]; [reflexivity|]. rewrite ev_mem.
    replace (as_type V cls outer loc (EName "Path")) with (Some (CN "Path" [])) by (cbn [as_type]; rewrite H2, Hn; reflexivity).
    unfold static_member, library. rewrite Ht. reflexivity.
  Qed.
  Lemma ev_eq f loc a b s m k s1 s2 : ev f loc a s = Ok (VNum m, s1) -> ev f loc b s1 = Ok (VNum k, s2) ->
    ev (S f) loc (EEq a b) s = Ok (VBool (m =? k), s2).
  Proof. intros H1 H2. cbn [eval]. rewrite H1. cbn [bind]. rewrite H2. reflexivity. Qed.
  Lemma stops_expr e : stops (V := V) [SExpr e; SBreak].
  Proof. intros ev' bl loc r s. reflexivity. Qed.
  Lemma ev_new_any f loc m targs args s : ev (S f) loc (ENew (CN m targs) args) s =
    do (vs, s) <- evals V (ev f) loc args s;
    do vs <- CsRun.plain V vs;
    if param_name cls outer (CN m targs) then NoFuel
    else if (String.eqb m "FieldUpdateEventArgs" || String.eqb m "VariantUpdateEventArgs") &&
       match ty (CN m targs) with None => true | _ => false end then Ok (VArgs vs, s)
    else if cname_eqb (CN m targs) (own cls) && match s_this s with None => true | _ => false end then
      do s <- construct V w ty cls outer f vs s; Ok (VThis, s)
    else
      match ty (CN m targs), vs with
      | Some c, [VPath p] => if c_state c then do x <- w_new w c p; Ok (VObj c x, s) else NoFuel
      | _, _ => NoFuel
      end.
  Proof. reflexivity. Qed.
End More.

Definition ev_of (v : variant) : evar := EV (va_meta v, va_tag v) (map fst (va_fields v)).

Definition update_params : list param := [PM uint "newTag" false; PM istate "newVariant" false; p_notify].
Definition update_body (own : cname) : list stmt :=
  [SIf (EName "shouldNotify")
     ([SVar "args" (ENew (CN "VariantUpdateEventArgs" [own])
        [(None, EName "newTag"); (None, EName "newVariant"); (None, sub "Tag"); (None, sub "Variant"); (None, EThis)])] ++
      [SExpr (ECall (EQMem (EMem (texpr own) "OnUpdate") "Invoke") [(None, EThis); (None, EName "args")])])] ++
  [SAssign (sub "Tag") (EName "newTag")] ++ [SAssign (sub "Variant") (EName "newVariant")].

Section Enum.
  Context {V : Type}.
  Variable w : world V.
  Variable ty : cname -> option cty.
  Variables (n : string) (ps : list string) (vs : list variant) (d : variant).
  Variable outer : list (string * meaning).
  Let evs := map ev_of vs.
  Let cls := x_enum n ps evs (ev_of d).
  Notation ev := (eval V w ty cls outer).
  Notation ex := (exec V w ty cls outer).
  Notation cl := (call V w ty cls outer).
  Notation As := (as_type V cls outer).

  Hypothesis classes : forall v, In v vs -> ty (CN (va_name v) []) = Some (va_class v).
  Hypothesis default_in : In d vs.
  Hypothesis default_tag : va_tag d = 0.
  Hypothesis params_ok : Forall (fun p => exists c, ty (CN p []) = Some c) ps.
  Hypothesis declared : NoDup (map fst (enum_names vs)).
  Hypothesis tags : NoDup (map va_tag vs).
  Hypothesis no_factory : free ty cls outer "StateFactory".
  Hypothesis no_wire : free ty cls outer "WireType".
  Hypothesis no_path : forall a, ty (CN "Path" a) = None.
  Hypothesis no_args : forall a, ty (CN "VariantUpdateEventArgs" a) = None.
  Hypothesis no_istate : forall a, ty (CN "IState" a) = None.
  Hypothesis own_known : exists c, ty (own_type n ps) = Some c.
  Hypothesis var_reader : uncap_first_char n <> "reader".
  Hypothesis own_free : sassoc n (names cls outer) = None.
  Hypothesis own_local : ~ In n update_locals.
  Hypothesis variant_local : forall v, In v vs -> ~ In (va_name v) replace_locals.

  Lemma enum_declares : flat_map declares (x_enum_members n ps evs (ev_of d)) = enum_names vs.
  Proof.
    assert (G : forall {A} (h : A -> member) (f : A -> string * meaning) l, (forall v, declares (h v) = [f v]) ->
      flat_map declares (map h l) = map f l) by (intros A h f l H; induction l; cbn [map flat_map]; rewrite ?H; cbn [app]; congruence).
    unfold x_enum_members, enum_names, evs. cbv zeta. rewrite !flat_map_app, !map_map.
    rewrite (G _ (fun v => x_tag_const (ev_of v)) (fun v => (va_camel v +++ "Tag", IsOther))) by reflexivity.
    rewrite (G _ (fun v => x_variant_get (ev_of v)) (fun v => (va_name v +++ "Variant", IsProp (CN (va_name v) [])))) by reflexivity.
    rewrite (G _ (fun v => x_factory n (ev_of v)) (fun v => ("New" +++ va_camel v, IsOther))) by reflexivity.
    rewrite (G _ (fun v => x_variant (ev_of v)) (fun v => (va_name v, IsType))) by reflexivity.
    reflexivity.
  Qed.
  Lemma enum_names_are : names cls outer = enum_names vs ++ map (fun p => (p, IsParam)) ps ++ outer.
  Proof. unfold names. change (c_members cls) with (x_enum_members n ps evs (ev_of d)). now rewrite enum_declares. Qed.
  Lemma name_in m k : In (m, k) (enum_names vs) -> sassoc m (names cls outer) = Some k.
  Proof. intros H. rewrite enum_names_are, sassoc_app, (sassoc_in m k); [reflexivity|exact declared|exact H]. Qed.
  Lemma names_path' : sassoc "Path" (names cls outer) = Some (IsProp (CN "Path" [])).
  Proof. apply name_in. unfold enum_names. rewrite in_app_iff. right. now left. Qed.
  Lemma names_update : sassoc "OnUpdate" (names cls outer) = Some IsOther.
  Proof. apply name_in. unfold enum_names. rewrite !in_app_iff. right. right. right. right. left. now left. Qed.
  Lemma names_variant v : In v vs -> sassoc (va_name v) (names cls outer) = Some IsType.
  Proof.
    intros H. apply name_in. unfold enum_names. rewrite !in_app_iff. do 5 right. apply in_map_iff. now exists v.
  Qed.

  Lemma variant_class v : In v vs -> param_name cls outer (CN (va_name v) []) = false.
  Proof. intros H. cbn [param_name]. now rewrite names_variant. Qed.
  Lemma own_class' : param_name cls outer (own_type n ps) = false.
  Proof. unfold own_type. clear - own_free. destruct ps; cbn [map]; [|reflexivity]. cbn [param_name]. now rewrite own_free. Qed.

  Definition eobj (p : list N) (tag : N) (c : cty) (x : V) : list (string * value V) := [("Path", VPath p); ("Tag", VNum tag); ("Variant", VObj c x)].
  Definition chosen (tag : N) : variant := match find (fun v => tag =? va_tag v) vs with Some v => v | None => d end.
  Lemma chosen_in tag : In (chosen tag) vs.
  Proof. unfold chosen. destruct (find (fun v => tag =? va_tag v) vs) as [v|] eqn:E; [apply find_some in E; apply E|exact default_in]. Qed.

  (** ** Members *)
  Lemma find_ctor_skip k m r : match m with KCtor _ _ _ _ _ => False | _ => True end -> find_ctor k (m :: r) = find_ctor k r.
  Proof. destruct m; try reflexivity. intros []. Qed.
  Lemma ctors k : find_ctor k (c_members cls) = find_ctor k ([x_ctor1 n (ev_tag (ev_of d)); x_ctor2 n ps evs (ev_of d)] ++ map (x_factory n) evs ++ [x_on_update (own_type n ps); x_clear_update] ++
    [x_deserialize "public" (own_type n ps) (uncap_first_char n); x_enum_wire evs; x_enum_nested; x_enum_replace evs] ++ x_replay ++
    [x_enum_notify (own_type n ps)] ++ map x_variant evs).
  Proof.
    change (c_members cls) with (x_enum_members n ps evs (ev_of d)). unfold x_enum_members. cbv zeta.
    rewrite find_ctor_map by (intros; exact I). rewrite <- !app_comm_cons, app_nil_l. rewrite !(find_ctor_skip k (KProp _ _ _ _)) by exact I.
    rewrite find_ctor_map by (intros; exact I). reflexivity.
  Qed.
  Lemma ctor1_is : find_ctor 1 (c_members cls) = Some ([p_path], Some [(None, EName "path"); (None, ENum (va_tag d))], []).
  Proof. rewrite ctors. reflexivity. Qed.
  Definition make_body : list stmt := on_tag (flat_map (fun v => [SCase (va_tag v); x_make (ev_of v); SBreak]) vs ++ [SDefault; x_make (ev_of d); SBreak]).
  Lemma flat_evs (h : evar -> list stmt) : flat_map h evs = flat_map (fun v => h (ev_of v)) vs.
  Proof. unfold evs. clear. induction vs as [|v l IH]; [reflexivity|]. cbn. now rewrite IH. Qed.
  Lemma ctor2_is : find_ctor 2 (c_members cls) = Some ([PM (CN "Path" []) "path" false; p_tag], None,
    map x_validate ps ++ set_path :: SAssign (sub "Tag") (EName "tag") :: make_body).
  Proof.
    assert (E : flat_map (fun v => [SCase (ev_tag v); x_make v; SBreak]) evs = flat_map (fun v => [SCase (va_tag v); x_make (ev_of v); SBreak]) vs)
      by exact (flat_evs _).
    rewrite ctors. unfold make_body. rewrite <- E. reflexivity.
  Qed.
  Definition emethods : list member :=
    [x_deserialize "public" (own_type n ps) (uncap_first_char n); x_enum_wire evs; x_enum_nested; x_enum_replace evs] ++ x_replay ++
    [x_enum_notify (own_type n ps)] ++ map x_variant evs.
  Lemma emethod_is m st : (forall v, st && String.eqb m ("New" +++ va_camel v) = false) -> st && String.eqb m "ClearUpdateHandlers" = false ->
    find_method m st (c_members cls) = find_method m st emethods.
  Proof.
    intros H1 H2. change (c_members cls) with (x_enum_members n ps evs (ev_of d)). unfold x_enum_members. cbv zeta.
    rewrite (find_method_map m st x_tag_const) by (intros; exact I). rewrite <- (app_comm_cons _ _ (KProp _ _ "Path" _)), find_method_skip by exact I.
    rewrite <- (app_comm_cons _ _ (KProp _ _ "Tag" _)), find_method_skip by exact I.
    rewrite <- (app_comm_cons _ _ (KProp _ _ "Variant" _)), find_method_skip by exact I. rewrite app_nil_l.
    rewrite (find_method_map m st x_variant_get) by (intros; exact I).
    rewrite <- (app_comm_cons _ _ (x_ctor1 _ _)), find_method_skip by exact I.
    rewrite <- (app_comm_cons _ _ (x_ctor2 _ _ _ _)), find_method_skip by exact I. rewrite app_nil_l.
    unfold evs at 1. rewrite map_map. rewrite (find_method_map m st (fun v => x_factory n (ev_of v))).
    - rewrite <- (app_comm_cons _ _ (x_on_update _)), find_method_skip by exact I.
      change [x_clear_update] with (map (fun _ : unit => x_clear_update) [tt]). apply find_method_map. intros _.
      unfold x_clear_update. destruct st; [cbn [andb] in H2; now rewrite H2|apply andb_false_r].
    - intros v. specialize (H1 v). unfold x_factory. destruct st; [cbn [andb] in H1|apply andb_false_r]. change ("New" +++ ev_camel (ev_of v)) with ("New" +++ va_camel v). now rewrite H1.
  Qed.
  Lemma inst_is m : find_method m false (c_members cls) = find_method m false emethods.
  Proof. apply emethod_is; reflexivity. Qed.

  (** ** Constructors *)
  Lemma fresh_enum : exists x, fresh V w ty cls = [("Path", VNull); ("Tag", x); ("Variant", VNull)].
  Proof.
    unfold fresh. change (c_members cls) with (x_enum_members n ps evs (ev_of d)). unfold x_enum_members. cbv zeta. rewrite !flat_map_app.
    assert (G : forall {A B} (h : A -> member) (k : member -> list B) l, (forall v, k (h v) = []) -> flat_map k (map h l) = []).
    { intros A B h k l H. induction l as [|a l IH]; [reflexivity|]. cbn [map flat_map]. now rewrite H, IH. }
    rewrite !G by reflexivity. cbn [flat_map app x_ctor1 x_ctor2 x_on_update x_clear_update x_deserialize x_enum_wire x_enum_nested x_enum_replace x_replay x_enum_notify].
    unfold istate, GenEnum.ty. rewrite no_path. rewrite no_istate. eexists. reflexivity.
  Qed.
  Lemma run_make f loc p tag y z bs lg : sassoc "tag" loc = Some (VNum tag) ->
    stmts V (ev (S (S (S (S (S f)))))) (ex (S (S (S (S (S f)))))) loc make_body (ST (Some [("Path", VPath p); ("Tag", y); ("Variant", z)]) bs lg) =
    do x <- w_new w (va_class (chosen tag)) (p ++ [va_tag (chosen tag)]);
    Ok (ONext V loc, ST (Some [("Path", VPath p); ("Tag", y); ("Variant", VObj (va_class (chosen tag)) x)]) bs lg).
  Proof.
    intros Hl. unfold make_body.
    change (fun v : variant => [SCase (va_tag v); x_make (ev_of v); SBreak]) with (fun v : variant => SCase (va_tag v) :: (fun v => [x_make (ev_of v); SBreak]) v).
    rewrite (run_switch w ty cls outer _ _ _ _ _ _ tag); [|exact Hl|exact tags|intros v; split; [apply stops_assign|repeat constructor]|repeat constructor].
    replace (match find (fun a => tag =? va_tag a) vs with Some a => [x_make (ev_of a); SBreak] | None => [x_make (ev_of d); SBreak] end)
      with [x_make (ev_of (chosen tag)); SBreak] by (unfold chosen; destruct (find (fun v => tag =? va_tag v) vs); reflexivity).
    set (v := chosen tag). set (o := [("Path", VPath p); ("Tag", y); ("Variant", z)]).
    unfold x_make, sub. cbn [stmts].
    rewrite (ev_new w ty cls outer _ loc (GenEnum.ty (ev_name (ev_of v))) (va_class v) _ (p ++ [va_tag v]) _ o);
      [|apply classes, chosen_in|reflexivity|apply variant_class, chosen_in|reflexivity|apply ev_nested; reflexivity].
    destruct (w_new w (va_class v) (p ++ [va_tag v])) as [x| | |]; reflexivity.
  Qed.
  Lemma construct2 f a tag bs lg : construct V w ty cls outer (S (S (S (S (S (S (S f))))))) [a_path a; VNum tag] (ST None bs lg) =
    do x <- w_new w (va_class (chosen tag)) (root_or a ++ [va_tag (chosen tag)]);
    Ok (ST (Some (eobj (root_or a) tag (va_class (chosen tag)) x)) bs lg).
  Proof.
    rewrite (construct_S w ty cls outer _ [a_path a; VNum tag] _ _ _ ctor2_is).
    change (bind_params V [PM (CN "Path" []) "path" false; p_tag] [a_path a; VNum tag]) with [("path", a_path (V := V) a); ("tag", VNum tag)].
    rewrite exec_S, validate_all by (reflexivity || assumption). destruct fresh_enum as [x0 ->].
    unfold with_this. cbn [s_in s_log].
    rewrite (set_path_run w ty cls outer _ _ a) by (reflexivity || exact names_path' || assumption).
    change (SAssign (sub "Tag") (EName "tag") :: make_body) with ([SAssign (EMem EThis "Tag") (EName "tag")] ++ make_body). rewrite stmts_app. cbn [stmts].
    rewrite (ev_loc w ty cls outer _ _ "tag" (VNum tag)) by reflexivity. cbn [bind set_prop s_this sassoc]. 
    unfold set_prop, with_this. cbn [s_this s_in s_log sassoc sput]. seqb. cbn [bind].
    rewrite (run_make _ _ _ tag) by reflexivity.
    destruct (w_new w (va_class (chosen tag)) (root_or a ++ [va_tag (chosen tag)])) as [x| | |]; reflexivity.
  Qed.
  Lemma chosen_default : chosen (va_tag d) = d.
  Proof.
    unfold chosen. destruct (find (fun v => va_tag d =? va_tag v) vs) as [v|] eqn:E; [|reflexivity].
    apply find_some in E. destruct E as [E1 E2]. apply N.eqb_eq in E2. symmetry. eapply NoDup_map_inj; [exact tags|assumption..].
  Qed.
  Lemma construct1 f a bs lg : construct V w ty cls outer (S (S (S (S (S (S (S (S f)))))))) [a_path a] (ST None bs lg) =
    do x <- w_new w (va_class d) (root_or a ++ [va_tag d]); Ok (ST (Some (eobj (root_or a) (va_tag d) (va_class d) x)) bs lg).
  Proof.
    rewrite (construct_init w ty cls outer _ [a_path a] _ _ _ _ ctor1_is).
    change (bind_params V [p_path] [a_path a]) with [("path", a_path (V := V) a)]. cbn [evals].
    rewrite (ev_loc w ty cls outer _ _ "path" (a_path a)) by reflexivity. cbn [bind]. rewrite ev_num. cbn [bind CsRun.plain].
    rewrite construct2, chosen_default. destruct (w_new w (va_class d) (root_or a ++ [va_tag d])) as [x| | |]; reflexivity.
  Qed.
  Lemma enum_new a : run_new V w ty cls outer a = do x <- w_new w (va_class d) (root_or a ++ [va_tag d]); Ok (eobj (root_or a) (va_tag d) (va_class d) x).
  Proof. unfold run_new, depth. rewrite (construct1 12). destruct (w_new w (va_class d) (root_or a ++ [va_tag d])); reflexivity. Qed.

  (** ** Factories *)
  Lemma factory_names : NoDup (map (fun v => "New" +++ va_camel v) vs).
  Proof.
    pose proof declared as D. unfold enum_names in D. rewrite !map_app, !map_map in D. cbn [fst] in D.
    assert (R : forall (a b : list string), NoDup (a ++ b) -> NoDup b).
    { clear. induction a as [|x a IH]; intros b H; [exact H|]. inversion H; subst. now apply IH. }
    apply R, R, R in D. now apply NoDup_left in D.
  Qed.
  Lemma factory_is v : In v vs -> find_method ("New" +++ va_camel v) true (c_members cls) =
    Some ([p_path], [SReturn (ENew (CN n []) [(None, EName "path"); (None, ENum (va_tag v))])]).
  Proof.
    intros Hv. change (c_members cls) with (x_enum_members n ps evs (ev_of d)). unfold x_enum_members. cbv zeta. set (m := "New" +++ va_camel v).
    rewrite (find_method_map m true x_tag_const) by (intros; exact I). rewrite <- (app_comm_cons _ _ (KProp _ _ "Path" _)), find_method_skip by exact I.
    rewrite <- (app_comm_cons _ _ (KProp _ _ "Tag" _)), find_method_skip by exact I.
    rewrite <- (app_comm_cons _ _ (KProp _ _ "Variant" _)), find_method_skip by exact I. rewrite app_nil_l.
    rewrite (find_method_map m true x_variant_get) by (intros; exact I).
    rewrite <- (app_comm_cons _ _ (x_ctor1 _ _)), find_method_skip by exact I.
    rewrite <- (app_comm_cons _ _ (x_ctor2 _ _ _ _)), find_method_skip by exact I. rewrite app_nil_l.
    pose proof factory_names as D. clear - D Hv. unfold evs. revert D Hv.
    match goal with |- _ -> _ -> find_method _ _ (_ ++ ?r) = _ => generalize r end. intros r. clear. induction vs as [|x l IH]; [intros _ []|].
    cbn [map]. intros D Hv. apply NoDup_cons_iff in D. destruct D as [N1 D']. rewrite <- app_comm_cons. unfold x_factory at 1. cbn [find_method].
    change ("New" +++ ev_camel (ev_of x)) with ("New" +++ va_camel x). change (str_mem "static" ["public"; "static"]) with true. cbn [Bool.eqb].
    rewrite andb_true_r. destruct (String.eqb_spec m ("New" +++ va_camel x)) as [E|E].
    - destruct Hv as [->|Hv]; [reflexivity|]. exfalso. apply N1. rewrite <- E. unfold m. now apply (in_map (fun v => "New" +++ va_camel v)).
    - destruct Hv as [->|Hv]; [now destruct E|]. now apply IH.
  Qed.
  Lemma chosen_is v : In v vs -> chosen (va_tag v) = v.
  Proof.
    intros Hv. unfold chosen. destruct (find (fun x => va_tag v =? va_tag x) vs) as [x|] eqn:E.
    - apply find_some in E. destruct E as [E1 E2]. apply N.eqb_eq in E2. symmetry. eapply NoDup_map_inj; [exact tags|assumption..].
    - eapply find_none in E; [|exact Hv]. now rewrite N.eqb_refl in E.
  Qed.
  Lemma factory_plain v a bs : In v vs -> ps = [] -> run_static V w ty cls outer ("New" +++ va_camel v) [a_path a] bs =
    do x <- w_new w (va_class v) (root_or a ++ [va_tag v]); Ok (eobj (root_or a) (va_tag v) (va_class v) x, bs, []).
  Proof.
    intros Hv Eq. unfold run_static. rewrite factory_is by assumption. cbn [List.length Nat.eqb]. unfold depth.
    change (bind_params V [p_path] [a_path a]) with [("path", a_path (V := V) a)]. rewrite exec_S. cbn [stmts].
    destruct own_known as [c Hc]. unfold own_type in Hc. rewrite Eq in Hc. cbn [map] in Hc.
    rewrite (ev_new_self w ty cls outer _ _ (CN n []) _ c _ Hc); [|change (own cls) with (own_type n ps); unfold own_type; rewrite Eq; apply cname_refl|cbn [param_name]; now rewrite own_free|reflexivity].
    cbn [evals]. rewrite (ev_loc w ty cls outer _ _ "path" (a_path a)) by reflexivity. cbn [bind]. rewrite ev_num. cbn [bind CsRun.plain s_this].
    rewrite construct2, chosen_is by assumption. destruct (w_new w (va_class v) (root_or a ++ [va_tag v])) as [x| | |]; reflexivity.
  Qed.
  Lemma factory_generic v a bs : In v vs -> ps <> [] -> run_static V w ty cls outer ("New" +++ va_camel v) [a_path a] bs = NoFuel.
  Proof.
    intros Hv Eq. unfold run_static. rewrite factory_is by assumption. cbn [List.length Nat.eqb]. unfold depth.
    change (bind_params V [p_path] [a_path a]) with [("path", a_path (V := V) a)]. rewrite exec_S. cbn [stmts].
    rewrite ev_new_any. cbn [evals]. rewrite (ev_loc w ty cls outer _ _ "path" (a_path a)) by reflexivity. cbn [bind]. rewrite ev_num. cbn [bind CsRun.plain].
    replace (cname_eqb (CN n []) (own cls)) with false.
    2:{ change (own cls) with (own_type n ps). unfold own_type. destruct ps; [congruence|]. cbn [cname_eqb map]. now rewrite andb_false_r. }
    cbn [andb]. destruct (param_name cls outer (CN n [])); [reflexivity|].
    match goal with |- context [if ?b then _ else _] => destruct b end; [reflexivity|].
    destruct (ty (CN n [])); [|reflexivity]. destruct a; reflexivity.
  Qed.

  (** ** Methods *)
  Definition wire_of (tag : N) : value V := if existsb (fun v => tag =? va_tag v) vs then VWire Sized else VNull.
  Lemma find_exists {A} (q : A -> bool) l : match find q l with Some _ => true | None => false end = existsb q l.
  Proof. induction l as [|a l IH]; [reflexivity|]. cbn [find existsb]. destruct (q a); [reflexivity|exact IH]. Qed.
  Lemma call_wire' f tag s : cl (S (S (S (S (S (S f)))))) "GetWireType" [VNum tag] s = Ok (wire_of tag, s).
  Proof.
    assert (E : flat_map (fun v => [SCase (ev_tag v); SReturn (wire Sized)]) evs =
      flat_map (fun v => SCase (va_tag v) :: (fun _ => [SReturn (wire Sized)]) v) vs) by exact (flat_evs _).
    rewrite (call_S w ty cls outer _ "GetWireType" [VNum tag] s [p_tag]
      (on_tag (flat_map (fun v => [SCase (ev_tag v); SReturn (wire Sized)]) evs ++ [SDefault; SReturn ENull]))) by (rewrite ?inst_is; reflexivity).
    change (bind_params V [p_tag] [VNum tag]) with [("tag", VNum (V := V) tag)]. rewrite exec_S, E.
    rewrite (run_switch w ty cls outer _ _ _ _ _ _ tag); [|reflexivity|exact tags|intros a; split; [apply stops_return|repeat constructor]|repeat constructor].
    unfold wire_of. rewrite <- find_exists. destruct (find (fun v => tag =? va_tag v) vs); cbn [stmts].
    - rewrite ev_wire by (reflexivity || assumption). reflexivity.
    - reflexivity.
  Qed.
  Lemma call_nested' f tag p tag' c x bs lg :
    cl (S (S (S (S (S (S f)))))) "GetNested" [VNum tag] (ST (Some (eobj p tag' c x)) bs lg) =
    Ok (if tag =? tag' then VObj c x else VNull, ST (Some (eobj p tag' c x)) bs lg).
  Proof.
    rewrite (call_S w ty cls outer _ "GetNested" [VNum tag] _ [p_tag] [SReturn (ECond (EEq (EName "tag") (sub "Tag")) (sub "Variant") ENull)])
      by (rewrite ?inst_is; reflexivity).
    change (bind_params V [p_tag] [VNum tag]) with [("tag", VNum (V := V) tag)]. rewrite exec_S. cbn [stmts]. rewrite ev_cond.
    rewrite (ev_eq w ty cls outer _ _ _ _ _ tag tag' (ST (Some (eobj p tag' c x)) bs lg) (ST (Some (eobj p tag' c x)) bs lg));
      [|now apply ev_loc|now apply ev_sub].
    cbn [bind]. destruct (tag =? tag'); [|reflexivity]. unfold sub. rewrite (ev_sub w ty cls outer _ _ "Variant" (VObj c x)) by reflexivity. reflexivity.
  Qed.

  Definition update_event (t : N) (new : value V) (t0 : N) (old : value V) : string * list (value V) :=
    ("OnUpdate", [VThis; VArgs [VNum t; new; VNum t0; old; VThis]]).
  Lemma call_update f t new b p t0 old bs lg :
    cl (S (S (S (S (S (S (S f))))))) "UpdateAndNotify" [VNum t; new; VBool b] (ST (Some [("Path", VPath p); ("Tag", VNum t0); ("Variant", old)]) bs lg) =
    Ok (VNull, ST (Some [("Path", VPath p); ("Tag", VNum t); ("Variant", new)]) bs (if b then lg ++ [update_event t new t0 old] else lg)).
  Proof.
    set (args := [VNum t; new; VBool b]).
    rewrite (call_S w ty cls outer _ "UpdateAndNotify" args _ update_params (update_body (own_type n ps))) by (rewrite ?inst_is; reflexivity).
    set (loc := bind_params V update_params args).
    assert (L1 : sassoc "shouldNotify" loc = Some (VBool b)) by (reflexivity).
    assert (L2 : sassoc "newTag" loc = Some (VNum t)) by (reflexivity).
    assert (L3 : sassoc "newVariant" loc = Some new) by (reflexivity).
    assert (L4 : ~ In n update_locals -> sassoc n loc = None).
    { intros H. unfold loc, args, bind_params, update_params. cbn [map combine sassoc pm_name p_notify]. unfold update_locals in H.
      repeat match goal with |- (if String.eqb n ?s then _ else _) = None => destruct (String.eqb_spec n s) as [->|_]; [exfalso; apply H; cbn; tauto|] end. reflexivity. }
    clearbody loc. rewrite exec_S. unfold update_body.
    set (o := [("Path", VPath p); ("Tag", VNum t0); ("Variant", old)]).
    assert (A : forall lg', stmts V (ev (S (S (S (S (S f)))))) (ex (S (S (S (S (S f)))))) loc ([SAssign (sub "Tag") (EName "newTag")] ++ [SAssign (sub "Variant") (EName "newVariant")])
      (ST (Some o) bs lg') = Ok (ONext V loc, ST (Some [("Path", VPath p); ("Tag", VNum t); ("Variant", new)]) bs lg')).
    { intros lg'. cbn [app stmts sub]. rewrite (ev_loc w ty cls outer _ loc "newTag" (VNum t)) by assumption. cbn [bind]. unfold set_prop at 1, o, with_this. cbn [s_this s_in s_log sassoc]. seqb.
      cbn [bind sput]. seqb. rewrite (ev_loc w ty cls outer _ loc "newVariant" new) by assumption. reflexivity. }
    set (r := [SAssign (sub "Tag") (EName "newTag")] ++ [SAssign (sub "Variant") (EName "newVariant")]) in *. clearbody r.
    rewrite <- (app_comm_cons []), app_nil_l. cbn [stmts].
    rewrite (ev_loc w ty cls outer _ loc "shouldNotify" (VBool b)) by assumption. cbn [bind].
    destruct b; [|rewrite A; reflexivity].
    rewrite exec_S. cbn [app stmts].
    rewrite (ev_args w ty cls outer _ loc "VariantUpdateEventArgs" _ _ _ [VNum t; new; VNum t0; old; VThis] _ (ST (Some o) bs lg)); [|now right|exact no_args|].
    - cbn [bind]. set (loc' := ("args", VArgs [VNum t; new; VNum t0; old; VThis]) :: loc).
      rewrite ev_invoke, ev_mem.
      assert (T : As loc' (texpr (own_type n ps)) = Some (own_type n ps)).
      { unfold own_type. destruct ps as [|q qs]; [|reflexivity]. cbn [map texpr]. apply type_name; [|exact own_free].
        unfold loc'. cbn [sassoc]. destruct (String.eqb_spec n "args") as [->|_]; [exfalso; apply own_local; cbn; tauto|]. exact (L4 own_local). }
      rewrite T. unfold static_member, library. destruct own_known as [c Hc]. rewrite Hc.
      replace (cname_eqb (own_type n ps) (own cls)) with true by (symmetry; apply cname_refl). rewrite names_update. cbn [bind evals].
      rewrite ev_this. cbn [bind]. rewrite (ev_loc w ty cls outer _ loc' "args" (VArgs [VNum t; new; VNum t0; old; VThis])) by reflexivity.
      cbn [bind CsRun.plain s_this s_in s_log]. seqb. cbn [bind]. rewrite A. reflexivity.
    - cbn [evals]. rewrite (ev_loc w ty cls outer _ loc "newTag" (VNum t)) by assumption. cbn [bind].
      rewrite (ev_loc w ty cls outer _ loc "newVariant" new) by assumption. cbn [bind]. unfold sub.
      rewrite (ev_sub w ty cls outer _ loc "Tag" (VNum t0)) by reflexivity. cbn [bind].
      rewrite (ev_sub w ty cls outer _ loc "Variant" old) by reflexivity. cbn [bind]. rewrite ev_this. reflexivity.
  Qed.
  (** The variant of a tag is read and put, and the handlers told. *)
  Lemma call_replace' f tag k b p t0 c0 x0 bs lg :
    cl (S (S (S (S (S (S (S (S (S (S (S f))))))))))) "ReplaceAt" [VNum tag; VWire k; VReader; VBool b] (ST (Some (eobj p t0 c0 x0)) bs lg) =
    match find (fun v => tag =? va_tag v) vs with
    | Some v =>
        do (x, rest) <- w_read w (va_class v) (p ++ [tag]) bs;
        Ok (VNull, ST (Some (eobj p tag (va_class v) x)) rest (if b then lg ++ [update_event tag (VObj (va_class v) x) t0 (VObj c0 x0)] else lg))
    | None => Ok (VNull, ST (Some (eobj p t0 c0 x0)) [] lg)
    end.
  Proof.
    assert (E : flat_map (fun v => [SCase (ev_tag v); x_update v; SBreak]) evs =
      flat_map (fun v => SCase (va_tag v) :: (fun v => [x_update (ev_of v); SBreak]) v) vs) by exact (flat_evs _).
    set (args := [VNum tag; VWire k; VReader; VBool b]).
    rewrite (call_S w ty cls outer _ "ReplaceAt" args _ [p_tag; p_wire; p_reader; p_notify]
      (on_tag (flat_map (fun v => [SCase (ev_tag v); x_update v; SBreak]) evs ++ [SDefault; skip_end; SBreak]))) by (rewrite ?inst_is; reflexivity).
    change (bind_params V [p_tag; p_wire; p_reader; p_notify] args) with (replace_loc (V := V) tag k b). rewrite exec_S, E.
    rewrite (run_switch w ty cls outer _ _ _ _ _ _ tag); [|reflexivity|exact tags|intros a; split; [apply stops_expr|repeat constructor]|repeat constructor].
    set (loc := replace_loc tag k b). destruct (find (fun v => tag =? va_tag v) vs) as [v|] eqn:Ev.
    - apply find_some in Ev. destruct Ev as [Hv Et]. apply N.eqb_eq in Et. subst tag. unfold x_update. cbn [stmts]. unfold sub.
      rewrite ev_call. change (As loc EThis) with (@None cname). rewrite ev_this. cbn [bind evals]. rewrite ev_num. cbn [bind].
      assert (R : ev (S (S (S (S (S (S (S f))))))) loc (ECall (EMem (EName (ev_name (ev_of v))) "Deserialize") [(None, EName "reader"); (None, nested_path (ev_tag (ev_of v)))])
        (ST (Some (eobj p t0 c0 x0)) bs lg) =
        do (x, rest) <- w_read w (va_class v) (p ++ [va_tag v]) bs; Ok (VObj (va_class v) x, ST (Some (eobj p t0 c0 x0)) rest lg)).
      { change (ev_name (ev_of v)) with (va_name v). change (ev_tag (ev_of v)) with (va_tag v). rewrite ev_call.
        assert (T : As loc (EName (va_name v)) = Some (CN (va_name v) [])).
        { cbn [as_type]. rewrite names_variant by assumption. replace (sassoc (va_name v) loc) with (@None (value V)); [reflexivity|].
          pose proof (variant_local v Hv) as H. unfold loc, replace_loc. cbn [sassoc]. unfold replace_locals in H.
          repeat match goal with |- None = (if String.eqb ?m ?s then _ else _) => destruct (String.eqb_spec m s) as [E'|_]; [exfalso; apply H; rewrite E'; cbn; tauto|] end. reflexivity. }
        rewrite T. cbn [evals]. rewrite (ev_loc w ty cls outer _ loc "reader" VReader) by reflexivity. cbn [bind].
        rewrite (ev_nested w ty cls outer _ loc _ p) by reflexivity. cbn [bind CsRun.plain]. unfold static_call.
        pose proof (classes v Hv) as Hc. unfold library. rewrite Hc. cbn [va_class c_state andb]. seqb. cbn [andb].
        unfold read_with. cbn [s_in]. change (CStruct (cfields (va_fields v))) with (va_class v).
        destruct (w_read w (va_class v) (p ++ [va_tag v]) bs) as [[x rest]| | |]; reflexivity. }
      rewrite R. destruct (w_read w (va_class v) (p ++ [va_tag v]) bs) as [[x rest]| | |]; cbn [bind]; [|reflexivity..].
      rewrite (ev_loc w ty cls outer _ loc "shouldNotify" (VBool b)) by reflexivity. cbn [bind CsRun.plain].
      replace (find_method "UpdateAndNotify" false (c_members cls)) with (Some (update_params, update_body (own_type n ps))) by (rewrite inst_is; reflexivity).
      unfold eobj at 1. rewrite call_update. reflexivity.
    - cbn [stmts]. unfold skip_end. cbn [stmts]. rewrite ev_call. change (As loc (EName "reader")) with (@None cname).
      rewrite (ev_loc w ty cls outer _ loc "reader" VReader) by reflexivity. cbn [bind evals CsRun.plain]. unfold method. seqb. reflexivity.
  Qed.
  Lemma enum_wire_type o tag : run_wire_type V w ty cls outer o tag = Ok (wire_of tag).
  Proof. unfold run_wire_type, depth. rewrite (call_wire' 14). reflexivity. Qed.
  Lemma enum_get_nested p tag c x tag' : run_nested V w ty cls outer (eobj p tag c x) tag' = Ok (if tag' =? tag then VObj c x else VNull).
  Proof. unfold run_nested, depth. rewrite (call_nested' 14). reflexivity. Qed.
  Lemma enum_replace_at p t0 c0 x0 tag k bs b : run_replace_at V w ty cls outer (eobj p t0 c0 x0) tag k bs b =
    match find (fun v => tag =? va_tag v) vs with
    | Some v => do (x, rest) <- w_read w (va_class v) (p ++ [tag]) bs;
                Ok (eobj p tag (va_class v) x, rest, if b then [update_event tag (VObj (va_class v) x) t0 (VObj c0 x0)] else [])
    | None => Ok (eobj p t0 c0 x0, [], [])
    end.
  Proof.
    unfold run_replace_at, depth. rewrite (call_replace' 9). destruct (find (fun v => tag =? va_tag v) vs) as [v|]; [|reflexivity].
    destruct (w_read w (va_class v) (p ++ [tag]) bs) as [[x rest]| | |]; reflexivity.
  Qed.

  Lemma static_deser : find_method "Deserialize" true (c_members cls) =
    Some ([p_reader; p_path], [SVar (uncap_first_char n) (ENew (own_type n ps) [(None, EName "path")]);
     SExpr (ECall (EMem (EName (uncap_first_char n)) "Replace") [(None, EName "reader"); (Some "shouldNotify", EBool false)]);
     SReturn (EName (uncap_first_char n))]).
  Proof. rewrite emethod_is by reflexivity. reflexivity. Qed.
  Definition enum_read (a : option (list N)) (bs : bytes) : res (N * cty * V * bytes) :=
    do x0 <- w_new w (va_class d) (root_or a ++ [va_tag d]);
    do (z, rest) <- c_int U32 bs;
    match find (fun v => Z.to_N z =? va_tag v) vs with
    | Some v => do (x, rest) <- w_read w (va_class v) (root_or a ++ [va_tag v]) rest; Ok (va_tag v, va_class v, x, rest)
    | None => Ok (va_tag d, va_class d, x0, [])
    end.
  Lemma enum_deserialize a bs : run_deserialize V w ty cls outer a bs =
    do (t, c, x, rest) <- enum_read a bs; Ok (eobj (root_or a) t c x, rest, []).
  Proof.
    unfold run_deserialize, run_static. rewrite static_deser. cbn [List.length Nat.eqb]. unfold depth.
    change (bind_params V [p_reader; p_path] [VReader; a_path a]) with [("reader", VReader); ("path", a_path (V := V) a)].
    set (var := uncap_first_char n). set (loc := [("reader", VReader); ("path", a_path a)]).
    rewrite exec_S. cbn [stmts]. destruct own_known as [c Hc].
    rewrite (ev_new_self w ty cls outer _ _ (own_type n ps) _ c _ Hc) by (reflexivity || apply cname_refl || exact own_class').
    cbn [evals]. rewrite (ev_loc w ty cls outer _ loc "path" (a_path a)) by reflexivity. cbn [bind CsRun.plain s_this]. rewrite construct1. unfold enum_read.
    destruct (w_new w (va_class d) (root_or a ++ [va_tag d])) as [x0| | |]; cbn [bind]; [|reflexivity..].
    assert (Lv : forall y : value V, sassoc var ((var, y) :: loc) = Some y) by (intros y; apply sassoc_here).
    rewrite ev_call. replace (As ((var, VThis) :: loc) (EName var)) with (@None cname) by (unfold as_type; now rewrite Lv).
    rewrite (ev_loc w ty cls outer _ _ var VThis) by apply Lv. cbn [bind evals].
    rewrite (ev_loc w ty cls outer _ _ "reader" VReader).
    2:{ cbn [sassoc]. destruct (String.eqb_spec "reader" var) as [E|_]; [|reflexivity]. now destruct var_reader. }
    cbn [bind]. rewrite ev_bool. cbn [bind].
    replace (find_method "Replace" false (c_members cls)) with (@None (list param * list stmt)).
    2:{ rewrite inst_is. symmetry. unfold emethods. rewrite <- (app_nil_r (map x_variant evs)).
        change (find_method "Replace" false (map x_variant evs ++ []) = None). now rewrite find_method_map by (intros; exact I). }
    seqb. unfold CsRun.replace. change (c_enum cls) with true. cbn [s_in].
    destruct (c_int U32 bs) as [[z rest]| | |]; cbn [bind]; [|reflexivity..]. unfold with_in. cbn [s_in s_this s_log].
    rewrite (call_replace' 7). destruct (find (fun v => Z.to_N z =? va_tag v) vs) as [v|] eqn:Ev; cbn [bind].
    - apply find_some in Ev. destruct Ev as [Hv Et]. apply N.eqb_eq in Et. rewrite Et.
      destruct (w_read w (va_class v) (root_or a ++ [va_tag v]) rest) as [[x r]| | |]; cbn [bind]; [|reflexivity..].
      rewrite (ev_loc w ty cls outer _ _ var VThis) by apply Lv. reflexivity.
    - rewrite (ev_loc w ty cls outer _ _ var VThis) by apply Lv. reflexivity.
  Qed.
End Enum.
