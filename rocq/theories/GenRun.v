(** Running the class of a struct: proofs for PropGen.v. *)
From Verif Require Import Base Varint WireFmt Types De Meta Gen CSharp CsRead CsRun GenSpec GenLex GenParse GenStmt GenMember GenClass.
From Coq Require Import String Lia.
Import Ascii String.StringSyntax.
Local Open Scope string_scope.
Local Open Scope list_scope.
Local Open Scope N_scope.

Ltac seqb := repeat match goal with |- context [String.eqb ?a ?b] =>
  let v := eval vm_compute in (String.eqb a b) in
  match v with true => change (String.eqb a b) with true | false => change (String.eqb a b) with false end end; cbn [andb orb negb].

Lemma sassoc_here {A} n (a : A) l : sassoc n ((n, a) :: l) = Some a.
Proof. cbn [sassoc]. now rewrite String.eqb_refl. Qed.
Lemma sassoc_app {A} n (l l' : list (string * A)) : sassoc n (l ++ l') = match sassoc n l with Some a => Some a | None => sassoc n l' end.
Proof. induction l as [|[m a] l IH]; [reflexivity|]. cbn [app sassoc]. destruct (String.eqb n m); auto. Qed.
Lemma sassoc_none {A} n (l : list (string * A)) : ~ In n (map fst l) -> sassoc n l = None.
Proof.
  induction l as [|[m a] l IH]; [reflexivity|]. cbn [map fst In sassoc]. intros H. destruct (String.eqb_spec n m) as [->|]; [tauto|]. tauto.
Qed.
Lemma sassoc_in {A} n (a : A) l : NoDup (map fst l) -> In (n, a) l -> sassoc n l = Some a.
Proof.
  induction l as [|[m b] l IH]; [intros _ []|]. cbn [map fst sassoc]. intros H Hin. inversion H as [|? ? Hm Hl]; subst.
  destruct Hin as [E|Hin]; [injection E as -> ->; now rewrite String.eqb_refl|].
  destruct (String.eqb_spec n m) as [->|]; [|auto]. exfalso. apply Hm. apply in_map_iff. now exists (m, a).
Qed.

Lemma NoDup_left {A} (a b : list A) : NoDup (a ++ b) -> NoDup a.
Proof.
  induction a as [|x a IH]; intros H; [constructor|]. inversion H as [|? ? Hx Hr]; subst. constructor; [|auto].
  intros Hin. apply Hx. apply in_app_iff. now left.
Qed.

Section Steps.
  Context {V : Type}.
  Variable w : world V.
  Variable ty : cname -> option cty.
  Variable cls : member.
  Variable outer : list (string * meaning).
  Notation ev := (eval V w ty cls outer).
  Notation ex := (exec V w ty cls outer).
  Notation cl := (call V w ty cls outer).

  Lemma stmts_app e b loc l1 l2 s : stmts V e b loc (l1 ++ l2) s =
    do (o, s) <- stmts V e b loc l1 s; match o with ONext _ loc => stmts V e b loc l2 s | _ => Ok (o, s) end.
  Proof.
    revert loc s. induction l1 as [|c l1 IH]; intros loc s; [reflexivity|]. cbn [app].
    destruct c as [e1|a e1|x e1|e1|e1| |k| |c b1|c b1]; cbn [stmts]; try reflexivity.
    - destruct (e loc e1 s) as [[v s']| | |]; cbn [bind]; auto.
    - destruct a; try reflexivity. destruct a; try reflexivity. destruct (e loc e1 s) as [[v s']| | |]; cbn [bind]; [|reflexivity..].
      destruct (set_prop V n v s'); cbn [bind]; auto.
    - destruct (e loc e1 s) as [[v s']| | |]; cbn [bind]; auto.
    - destruct (e loc e1 s) as [[v s']| | |]; reflexivity.
    - destruct (e loc c s) as [[v s']| | |]; cbn [bind]; [|reflexivity..]. destruct v as [|[]| | | | | | | | | ]; try reflexivity; [|apply IH].
      destruct (b loc b1 s') as [[o s'']| | |]; cbn [bind]; [|reflexivity..]. destruct o; [apply IH|reflexivity..].
    - destruct (e loc c s) as [[v s']| | |]; cbn [bind]; [|reflexivity..]. destruct v as [| |k| | | | | | | | ]; try reflexivity.
      destruct (distinct (labels b1)); [|reflexivity]. destruct (select k b1) as [b'|]; [|apply IH].
      destruct (b loc b' s') as [[o s'']| | |]; cbn [bind]; [|reflexivity..]. destruct o; try reflexivity. apply IH.
  Qed.
  Lemma exec_S f loc l s : ex (S f) loc l s = stmts V (ev f) (ex f) loc l s.
  Proof. reflexivity. Qed.
  Lemma construct_S f args s ps body : find_ctor (List.length args) (c_members cls) = Some (ps, None, body) ->
    construct V w ty cls outer (S f) args s =
    do (o, s) <- ex f (bind_params V ps args) body (with_this V s (fresh V w ty cls));
    match o with OBreak _ => NoFuel | _ => Ok s end.
  Proof. intros H. cbn [construct]. rewrite H. reflexivity. Qed.
  Lemma call_S f m args s ps body : find_method m false (c_members cls) = Some (ps, body) -> List.length ps = List.length args ->
    cl (S f) m args s =
    do (o, s) <- ex f (bind_params V ps args) body s;
    match o with ORet _ v => Ok (v, s) | ONext _ _ => Ok (VNull, s) | OBreak _ => NoFuel end.
  Proof. intros H L. cbn [call]. rewrite H, L, Nat.eqb_refl. reflexivity. Qed.

  Notation As := (as_type V cls outer).
  Lemma ev_call f loc e n args s : ev (S f) loc (ECall (EMem e n) args) s =
    match As loc e with
    | Some t => do (vs, s) <- evals V (ev f) loc args s; do vs <- CsRun.plain V vs; static_call V w ty t n [] vs s
    | None =>
        do (r, s) <- ev f loc e s;
        do (vs, s) <- evals V (ev f) loc args s;
        match r with
        | VThis =>
            match find_method n false (c_members cls) with
            | Some _ => do vs <- CsRun.plain V vs; cl f n vs s
            | None =>
                match vs with
                | [(None, VReader); (Some a, VBool b)] =>
                    if String.eqb n "Replace" && String.eqb a "shouldNotify"
                    then do s <- replace V cls (cl f) b s; Ok (VNull, s) else NoFuel
                | _ => NoFuel
                end
            end
        | _ => do vs <- CsRun.plain V vs; method V w r n vs s
        end
    end.
  Proof. reflexivity. Qed.
  Lemma ev_callgen f loc e n targs args s : ev (S f) loc (ECall (EMemGen e n targs) args) s =
    match As loc e with
    | Some t => do (vs, s) <- evals V (ev f) loc args s; do vs <- CsRun.plain V vs; static_call V w ty t n targs vs s
    | None => NoFuel
    end.
  Proof. reflexivity. Qed.
  Lemma ev_mem f loc e n s : ev (S f) loc (EMem e n) s =
    match As loc e with
    | Some t => do v <- static_member V ty cls outer t n; Ok (v, s)
    | None => do (r, s) <- ev f loc e s; match r with VThis => do v <- prop V n s; Ok (v, s) | _ => NoFuel end
    end.
  Proof. reflexivity. Qed.
  Lemma ev_cond f loc c a b s : ev (S f) loc (ECond c a b) s =
    do (v, s) <- ev f loc c s; match v with VBool true => ev f loc a s | VBool false => ev f loc b s | _ => NoFuel end.
  Proof. reflexivity. Qed.
  Lemma ev_invoke f loc e n args s : ev (S f) loc (ECall (EQMem e n) args) s =
    do (r, s) <- ev f loc e s;
    match r with
    | VNull => Ok (VNull, s)
    | VEvent h =>
        do (vs, s) <- evals V (ev f) loc args s;
        do vs <- CsRun.plain V vs;
        if String.eqb n "Invoke" then Ok (VNull, ST (s_this s) (s_in s) (s_log s ++ [(h, vs)])) else NoFuel
    | _ => NoFuel
    end.
  Proof. reflexivity. Qed.
  Lemma ev_event f loc h s : sassoc h loc = None -> sassoc h (names cls outer) = Some IsOther -> ev (S f) loc (EName h) s = Ok (VEvent h, s).
  Proof. intros H1 H2. cbn [eval]. now rewrite H1, H2. Qed.
  Lemma ev_args f loc n t ts es vs s s' : n = "FieldUpdateEventArgs" \/ n = "VariantUpdateEventArgs" -> (forall a, ty (CN n a) = None) ->
    evals V (ev f) loc es s = Ok (map (pair None) vs, s') ->
    ev (S f) loc (ENew (CN n (t :: ts)) es) s = Ok (VArgs vs, s').
  Proof.
    intros Hn Ht He. cbn [eval]. rewrite He. cbn [bind].
    assert (P : forall l : list (value V), CsRun.plain V (map (pair None) l) = Ok l).
    { induction l as [|a l IH]; [reflexivity|]. cbn [map CsRun.plain]. rewrite IH. reflexivity. }
    rewrite P, Ht. cbn [bind param_name]. destruct Hn as [-> | ->]; reflexivity.
  Qed.
  Lemma cname_refl : forall t, cname_eqb t t = true.
  Proof.
    fix IH 1. intros [m l]. cbn [cname_eqb]. rewrite String.eqb_refl. cbn [andb].
    induction l as [|x l IHl]; [reflexivity|]. rewrite IH, IHl. reflexivity.
  Qed.
  Lemma ev_new_self f loc t args c s : ty t = Some c -> cname_eqb t (own cls) = true -> param_name cls outer t = false -> s_this s = None ->
    ev (S f) loc (ENew t args) s =
    do (vs, s') <- evals V (ev f) loc args s;
    do vs <- CsRun.plain V vs;
    if match s_this s' with None => true | Some _ => false end then do s <- construct V w ty cls outer f vs s'; Ok (VThis, s)
    else match vs with [VPath p] => if c_state c then do x <- w_new w c p; Ok (VObj c x, s') else NoFuel | _ => NoFuel end.
  Proof.
    intros Ht Ho Hp _. destruct t as [n targs]. cbn [eval]. rewrite Hp. destruct (evals V (ev f) loc args s) as [[vs s']| | |]; cbn [bind]; [|reflexivity..].
    destruct (CsRun.plain V vs) as [vs'| | |]; cbn [bind]; [|reflexivity..]. rewrite Ht, andb_false_r, Ho. reflexivity.
  Qed.
  Lemma ev_num f loc n s : ev (S f) loc (ENum n) s = Ok (VNum n, s).
  Proof. reflexivity. Qed.
  Lemma ev_null f loc s : ev (S f) loc ENull s = Ok (VNull, s).
  Proof. reflexivity. Qed.
  Lemma ev_bool f loc b s : ev (S f) loc (EBool b) s = Ok (VBool b, s).
  Proof. reflexivity. Qed.
  Lemma ev_this f loc o bs lg : ev (S f) loc EThis (ST (Some o) bs lg) = Ok (VThis, ST (Some o) bs lg).
  Proof. reflexivity. Qed.
  Lemma ev_loc f loc x v s : sassoc x loc = Some v -> ev (S f) loc (EName x) s = Ok (v, s).
  Proof. intros H. cbn [eval]. now rewrite H. Qed.
  Lemma ev_sub f loc n v o bs lg : sassoc n o = Some v -> ev (S (S f)) loc (EMem EThis n) (ST (Some o) bs lg) = Ok (v, ST (Some o) bs lg).
  Proof. intros H. rewrite ev_mem. cbn [as_type]. rewrite ev_this. cbn [bind]. unfold prop. cbn [s_this]. now rewrite H. Qed.
  Lemma ev_nested f loc tag p o bs lg : sassoc "Path" o = Some (VPath p) ->
    ev (S (S (S f))) loc (nested_path tag) (ST (Some o) bs lg) = Ok (VPath (p ++ [tag]), ST (Some o) bs lg).
  Proof.
    intros H. unfold nested_path. rewrite ev_call. cbn [as_type]. rewrite (ev_sub f loc "Path" (VPath p)) by assumption.
    cbn [bind evals]. rewrite ev_num. reflexivity.
  Qed.
  Lemma ev_new f loc t c e q s o : ty t = Some c -> c_state c = true -> param_name cls outer t = false -> s_this s = Some o -> ev f loc e s = Ok (VPath q, s) ->
    ev (S f) loc (ENew t [(None, e)]) s = do x <- w_new w c q; Ok (VObj c x, s).
  Proof.
    intros Ht Hc Hp Ho He. destruct t as [n args]. cbn [eval evals]. rewrite He. cbn [bind CsRun.plain]. rewrite Hp, Ht, Ho, !andb_false_r, Hc. reflexivity.
  Qed.
  (** A name before a dot that is free means a type. *)
  Lemma type_name loc n : sassoc n loc = None -> sassoc n (names cls outer) = None -> as_type V cls outer loc (EName n) = Some (CN n []).
  Proof. intros H1 H2. cbn [as_type]. now rewrite H1, H2. Qed.
  Lemma type_no_param loc t : as_type V cls outer loc (texpr t) = Some t -> sassoc match t with CN n _ => n end loc = None -> param_name cls outer t = false.
  Proof.
    destruct t as [n [|a l]]; [|reflexivity]. cbn [texpr as_type param_name]. intros H E. rewrite E in H. revert H. destruct (sassoc n (names cls outer)) as [[| | |]|]; reflexivity || discriminate.
  Qed.
  Definition free (n : string) : Prop := sassoc n (names cls outer) = None /\ forall a, ty (CN n a) = None.
  Lemma library_free n m : free n -> library ty (CN n []) m = String.eqb n m.
  Proof. intros [_ H]. unfold library. rewrite H. cbn [cname_eqb]. apply andb_true_r. Qed.
  Lemma static_wire n : free "WireType" -> static_member V ty cls outer (CN "WireType" []) n =
    if String.eqb n "Varint" then Ok (VWire Varint) else if String.eqb n "Sized" then Ok (VWire Sized) else NoFuel.
  Proof. intros H. unfold static_member. now rewrite library_free. Qed.
  Lemma ev_wire f loc k s : free "WireType" -> sassoc "WireType" loc = None -> ev (S f) loc (wire k) s = Ok (VWire k, s).
  Proof.
    intros H Hl. unfold wire. rewrite ev_mem, (type_name loc "WireType" Hl (proj1 H)).
    rewrite static_wire by assumption. destruct k; reflexivity.
  Qed.
  Lemma ev_typeof f loc t c s : ty t = Some c -> ev (S f) loc (ETypeof t) s = Ok (VType c, s).
  Proof. intros H. cbn [eval]. now rewrite H. Qed.
  Lemma ev_validate f loc p c s : free "StateFactory" -> sassoc "StateFactory" loc = None -> ty (CN p []) = Some c ->
    ev (S (S f)) loc (ECall (EMem (EName "StateFactory") "ValidateType") [(None, ETypeof (CN p []))]) s = Ok (VNull, s).
  Proof.
    intros H Hl Hp. rewrite ev_call, (type_name loc "StateFactory" Hl (proj1 H)). cbn [evals]. rewrite (ev_typeof _ loc _ c) by assumption.
    cbn [bind CsRun.plain]. unfold static_call. rewrite library_free by assumption. seqb. reflexivity.
  Qed.
  Lemma ev_is_state f loc p c s : free "StateFactory" -> sassoc "StateFactory" loc = None -> ty (CN p []) = Some c ->
    ev (S (S f)) loc (ECall (EMem (EName "StateFactory") "IsStateType") [(None, ETypeof (CN p []))]) s = Ok (VBool (c_state c), s).
  Proof.
    intros H Hl Hp. rewrite ev_call, (type_name loc "StateFactory" Hl (proj1 H)). cbn [evals]. rewrite (ev_typeof _ loc _ c) by assumption.
    cbn [bind CsRun.plain]. unfold static_call. rewrite library_free by assumption. seqb. reflexivity.
  Qed.
  Definition construct_generic (c : cty) (q : list N) : res V :=
    if c_state c then if c_constructible c then w_new w c q else Panic else Ok (w_default w c).
  Lemma ev_construct f loc p c e q s : free "StateFactory" -> sassoc "StateFactory" loc = None -> ty (CN p []) = Some c ->
    ev f loc e s = Ok (VPath q, s) ->
    ev (S f) loc (ECall (EMemGen (EName "StateFactory") "Construct" [CN p []]) [(None, e)]) s =
    do x <- construct_generic c q; Ok (VObj c x, s).
  Proof.
    intros H Hl Hp He. rewrite ev_callgen, (type_name loc "StateFactory" Hl (proj1 H)). cbn [evals]. rewrite He.
    cbn [bind CsRun.plain]. unfold static_call. rewrite library_free by assumption. seqb. cbn match. rewrite Hp.
    unfold construct_generic. destruct (c_state c); [|reflexivity]. destruct (c_constructible c); reflexivity.
  Qed.

  (** ** [switch] *)
  Definition stops (b : list stmt) : Prop := forall e bl loc r s, stmts V e bl loc (b ++ r) s = stmts V e bl loc b s.
  Definition flat (b : list stmt) : Prop := Forall (fun x => match x with SCase _ | SDefault => False | _ => True end) b.
  Lemma flat_case k b r : flat b -> after_case k (b ++ r) = after_case k r.
  Proof. intros H. induction H as [|x b Hx Hb IH]; [reflexivity|]. destruct x; try exact IH; destruct Hx. Qed.
  Lemma flat_default b r : flat b -> after_default (b ++ r) = after_default r.
  Proof. intros H. induction H as [|x b Hx Hb IH]; [reflexivity|]. destruct x; try exact IH; destruct Hx. Qed.
  Lemma flat_labels b r : flat b -> labels (b ++ r) = labels r.
  Proof. intros H. induction H as [|x b Hx Hb IH]; [reflexivity|]. destruct x; try exact IH; destruct Hx. Qed.
  Lemma distinct_nodup l : NoDup l -> distinct l = true.
  Proof.
    induction 1 as [|x l Hx Hl IH]; [reflexivity|]. cbn [distinct]. rewrite IH, andb_true_r. destruct (existsb (N.eqb x) l) eqn:E; [|reflexivity].
    apply existsb_exists in E. destruct E as [y [Hy Ey]]. apply N.eqb_eq in Ey. subst y. now destruct Hx.
  Qed.
  Lemma run_switch {A} (t : A -> N) (b : A -> list stmt) l d f loc k s :
    sassoc "tag" loc = Some (VNum k) -> NoDup (map t l) -> (forall a, stops (b a) /\ flat (b a)) -> flat d ->
    stmts V (ev (S f)) (ex (S f)) loc (on_tag (flat_map (fun a => SCase (t a) :: b a) l ++ SDefault :: d)) s =
    do (o, s) <- stmts V (ev f) (ex f) loc (match find (fun a => k =? t a) l with Some a => b a | None => d end) s;
    match o with OBreak _ => Ok (ONext V loc, s) | ONext _ _ => NoFuel | ORet _ _ => Ok (o, s) end.
  Proof.
    intros Hk D Hb Hd. unfold on_tag. cbn [stmts]. rewrite (ev_loc _ _ "tag" (VNum k)) by assumption. cbn [bind].
    assert (L : forall r, labels (flat_map (fun a => SCase (t a) :: b a) l ++ r) = map t l ++ labels r).
    { intros r. clear D. induction l as [|a l IH]; [reflexivity|]. cbn [flat_map map app labels]. rewrite <- app_assoc, flat_labels by apply Hb. now rewrite IH. }
    rewrite L. cbn [labels]. rewrite <- (app_nil_r d), flat_labels, app_nil_r by assumption. cbn [labels]. rewrite app_nil_r, distinct_nodup by assumption.
    assert (S1 : exists r, select k (flat_map (fun a => SCase (t a) :: b a) l ++ SDefault :: d) =
      Some (match find (fun a => k =? t a) l with Some a => b a ++ r | None => d end)).
    { unfold select.
      assert (Ad : after_default (flat_map (fun a => SCase (t a) :: b a) l ++ SDefault :: d) = Some d).
      { clear D L. induction l as [|a l IH]; [reflexivity|]. cbn [flat_map app after_default]. rewrite <- app_assoc, flat_default by apply Hb. apply IH. }
      rewrite Ad. clear Ad D L. induction l as [|a l IH].
      - exists []. cbn [flat_map app find after_case]. rewrite <- (app_nil_r d), flat_case by assumption. cbn [after_case]. now rewrite app_nil_r.
      - cbn [flat_map app find after_case]. destruct (k =? t a).
        + exists (flat_map (fun a => SCase (t a) :: b a) l ++ SDefault :: d). now rewrite <- app_assoc.
        + rewrite <- app_assoc, flat_case by apply Hb. apply IH. }
    destruct S1 as [r ->]. rewrite exec_S.
    destruct (find (fun a => k =? t a) l) as [a|].
    - rewrite (proj1 (Hb a)). destruct (stmts V (ev f) (ex f) loc (b a) s) as [[o s']| | |]; reflexivity.
    - destruct (stmts V (ev f) (ex f) loc d s) as [[o s']| | |]; reflexivity.
  Qed.
  Lemma stops_return e : stops [SReturn e].
  Proof. intros ev' bl loc r s. reflexivity. Qed.
  Lemma stops_assign a b : stops [SAssign a b; SBreak].
  Proof.
    intros ev' bl loc r s. reflexivity.
  Qed.
End Steps.

Lemma NoDup_map_inj {A B} (h : A -> B) l a b : NoDup (map h l) -> In a l -> In b l -> h a = h b -> a = b.
Proof.
  induction l as [|x l IH]; [intros _ []|]. cbn [map]. intros D Ha Hb E. inversion D as [|? ? Nx Dl]; subst.
  destruct Ha as [Ha|Ha], Hb as [Hb|Hb]; [congruence|..].
  - destruct Nx. rewrite Ha, E. now apply in_map.
  - destruct Nx. rewrite Hb, <- E. now apply in_map.
  - now apply IH.
Qed.
Lemma NoDup_map_filter {A B} (h : A -> B) q l : NoDup (map h l) -> NoDup (map h (filter q l)).
Proof.
  induction l as [|x l IH]; cbn [map filter]; intros D; [constructor|]. inversion D as [|? ? Nx Dl]; subst.
  destruct (q x); [|now apply IH]. cbn [map]. constructor; [|now apply IH].
  intros H. apply Nx. apply in_map_iff in H. destruct H as [y [E H]]. apply filter_In in H. apply in_map_iff. exists y. tauto.
Qed.

(** ** A struct *)

Section Struct.
  Context {V : Type}.
  Variable w : world V.
  Variable ty : cname -> option cty.
  Variables (acc n : string) (ps vps : list string) (fcs : list (vfield * cty)).
  Variable outer : list (string * meaning).
  Let vs := map fst fcs.
  Let cls := x_struct acc n ps vps vs.
  Notation ev := (eval V w ty cls outer).
  Notation ex := (exec V w ty cls outer).
  Notation cl := (call V w ty cls outer).
  Notation As := (as_type V cls outer).

  (** What the names have to mean. *)
  Definition field_ok (v : vfield) (c : cty) : Prop :=
    ty (v_type v) = Some c /\
    match fm_ty (v_meta v) with
    | MPrim n k => c_state c = false /\ c_wty c = k /\ sassoc ("Read" +++ cs_name n) read_methods = Some c
    | MRef _ _ => c_state c = true /\
        (forall loc, incl (map fst loc) ["tag"; "wireType"; "reader"; "shouldNotify"] -> As loc (texpr (v_type v)) = Some (v_type v))
    | MParam p => v_type v = CN p []
    end.
  Hypothesis fields_ok : Forall (fun fc => field_ok (fst fc) (snd fc)) fcs.
  Hypothesis params_ok : Forall (fun p => exists c, ty (CN p []) = Some c) vps.
  Hypothesis declared : NoDup (map fst (flat_map declares (x_struct_members acc n ps vps vs))).
  Hypothesis tags : NoDup (map v_tag vs).
  Hypothesis no_factory : free ty cls outer "StateFactory".
  Hypothesis no_wire : free ty cls outer "WireType".
  Hypothesis no_path : forall a, ty (CN "Path" a) = None.
  Hypothesis no_args : forall a, ty (CN "FieldUpdateEventArgs" a) = None.
  Hypothesis no_istate : forall a, ty (CN "IState" a) = None.

  Lemma names_eq : names cls outer = flat_map declares (x_struct_members acc n ps vps vs) ++ map (fun p => (p, IsParam)) ps ++ outer.
  Proof. reflexivity. Qed.
  Lemma declared_eq : flat_map declares (x_struct_members acc n ps vps vs) =
    ("Path", IsProp (CN "Path" [])) :: map (fun v => (v_name v, IsProp (v_type v))) vs ++
    map (fun v => (on v, IsOther)) vs ++ map (fun v => ("Clear" +++ v_name v +++ "UpdateHandlers", IsOther)) vs ++
    [("ClearUpdateHandlers", IsOther); ("Deserialize", IsOther); ("GetWireType", IsOther); ("GetNested", IsOther); ("ReplaceAt", IsOther);
     ("ReplayListPush", IsOther); ("ReplayListPop", IsOther); ("ReplayMapRemove", IsOther); ("MaybeNotify", IsOther)].
  Proof.
    assert (G : forall (h : vfield -> member) (f : vfield -> string * meaning) l, (forall v, declares (h v) = [f v]) ->
      flat_map declares (map h l) = map f l) by (intros h f l H; induction l; cbn [map flat_map]; rewrite ?H; cbn [app]; congruence).
    unfold x_struct_members. cbv zeta. rewrite (cons_app (KProp _ _ _ _)), !flat_map_app.
    rewrite (G x_prop (fun v => (v_name v, IsProp (v_type v)))), (G (x_event (own_type n ps)) (fun v => (on v, IsOther))),
      (G x_clear (fun v => ("Clear" +++ v_name v +++ "UpdateHandlers", IsOther))) by reflexivity. reflexivity.
  Qed.
  Lemma prop_names : NoDup ("Path" :: map v_name vs).
  Proof.
    pose proof declared as D. rewrite declared_eq in D. cbn [map fst] in D. rewrite !map_app, !map_map in D. cbn [fst] in D.
    rewrite app_comm_cons in D. now apply NoDup_left in D.
  Qed.
  Lemma names_path : sassoc "Path" (names cls outer) = Some (IsProp (CN "Path" [])).
  Proof. rewrite names_eq, declared_eq. reflexivity. Qed.
  Lemma names_on v : In v vs -> sassoc (on v) (names cls outer) = Some IsOther.
  Proof.
    intros H. rewrite names_eq, sassoc_app, (sassoc_in (on v) IsOther); [reflexivity|exact declared|].
    rewrite declared_eq. right. apply in_app_iff. right. apply in_app_iff. left. apply in_map_iff. now exists v.
  Qed.

  (** Objects. *)
  Fixpoint props (l : list (vfield * cty)) (xs : list (N * V)) : list (string * value V) :=
    match l, xs with (v, c) :: l, (_, x) :: xs => (v_name v, VObj c x) :: props l xs | _, _ => [] end.
  Definition obj (p : list N) (xs : list (N * V)) : list (string * value V) := ("Path", VPath p) :: props fcs xs.
  Lemma props_keys l xs : List.length l = List.length xs -> map fst (props l xs) = map v_name (map fst l).
  Proof. revert xs. induction l as [|[v c] l IH]; intros [|[t x] xs]; try discriminate; [reflexivity|]. cbn. intros [= H]. f_equal. auto. Qed.

  (** ** The constructor *)

  Definition unset (fc : vfield * cty) : string * value V :=
    (v_name (fst fc), if c_state (snd fc) then VNull else VObj (snd fc) (w_default w (snd fc))).
  Lemma fresh_eq : fresh V w ty cls = ("Path", VNull) :: map unset fcs.
  Proof.
    unfold fresh. change (c_members cls) with (x_struct_members acc n ps vps vs). unfold x_struct_members. cbv zeta.
    rewrite (cons_app (KProp _ _ _ _)), !flat_map_app.
    assert (G1 : forall (h : vfield -> member) l, (forall v, match h v with KProp _ _ _ _ => False | _ => True end) ->
      flat_map (fun m => match m with
        | KProp _ t n _ => [(n, match ty t with Some c => if c_state c then VNull else VObj c (w_default w c) | None => VNull end)]
        | _ => [] end) (map h l) = ([] : list (string * value V))).
    { intros h l Hh. induction l as [|v l IH]; [reflexivity|]. cbn [map flat_map]. rewrite IH, app_nil_r. specialize (Hh v). destruct (h v); try reflexivity. destruct Hh. }
    rewrite (G1 (x_event (own_type n ps))), (G1 x_clear) by (intros; exact I).
    cbn [flat_map app x_ctor x_clear_all x_deserialize x_wire x_nested x_replace x_replay x_notify]. rewrite no_path, !app_nil_r. f_equal. unfold vs.
    assert (T : Forall (fun fc => ty (v_type (fst fc)) = Some (snd fc)) fcs).
    { rewrite Forall_forall in *. intros fc H. apply (fields_ok fc H). }
    revert T. clear. generalize fcs. intros l. induction l as [|[v c] l IH]; intros T; [reflexivity|].
    inversion T as [|? ? Ht Hl]; subst. cbn [fst snd] in *.
    cbn [map flat_map x_prop app fst]. rewrite IH by assumption. unfold unset at 2. cbn [fst snd]. now rewrite Ht.
  Qed.
  Definition new_field (p : list N) (v : vfield) (c : cty) : res V :=
    match fm_ty (v_meta v) with
    | MPrim _ _ => Ok (w_default w c)
    | MRef _ _ => w_new w c (p ++ [v_tag v])
    | MParam _ => construct_generic w c (p ++ [v_tag v])
    end.
  Fixpoint new_fields (p : list N) (l : list (vfield * cty)) : res (list (N * V)) :=
    match l with
    | [] => Ok []
    | (v, c) :: l => do x <- new_field p v c; do xs <- new_fields p l; Ok ((v_tag v, x) :: xs)
    end.
  Lemma new_fields_tags p l xs : new_fields p l = Ok xs -> map fst xs = map v_tag (map fst l).
  Proof.
    revert xs. induction l as [|[v c] l IH]; cbn [new_fields]; [intros xs [= <-]; reflexivity|]. intros xs.
    destruct (new_field p v c); cbn [bind]; try discriminate. destruct (new_fields p l); cbn [bind]; try discriminate.
    intros [= <-]. cbn. f_equal. auto.
  Qed.
  Lemma sput_mid {A} m (a b : A) pre post : ~ In m (map fst pre) -> sput m b (pre ++ (m, a) :: post) = pre ++ (m, b) :: post.
  Proof.
    induction pre as [|[k x] pre IH]; cbn [app sput map fst In]; intros H; [now rewrite String.eqb_refl|].
    destruct (String.eqb_spec m k) as [->|]; [tauto|]. now rewrite IH by tauto.
  Qed.
  Lemma sassoc_mid {A} m (a : A) pre post : ~ In m (map fst pre) -> sassoc m (pre ++ (m, a) :: post) = Some a.
  Proof. intros H. rewrite sassoc_app, (sassoc_none m pre H). apply sassoc_here. Qed.
  Lemma set_mid m (a b : value V) pre post bs lg : ~ In m (map fst pre) ->
    set_prop V m b (ST (Some (pre ++ (m, a) :: post)) bs lg) = Ok (ST (Some (pre ++ (m, b) :: post)) bs lg).
  Proof. intros H. unfold set_prop. cbn [s_this]. rewrite sassoc_mid by assumption. rewrite sput_mid by assumption. reflexivity. Qed.

  Lemma run_inits f loc p bs lg suf : sassoc "StateFactory" loc = None -> forall done xs, fcs = done ++ suf -> List.length done = List.length xs ->
    stmts V (ev (S (S (S (S f))))) (ex (S (S (S (S f))))) loc (flat_map x_init (map fst suf))
      (ST (Some (("Path", VPath p) :: props done xs ++ map unset suf)) bs lg) =
    do ys <- new_fields p suf; Ok (ONext V loc, ST (Some (("Path", VPath p) :: props done xs ++ props suf ys)) bs lg).
  Proof.
    intros Hl. induction suf as [|[v c] suf IH]; intros done xs E L; [reflexivity|].
    assert (F : field_ok v c). { rewrite Forall_forall in fields_ok. apply (fields_ok (v, c)). rewrite E. apply in_app_iff. right. now left. }
    destruct F as [Ht F].
    assert (Nin : ~ In (v_name v) (map fst (("Path", VPath p) :: props done xs))).
    { pose proof prop_names as D. unfold vs in D. rewrite E, !map_app in D. cbn [map fst] in D. cbn [map fst]. rewrite props_keys by assumption.
      rewrite app_comm_cons in D. apply NoDup_remove_2 in D. intros H. apply D. apply in_app_iff. now left. }
    assert (Step : forall x, 
      stmts V (ev (S (S (S (S f))))) (ex (S (S (S (S f))))) loc (flat_map x_init (map fst suf))
        (ST (Some (("Path", VPath p) :: props done xs ++ (v_name v, VObj c x) :: map unset suf)) bs lg) =
      do ys <- new_fields p suf; Ok (ONext V loc, ST (Some (("Path", VPath p) :: props done xs ++ (v_name v, VObj c x) :: props suf ys)) bs lg)).
    { intros x. specialize (IH (done ++ [(v, c)]) (xs ++ [(v_tag v, x)])). rewrite <- app_assoc in IH. specialize (IH E).
      rewrite !app_length in IH. cbn [List.length] in IH. specialize (IH ltac:(lia)).
      assert (P : forall l, props (done ++ [(v, c)]) (xs ++ [(v_tag v, x)]) ++ l = props done xs ++ (v_name v, VObj c x) :: l).
      { clear -L. revert xs L. induction done as [|[v' c'] done IHd]; intros [|[t' x'] xs] L l; try discriminate; [reflexivity|].
        cbn [app props]. f_equal. apply IHd. now injection L. }
      rewrite P in IH. rewrite IH. destruct (new_fields p suf); cbn [bind]; [|reflexivity..]. now rewrite P. }
    cbn [map fst flat_map]. rewrite stmts_app. unfold x_init at 1. cbn [new_fields]. unfold new_field. cbn [map fst].
    change (unset (v, c)) with (v_name v, if c_state c then VNull else VObj c (w_default w c)).
    set (o := ("Path", VPath p) :: props done xs ++ (v_name v, if c_state c then VNull else VObj c (w_default w c)) :: map unset suf).
    assert (Ep : forall e r, ev (S (S (S f))) loc (nested_path (v_tag v)) (ST (Some o) bs lg) = Ok (VPath (p ++ [v_tag v]), ST (Some o) bs lg) ->
      ev (S (S (S (S f)))) loc e (ST (Some o) bs lg) = (do x <- r; Ok (VObj c x, ST (Some o) bs lg)) ->
      bind (stmts V (ev (S (S (S (S f))))) (ex (S (S (S (S f))))) loc [SAssign (sub (v_name v)) e] (ST (Some o) bs lg))
       (fun '(o, s) => match o with ONext _ loc => stmts V (ev (S (S (S (S f))))) (ex (S (S (S (S f))))) loc (flat_map x_init (map fst suf)) s | _ => Ok (o, s) end) =
      do x <- r; do ys <- new_fields p suf; Ok (ONext V loc, ST (Some (("Path", VPath p) :: props done xs ++ (v_name v, VObj c x) :: props suf ys)) bs lg)).
    { intros e r _ He. unfold sub. cbn [stmts]. rewrite He. destruct r as [x| | |]; cbn [bind]; try reflexivity.
      subst o. rewrite app_comm_cons. rewrite set_mid by assumption. cbn [bind]. rewrite <- app_comm_cons. apply Step. }
    assert (En : ev (S (S (S f))) loc (nested_path (v_tag v)) (ST (Some o) bs lg) = Ok (VPath (p ++ [v_tag v]), ST (Some o) bs lg)) by (apply ev_nested; reflexivity).
    destruct (fm_ty (v_meta v)) as [m k|m args|q].
    - destruct F as (Hc & _). cbn [stmts bind]. subst o. rewrite Hc. rewrite Step.
      destruct (new_fields p suf); reflexivity.
    - destruct F as (Hc & Hty). rewrite (Ep _ (w_new w c (p ++ [v_tag v])) En).
      + destruct (w_new w c (p ++ [v_tag v])); cbn [bind]; [|reflexivity..]. destruct (new_fields p suf); reflexivity.
      + apply (ev_new w ty cls outer _ loc (v_type v) c _ _ (ST (Some o) bs lg) o); auto.
        apply (type_no_param cls outer (V := V) []); [apply Hty; intros x []|reflexivity].
    - rewrite (Ep _ (construct_generic w c (p ++ [v_tag v])) En).
      + destruct (construct_generic w c (p ++ [v_tag v])); cbn [bind]; [|reflexivity..]. destruct (new_fields p suf); reflexivity.
      + apply ev_construct; auto. now rewrite <- F.
  Qed.
  Lemma find_ctor_map {A} k (h : A -> member) l r : (forall a, match h a with KCtor _ _ _ _ _ => False | _ => True end) ->
    find_ctor k (map h l ++ r) = find_ctor k r.
  Proof. intros H. induction l as [|a l IH]; [reflexivity|]. cbn [map app find_ctor]. specialize (H a). destruct (h a); auto. destruct H. Qed.
  Lemma find_method_map {A} m st (h : A -> member) l r :
    (forall a, match h a with KMethod mods _ m' _ _ _ => String.eqb m m' && Bool.eqb st (str_mem "static" mods) = false | _ => True end) ->
    find_method m st (map h l ++ r) = find_method m st r.
  Proof. intros H. induction l as [|a l IH]; [reflexivity|]. cbn [map app find_method]. specialize (H a). destruct (h a); auto. now rewrite H. Qed.
  Lemma ctor_is : find_ctor 1 (c_members cls) = Some ([p_path], None, map x_validate vps ++ set_path :: flat_map x_init vs).
  Proof.
    change (c_members cls) with (x_struct_members acc n ps vps vs). unfold x_struct_members. cbv zeta. cbn [find_ctor].
    rewrite find_ctor_map by (intros; exact I). reflexivity.
  Qed.
  Lemma find_method_skip m st k r : match k with KMethod _ _ _ _ _ _ => False | _ => True end -> find_method m st (k :: r) = find_method m st r.
  Proof. destruct k; try reflexivity. intros []. Qed.
  Definition methods : list member :=
    [x_deserialize acc (own_type n ps) (uncap_first_char n); x_wire vs; x_nested vs; x_replace vs] ++
    x_replay ++ [x_notify (own_type n ps)].
  Lemma method_is m : find_method m false (c_members cls) = find_method m false methods.
  Proof.
    change (c_members cls) with (KProp ["public"] (CN "Path" []) "Path" false :: map x_prop vs ++ [x_ctor acc n vps vs] ++
      map (x_event (own_type n ps)) vs ++ map x_clear vs ++ [x_clear_all vs] ++ methods).
    rewrite find_method_skip by exact I.
    rewrite (find_method_map m false x_prop) by (intros; exact I).
    rewrite <- (app_comm_cons [] _ (x_ctor acc n vps vs)), app_nil_l, find_method_skip by exact I.
    rewrite (find_method_map m false (x_event _)) by (intros; exact I).
    rewrite (find_method_map m false x_clear) by (intros; apply andb_false_r).
    change [x_clear_all vs] with (map x_clear_all [vs]). apply find_method_map. intros; apply andb_false_r.
  Qed.
  Lemma path_type loc : sassoc "Path" loc = None -> As loc (EName "Path") = Some (CN "Path" []).
  Proof. intros H. cbn [as_type]. rewrite H, names_path. reflexivity. Qed.
  Lemma run_validate f loc s l r : sassoc "StateFactory" loc = None -> Forall (fun p => exists c, ty (CN p []) = Some c) l ->
    stmts V (ev (S (S f))) (ex (S (S f))) loc (map x_validate l ++ r) s = stmts V (ev (S (S f))) (ex (S (S f))) loc r s.
  Proof.
    intros Hl H. induction H as [|p l [c Hc] Hr IH]; [reflexivity|]. cbn [map app]. unfold x_validate at 1. cbn [stmts].
    rewrite (ev_validate w ty cls outer f loc p c s) by assumption. cbn [bind]. exact IH.
  Qed.
  Lemma ev_coal f loc a b s : ev (S f) loc (ECoal a b) s = do (v, s) <- ev f loc a s; match v with VNull => ev f loc b s | _ => Ok (v, s) end.
  Proof. reflexivity. Qed.
  Lemma ev_root f loc s : sassoc "Path" loc = None -> ev (S f) loc (EMem (EName "Path") "Root") s = Ok (VPath [], s).
  Proof.
    intros H. rewrite ev_mem, path_type by assumption. unfold static_member, library. rewrite no_path. reflexivity.
  Qed.
  Lemma run_set_path f loc a old rest bs lg r : sassoc "path" loc = Some (a_path a) -> sassoc "Path" loc = None ->
    stmts V (ev (S (S f))) (ex (S (S f))) loc (set_path :: r) (ST (Some (("Path", old) :: rest)) bs lg) =
    stmts V (ev (S (S f))) (ex (S (S f))) loc r (ST (Some (("Path", VPath (root_or a)) :: rest)) bs lg).
  Proof.
    intros H1 H2. unfold set_path, sub. cbn [stmts]. rewrite ev_coal, (ev_loc w ty cls outer f loc "path" (a_path a)) by assumption. cbn [bind].
    destruct a as [p|]; cbn [a_path root_or]; [reflexivity|]. rewrite ev_root by assumption. reflexivity.
  Qed.
  Lemma run_construct f a bs lg : construct V w ty cls outer (S (S (S (S (S (S f)))))) [a_path a] (ST None bs lg) =
    do xs <- new_fields (root_or a) fcs; Ok (ST (Some (obj (root_or a) xs)) bs lg).
  Proof.
    rewrite (construct_S w ty cls outer _ [a_path a] _ _ _ ctor_is).
    change (bind_params V [p_path] [a_path a]) with [("path", a_path (V := V) a)].
    rewrite exec_S, run_validate by (reflexivity || assumption). rewrite fresh_eq.
    unfold with_this. cbn [s_in s_log].
    rewrite (run_set_path (S (S f)) [("path", a_path a)] a) by reflexivity.
    pose proof (run_inits f [("path", a_path a)] (root_or a) bs lg fcs eq_refl [] [] eq_refl eq_refl) as R. cbn [props app] in R. fold vs in R.
    rewrite R. destruct (new_fields (root_or a) fcs); reflexivity.
  Qed.
  Lemma struct_new a : run_new V w ty cls outer a = do xs <- new_fields (root_or a) fcs; Ok (obj (root_or a) xs).
  Proof.
    unfold run_new, depth. rewrite (run_construct 14). destruct (new_fields (root_or a) fcs); reflexivity.
  Qed.

  (** ** The members by tag *)
  Definition at_tag (tag : N) : option (vfield * cty) := find (fun fc => tag =? v_tag (fst fc)) fcs.
  Fixpoint put {A} (tag : N) (x : A) (fs : list (N * A)) : list (N * A) :=
    match fs with
    | [] => []
    | (tag', y) :: fs' => if tag =? tag' then (tag', x) :: fs' else (tag', y) :: put tag x fs'
    end.
  Lemma props_at l : forall xs v c, NoDup (map v_name (map fst l)) -> NoDup (map v_tag (map fst l)) ->
    map fst xs = map v_tag (map fst l) -> In (v, c) l ->
    exists x, assoc (v_tag v) xs = Some x /\ sassoc (v_name v) (props l xs) = Some (VObj c x) /\
      forall y, sput (v_name v) (VObj c y) (props l xs) = props l (put (v_tag v) y xs).
  Proof.
    induction l as [|[v c] l IH]; intros [|[t x] xs] v' c' Dn Dt E H; try discriminate; [destruct H|].
    cbn [map fst] in *. injection E as E1 E2. subst t. cbn [assoc props put sassoc sput].
    inversion Dn as [|? ? Nn Dn']; subst. inversion Dt as [|? ? Nt Dt']; subst.
    destruct H as [H|H].
    - injection H as -> ->. rewrite N.eqb_refl, String.eqb_refl. exists x. split; [reflexivity|]. split; [reflexivity|]. reflexivity.
    - pose proof (in_map fst _ _ H) as H'. cbn [fst] in H'.
      destruct (N.eqb_spec (v_tag v') (v_tag v)) as [Q|_]. { destruct Nt. rewrite <- Q. now apply in_map. }
      destruct (String.eqb_spec (v_name v') (v_name v)) as [Q|_]. { destruct Nn. rewrite <- Q. now apply in_map. }
      destruct (IH xs v' c' Dn' Dt' E2 H) as [y [H1 [H2 H3]]]. exists y. rewrite ?(N.eqb_sym (v_tag v)). split; [exact H1|]. split; [exact H2|].
      intros z. cbn [props]. now rewrite H3.
  Qed.
  Lemma obj_at p xs v c : map fst xs = map v_tag vs -> In (v, c) fcs ->
    exists x, assoc (v_tag v) xs = Some x /\ sassoc (v_name v) (obj p xs) = Some (VObj c x) /\
      forall y, sput (v_name v) (VObj c y) (obj p xs) = obj p (put (v_tag v) y xs).
  Proof.
    intros E H. pose proof prop_names as D. inversion D as [|? ? Np D']; subst.
    destruct (props_at fcs xs v c D' tags E H) as [x [H1 [H2 H3]]]. exists x. split; [exact H1|].
    assert (Q : String.eqb (v_name v) "Path" = false).
    { apply String.eqb_neq. intros Q. apply Np. rewrite <- Q. apply (in_map v_name), (in_map fst) in H || idtac. apply in_map. exact (in_map fst _ _ H). }
    unfold obj. cbn [sassoc sput]. rewrite Q. split; [exact H2|]. intros y. now rewrite H3.
  Qed.
  Lemma at_tag_in tag v c : at_tag tag = Some (v, c) -> In (v, c) fcs /\ v_tag v = tag.
  Proof. intros H. apply find_some in H. destruct H as [H E]. cbn [fst] in E. apply N.eqb_eq in E. auto. Qed.
  Lemma at_field tag v c : at_tag tag = Some (v, c) -> field_ok v c.
  Proof. intros H. apply at_tag_in in H. rewrite Forall_forall in fields_ok. exact (fields_ok _ (proj1 H)). Qed.
  Lemma flat_fst {A B C} (h : A -> list C) (l : list (A * B)) : flat_map h (map fst l) = flat_map (fun ab => h (fst ab)) l.
  Proof. induction l as [|[a b] l IH]; [reflexivity|]. cbn. now rewrite IH. Qed.
  Lemma tags' : NoDup (map (fun fc : vfield * cty => v_tag (fst fc)) fcs).
  Proof. rewrite <- (map_map fst v_tag). exact tags. Qed.

  Definition wire_at (tag : N) : value V := match at_tag tag with Some (v, c) => VWire (c_field_wty (is_param v) c) | None => VNull end.
  Lemma call_wire f tag s : cl (S (S (S (S (S (S f)))))) "GetWireType" [VNum tag] s = Ok (wire_at tag, s).
  Proof.
    rewrite (call_S w ty cls outer _ "GetWireType" [VNum tag] s [p_tag] (on_tag (flat_map (fun v => x_wire1 (v_meta v)) vs ++ [SDefault; SReturn ENull])))
      by (rewrite ?method_is; reflexivity).
    change (bind_params V [p_tag] [VNum tag]) with [("tag", VNum (V := V) tag)]. rewrite exec_S.
    unfold vs. rewrite flat_fst.
    change (fun ab : vfield * cty => x_wire1 (v_meta (fst ab))) with
      (fun fc : vfield * cty => SCase (v_tag (fst fc)) :: (fun fc => tl (x_wire1 (v_meta (fst fc)))) fc).
    rewrite (run_switch w ty cls outer _ _ _ _ _ _ tag); [|reflexivity|exact tags'|intros a; split; [apply stops_return|repeat constructor]|repeat constructor].
    unfold wire_at. fold (at_tag tag). destruct (at_tag tag) as [[v c]|] eqn:E; [|reflexivity]. cbn [fst].
    apply at_field in E. destruct E as [Ht E]. unfold c_field_wty, is_param, x_wire1.
    destruct (fm_ty (v_meta v)) as [m k|m args|q]; cbn [tl stmts].
    - destruct E as [_ [<- _]]. rewrite (ev_wire w ty cls outer) by (assumption || reflexivity). reflexivity.
    - destruct E as [E _]. rewrite (ev_wire w ty cls outer) by (assumption || reflexivity). destruct c; try discriminate; reflexivity.
    - rewrite E in Ht. cbn [tl x_wire1 stmts]. rewrite ev_cond, (ev_is_state w ty cls outer f [("tag", VNum tag)] q c) by (assumption || reflexivity).
      cbn [bind]. destruct (c_state c); rewrite (ev_wire w ty cls outer) by (assumption || reflexivity); reflexivity.
  Qed.

  Definition kept (fc : vfield * cty) : bool := match fm_ty (v_meta (fst fc)) with MPrim _ _ => false | _ => true end.
  Lemma nested_kept l : flat_map (fun fc : vfield * cty => x_nested1 (fst fc)) l =
    flat_map (fun fc : vfield * cty => SCase (v_tag (fst fc)) :: (fun fc => [hd SBreak (tl (x_nested1 (fst fc)))]) fc) (filter kept l).
  Proof.
    induction l as [|[v c] l IH]; [reflexivity|]. cbn [flat_map filter fst]. unfold kept at 1, x_nested1 at 1. cbn [fst].
    destruct (fm_ty (v_meta v)) eqn:E; cbn [flat_map app fst hd tl]; rewrite IH; [reflexivity|..]; unfold x_nested1 at 2; rewrite E; reflexivity.
  Qed.
  Lemma find_filter {A} (q r : A -> bool) l a : find q l = Some a -> (forall b, In b l -> q b = true -> b = a) ->
    find q (filter r l) = if r a then Some a else None.
  Proof.
    induction l as [|b l IH]; cbn [find filter]; [discriminate|]. destruct (q b) eqn:E.
    - intros [= ->] U. destruct (r a) eqn:R; cbn [find]; [now rewrite E|].
      assert (K : forall l', (forall b, In b l' -> q b = true -> b = a) -> find q (filter r l') = None).
      { clear -R. induction l' as [|b l' IH]; intros U; [reflexivity|]. cbn [filter]. destruct (r b) eqn:Rb; cbn [find].
        - destruct (q b) eqn:Q; [|apply IH; intros; apply U; [now right|assumption]]. assert (b = a) by (apply U; [now left|assumption]). congruence.
        - apply IH. intros; apply U; [now right|assumption]. }
      apply K. intros b' Hb. apply U. now right.
    - intros H U. destruct (r b); cbn [find]; [rewrite E|]; apply IH; auto; intros b' Hb; apply U; now right.
  Qed.
  Lemma find_filter_none {A} (q r : A -> bool) l : find q l = None -> find q (filter r l) = None.
  Proof.
    induction l as [|b l IH]; cbn [find filter]; [reflexivity|]. destruct (q b) eqn:E; [discriminate|].
    intros H. destruct (r b); cbn [find]; [rewrite E|]; auto.
  Qed.
  Lemma at_tag_filter tag : find (fun fc => tag =? v_tag (fst fc)) (filter kept fcs) =
    match at_tag tag with Some fc => if kept fc then Some fc else None | None => None end.
  Proof.
    destruct (at_tag tag) as [fc|] eqn:E; [|now apply find_filter_none]. apply find_filter; [exact E|].
    intros b Hb Q. destruct fc as [v c]. pose proof (at_tag_in _ _ _ E) as [I Et]. apply N.eqb_eq in Q.
    eapply NoDup_map_inj; [exact tags'|assumption..|]. cbn [fst]. congruence.
  Qed.
  Definition nested_at (tag : N) (xs : list (N * V)) : value V :=
    match at_tag tag with
    | Some (v, c) => if c_state c then match assoc tag xs with Some x => VObj c x | None => VNull end else VNull
    | None => VNull
    end.
  Lemma ev_as f loc e v s : ev f loc e s = Ok (v, s) -> ev (S f) loc (EAs e (CN "IState" [])) s =
    match v with VNull => Ok (VNull, s) | VObj c _ => Ok (if c_state c then v else VNull, s) | _ => NoFuel end.
  Proof. intros H. cbn [eval]. rewrite H, no_istate. reflexivity. Qed.
  Lemma call_nested f tag p xs bs lg : map fst xs = map v_tag vs ->
    cl (S (S (S (S (S (S (S f))))))) "GetNested" [VNum tag] (ST (Some (obj p xs)) bs lg) = Ok (nested_at tag xs, ST (Some (obj p xs)) bs lg).
  Proof.
    intros L.
    rewrite (call_S w ty cls outer _ "GetNested" [VNum tag] _ [p_tag] (on_tag (flat_map x_nested1 vs ++ [SDefault; SReturn ENull])))
      by (rewrite ?method_is; reflexivity).
    change (bind_params V [p_tag] [VNum tag]) with [("tag", VNum (V := V) tag)]. rewrite exec_S.
    unfold vs. rewrite flat_fst, nested_kept.
    rewrite (run_switch w ty cls outer _ _ _ _ _ _ tag); [|reflexivity| | |repeat constructor].
    - rewrite at_tag_filter. unfold nested_at. destruct (at_tag tag) as [[v c]|] eqn:E; [|reflexivity].
      pose proof (at_field _ _ _ E) as [Ht F]. apply at_tag_in in E. destruct E as [I <-].
      destruct (obj_at p xs v c L I) as [x [-> [Hx _]]].
      unfold kept, x_nested1. cbn [fst]. destruct (fm_ty (v_meta v)) as [m k|m args|q] eqn:Em; cbn [fst]; rewrite ?Em; cbn [hd tl stmts].
      + destruct F as [-> _]. reflexivity.
      + destruct F as [-> _]. unfold sub. rewrite (ev_sub w ty cls outer _ _ _ (VObj c x)) by assumption. reflexivity.
      + rewrite (ev_as _ _ _ (VObj c x)) by (unfold sub; now rewrite (ev_sub w ty cls outer _ _ _ (VObj c x))).
        destruct (c_state c); reflexivity.
    - apply NoDup_map_filter. exact tags'.
    - intros [v c]. cbn [fst]. unfold x_nested1. destruct (fm_ty (v_meta v)); (split; [|repeat constructor]); try apply stops_return. intros ? ? ? ? ?. reflexivity.
  Qed.

  Definition event (tag : N) (h : string) (new old : value V) : string * list (value V) := (h, [VThis; VArgs [VNum tag; new; old; VThis]]).
  Lemma call_notify f tag new old h b o bs lg :
    cl (S (S (S (S (S (S f)))))) "MaybeNotify" [VNum tag; new; old; VEvent h; VBool b] (ST (Some o) bs lg) =
    Ok (new, ST (Some o) bs (if b then lg ++ [event tag h new old] else lg)).
  Proof.
    set (args := [VNum tag; new; old; VEvent h; VBool b]).
    rewrite (call_S w ty cls outer _ "MaybeNotify" args _ (notify_params (own_type n ps)) (notify_body (own_type n ps)))
      by (rewrite ?method_is; reflexivity).
    set (loc := bind_params V (notify_params (own_type n ps)) args).
    assert (L1 : sassoc "shouldNotify" loc = Some (VBool b)) by reflexivity.
    assert (L2 : sassoc "tag" loc = Some (VNum tag)) by reflexivity.
    assert (L3 : sassoc "newValue" loc = Some new) by reflexivity.
    assert (L4 : sassoc "oldValue" loc = Some old) by reflexivity.
    assert (L5 : sassoc "handler" loc = Some (VEvent h)) by reflexivity.
    clearbody loc. rewrite exec_S. unfold notify_body. cbn [stmts].
    rewrite (ev_loc w ty cls outer _ loc "shouldNotify" (VBool b)) by assumption. cbn [bind].
    destruct b; [|rewrite (ev_loc w ty cls outer _ loc "newValue" new) by assumption; reflexivity].
    rewrite exec_S. cbn [stmts].
    rewrite (ev_args w ty cls outer _ loc "FieldUpdateEventArgs" _ _ _ [VNum tag; new; old; VThis] _ (ST (Some o) bs lg)); [|now left|exact no_args|].
    - cbn [bind]. rewrite ev_invoke. rewrite (ev_loc w ty cls outer _ _ "handler" (VEvent h)) by (cbn [sassoc]; exact L5). cbn [bind evals].
      rewrite ev_this. cbn [bind]. rewrite (ev_loc w ty cls outer _ _ "args" (VArgs [VNum tag; new; old; VThis])) by reflexivity. cbn [bind CsRun.plain s_this s_in s_log]. seqb. cbn [bind].
      rewrite (ev_loc w ty cls outer _ loc "newValue" new) by assumption. reflexivity.
    - cbn [evals]. rewrite (ev_loc w ty cls outer _ loc "tag" (VNum tag)) by assumption. cbn [bind].
      rewrite (ev_loc w ty cls outer _ loc "newValue" new) by assumption. cbn [bind].
      rewrite (ev_loc w ty cls outer _ loc "oldValue" old) by assumption. cbn [bind]. rewrite ev_this. reflexivity.
  Qed.
  Definition read_field (p : list N) (v : vfield) (c : cty) (bs : bytes) : res (V * bytes) :=
    match fm_ty (v_meta v) with
    | MPrim _ _ => w_prim w c bs
    | MRef _ _ => w_read w c (p ++ [v_tag v]) bs
    | MParam _ => if c_state c then w_read w c (p ++ [v_tag v]) bs else w_prim w c bs
    end.
  Definition replace_loc (tag : N) (k : wtype) (b : bool) : list (string * value V) :=
    [("tag", VNum tag); ("wireType", VWire k); ("reader", VReader); ("shouldNotify", VBool b)].
  Lemma ev_read f tag k b p v c o bs lg : field_ok v c -> sassoc "Path" o = Some (VPath p) ->
    ev (S (S (S (S f)))) (replace_loc tag k b) (x_read v) (ST (Some o) bs lg) =
    do (x, rest) <- read_field p v c bs; Ok (VObj c x, ST (Some o) rest lg).
  Proof.
    intros [Ht F] Hp. unfold x_read, read_field. set (loc := replace_loc tag k b).
    assert (Lr : sassoc "reader" loc = Some VReader) by reflexivity.
    destruct (fm_ty (v_meta v)) as [m k'|m args|q].
    - destruct F as [_ [_ F]]. rewrite ev_call. unfold as_type. rewrite Lr.
      rewrite (ev_loc w ty cls outer _ loc "reader" VReader) by assumption. cbn [bind evals CsRun.plain]. unfold method.
      replace (String.eqb ("Read" +++ cs_name m) "SkipToEnd") with false by reflexivity. rewrite F. unfold read_with. cbn [s_in].
      destruct (w_prim w c bs) as [[x rest]| | |]; reflexivity.
    - destruct F as [Hs Hc]. rewrite ev_call. rewrite Hc by (intros y; cbn; tauto). cbn [evals].
      rewrite (ev_loc w ty cls outer _ loc "reader" VReader) by assumption. cbn [bind].
      rewrite (ev_nested w ty cls outer _ loc _ p) by assumption. cbn [bind CsRun.plain]. unfold static_call.
      replace (library ty (v_type v) "StateFactory") with false by (unfold library; now rewrite Ht). rewrite Ht, Hs. cbn [andb]. seqb.
      unfold read_with. cbn [s_in]. destruct (w_read w c (p ++ [v_tag v]) bs) as [[x rest]| | |]; reflexivity.
    - rewrite F in Ht. rewrite ev_callgen, (type_name cls outer loc "StateFactory" eq_refl (proj1 no_factory)). cbn [evals].
      rewrite (ev_loc w ty cls outer _ loc "reader" VReader) by assumption. cbn [bind].
      rewrite (ev_sub w ty cls outer _ loc "Path" (VPath p)) by assumption. cbn [bind]. rewrite ev_num. cbn [bind CsRun.plain].
      unfold static_call. rewrite library_free with (1 := no_factory). seqb. cbn match. rewrite Ht. unfold read_with. cbn [s_in].
      destruct (c_state c); [destruct (w_read w c (p ++ [v_tag v]) bs) as [[x rest]| | |]|destruct (w_prim w c bs) as [[x rest]| | |]]; reflexivity.
  Qed.

  Definition skip (k : wtype) (bs : bytes) : res bytes := match k with Varint => do (_, rest) <- c_bool bs false; Ok rest | Sized => Ok [] end.
  (** The member of a tag is read and set, and the handlers told. *)
  Definition replaced (p : list N) (tag : N) (k : wtype) (b : bool) (xs : list (N * V)) (bs : bytes)
    : res (list (N * V) * bytes * list (string * list (value V))) :=
    match at_tag tag with
    | Some (v, c) =>
        do (x, rest) <- read_field p v c bs;
        Ok (put tag x xs, rest,
            match assoc tag xs with Some y => if b then [event tag (on v) (VObj c x) (VObj c y)] else [] | None => [] end)
    | None => do rest <- skip k bs; Ok (xs, rest, [])
    end.
  Lemma call_replace f tag k b p xs bs lg : map fst xs = map v_tag vs ->
    cl (S (S (S (S (S (S (S (S (S (S f)))))))))) "ReplaceAt" [VNum tag; VWire k; VReader; VBool b] (ST (Some (obj p xs)) bs lg) =
    do (xs, rest, l) <- replaced p tag k b xs bs; Ok (VNull, ST (Some (obj p xs)) rest (lg ++ l)).
  Proof.
    intros L. set (args := [VNum tag; VWire k; VReader; VBool b]).
    rewrite (call_S w ty cls outer _ "ReplaceAt" args _ [p_tag; p_wire; p_reader; p_notify]
      (on_tag (flat_map x_replace1 vs ++ [SDefault; skip_call; SBreak]))) by (rewrite ?method_is; reflexivity).
    change (bind_params V [p_tag; p_wire; p_reader; p_notify] args) with (replace_loc tag k b). rewrite exec_S.
    unfold vs. rewrite flat_fst.
    change (fun ab : vfield * cty => x_replace1 (fst ab)) with
      (fun fc : vfield * cty => SCase (v_tag (fst fc)) :: (fun fc => tl (x_replace1 (fst fc))) fc).
    rewrite (run_switch w ty cls outer _ _ _ _ _ _ tag); [|reflexivity|exact tags'|intros a; split; [apply stops_assign|repeat constructor]|repeat constructor].
    fold (at_tag tag). unfold replaced. destruct (at_tag tag) as [[v c]|] eqn:E.
    - pose proof (at_field _ _ _ E) as F. apply at_tag_in in E. destruct E as [I <-].
      destruct (obj_at p xs v c L I) as [y [Hy [Hg Hs]]]. rewrite Hy. cbn [fst]. unfold x_replace1. cbn [tl stmts]. unfold sub.
      rewrite ev_call. change (As (replace_loc (v_tag v) k b) EThis) with (@None cname). rewrite ev_this. cbn [bind evals].
      rewrite ev_num. cbn [bind]. rewrite (ev_read _ _ _ _ p v c) by (assumption || reflexivity).
      destruct (read_field p v c bs) as [[x rest]| | |]; cbn [bind]; [|reflexivity..].
      rewrite (ev_sub w ty cls outer _ _ _ (VObj c y)) by assumption. cbn [bind].
      change ("On" +++ v_name v +++ "Update") with (on v).
      rewrite (ev_event w ty cls outer) by (reflexivity || (apply names_on; exact (in_map fst _ _ I))). cbn [bind].
      rewrite (ev_loc w ty cls outer _ _ "shouldNotify" (VBool b)) by reflexivity. cbn [bind CsRun.plain].
      replace (find_method "MaybeNotify" false (c_members cls)) with (Some (notify_params (own_type n ps), notify_body (own_type n ps)))
        by (rewrite method_is; reflexivity).
      rewrite call_notify. cbn [bind]. unfold set_prop. cbn [s_this]. rewrite Hg. unfold with_this. cbn [bind s_in s_log]. rewrite Hs.
      destruct b; [reflexivity|now rewrite app_nil_r].
    - cbn [stmts]. unfold skip_call. cbn [stmts]. rewrite ev_call. change (As (replace_loc tag k b) (EName "reader")) with (@None cname).
      rewrite (ev_loc w ty cls outer _ _ "reader" VReader) by reflexivity. cbn [bind evals].
      rewrite (ev_loc w ty cls outer _ _ "wireType" (VWire k)) by reflexivity. cbn [bind CsRun.plain]. unfold method. seqb.
      unfold skip_field, skip, with_in. cbn [s_in s_log s_this]. destruct k; cbn [bind].
      + destruct (c_bool bs false) as [[x rest]| | |]; cbn [bind]; [now rewrite app_nil_r|reflexivity..].
      + now rewrite app_nil_r.
  Qed.
  Lemma put_tags {A} tag (x : A) xs : map fst (put tag x xs) = map fst xs.
  Proof. induction xs as [|[t y] xs IH]; [reflexivity|]. cbn [put map fst]. destruct (tag =? t); cbn [map fst]; [reflexivity|now rewrite IH]. Qed.

  (** One member of the input. *)
  Definition member_step (p : list N) (b : bool) (xs : list (N * V)) (bs : bytes) : res (list (N * V) * bytes * list (string * list (value V))) :=
    do (tag, k, rest) <- c_key bs;
    do (sub, after) <- match k with Sized => c_nested rest | Varint => Ok (rest, rest) end;
    do (xs, rem, l) <-
      match at_tag tag with
      | Some (v, c) =>
          if wtype_eqb k (c_field_wty (is_param v) c) then replaced p tag k b xs sub
          else do rem <- skip k sub; Ok (xs, rem, [])
      | None => replaced p tag k b xs sub
      end;
    Ok (xs, match k with Sized => after | Varint => rem end, l).
  Lemma replaced_tags p tag k b xs bs xs' rest l : replaced p tag k b xs bs = Ok (xs', rest, l) -> map fst xs' = map fst xs.
  Proof.
    unfold replaced. destruct (at_tag tag) as [[v c]|].
    - destruct (read_field p v c bs) as [[x r]| | |]; cbn [bind]; [|discriminate..]. intros [= <- _ _]. apply put_tags.
    - destruct (skip k bs); cbn [bind]; [|discriminate..]. now intros [= <- _ _].
  Qed.
  Lemma replace_step_eq f p b xs bs lg : map fst xs = map v_tag vs ->
    replace_step V (cl (S (S (S (S (S (S (S (S (S (S f))))))))))) b (ST (Some (obj p xs)) bs lg) =
    do (xs, rest, l) <- member_step p b xs bs; Ok (ST (Some (obj p xs)) rest (lg ++ l)).
  Proof.
    intros L. unfold replace_step, member_step, with_in. cbn [s_in s_this s_log]. destruct (c_key bs) as [[[tag k] rest]| | |]; cbn [bind]; [|reflexivity..].
    rewrite call_wire. cbn [bind s_in s_this s_log].
    destruct (match k with Varint => Ok (rest, rest) | Sized => c_nested rest end) as [[sub after]| | |]; cbn [bind]; [|reflexivity..].
    unfold wire_at. destruct (at_tag tag) as [[v c]|] eqn:E.
    - destruct (wtype_eqb k (c_field_wty (is_param v) c)).
      + rewrite (call_replace f) by assumption. destruct (replaced p tag k b xs sub) as [[[xs' r] l]| | |]; cbn [bind]; [|reflexivity..].
        destruct k; reflexivity.
      + unfold skip_field, skip, with_in. cbn [s_in s_this s_log]. destruct k.
        * destruct (c_bool sub false) as [[x r]| | |]; cbn [bind s_in s_this s_log]; [now rewrite app_nil_r|reflexivity..].
        * cbn [bind s_this s_log]. now rewrite app_nil_r.
    - rewrite (call_replace f) by assumption.
      destruct (replaced p tag k b xs sub) as [[[xs' r] l]| | |]; cbn [bind]; [|reflexivity..]. destruct k; reflexivity.
  Qed.
  (** All members of the input, without notice. *)
  Definition silent_step (p : list N) (xs : list (N * V)) (bs : bytes) : res (list (N * V) * bytes) :=
    do (xs, rest, _) <- member_step p false xs bs; Ok (xs, rest).
  Lemma member_silent p xs bs xs' rest l : member_step p false xs bs = Ok (xs', rest, l) -> l = [] /\ map fst xs' = map fst xs.
  Proof.
    unfold member_step. destruct (c_key bs) as [[[tag k] r1]| | |]; cbn [bind]; [|discriminate..].
    destruct (match k with Varint => Ok (r1, r1) | Sized => c_nested r1 end) as [[sub after]| | |]; cbn [bind]; [|discriminate..].
    assert (R : forall xs' r l, replaced p tag k false xs sub = Ok (xs', r, l) -> l = []).
    { intros xs1 r l1. unfold replaced. destruct (at_tag tag) as [[v c]|].
      - destruct (read_field p v c sub) as [[x r']| | |]; cbn [bind]; [|discriminate..]. intros [= _ _ <-]. destruct (assoc tag xs); reflexivity.
      - destruct (skip k sub); cbn [bind]; [|discriminate..]. now intros [= _ _ <-]. }
    assert (K : forall xs1 r1 l1, (do (xs0, rem, l0) <- replaced p tag k false xs sub; Ok (xs0, match k with Varint => rem | Sized => after end, l0)) = Ok (xs1, r1, l1) ->
      l1 = [] /\ map fst xs1 = map fst xs).
    { intros xs1 r2 l1. destruct (replaced p tag k false xs sub) as [[[xs2 r] l2]| | |] eqn:Er; cbn [bind]; [|discriminate..].
      intros [= <- _ <-]. split; [exact (R _ _ _ eq_refl)|exact (replaced_tags _ _ _ _ _ _ _ _ _ Er)]. }
    destruct (at_tag tag) as [[v c]|].
    - destruct (wtype_eqb k (c_field_wty (is_param v) c)).
      + apply K.
      + destruct (skip k sub); cbn [bind]; [|discriminate..]. intros [= <- _ <-]. auto.
    - apply K.
  Qed.
  Lemma loop_eq f p lg : forall fuel xs bs, map fst xs = map v_tag vs ->
    loop V fuel (replace_step V (cl (S (S (S (S (S (S (S (S (S (S f))))))))))) false) (ST (Some (obj p xs)) bs lg) =
    do xs <- cloop fuel (silent_step p) xs bs; Ok (ST (Some (obj p xs)) [] lg).
  Proof.
    induction fuel as [|fuel IH]; intros xs bs L; cbn [loop cloop s_in]; destruct bs as [|x bs]; try reflexivity.
    rewrite replace_step_eq by assumption. unfold silent_step at 1.
    destruct (member_step p false xs (x :: bs)) as [[[xs' rest] l]| | |] eqn:E; cbn [bind]; [|reflexivity..].
    apply member_silent in E. destruct E as [-> E]. rewrite app_nil_r, IH by congruence. reflexivity.
  Qed.

  Hypothesis own_known : exists c, ty (own_type n ps) = Some c.
  Hypothesis own_class : param_name cls outer (own_type n ps) = false.
  Hypothesis var_reader : uncap_first_char n <> "reader".
  Lemma ev_new_own f loc a bs lg : sassoc "path" loc = Some (a_path a) ->
    ev (S (S (S (S (S (S (S f))))))) loc (ENew (own_type n ps) [(None, EName "path")]) (ST None bs lg) =
    do xs <- new_fields (root_or a) fcs; Ok (VThis, ST (Some (obj (root_or a) xs)) bs lg).
  Proof.
    intros Hl. destruct own_known as [c Hc].
    rewrite (ev_new_self w ty cls outer _ _ _ _ c _ Hc) by (reflexivity || apply cname_refl || exact own_class).
    cbn [evals]. rewrite (ev_loc w ty cls outer _ loc "path" (a_path a)) by assumption. cbn [bind CsRun.plain]. rewrite run_construct.
    destruct (new_fields (root_or a) fcs); reflexivity.
  Qed.
  Lemma static_is : find_method "Deserialize" true (c_members cls) =
    Some ([p_reader; p_path], [SVar (uncap_first_char n) (ENew (own_type n ps) [(None, EName "path")]);
     SExpr (ECall (EMem (EName (uncap_first_char n)) "Replace") [(None, EName "reader"); (Some "shouldNotify", EBool false)]);
     SReturn (EName (uncap_first_char n))]).
  Proof.
    change (c_members cls) with (KProp ["public"] (CN "Path" []) "Path" false :: map x_prop vs ++ [x_ctor acc n vps vs] ++
      map (x_event (own_type n ps)) vs ++ map x_clear vs ++ [x_clear_all vs] ++ methods).
    rewrite find_method_skip by exact I.
    rewrite (find_method_map _ true x_prop) by (intros; exact I).
    rewrite <- (app_comm_cons [] _ (x_ctor acc n vps vs)), app_nil_l, find_method_skip by exact I.
    rewrite (find_method_map _ true (x_event _)) by (intros; exact I).
    rewrite (find_method_map _ true x_clear) by (intros; reflexivity).
    change [x_clear_all vs] with (map x_clear_all [vs]). rewrite (find_method_map _ true x_clear_all) by (intros; reflexivity).
    unfold methods, x_deserialize. cbn [app find_method]. seqb.
    replace (Bool.eqb true (str_mem "static" [acc; "static"])) with true; [reflexivity|].
    unfold str_mem. cbn [existsb]. seqb. now rewrite orb_true_r.
  Qed.
  Definition deserialized (a : option (list N)) (bs : bytes) : res (list (N * V)) :=
    do xs <- new_fields (root_or a) fcs; crun (silent_step (root_or a)) xs bs.
  Lemma struct_deserialize a bs : run_deserialize V w ty cls outer a bs =
    do xs <- deserialized a bs; Ok (obj (root_or a) xs, [], []).
  Proof.
    unfold run_deserialize, run_static. rewrite static_is. cbn [List.length Nat.eqb]. unfold depth.
    change (bind_params V [p_reader; p_path] [VReader; a_path a]) with [("reader", VReader); ("path", a_path (V := V) a)].
    set (var := uncap_first_char n). set (loc := [("reader", VReader); ("path", a_path a)]).
    rewrite exec_S. cbn [stmts]. rewrite (ev_new_own _ loc a) by reflexivity. unfold deserialized.
    destruct (new_fields (root_or a) fcs) as [xs| | |] eqn:Ex; cbn [bind]; [|reflexivity..].
    assert (Lv : forall y : value V, sassoc var ((var, y) :: loc) = Some y) by (intros y; apply sassoc_here).
    rewrite ev_call. replace (As ((var, VThis) :: loc) (EName var)) with (@None cname) by (unfold as_type; now rewrite Lv).
    rewrite (ev_loc w ty cls outer _ _ var VThis) by apply Lv. cbn [bind evals].
    rewrite (ev_loc w ty cls outer _ _ "reader" VReader).
    2:{ cbn [sassoc]. destruct (String.eqb_spec "reader" var) as [E|_]; [|reflexivity]. now destruct var_reader. }
    cbn [bind]. rewrite ev_bool. cbn [bind].
    replace (find_method "Replace" false (c_members cls)) with (@None (list param * list stmt)) by (rewrite method_is; reflexivity).
    seqb. unfold replace. change (c_enum cls) with false. cbn [s_in].
    rewrite (loop_eq 8 (root_or a) []) by (exact (new_fields_tags _ _ _ Ex)). unfold crun.
    destruct (cloop (List.length bs) (silent_step (root_or a)) xs bs) as [ys| | |]; cbn [bind]; [|reflexivity..].
    rewrite (ev_loc w ty cls outer _ _ var VThis) by apply Lv. reflexivity.
  Qed.

  Lemma struct_wire_type o tag : run_wire_type V w ty cls outer o tag = Ok (wire_at tag).
  Proof. unfold run_wire_type, depth. rewrite (call_wire 14). reflexivity. Qed.
  Lemma struct_get_nested p xs tag : map fst xs = map v_tag vs -> run_nested V w ty cls outer (obj p xs) tag = Ok (nested_at tag xs).
  Proof. intros H. unfold run_nested, depth. rewrite (call_nested 13) by assumption. reflexivity. Qed.
  Lemma struct_replace_at p xs tag k bs b : map fst xs = map v_tag vs ->
    run_replace_at V w ty cls outer (obj p xs) tag k bs b = do (xs, rest, l) <- replaced p tag k b xs bs; Ok (obj p xs, rest, l).
  Proof.
    intros H. unfold run_replace_at, depth. rewrite (call_replace 10) by assumption.
    destruct (replaced p tag k b xs bs) as [[[ys rest] l]| | |]; reflexivity.
  Qed.
End Struct.
