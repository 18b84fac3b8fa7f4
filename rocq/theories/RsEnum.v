(** The code derived for an enum does what the models say. *)
From Verif Require Import Base Varint WireFmt Utf8 Types Ser De Hash Log State Meta Gen RsGen RsRun RsSpec TypeProofs DeProofs EqProofs RsProofs RsStruct.
From Coq Require Import String.
Import String.StringSyntax.
Local Open Scope string_scope.
Local Open Scope list_scope.
Local Open Scope N_scope.

Lemma tags_nodup l : nodupb l = true -> NoDup l.
Proof.
  unfold nodupb. induction l as [|n l IH]; intros H; [constructor|]. cbn in H. bprop. constructor; [|auto]. intros I.
  match goal with H : negb _ = true |- _ => apply negb_true_iff in H; apply not_true_iff_false in H; apply H end.
  apply existsb_exists. exists n. split; [exact I|apply N.eqb_refl].
Qed.

(** ** Scopes of destructured variants *)

Definition places (d : dstruct) : env := map (fun b => (snd b, RPlace (fst b))) (destructured d).
Lemma places_names d : map fst (places d) = aliases d.
Proof. unfold places, destructured, aliases. rewrite !map_map. reflexivity. Qed.
Lemma places_skip d x e : ~ In x (aliases d) -> lookup x (places d ++ e) = lookup x e.
Proof. intros H. apply lookup_skip. now rewrite places_names. Qed.
Lemma reach_places m hl p call d e : NoDup (aliases d) -> reach m hl p call true (ds_fields d) (places d ++ e).
Proof.
  intros N f s I _. unfold field_of. rs.
  replace (lookup (alias (fst f)) (places d ++ e)) with (Some (RPlace (access (fst f)))); [reflexivity|].
  apply in_split in I. destruct I as (a & b & E). unfold places, destructured, aliases in *. rewrite E, !map_app in *. cbn [map] in *.
  rewrite <- app_assoc. cbn [app]. symmetry. apply lookup_mid. apply NoDup_remove_2 in N. rewrite !map_map. cbn.
  intros J. apply N, in_or_app. now left.
Qed.
Lemma reach_cons m hl p call d x v e : ~ In x (aliases d) -> reach m hl p call true (ds_fields d) e -> reach m hl p call true (ds_fields d) ((x, v) :: e).
Proof.
  intros N H f s I Ns. specialize (H f s I Ns). unfold field_of in *. rewrite e_name in *. cbn [lookup].
  destruct (String.eqb_spec (alias (fst f)) x) as [<-|]; [|exact H].
  exfalso. apply N. unfold aliases. now apply (in_map (fun f : dfield => alias (fst f))) in I.
Qed.
Lemma reach_app m hl p call d l e : (forall x, In x (map fst l) -> ~ In x (aliases d)) ->
  reach m hl p call true (ds_fields d) e -> reach m hl p call true (ds_fields d) (l ++ e).
Proof.
  induction l as [|[x v] l IH]; intros N H; [exact H|]. cbn [app]. apply reach_cons; [apply N; now left|].
  apply IH; [|exact H]. intros y I. apply N. now right.
Qed.

(** The fields of the object compared with, under their names [other_..]. *)
Fixpoint other_env (fl : list dfield) (tl : list ty) (yl : list (finfo * val)) : env :=
  match fl, tl, yl with
  | f :: fl, t :: tl, (_, y) :: yl => (alias_prefixed "other" (fst f), RVal t y) :: other_env fl tl yl
  | _, _, _ => []
  end.
Definition other_names (fl : list dfield) : list string := map (fun f : dfield => alias_prefixed "other" (fst f)) fl.
Lemma other_env_names fl : forall tl yl, fit fl tl yl -> map fst (other_env fl tl yl) = other_names fl.
Proof. induction fl as [|f fl IH]; intros [|t tl] [|[fi y] yl] F; try contradiction; [reflexivity|]. cbn. now rewrite (IH tl yl (proj2 F)). Qed.
Lemma other_parts fl : forall tl yl vn A B, fit fl tl yl -> NoDup (map fst A ++ map nm fl) ->
  parts (Obj vn (A ++ val_cells fl tl yl ++ B)) (map (fun f : dfield => destructure (fst f) (alias_prefixed "other" (fst f))) fl) = Some (other_env fl tl yl).
Proof.
  induction fl as [|f fl IH]; intros [|t tl] [|[fi y] yl] vn A B F N; try contradiction; [reflexivity|]. destruct F as [_ F].
  apply nodup_hd in N. destruct N as [Ni N]. cbn [val_cells]. rewrite <- app_comm_cons. cbn [map parts destructure init o_cells].
  unfold destructure, init. rewrite lookup_mid by exact Ni. rewrite mid_app, IH by (exact F || apply N). reflexivity.
Qed.
Lemma others_var m hl p call fl e : forall tl yl P, fit fl tl yl -> NoDup (map fst P ++ other_names fl) ->
  others m hl p call true (P ++ other_env fl tl yl ++ e) fl tl yl.
Proof.
  induction fl as [|f fl IH]; intros [|t tl] [|[fi y] yl] P F N; try contradiction; [exact I|]. destruct F as [_ F].
  cbn [other_names map] in N. fold (other_names fl) in N. cbn [other_env]. rewrite <- app_comm_cons. split.
  - intros s. unfold field_other. rs. rewrite lookup_mid; [reflexivity|]. apply NoDup_remove_2 in N. intros J. apply N, in_or_app. now left.
  - rewrite mid_app. apply IH; [exact F|]. rewrite map_app, <- app_assoc. exact N.
Qed.
Lemma other_names_aliases d : NoDup (aliases d) -> NoDup (other_names (ds_fields d)).
Proof.
  unfold aliases, other_names. induction (ds_fields d) as [|f l IH]; intros N; [constructor|]. cbn in *. inversion N as [|? ? N1 N2]; subst.
  constructor; [|auto]. intros J. apply N1. apply in_map_iff in J. destruct J as (g & E & J). apply in_map_iff. exists g. split; [|exact J].
  unfold alias_prefixed in E. cbn in E. congruence.
Qed.

(** [match self { .. }]. *)
Lemma first_self m hl p call (bs : dstruct -> list (string * string)) (A : dstruct -> pat * expr) d e s o ds :
  (forall d, fst (A d) = PVariant (v_name d) (bs d)) ->
  In d ds -> NoDup (map v_name ds) -> s_self s = Some o -> o_variant o = Some (v_name d) ->
  first_arm (eval m hl p call) e RSelf (map A ds) s
  = eval m hl p call (map (fun b => (snd b, RPlace (fst b))) (bs d) ++ e) (snd (A d)) s.
Proof.
  intros HA. induction ds as [|d' ds IH]; intros I N Es Eo; [contradiction|]. cbn [map first_arm].
  specialize (HA d'). destruct (A d') as [q a] eqn:EA. cbn [fst] in HA. subst q. cbn [matches]. rewrite Es. unfold is_variant_of at 1. rewrite Eo.
  inversion N as [|? ? N1 N2]; subst. destruct I as [->|I].
  - rewrite String.eqb_refl, EA. reflexivity.
  - destruct (String.eqb_spec (v_name d') (v_name d)) as [E|]; [|now apply IH].
    exfalso. apply N1. rewrite E. now apply in_map.
Qed.
(** [match tag { .. }]. *)
Lemma first_tag m hl p call (A : dstruct -> pat * expr) k e s rest ds : (forall d, fst (A d) = PNum (v_tag d)) ->
  first_arm (eval m hl p call) e (RNum k) (map A ds ++ rest) s
  = match find (fun d => v_tag d =? k) ds with
    | Some d => eval m hl p call e (snd (A d)) s
    | None => first_arm (eval m hl p call) e (RNum k) rest s
    end.
Proof.
  intros HA. induction ds as [|d ds IH]; [reflexivity|]. cbn [map app first_arm find].
  specialize (HA d). destruct (A d) as [q a] eqn:EA. cbn [fst] in HA. subst q. cbn [matches].
  destruct (v_tag d =? k); [|exact IH]. now rewrite EA.
Qed.

Arguments uv_serialize : simpl never.
Arguments uv_deserialize : simpl never.
Arguments uv_size : simpl never.
Section Enum.
  Variables (m : mode) (hl : store) (se : rsetting) (ds : list (dstruct * list ty)).
  Notation p := (enum_prog se ds).
  Notation t := (enum_type se ds).
  Notation ob := (enum_obj ds).
  Notation on v s := (set_self (Some (ob v)) s).
  Notation cl := (call m hl p).
  Notation D := (map fst ds).
  Hypothesis Se : settled se.
  Hypothesis Gd : forall d ts, In (d, ts) ds -> good se d ts.
  Hypothesis Va : forall d, In d D -> exists n tag, ds_variant d = Some (n, tag).
  Hypothesis Nn : NoDup (map v_name D).
  Hypothesis Na : forall d, In d D -> NoDup (aliases d).
  Hypothesis Ni : NoDup (map fn_name (enum_inherent se D)).
  Hypothesis Ok_ : ty_ok t = true.

  Definition va (d : dstruct * list ty) : (N * bool) * list (finfo * ty) :=
    ((v_tag (fst d), is_some (ds_cache (fst d))), typed_fields (fst d) (snd d)).
  Notation vs := (map va ds).
  Definition by_tag (tag : N) : option (dstruct * list ty) := find (fun d => v_tag (fst d) =? tag) ds.
  Lemma t_eq : t = TEnum (rs_state se) vs. Proof. reflexivity. Qed.
  Lemma find_va tag : find_variant vs tag = option_map va (by_tag tag).
  Proof. unfold find_variant, by_tag. clear. induction ds as [|d l IH]; [reflexivity|]. cbn. destruct (v_tag (fst d) =? tag); [reflexivity|exact IH]. Qed.
  Lemma find_d tag : find (fun d => v_tag d =? tag) D = option_map fst (by_tag tag).
  Proof. unfold by_tag. clear. induction ds as [|d l IH]; [reflexivity|]. cbn. destruct (v_tag (fst d) =? tag); [reflexivity|exact IH]. Qed.
  Lemma by_tag_in tag d ts : by_tag tag = Some (d, ts) -> In (d, ts) ds /\ v_tag d = tag.
  Proof. unfold by_tag. intros H. apply find_some in H. destruct H as [H1 H2]. split; [exact H1|]. cbn in H2. lia. Qed.
  Lemma by_tag_self d ts : In (d, ts) ds -> by_tag (v_tag d) = Some (d, ts).
  Proof.
    intros I. unfold by_tag. pose proof Ok_ as O. rewrite t_eq, ty_ok_enum in O. bprop.
    match goal with H : nodupb _ = true |- _ => apply tags_nodup in H; rename H into N end. clear - I N.
    rewrite map_map in N. cbn in N. induction ds as [|x l IH]; [contradiction|]. cbn in *. inversion N as [|? ? N1 N2]; subst.
    destruct I as [->|I]; [cbn; now rewrite N.eqb_refl|].
    destruct (v_tag (fst x) =? v_tag d) eqn:E; [|auto]. exfalso. apply N1. apply N.eqb_eq in E. rewrite E.
    now apply (in_map (fun d => v_tag (fst d))) in I.
  Qed.
  Lemma in_d d ts : In (d, ts) ds -> In d D. Proof. apply (in_map fst). Qed.
  Lemma vn_some d : In d D -> variant_name d = Some (v_name d).
  Proof. intros I. destruct (Va d I) as (n & tag & E). unfold variant_name, v_name. now rewrite E. Qed.
  Lemma isv d : In d D -> is_variant d = true.
  Proof. intros I. destruct (Va d I) as (n & tag & E). unfold is_variant. now rewrite E. Qed.

  Lemma obj_tag d ts c r xs : In (d, ts) ds -> ob (VEnum (v_tag d) c r xs) = obj_of d ts r xs.
  Proof. intros I. cbn [enum_obj]. fold (by_tag (v_tag d)). now rewrite (by_tag_self d ts I). Qed.

  Lemma wt_einv v : wt t v = true -> exists d ts r xs, In (d, ts) ds /\ v = VEnum (v_tag d) (is_some (ds_cache d)) r xs /\
    is_some r = rs_state se /\ rt_below r = true /\ wt_fields (typed_fields d ts) xs = true /\ fit (ds_fields d) ts xs /\ ob v = obj_of d ts r xs.
  Proof.
    intros W. rewrite t_eq in W. destruct v; try discriminate W. rewrite wt_enum_eq in W.
    apply andb_true_iff in W. destruct W as [W W3]. apply andb_true_iff in W. destruct W as [W1 W2].
    rewrite find_va in W3. destruct (by_tag tag) as [[d ts]|] eqn:B; [|discriminate]. cbn [option_map va fst snd] in W3.
    apply andb_true_iff in W3. destruct W3 as [W3 W4]. apply eqb_prop in W1, W3. subst c. destruct (by_tag_in _ _ _ B) as [I <-].
    exists d, ts, r, fs. split; [exact I|]. split; [reflexivity|]. split; [now destruct r|]. split; [exact W2|]. split; [exact W4|].
    split; [exact (g_fit se d ts (Gd d ts I) fs W4)|]. now apply obj_tag.
  Qed.

  Ltac find_etrait := unfold trait_method, enum_prog, enum_traits; cbn [p_traits]; repeat match goal with H : rs_partial_eq se = _ |- _ => rewrite H | H : rs_hash se = _ |- _ => rewrite H | H : rs_serialize se = _ |- _ => rewrite H | H : rs_deserialize se = _ |- _ => rewrite H | H : rs_state se = _ |- _ => rewrite H end;
    destruct (rs_partial_eq se), (rs_default se), (rs_hash se), (rs_serialize se), (rs_deserialize se), (rs_state se); reflexivity.

  (** *** Constructors *)
  Lemma decl_var d ts : In (d, ts) ds -> decl_of p (variant_name d) = Some (snd (decl d ts)).
  Proof.
    intros I. rewrite (vn_some d (in_d _ _ I)). unfold decl_of. cbn [p_decl enum_prog].
    replace (find _ _) with (Some (decl d ts)); [reflexivity|]. symmetry.
    clear - I Nn Va. revert I Nn Va. induction ds as [|[d' ts'] l IH]; intros I N V; [contradiction|]. cbn [map find fst snd].
    unfold decl at 1. cbn [fst]. inversion N as [|? ? N1 N2]; subst. cbn [map fst] in *.
    assert (V' : variant_name d' = Some (v_name d')).
    { destruct (V d' (or_introl eq_refl)) as (n & tag & E). unfold variant_name, v_name. now rewrite E. }
    rewrite V'. cbn [same_variant]. destruct I as [[= -> ->]|I]; [now rewrite String.eqb_refl|].
    destruct (String.eqb_spec (v_name d) (v_name d')) as [E|].
    - exfalso. apply N1. rewrite <- E. apply in_map. now apply (in_map fst) in I.
    - apply IH; auto. intros x J. apply V. now right.
  Qed.
  Lemma ctor_obj r d ts : In (d, ts) ds ->
    ob (variant_ctor (rs_state se) (va (d, ts)) r) = obj_of d ts (rt_part (own_rt r d) d) (dflt_fields (own_rt r d) (typed_fields d ts)).
  Proof.
    intros I. destruct (Va d (in_d _ _ I)) as (n & tag & E). assert (T : v_tag d = tag) by (unfold v_tag; now rewrite E).
    unfold variant_ctor, va. cbn [fst snd]. rewrite (obj_tag d ts) by exact I. unfold own_rt, rt_part. rewrite E, T.
    pose proof (g_rt _ _ _ (Gd d ts I)) as R. destruct (ds_rt d); rewrite <- R; reflexivity.
  Qed.
  Lemma call_vctor n r d ts s : In (d, ts) ds ->
    cl (S n) (ctor se d) (rt_arg se r) s = (s, Go (RObj (ob (variant_ctor (rs_state se) (va (d, ts)) r)))).
  Proof.
    intros I. pose proof (Gd d ts I) as G.
    assert (Pa : params (fn_params (ctor se d)) (rt_arg se r) = Some (rt_env r d, [])).
    { unfold rt_arg, ctor, rt_env. cbn [fn_params]. pose proof (g_rt _ _ _ G) as R. destruct (ds_rt d); rewrite <- R; reflexivity. }
    rewrite (call_S _ _ _ _ _ _ _ _ _ Pa). rewrite (ctor_obj r d ts I).
    rewrite (ctor_block m hl p (cl n) se d ts r).
    - cbn. f_equal. now destruct s.
    - exact (decl_var d ts I).
    - exact (g_len _ _ _ G).
    - exact (g_names _ _ _ G).
    - exact (g_states _ _ _ G).
    - exact (g_none _ _ _ G).
  Qed.
  Lemma find_vctor d : rs_ctors se = true -> In d D -> named (ctor_name se d) (p_inherent p) = Some (ctor se d).
  Proof.
    intros E I. change (ctor_name se d) with (fn_name (ctor se d)). apply named_in; [exact Ni|]. cbn [p_inherent enum_prog].
    unfold enum_inherent. rewrite E. cbn [when]. apply in_or_app. left. right. now apply in_map.
  Qed.
  Lemma self_vctor n r d ts s : rs_ctors se = true -> In (d, ts) ds ->
    native_fun m p (cl (S n)) "Self" (ctor_name se d) (rt_arg se r) s = (s, Go (RObj (ob (variant_ctor (rs_state se) (va (d, ts)) r)))).
  Proof.
    intros E I. unfold native_fun. cbn [String.eqb Ascii.eqb Bool.eqb]. unfold static. rewrite named_app, find_vctor by (exact E || exact (in_d _ _ I)).
    unfold call_static. cbn [fn_self ctor]. rewrite (call_vctor n r d ts) by exact I. cbn. now destruct s.
  Qed.
  Lemma default_ex : exists d ts, by_tag 0 = Some (d, ts) /\ In (d, ts) ds /\
    forall r, dflt t r = variant_ctor (rs_state se) (va (d, ts)) r.
  Proof.
    pose proof Ok_ as O. rewrite t_eq, ty_ok_enum in O. bprop.
    match goal with X : existsb _ _ = true |- _ => destruct (find_variant_exists vs X) as (w & F) end.
    rewrite find_va in F. destruct (by_tag 0) as [[d ts]|] eqn:B; [|discriminate]. exists d, ts. split; [reflexivity|].
    split; [exact (proj1 (by_tag_in _ _ _ B))|]. intros r. rewrite t_eq, dflt_enum, find_va, B. reflexivity.
  Qed.
  Lemma call_dctor n r s : rs_ctors se = true -> cl (S (S n)) (default_ctor se D) (rt_arg se r) s = (s, Go (RObj (ob (dflt t r)))).
  Proof.
    intros E. destruct default_ex as (d & ts & B & I & Ed). rewrite Ed.
    assert (Pa : params (fn_params (default_ctor se D)) (rt_arg se r) = Some (if rs_state se then [("runtime", RRt r)] else [], [])).
    { unfold rt_arg, default_ctor. cbn [fn_params]. destruct (rs_state se); reflexivity. }
    rewrite (call_S _ _ _ _ _ _ _ _ _ Pa). unfold default_ctor. cbn [fn_body]. unfold default_variant. rewrite find_d, B. cbn [option_map fst]. rs.
    assert (V : forall x, each (fun x => v <~ eval m hl p (cl (S n)) (if rs_state se then [("runtime", RRt r)] else []) x;; rval v)
                  (if rs_state se then [EName "runtime"] else []) x = (x, Go (rt_arg se r))).
    { intros x. unfold rt_arg. destruct (rs_state se); [|reflexivity]. rs. reflexivity. }
    rewrite V. cbv beta iota. rewrite (self_vctor n r d ts) by assumption. cbn. now destruct s.
  Qed.
  Lemma find_dctor : rs_ctors se = true -> named (rs_prefix se) (p_inherent p) = Some (default_ctor se D).
  Proof. intros E. unfold named. cbn [p_inherent enum_prog]. unfold enum_inherent. rewrite E. cbn. now rewrite String.eqb_refl. Qed.
  Lemma self_dctor n r s : rs_ctors se = true -> native_fun m p (cl (S (S n))) "Self" (rs_prefix se) (rt_arg se r) s = (s, Go (RObj (ob (dflt t r)))).
  Proof.
    intros E. unfold native_fun. cbn [String.eqb Ascii.eqb Bool.eqb]. unfold static. rewrite named_app, find_dctor by exact E. unfold call_static.
    cbn [fn_self default_ctor]. rewrite call_dctor by exact E. cbn. now destruct s.
  Qed.
  Lemma call_edefault n s : rs_ctors se = true -> cl (S (S (S n))) (default_fn se) [] s = (s, Go (RObj (ob (dflt t rt_default)))).
  Proof.
    intros E. rewrite (call_S _ _ _ _ (default_fn se) [] s [] [] eq_refl). unfold default_fn. cbn [fn_body]. rs.
    assert (V : each (fun x => v <~ eval m hl p (cl (S (S n))) [] x;; rval v) (rt_args se) (set_vars [] s) = (set_vars [] s, Go (rt_arg se rt_default))).
    { unfold rt_args, rt_arg. destruct (rs_state se); [|reflexivity]. rs. now rewrite nf_runtime. }
    rewrite V. cbv beta iota. rewrite self_dctor by exact E. cbn. now destruct s.
  Qed.
  Lemma call_ewith_runtime n r s : rs_state se = true -> cl (S (S (S n))) (with_runtime_fn se) [RRt r] s = (s, Go (RObj (ob (dflt t r)))).
  Proof.
    intros E. assert (C : rs_ctors se = true) by (destruct Se as [S1 S2]; apply S2, S1, E).
    rewrite (call_S _ _ _ _ (with_runtime_fn se) [RRt r] s [("runtime", RRt r)] [] eq_refl). unfold with_runtime_fn. cbn [fn_body]. rs.
    pose proof (self_dctor n r (set_vars [] s) C) as X. unfold rt_arg in X. rewrite E in X. rewrite X.
    cbn - [dflt enum_obj]. now destruct s.
  Qed.
  Lemma enum_makes : makes_spec m hl p se t ob.
  Proof.
    split; [|split].
    - intros E r s. unfold make, depth. rewrite find_dctor by exact E. unfold call_static. cbn [fn_self default_ctor]. rewrite call_dctor by exact E. now destruct s.
    - intros E1 E2 s. unfold make_trait, depth.
      replace (named "default" (p_traits p)) with (Some (default_fn se)).
      2:{ unfold enum_prog, enum_traits. cbn [p_traits]. rewrite E1. destruct (rs_partial_eq se); reflexivity. }
      unfold call_static. cbn [fn_self default_fn]. rewrite call_edefault by exact E2. now destruct s.
    - intros E r s. unfold make_trait, depth.
      replace (named "with_runtime" (p_traits p)) with (Some (with_runtime_fn se)).
      2:{ unfold enum_prog, enum_traits. cbn [p_traits]. rewrite E. destruct (rs_partial_eq se), (rs_default se), (rs_hash se), (rs_serialize se), (rs_deserialize se); reflexivity. }
      unfold call_static. cbn [fn_self with_runtime_fn]. rewrite call_ewith_runtime by exact E. now destruct s.
  Qed.

  (** *** [match self] *)
  Lemma name_tag d ts d' ts' : In (d, ts) ds -> In (d', ts') ds -> String.eqb (v_name d') (v_name d) = (v_tag d =? v_tag d').
  Proof.
    intros I I'. destruct (N.eqb_spec (v_tag d) (v_tag d')) as [E|E].
    - pose proof (by_tag_self _ _ I) as B. rewrite E, (by_tag_self _ _ I') in B. injection B as -> _. apply String.eqb_refl.
    - apply String.eqb_neq. intros En. apply E. clear - Nn I I' En. revert Nn I I'. induction ds as [|x l IH]; intros N I I'; [contradiction|].
      cbn in N. inversion N as [|? ? N1 N2]; subst. destruct I as [->|I], I' as [E'|I']; auto.
      + now injection E' as -> _.
      + exfalso. apply N1. cbn. rewrite <- En. apply in_map. now apply (in_map fst) in I'.
      + subst x. exfalso. apply N1. cbn. rewrite En. apply in_map. now apply (in_map fst) in I.
  Qed.

  Ltac arm_of bs A d o := rewrite (first_self m hl p _ bs A d _ _ o D);
    [|first [reflexivity|intros ?; unfold A, arm; repeat match goal with |- context [match ?x with _ => _ end] => destruct x end; reflexivity]|assumption|exact Nn|reflexivity|cbn; now apply vn_some].

  Lemma enum_hash : none_named ["state"] D -> hash_spec m hl p se t ob.
  Proof.
    intros Nm E v s Wv. destruct (wt_einv v Wv) as (d & ts & r & xs & I & -> & Er & Rb & Wf & F & Eo). pose proof (in_d _ _ I) as Id.
    rewrite Eo. unfold invoke, call_method, depth. cbn [s_self set_self].
    replace (trait_method p "hash") with (Some (Fn "hash" true [par "state"] (Block [] (Some (EMatch ESelf (map hash_arm D)))))) by find_etrait.
    enter [("state", RHasher)] (@nil (string * rv)). cbn [fn_body]. rs. arm_of destructured hash_arm d (obj_of d ts r xs). fold (places d).
    assert (L : lookup "state" (places d ++ [("state", RHasher)]) = Some RHasher) by (apply places_skip, Nm; [exact Id|now left]).
    pose proof (reach_places m hl p (cl 7) d [("state", RHasher)] (Na d Id)) as Rp.
    unfold hash_arm, arm. cbn [snd]. remember (places d ++ _) as e eqn:Ee. rs. rewrite L. cbn. unfold hasher. rewrite (isv d Id).
    match goal with |- context [thread _ e _ ?x] =>
      rewrite (hash_list m hl p (cl 7) true e (ds_fields d) ts xs (variant_name d) [] (extra_cells d r) x Rp F); [|reflexivity|exact (g_nm _ _ _ (Gd d ts I))|exact L] end.
    cbn. f_equal. unfold put_hash. cbn. now rewrite <- app_assoc.
  Qed.

  Definition esize_fn : fn := Fn "compute_size" true []
    (Block [SLetMut "size" (ENum 0); SExpr (EMatch ESelf (map size_arm D))] (Some (EName "size"))).
  Lemma find_esize : rs_serialize se = true -> trait_method p "compute_size" = Some esize_fn.
  Proof. intros E. symmetry. unfold esize_fn. find_etrait. Qed.
  Lemma call_esize n v s : none_named ["size"] D -> wt t v = true ->
    returns (on v s) (compute m (s_at s) v (s_heap s)) (fun '(n, h) => (set_heap h (on v s), RNum n)) (cl (S n) esize_fn [] (on v s)).
  Proof.
    intros Nm Wv. destruct (wt_einv v Wv) as (d & ts & r & xs & I & -> & Er & Rb & Wf & F & Eo). pose proof (in_d _ _ I) as Id.
    rewrite Eo. unfold esize_fn.
    enter (@nil (string * rv)) (@nil (string * rv)). cbn [fn_body]. rewrite compute_enum. rs. arm_of destructured size_arm d (obj_of d ts r xs). fold (places d).
    assert (L : lookup "size" (places d ++ [("size", RMut "size")]) = Some (RMut "size")) by (apply places_skip, Nm; [exact Id|now left]).
    pose proof (reach_places m hl p (cl n) d [("size", RMut "size")] (Na d Id)) as Rp.
    unfold size_arm, arm. cbn [snd]. remember (places d ++ _) as e eqn:Ee. rs. rewrite L. cbn.
    destruct (add32 m 0 (uv_size 32 (v_tag d))) as [k|er| |] eqn:Ea; cbn.
    2-4: try reflexivity; split; reflexivity.
    unfold sizer. rewrite (isv d Id).
    match goal with |- context [thread _ e _ ?x] =>
      pose proof (size_list m hl p (cl n) true e (ds_fields d) ts xs (variant_name d) [] (extra_cells d r) x k Rp F eq_refl (g_nm _ _ _ (Gd d ts I)) L eq_refl) as H end.
    cbn [List.length s_at s_heap set_vars set_self] in H.
    destruct (comp_fields m (s_at s) 0 k xs (s_heap s)) as [[k' h]|er| |]; cbn [returns].
    - rewrite H. rs. f_equal.
    - destruct H as [s' ->]. reflexivity.
    - destruct H as (s' & -> & H). split; [exact H|reflexivity].
    - destruct H as [s' ->]. reflexivity.
  Qed.
  Lemma enum_size : none_named ["size"] D -> size_spec m hl p se t ob.
  Proof. intros Nm E v s Wv. unfold invoke, call_method, depth. cbn [s_self set_self]. rewrite find_esize by exact E. now apply call_esize. Qed.

  Definition eser_fn : fn := Fn "serialize_cached" true [par "writer"] (Block [SExpr (EMatch ESelf (map ser_arm D))] (Some (EOk EUnit))).
  Lemma find_eser : rs_serialize se = true -> trait_method p "serialize_cached" = Some eser_fn.
  Proof. intros E. symmetry. unfold eser_fn. find_etrait. Qed.
  Lemma call_eser n v s : none_named ["writer"] D -> wt t v = true ->
    answers s (ob v) (ser_cached m (s_at s) v (s_heap s)) (fun '(b, h) s => put_out b (set_heap h s)) (cl (S n) eser_fn [RWriter] (on v s)).
  Proof.
    intros Nm Wv. destruct (wt_einv v Wv) as (d & ts & r & xs & I & -> & Er & Rb & Wf & F & Eo). pose proof (in_d _ _ I) as Id.
    rewrite Eo. unfold eser_fn.
    enter [("writer", RWriter)] (@nil (string * rv)). cbn [fn_body]. rewrite ser_enum. rs. arm_of destructured ser_arm d (obj_of d ts r xs). fold (places d).
    assert (L : lookup "writer" (places d ++ [("writer", RWriter)]) = Some RWriter) by (apply places_skip, Nm; [exact Id|now left]).
    pose proof (reach_places m hl p (cl n) d [("writer", RWriter)] (Na d Id)) as Rp.
    unfold ser_arm, arm. cbn [snd]. remember (places d ++ _) as e eqn:Ee. rs. rewrite L. cbn.
    destruct (uv_serialize 32 (v_tag d)) as [b|er| |] eqn:Ea; cbn.
    2-4: try reflexivity; split; reflexivity.
    unfold serializer. rewrite (isv d Id).
    match goal with |- context [thread _ e _ ?x] =>
      pose proof (ser_list m hl p (cl n) true e (ds_fields d) ts xs (variant_name d) [] (extra_cells d r) x Rp F eq_refl (g_nm _ _ _ (Gd d ts I)) L) as H end.
    cbn [List.length s_at s_heap set_vars set_self put_out] in H.
    destruct (serc_fields m (s_at s) 0 xs (s_heap s)) as [[b' h]|er| |]; cbn [answers].
    - rewrite H. rs. f_equal. unfold put_out. cbn. now rewrite <- app_assoc.
    - destruct H as (s' & -> & H). split; [exact H|reflexivity].
    - destruct H as (s' & -> & H). split; [exact H|reflexivity].
    - destruct H as [s' ->]. reflexivity.
  Qed.
  Lemma enum_ser : none_named ["writer"] D -> ser_spec m hl p se t ob.
  Proof. intros Nm E v s Wv. unfold invoke, call_method, depth. cbn [s_self set_self]. rewrite find_eser by exact E. now apply call_eser. Qed.

  Definition ecache_fn : fn := Fn "size_cache" true [] (Block [] (Some (EMatch ESelf (map cache_arm D)))).
  Lemma find_ecache : rs_serialize se = true -> trait_method p "size_cache" = Some ecache_fn.
  Proof. intros E. symmetry. unfold ecache_fn. find_etrait. Qed.
  Lemma call_ecache n v s : wt t v = true ->
    if has_cache v then exists x, cl (S n) ecache_fn [] (on v s) = (on v s, Go (ROpt (Some (RPlace x)))) /\
                                  lookup x (o_cells (ob v)) = Some CSize
    else cl (S n) ecache_fn [] (on v s) = (on v s, Go (ROpt None)).
  Proof.
    intros Wv. destruct (wt_einv v Wv) as (d & ts & r & xs & I & -> & Er & Rb & Wf & F & Eo). pose proof (in_d _ _ I) as Id.
    rewrite Eo.
    assert (H : cl (S n) ecache_fn [] (set_self (Some (obj_of d ts r xs)) s)
      = (set_self (Some (obj_of d ts r xs)) s, Go (ROpt (match ds_cache d with Some f => Some (RPlace (access f)) | None => None end)))).
    { unfold ecache_fn. enter (@nil (string * rv)) (@nil (string * rv)). cbn [fn_body]. rs.
      arm_of (fun d => match ds_cache d with Some f => [destructure f "size_cache"] | None => [] end) cache_arm d (obj_of d ts r xs).
      unfold cache_arm. destruct (ds_cache d) as [f|]; cbn [snd]; rs; reflexivity. }
    rewrite H. cbn [has_cache]. destruct (ds_cache d) as [f|] eqn:Ec; cbn [is_some].
    - exists (access f). split; [reflexivity|exact (cache_cell se d ts (Gd d ts I) xs r f F Ec)].
    - reflexivity.
  Qed.
  Lemma enum_cache : cache_spec m hl p se t ob.
  Proof. intros E v s Wv. unfold invoke, call_method, depth. cbn [s_self set_self]. rewrite find_ecache by exact E. now apply call_ecache. Qed.

  Lemma enum_eq : none_named ["other"] D -> no_other D -> eq_spec m hl p se t ob.
  Proof.
    intros Nm No E v w s Wv Ww. destruct (wt_einv v Wv) as (d & ts & r & xs & I & -> & Er & Rb & Wf & F & Eo).
    destruct (wt_einv w Ww) as (d' & ts' & r' & ys & I' & -> & Er' & Rb' & Wf' & F' & Eo'). pose proof (in_d _ _ I) as Id. pose proof (in_d _ _ I') as Id'.
    rewrite Eo, Eo'. unfold invoke, call_method, depth. cbn [s_self set_self].
    replace (trait_method p "eq") with (Some (Fn "eq" true [par "other"] (Block [] (Some (EMatch ESelf (map eq_arm D)))))) by find_etrait.
    change (veqb (VEnum (v_tag d) (is_some (ds_cache d)) r xs) (VEnum (v_tag d') (is_some (ds_cache d')) r' ys)) with ((v_tag d =? v_tag d') && eq_fields xs ys).
    remember (eq_fields xs ys) as b eqn:Eb.
    remember (obj_of d' ts' r' ys) as o' eqn:Ey.
    enter [("other", RObj o')] (@nil (string * rv)). cbn [fn_body]. rs. arm_of destructured eq_arm d (obj_of d ts r xs). fold (places d).
    assert (L : lookup "other" (places d ++ [("other", RObj o')]) = Some (RObj o')) by (apply places_skip, Nm; [exact Id|now left]).
    pose proof (reach_places m hl p (cl 7) d [("other", RObj o')] (Na d Id)) as Rp.
    unfold eq_arm, arm. cbn [snd]. remember (places d ++ _) as e eqn:Ee. rs. rewrite L. cbn. rewrite Ey at 1. unfold is_variant_of. cbn [o_variant obj_of].
    rewrite (vn_some d' Id'), (name_tag d' ts' d ts) by assumption. rewrite (N.eqb_sym (v_tag d')).
    destruct (N.eqb_spec (v_tag d) (v_tag d')) as [Et|Et]; cbn [andb].
    2:{ rs. f_equal. }
    pose proof (by_tag_self _ _ I) as B. rewrite Et, (by_tag_self _ _ I') in B. injection B as <- <-.
    assert (Op : parts o' (destructured_other d') = Some (other_env (ds_fields d') ts' ys)).
    { rewrite Ey. exact (other_parts (ds_fields d') ts' ys (variant_name d') [] (extra_cells d' r') F' (g_nm _ _ _ (Gd _ _ I'))). }
    rewrite Op.
    unfold eq_block. rewrite (isv _ Id'), b_eq. cbn [rbind].
    rewrite (eq_list m hl p (cl 7) true _ (ds_fields d') ts' xs ys (variant_name d') [] (extra_cells d' r) _); try assumption.
    - rewrite <- Eb. destruct b; rs; reflexivity.
    - apply reach_app; [|exact Rp]. rewrite other_env_names by exact F'. intros x J K. unfold other_names in J. apply in_map_iff in J.
      destruct J as (g & <- & J). apply (No d' _ (alias (fst g)) Id' K); [|reflexivity]. now apply (in_map (fun f : dfield => alias (fst f))) in J.
    - reflexivity.
    - exact (g_nm _ _ _ (Gd _ _ I')).
    - apply (others_var m hl p (cl 7) (ds_fields d') e ts' ys []); [exact F'|]. cbn [map app]. apply other_names_aliases, Na, Id'.
  Qed.

  (** *** Runtimes *)
  Lemma method_etrait n : sets_name n = false -> method p n = trait_method p n.
  Proof.
    intros H. unfold method, trait_method, enum_prog, enum_inherent. cbn [p_inherent p_traits]. rewrite !filter_app, named_app.
    assert (A : named n (filter fn_self (when (rs_ctors se) (default_ctor se D :: map (ctor se) D)) ++ filter fn_self (when (rs_setters se) (flat_map (setters se) D))) = None).
    { replace (filter fn_self (when (rs_ctors se) _)) with (@nil fn).
      2:{ destruct (rs_ctors se); [|reflexivity]. cbn [when filter fn_self default_ctor]. clear. induction D as [|x l IH]; [reflexivity|]. cbn. exact IH. }
      cbn [app]. destruct (rs_setters se); [|reflexivity]. cbn [when]. rewrite (setters_all_self se D). now apply setters_none. }
    now rewrite A.
  Qed.
  Definition eruntime_fn : fn := Fn "runtime" true [] (Block [] (Some (EMatch ESelf (map runtime_arm D)))).
  Lemma find_eruntime : rs_state se = true -> trait_method p "runtime" = Some eruntime_fn.
  Proof. intros E. symmetry. unfold eruntime_fn. find_etrait. Qed.
  Lemma ert_is d ts : rs_state se = true -> In (d, ts) ds -> exists f, ds_rt d = Some f.
  Proof. intros E I. pose proof (g_rt _ _ _ (Gd d ts I)) as R. rewrite E in R. destruct (ds_rt d); [eauto|discriminate]. Qed.
  Lemma call_eruntime n v s : rs_state se = true -> wt t v = true -> s_self s = Some (ob v) ->
    exists x r, val_rt v = Ok r /\ rt_below (Some r) = true /\ lookup x (o_cells (ob v)) = Some (CRt r) /\ cl (S n) eruntime_fn [] s = (s, Go (RPlace x)).
  Proof.
    intros E Wv Es. destruct (wt_einv v Wv) as (d & ts & r & xs & I & -> & Er & Rb & Wf & F & Eo). pose proof (in_d _ _ I) as Id.
    destruct (ert_is d ts E I) as [f Ef]. rewrite E in Er. destruct r as [r|]; [|discriminate]. exists (access f), r.
    split; [reflexivity|]. split; [exact Rb|]. rewrite Eo in *. split; [exact (proj1 (rt_cell se d ts (Gd d ts I) xs r f F Ef))|].
    unfold eruntime_fn. enter (@nil (string * rv)) (@nil (string * rv)). cbn [fn_body]. rs. rewrite Es. cbn.
    rewrite (first_self m hl p (cl n) (fun d => match ds_rt d with Some f => [destructure f "runtime"] | None => [] end) runtime_arm d _ _ (obj_of d ts (Some r) xs) D);
      [|intros z; unfold runtime_arm; destruct (ds_rt z); reflexivity|exact Id|exact Nn|exact Es|cbn; now apply vn_some].
    unfold runtime_arm. rewrite Ef. cbn [snd]. rs. f_equal. now destruct s.
  Qed.
  Lemma self_eruntime n v s : rs_state se = true -> wt t v = true -> s_self s = Some (ob v) ->
    exists x r, val_rt v = Ok r /\ rt_below (Some r) = true /\ self_cell s x = Some (CRt r) /\
                call_method (cl (S n)) (method p "runtime") [] s = (s, Go (RPlace x)).
  Proof.
    intros E Wv Es. destruct (call_eruntime n v s E Wv Es) as (x & r & H1 & H2 & H3 & H4). exists x, r.
    split; [exact H1|]. split; [exact H2|]. split; [unfold self_cell; now rewrite Es|].
    unfold call_method. rewrite Es. now rewrite method_etrait, find_eruntime.
  Qed.
  Lemma enum_runtime : runtime_spec m hl p se t ob.
  Proof.
    intros E v s Wv. split.
    - destruct (call_eruntime 7 v (on v s) E Wv eq_refl) as (x & r & H1 & H2 & H3 & H4). exists x, r. split; [|auto].
      unfold invoke, call_method, depth. cbn [s_self set_self]. now rewrite find_eruntime.
    - intros b Hb. unfold invoke, depth.
      replace (trait_method p "is_root") with (Some (Fn "is_root" true [] (Block [] (Some (EMeth (EMeth (EMeth ESelf "runtime" []) "parent" []) "is_root" []))))) by find_etrait.
      unfold call_method at 1. cbn [s_self set_self].
      enter (@nil (string * rv)) (@nil (string * rv)). cbn [fn_body].
      destruct (self_eruntime 6 v (set_vars [] (on v s)) E Wv eq_refl) as (x & r & H1 & H2 & H3 & H4).
      remember (ob v) as o eqn:Eo. rs.
      rewrite H4. cbn. rewrite H3. cbn.
      destruct (wt_einv v Wv) as (d & ts & r' & xs & I & -> & Er & Rb & Wf & F & Eo'). unfold is_root in Hb. cbn in H1. destruct r' as [r'|]; [|discriminate].
      injection H1 as ->. destruct (rt_parent r) as [q|er| |]; try discriminate Hb. cbn in Hb. injection Hb as <-. reflexivity.
  Qed.

  Lemma enum_set_runtime : none_named ["runtime"; "self_runtime"] D -> set_runtime_spec m hl p se t ob.
  Proof.
    intros Nm E v r s Wv. destruct (wt_einv v Wv) as (d & ts & r0 & xs & I & -> & Er & Rb & Wf & F & Eo). pose proof (in_d _ _ I) as Id.
    destruct (ert_is d ts E I) as [f Ef]. rewrite E in Er. destruct r0 as [r0|]; [|discriminate]. rewrite Eo.
    change (set_rt r (VEnum (v_tag d) (is_some (ds_cache d)) (Some r0) xs)) with
      (VEnum (v_tag d) (is_some (ds_cache d)) (Some (nested r (v_tag d))) (set_rts (nested r (v_tag d)) xs)).
    rewrite (obj_tag d ts) by exact I. remember (nested r (v_tag d)) as r1 eqn:Er1.
    unfold invoke, call_method, depth. cbn [s_self set_self].
    replace (trait_method p "set_runtime") with (Some (Fn "set_runtime" true [par "runtime"] (Block [] (Some (EMatch ESelf (map set_runtime_arm D)))))) by find_etrait.
    enter [("runtime", RRt r)] (@nil (string * rv)). cbn [fn_body]. rs.
    arm_of (fun d => destructured d ++ match ds_rt d with Some f => [destructure f "self_runtime"] | None => [] end) set_runtime_arm d (obj_of d ts (Some r0) xs).
    rewrite map_app, <- app_assoc. fold (places d). rewrite Ef. cbn [map app destructure init fst snd].
    set (e1 := [("self_runtime", RPlace (access f)); ("runtime", RRt r)]).
    change (map _ _ ++ _) with e1.
    assert (L : lookup "runtime" (places d ++ e1) = Some (RRt r)) by (apply places_skip, Nm; [exact Id|now left]).
    assert (L' : lookup "self_runtime" (places d ++ e1) = Some (RPlace (access f))) by (apply places_skip, Nm; [exact Id|right; now left]).
    pose proof (reach_places m hl p (cl 7) d e1 (Na d Id)) as Rp.
    unfold set_runtime_arm. cbn [snd]. remember (places d ++ e1) as e eqn:Ee. unfold runtime_setter. rewrite (isv d Id). rs. rewrite L. cbn. rewrite thread_app. cbn [rbind].
    match goal with |- context [thread _ (("runtime", RRt ?x) :: e) _ ?st] => change x with (nested r (v_tag d)); rewrite <- Er1;
      rewrite (rt_list m hl p (cl 7) true (("runtime", RRt r1) :: e) r1 (ds_fields d) ts xs (variant_name d) [] (extra_cells d (Some r0)) st) end;
      [|apply reach_cons; [apply Nm; [exact Id|now left]|exact Rp]|exact F|exact (g_states _ _ _ (Gd d ts I))|reflexivity|exact (g_nm _ _ _ (Gd d ts I))|reflexivity].
    cbn [app].
    pose proof (rt_cell se d ts (Gd d ts I) (set_rts r1 xs) r0 f (set_rts_fit r1 (ds_fields d) ts xs F) Ef) as [Ha Hb]. cbn [o_cells obj_of] in Ha, Hb.
    rs. rewrite L'. cbn. unfold self_cell, set_cell. cbn. rewrite Ha. cbn. rewrite Hb. reflexivity.
  Qed.

  (** *** merge *)
  Definition emerge_fn : fn := Fn "merge" true [par "reader"]
    (Block [SLet "tag" (ETry (EFun "u32" "deserialize" [EName "reader"]));
            SExpr (EMatch (EName "tag") (map (variant_merge_arm se) D ++ [(PWild, EBlock (Block [SReturn EInvalid] None))]))]
           (Some (EOk EUnit))).
  Lemma find_emerge : rs_deserialize se = true -> trait_method p "merge" = Some emerge_fn.
  Proof. intros E. symmetry. unfold emerge_fn. find_etrait. Qed.

  (** What the constructor of another variant gets. *)
  Lemma parent_args n v e s : wt t v = true -> s_self s = Some (ob v) -> exists c r,
    (match v with VEnum _ _ r _ => enum_parent r | _ => NoFuel end) = Ok r /\ c = rt_arg se r /\
    each (fun x => w <~ eval m hl p (cl (S n)) e x;; rval w) (if rs_state se then [EMeth (EMeth ESelf "runtime" []) "parent" []] else []) s = (s, Go c).
  Proof.
    intros Wv Es. pose proof (fun E => self_eruntime n v s E Wv Es) as H. destruct (wt_einv v Wv) as (d & ts & r & xs & I & -> & Er & Rb & Wf & F & Eo).
    unfold rt_arg. destruct (rs_state se).
    - destruct (H eq_refl) as (x & r' & H1 & H2 & H3 & H4). destruct r as [r|]; [|discriminate]. injection H1 as ->.
      destruct r' as [lg [|q k]]; [discriminate|]. exists [RRt (mkRt lg q)], (mkRt lg q). split; [reflexivity|]. split; [reflexivity|].
      rs. rewrite Es. cbn. rewrite H4. cbn. rewrite H3. reflexivity.
    - destruct r as [r|]; [discriminate|]. exists [], rt_default. repeat split; reflexivity.
  Qed.

  Definition no_merge_names : Prop := none_named ["reader"; "wire_type"; "field_number"] D.
  (** The second half of an arm: the loop over the fields of the variant. *)
  Lemma merge_variant n d ts c r xs k s : no_merge_names -> In (d, ts) ds -> fit (ds_fields d) ts xs -> s_self s = Some (obj_of d ts r xs) ->
    let e := [("tag", RNum k); ("reader", RReader)] in
    let '(xs', o) := De.run (struct_step m (fmergers m (typed_fields d ts))) xs (s_in s) in
    exists i, eval m hl p (cl n) e (EIfLet (PVariant (v_name d) (destructured d)) ESelf (Block [merger_loop d] None) None) s =
      match o with
      | Ok rest => (set_in rest (set_self (Some (ob (VEnum (v_tag d) c r xs'))) s), Go RUnit)
      | Err er => (set_in i (set_self (Some (ob (VEnum (v_tag d) c r xs'))) s), Ret (RErr er))
      | Panic => (set_in i (set_self (Some (ob (VEnum (v_tag d) c r xs'))) s), Boom)
      | NoFuel => (set_in i (set_self (Some (ob (VEnum (v_tag d) c r xs'))) s), Stuck)
      end.
  Proof.
    intros Nm I F Es. cbn zeta. pose proof (in_d _ _ I) as Id.
    assert (L : lookup "reader" (places d ++ [("tag", RNum k); ("reader", RReader)]) = Some RReader) by (apply places_skip, Nm; [exact Id|now left]).
    assert (Rr : reach_round m hl p (cl n) true (ds_fields d) (places d ++ [("tag", RNum k); ("reader", RReader)])).
    { intros k' w. apply reach_cons; [apply Nm; [exact Id|right; now left]|]. apply reach_cons; [apply Nm; [exact Id|right; right; now left]|].
      apply reach_places, Na, Id. }
    rewrite e_iflet, e_self. cbn [rbind]. rewrite Es. cbn [rbind rval ret matches]. rewrite Es. unfold is_variant_of. cbn [o_variant obj_of].
    rewrite (vn_some d Id), String.eqb_refl. fold (places d). remember (places d ++ _) as e eqn:Ee. rewrite b_eq. cbn [thread rbind].
    pose proof (merge_loop m hl p (cl n) true d e ts xs (variant_name d) [] (extra_cells d r) s (isv d Id) Rr F Es (g_nm _ _ _ (Gd d ts I)) L) as H.
    unfold typed_fields. destruct (De.run _ xs (s_in s)) as [xs' o]. destruct H as [i H]. exists i. rewrite H.
    rewrite !(obj_tag d ts) by exact I. destruct o; reflexivity.
  Qed.
  Lemma nf_u32 call s : native_fun m p call "u32" "deserialize" [RReader] s
    = io (uv_deserialize m 32 (s_in s)) (fun '(k, rest) => _ <~ upd_st (set_in rest);; ret (RNum k)) s.
  Proof. reflexivity. Qed.
  Lemma call_emerge n v s : no_merge_names -> rs_deserialize se = true -> wt t v = true -> s_self s = Some (ob v) ->
    let '(v', r) := merge m t v (s_in s) in merged s (ob v') r (cl (S (S n)) emerge_fn [RReader] s).
  Proof.
    intros Nm E Wv Es. pose proof (parent_args n v) as Pa. destruct (wt_einv v Wv) as (d & ts & r & xs & I & Ev & Er & Rb & Wf & F & Eo).
    rewrite t_eq, Ev, merge_enum, <- Ev.
    enter [("reader", RReader)] (@nil (string * rv)). unfold emerge_fn. cbn [fn_body].
    remember (ob v) as o eqn:Eov. rewrite b_eq. cbn [thread rbind]. rs. rewrite nf_u32. cbn [s_in set_vars].
    destruct (uv_deserialize m 32 (s_in s)) as [[k rest]|er| |]; cbn [try]; rs.
    2-4: exists (s_in s); rewrite <- Eov; destruct s; cbn in *; subst; reflexivity.
    rewrite first_tag by reflexivity. rewrite find_va, find_d. destruct (by_tag k) as [[d' ts']|] eqn:B; cbn [option_map fst].
    2:{ rs. exists rest. rewrite <- Eov. destruct s; cbn in *; subst; reflexivity. }
    destruct (by_tag_in _ _ _ B) as [I' Ek]. pose proof (in_d _ _ I) as Id. pose proof (in_d _ _ I') as Id'. cbn [snd variant_merge_arm].
    rewrite e_block, b_eq. cbn [thread rbind]. rewrite s_expr. cbn [rbind]. rewrite e_iflet, e_self. cbn [rbind].
    cbn [s_self set_in set_vars]. rewrite Es. cbn [rbind rval ret matches].
    cbn [s_self set_in set_vars]. rewrite Es, Eo. unfold is_variant_of. cbn [o_variant obj_of].
    rewrite (vn_some d Id), (name_tag d ts d' ts') by assumption. rewrite <- Ek.
    destruct (N.eqb_spec (v_tag d) (v_tag d')) as [Et|Et]; cbn [try].
    - pose proof (by_tag_self _ _ I) as B'. rewrite Et, (by_tag_self _ _ I') in B'. injection B' as <- <-.
      rewrite b_eq. cbn [thread rbind ret]. rewrite s_expr. cbn [rbind map app].
      match goal with |- context [eval _ _ _ _ ?e (EIfLet _ _ _ _) ?x] =>
        pose proof (merge_variant (S n) d' ts' (is_some (ds_cache d')) r xs (v_tag d') x Nm I' F) as H end.
      cbn [s_self s_in set_in set_vars] in H. rewrite Es, Eo in H. specialize (H eq_refl). rewrite Ev. cbn [snd va fst].
      destruct (De.run _ xs rest) as [xs' o']. destruct H as [i H]. exists i. rewrite H. destruct o'; rs; reflexivity.
    - rewrite b_eq. cbn [thread rbind]. rewrite s_deref. cbn [rbind]. rewrite e_fun. cbn [rbind].
      match goal with |- context [each _ _ ?x] => destruct (Pa [("tag", RNum (v_tag d')); ("reader", RReader)] x Wv) as (c & q & P1 & P2 & P3); [cbn; now rewrite Es|] end.
      rewrite Ev in P1. rewrite P1. cbn [bind try]. rewrite P3. subst c. rewrite (self_vctor n q d' ts') by (apply Se, E || exact I').
      rewrite e_self. cbn [rbind rval ret]. cbn [s_self set_in set_vars]. rewrite Es. cbn [store_to]. cbn [s_self set_in set_vars]. rewrite Es. cbn [rbind ret].
      rewrite s_expr. cbn [rbind].
      assert (W1 : wt t (variant_ctor (rs_state se) (va (d', ts')) q) = true).
      { rewrite t_eq. apply (ctor_wt (rs_state se) vs (v_tag d')); [exact Ok_|]. now rewrite find_va, (by_tag_self _ _ I'). }
      destruct (wt_einv _ W1) as (d1 & ts1 & r1 & xs1 & I1 & Ev1 & Er1 & Rb1 & Wf1 & F1 & Eo1).
      assert (T1 : v_tag d1 = v_tag d') by (unfold variant_ctor, va in Ev1; cbn in Ev1; congruence).
      pose proof (by_tag_self _ _ I1) as B'. rewrite T1, (by_tag_self _ _ I') in B'. injection B' as <- <-.
      rewrite Ev1 in *. rewrite Eo1. 
      match goal with |- context [eval _ _ _ _ ?e (EIfLet _ _ _ _) ?x] =>
        pose proof (merge_variant (S n) d' ts' (is_some (ds_cache d')) r1 xs1 (v_tag d') x Nm I' F1) as H end.
      cbn [s_self s_in set_in set_vars set_self] in H. specialize (H eq_refl). cbn [snd va fst].
      destruct (De.run _ xs1 rest) as [xs' o']. destruct H as [i H]. exists i. rewrite H. destruct o'; rs; reflexivity.
  Qed.
  Lemma enum_merge : no_merge_names -> merge_spec m hl p se t ob.
  Proof.
    intros Nm E v s Wv. unfold invoke, call_method, depth. cbn [s_self set_self]. rewrite find_emerge by exact E.
    pose proof (call_emerge 6 v (on v s) Nm E Wv eq_refl) as M. cbn [s_in set_self] in M. destruct (merge m t v (s_in s)) as [v' r]. now apply merged_answers.
  Qed.

  (** *** Replay *)
  Definition ehu_fn : fn := Fn "handle_update" true [par "reader"]
    (Block [SDeref ESelf (EFun "Self" "with_runtime" [EMeth (EMeth ESelf "runtime" []) "parent" []])]
           (Some (EMeth ESelf "merge" [EName "reader"]))).
  Lemma find_ehu : rs_state se = true -> trait_method p "handle_update" = Some ehu_fn.
  Proof. intros E. symmetry. unfold ehu_fn. find_etrait. Qed.
  (** [Self::with_runtime] is that of the trait. *)
  Definition with_runtime_free : Prop := named "with_runtime" (p_inherent p) = None.
  Lemma self_with_runtime n r s : with_runtime_free -> rs_state se = true ->
    native_fun m p (cl (S (S (S n)))) "Self" "with_runtime" [RRt r] s = (s, Go (RObj (ob (dflt t r)))).
  Proof.
    intros Wr E. unfold native_fun. cbn [String.eqb Ascii.eqb Bool.eqb]. unfold static. rewrite named_app, Wr.
    replace (named "with_runtime" (p_traits p)) with (Some (with_runtime_fn se)).
    2:{ unfold enum_prog, enum_traits. cbn [p_traits]. rewrite E. destruct (rs_partial_eq se), (rs_default se), (rs_hash se), (rs_serialize se), (rs_deserialize se); reflexivity. }
    unfold call_static. cbn [fn_self with_runtime_fn]. rewrite call_ewith_runtime by exact E. now destruct s.
  Qed.
  Lemma call_ehu n v s : no_merge_names -> with_runtime_free -> rs_state se = true -> wt t v = true -> s_self s = Some (ob v) ->
    let '(v', r) := handle_update m t (s_in s) v in updated s (ob v') r (cl (S (S (S (S n)))) ehu_fn [RReader] s).
  Proof.
    intros Nm Wr E Wv Es.
    rewrite (call_S m hl p (S (S (S n))) ehu_fn [RReader] s [("reader", RReader)] [] eq_refl). unfold ehu_fn. cbn [fn_body].
    destruct (self_eruntime (S (S n)) v (set_vars [] s) E Wv Es) as (x & r & H1 & H2 & H3 & H4).
    destruct (wt_einv v Wv) as (d & ts & r' & xs & I & Ev & Er & Rb & Wf & F & Eo). rewrite E in Er. destruct r' as [r'|]; [|discriminate].
    rewrite Ev in H1. injection H1 as ->. destruct r as [lg [|q k]]; [discriminate H2|].
    assert (Eh : handle_update m t (s_in s) v = ok_unit (merge m t (dflt t (mkRt lg q)) (s_in s))) by (rewrite Ev; reflexivity).
    rewrite Eh. clear Eh. pose proof (wt_dflt t Ok_ (mkRt lg q)) as W0. pose proof (self_with_runtime n (mkRt lg q) (set_vars [] s) Wr E) as Sw.
    remember (dflt t (mkRt lg q)) as v0 eqn:E0. remember (merge m t v0 (s_in s)) as mr eqn:Em.
    remember (ob v) as o eqn:Eov. remember (ob v0) as o0 eqn:Eo0. rewrite b_eq. cbn [thread rbind]. rs. rewrite Es. cbn. rewrite H4. cbn. rewrite H3. cbn.
    rewrite Sw. rs. rewrite Es. rs. rewrite Es. rs. unfold call_method. cbn [s_self set_self].
    assert (De : rs_deserialize se = true) by (destruct Se as [S1 _]; apply S1, E).
    rewrite method_etrait, find_emerge by (exact De || reflexivity).
    match goal with |- context [cl (S (S (S n))) emerge_fn [RReader] ?y] => pose proof (call_emerge (S n) v0 y Nm De W0) as M end.
    cbn [s_in s_self set_self set_vars] in M. rewrite <- Em, <- Eo0 in M. specialize (M eq_refl). destruct mr as [v' oo]. cbn [ok_unit].
    destruct M as [i M]. rewrite M.
    destruct oo as [rest|er| |]; cbn [bind]; [exists rest|exists i..]; reflexivity.
  Qed.
  Lemma enum_handle_update : no_merge_names -> with_runtime_free -> handle_update_spec m hl p se t ob.
  Proof.
    intros Nm Wr E v s Wv. unfold invoke, depth. rewrite find_ehu by exact E. unfold call_method. cbn [s_self set_self].
    pose proof (call_ehu 4 v (on v s) Nm Wr E Wv eq_refl) as H. cbn [s_in set_self] in H. destruct (handle_update m t (s_in s) v) as [v' r].
    now apply updated_handled in H.
  Qed.

  Lemma ehandle_here kind key bs tag c r xs : handle m t [] kind key bs (VEnum tag c (Some r) xs) =
    match kind with KUpdate => handle_update m t bs (VEnum tag c (Some r) xs) | _ => (VEnum tag c (Some r) xs, Err InvalidData) end.
  Proof. destruct kind; reflexivity. Qed.
  Lemma ehandle_below k path kind key bs tag c r xs : let v := VEnum tag c (Some r) xs in
    handle m t (k :: path) kind key bs v =
    match by_tag k with
    | None => (v, Err InvalidData)
    | Some (d, ts) =>
        if tag =? k then
          match path with
          | fn :: path => let '(xs', o) := handle_field (hfields m (combine (map snd (ds_fields d)) ts)) xs fn path kind key bs in (VEnum tag c (Some r) xs', o)
          | [] => (v, Err InvalidData)
          end
        else (v, Err InvalidData)
    end.
  Proof.
    cbn zeta. rewrite t_eq. cbn [handle].
    replace (assoc k (map _ vs)) with (option_map (fun d : dstruct * list ty => hfields m (combine (map snd (ds_fields (fst d))) (snd d))) (by_tag k)).
    - destruct (by_tag k) as [[d ts]|]; reflexivity.
    - unfold by_tag. clear. induction ds as [|x l IH]; [reflexivity|]. cbn [find map option_map fst]. unfold assoc. fold @assoc. cbn [assoc fst snd va].
      rewrite (N.eqb_sym k). destruct (v_tag (fst x) =? k); [reflexivity|exact IH].
  Qed.
  Definition no_handle_names : Prop := none_named ["path"; "kind"; "key"; "reader"; "tag"] D.
  Lemma enum_handle : no_merge_names -> no_handle_names -> with_runtime_free -> handle_spec m hl p se t ob.
  Proof.
    intros Nm Nh Wr E v path kind key s Wv. unfold invoke, depth.
    replace (trait_method p "handle") with (Some (Fn "handle" true [mut "path"; par "kind"; par "key"; par "reader"]
         (Block [] (Some (EIfLet (PSome "tag") (EMeth (EName "path") "next" [])
           (Block [] (Some (EMatch (EName "tag") (map variant_replay_arm D ++ [(PWild, EInvalid)]))))
           (Some (Block [] (Some (EMatch (EName "kind")
             [(PUpdate, EMeth ESelf "handle_update" [EName "reader"]); (PWild, EInvalid)])))))))))  by find_etrait.
    unfold call_method at 1. cbn [s_self set_self set_path].
    destruct (wt_einv v Wv) as (d & ts & r & xs & I & Ev & Er & Rb & Wf & F & Eo). rewrite E in Er. destruct r as [r|]; [|discriminate].
    enter [("path", RMut "path"); ("kind", RKind kind); ("key", RKey key); ("reader", RReader)] [("path", RPath)].
    cbn [fn_body].
    destruct path as [|k path].
    - rewrite Ev, ehandle_here. pose proof (fun n x => call_ehu n v x Nm Wr E Wv) as H. rewrite Ev in H.
      remember (handle_update m t (s_in s) _) as hu eqn:Eh. remember (ob (VEnum _ _ _ _)) as o eqn:Eo' in *. clear Ev Wv.
      rs. destruct kind; rs; try (subst o; split; [exists (s_in s), []; reflexivity|reflexivity]).
      rewrite method_etrait, find_ehu by (assumption || reflexivity). unfold call_method. cbn [s_self set_self set_vars].
      match goal with |- context [cl 7 ehu_fn [RReader] ?x] => specialize (H 3%nat x eq_refl) end.
      cbn [s_in set_vars set_self set_path] in H. rewrite <- Eh in H. destruct hu as [v' q]. destruct H as [i H]. rewrite H. cbn.
      destruct q; cbn; (split; [|reflexivity]) || reflexivity; exists i, []; reflexivity.
    - rewrite Ev, ehandle_below, <- Ev. remember (ob v) as o eqn:Eov.
      rewrite b_eq. cbn [thread rbind ret]. rewrite e_iflet. cbn [rbind]. rewrite e_meth. cbn [rbind]. rewrite e_name. cbn [lookup String.eqb Ascii.eqb Bool.eqb]. rs.
      rewrite first_tag by reflexivity. rewrite find_d. destruct (by_tag k) as [[d' ts']|] eqn:B; cbn [option_map fst].
      2:{ rs. split; [|reflexivity]. exists (s_in s), path. rewrite Eov. reflexivity. }
      destruct (by_tag_in _ _ _ B) as [I' Ek]. pose proof (in_d _ _ I) as Id. pose proof (in_d _ _ I') as Id'.
      set (e0 := [("tag", RNum k); ("path", RMut "path"); ("kind", RKind kind); ("key", RKey key); ("reader", RReader)]).
      set (s0 := set_path path (set_vars [("path", RPath)] (set_path (k :: path) (set_self (Some o) s)))).
      change (eval m hl p (cl 7) _ (snd (variant_replay_arm d')) _) with (eval m hl p (cl 7) e0 (snd (variant_replay_arm d')) s0).
      cbn [snd variant_replay_arm]. rewrite e_block, b_eq. cbn [thread rbind ret]. rewrite e_iflet, e_self. cbn [rbind].
      change (s_self s0) with (Some o). cbn [rbind rval ret matches]. change (s_self s0) with (Some o). rewrite Eo. unfold is_variant_of. cbn [o_variant obj_of].
      rewrite (vn_some d Id), (name_tag d ts d' ts') by assumption. rewrite <- Ek.
      destruct (N.eqb_spec (v_tag d) (v_tag d')) as [Et|Et].
      2:{ rs. split; [|reflexivity]. exists (s_in s), path. subst s0. now rewrite Eov. }
      pose proof (by_tag_self _ _ I) as B'. rewrite Et, (by_tag_self _ _ I') in B'. injection B' as <- <-.
      fold (places d'). pose proof (reach_places m hl p (cl 7) d' e0 (Na d' Id')) as Rp.
      assert (Lk : forall x, In x ["path"; "kind"; "key"; "reader"; "tag"] -> lookup x (places d' ++ e0) = lookup x e0).
      { intros x Hx. apply places_skip. now apply Nh. }
      pose proof (Lk "path" ltac:(cbn; auto)) as L1. pose proof (Lk "kind" ltac:(cbn; auto)) as L2. pose proof (Lk "key" ltac:(cbn; auto)) as L3.
      pose proof (Lk "reader" ltac:(cbn; auto 6)) as L4. cbn [lookup e0 String.eqb Ascii.eqb Bool.eqb] in L1, L2, L3, L4.
      remember (places d' ++ e0) as e eqn:Ee. unfold replayer. rewrite (isv d' Id').
      rewrite b_eq. cbn [thread rbind ret]. rewrite e_iflet. cbn [rbind]. rewrite e_meth. cbn [rbind]. rewrite e_name, L1. rs.
      destruct path as [|fn path]; cbn.
      + rs. rewrite L2. cbn. destruct kind; rs; (split; [|reflexivity]); exists (s_in s), []; subst s0; now rewrite Eov.
      + rs. match goal with |- context [first_arm _ ?e' _ _ ?x] =>
          rewrite (replay_arms m hl p (cl 7) true e' fn path kind key (s_in s) (ds_fields d') ts' xs (variant_name d') [] (extra_cells d' (Some r)) x) end;
          [|apply reach_cons; [apply Nh; [exact Id'|cbn; auto 6]|exact Rp]|exact F|exact (g_states _ _ _ (Gd _ _ I'))|unfold holds, s0; cbn; now rewrite Eo
           |exact (g_nm _ _ _ (Gd _ _ I'))|exact L1|exact L2|exact L3|exact L4|reflexivity|reflexivity|reflexivity].
        destruct (handle_field _ xs fn path kind key (s_in s)) as [xs' q]. rewrite (obj_tag d' ts') by exact I'.
        destruct q; cbn; (split; [|reflexivity]) || reflexivity; exists (s_in s), path; reflexivity.
  Qed.
End Enum.
