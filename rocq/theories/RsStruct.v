(** The code derived for a struct does what the models say. *)
From Verif Require Import Base Varint WireFmt Utf8 Types Ser De Hash Log State Meta Gen RsGen RsRun RsSpec TypeProofs DeProofs EqProofs RsProofs.
From Coq Require Import String.
Import String.StringSyntax.
Local Open Scope string_scope.
Local Open Scope list_scope.
Local Open Scope N_scope.

(** What [settle] sees to. *)
Definition settled (se : rsetting) : Prop :=
  (rs_state se = true -> rs_serialize se = true /\ rs_deserialize se = true /\ rs_setters se = true) /\
  (rs_deserialize se = true -> rs_ctors se = true /\ rs_default se = true).
Lemma settle_settled s nc : settled (settle s nc).
Proof. unfold settled, settle. cbn. split; intros H; rewrite H; cbn; auto. Qed.

(** What is needed of a struct or variant and its field types. *)
Record good (se : rsetting) (d : dstruct) (ts : list ty) : Prop := Good {
  g_len : List.length ts = List.length (ds_fields d);
  g_names : NoDup (cell_names d);
  g_fields : fields_ok (rs_state se) (typed_fields d ts) = true;
  g_tags : nodupb (map (fun p => f_tag (fst p)) (typed_fields d ts)) = true;
  g_rt : is_some (ds_rt d) = rs_state se }.

Section Good.
  Variables (se : rsetting) (d : dstruct) (ts : list ty).
  Hypothesis G : good se d ts.
  Notation fl := (ds_fields d).
  Lemma g_states : states fl ts. Proof. apply (states_ok (rs_state se)). exact (g_fields _ _ _ G). Qed.
  Lemma g_fit xs : wt_fields (typed_fields d ts) xs = true -> fit fl ts xs. Proof. apply fit_wt. exact (g_len _ _ _ G). Qed.
  Lemma g_nm : NoDup (map fst (@nil (string * cell)) ++ map nm fl). Proof. apply nodup_fields. exact (g_names _ _ _ G). Qed.
  Lemma g_none : ds_rt d = None -> forallb (fun f : dfield => negb (f_state (snd f))) fl = true.
  Proof.
    intros E. pose proof (g_rt _ _ _ G) as R. rewrite E in R. apply (no_states fl ts); [exact (g_len _ _ _ G)|].
    pose proof (g_fields _ _ _ G) as F. rewrite <- R in F. exact F.
  Qed.
  (** The runtime of an object. *)
  Lemma rt_cell xs r f : fit fl ts xs -> ds_rt d = Some f ->
    lookup (access f) (o_cells (obj_of d ts (Some r) xs)) = Some (CRt r) /\
    forall r', assign (access f) (CRt r') (o_cells (obj_of d ts (Some r) xs)) = o_cells (obj_of d ts (Some r') xs).
  Proof.
    intros F E. pose proof (g_names _ _ _ G) as N. unfold cell_names in N. rewrite E in N.
    unfold obj_of, extra_cells. cbn [o_cells]. rewrite E, app_assoc.
    assert (Ni : ~ In (access f) (map fst (val_cells fl ts xs ++ match ds_cache d with Some f => [(access f, CSize)] | None => [] end))).
    { rewrite map_app, val_cells_names by exact F. rewrite app_assoc in N. apply NoDup_remove_2 in N. rewrite app_nil_r in N.
      destruct (ds_cache d); exact N. }
    split; [now apply lookup_mid|]. intros r'. rewrite assign_mid by exact Ni. now rewrite <- app_assoc.
  Qed.
  Lemma cache_cell xs r f : fit fl ts xs -> ds_cache d = Some f -> lookup (access f) (o_cells (obj_of d ts r xs)) = Some CSize.
  Proof.
    intros F E. pose proof (g_names _ _ _ G) as N. unfold cell_names in N. rewrite E in N.
    unfold obj_of, extra_cells. cbn [o_cells]. rewrite E. apply lookup_mid.
    rewrite val_cells_names by exact F. intros I. cbn [app] in N. apply NoDup_remove_2 in N. apply N, in_or_app. now left.
  Qed.
End Good.

(** The fields of another object of this struct. *)
Lemma others_of m hl p call fl : forall tl yl vn A B e, fit fl tl yl -> NoDup (map fst A ++ map nm fl) ->
  lookup "other" e = Some (RObj (Obj vn (A ++ val_cells fl tl yl ++ B))) -> others m hl p call false e fl tl yl.
Proof.
  induction fl as [|f fl IH]; intros [|t tl] [|[fi y] yl] vn A B e F N L; try contradiction; [exact I|]. destruct F as [_ F].
  apply nodup_hd in N. destruct N as [Ni N]. cbn [val_cells] in L. rewrite <- app_comm_cons in L. split.
  - intros s. unfold field_other. rs. rewrite L. cbn. rewrite lookup_mid by exact Ni. reflexivity.
  - rewrite mid_app in L. exact (IH tl yl vn _ B e F (N _) L).
Qed.

(** The outcome of [merge], with all of the state. *)
Definition merged (s : st) (o : obj) (r : res bytes) (out : st * ctl rv) : Prop :=
  exists i, out = match r with
                  | Ok rest => (set_in rest (set_self (Some o) s), Go (ROk RUnit))
                  | Err er => (set_in i (set_self (Some o) s), Go (RErr er))
                  | Panic => (set_in i (set_self (Some o) s), Boom)
                  | NoFuel => (set_in i (set_self (Some o) s), Stuck)
                  end.
Lemma merged_answers s o r out : merged s o r out -> answers s o r set_in out.
Proof. intros [i ->]. destruct r; cbn; auto. Qed.

Section Struct.
  Variables (m : mode) (hl : store) (se : rsetting) (d : dstruct) (ts : list ty).
  Hypothesis Se : settled se.
  Hypothesis Dv : ds_variant d = None.
  Hypothesis G : good se d ts.
  Hypothesis Ni : NoDup (map fn_name (struct_inherent se d)).
  Notation p := (struct_prog se d ts).
  Notation t := (struct_type se d ts).
  Notation fl := (ds_fields d).
  Notation ob := (struct_obj d ts).
  Notation on v s := (set_self (Some (ob v)) s).
  Notation cl := (call m hl p).

  Lemma not_variant : is_variant d = false. Proof. unfold is_variant. now rewrite Dv. Qed.
  Lemma reach_self call e : reach m hl p call false fl e.
  Proof. intros f s _ N. unfold field_of. rs. destruct (s_self s); [reflexivity|congruence]. Qed.
  (** What a value of the type looks like. *)
  Lemma wt_inv v : wt t v = true -> exists r xs, v = VStruct (is_some (ds_cache d)) r xs /\ is_some r = rs_state se /\
    wt_fields (typed_fields d ts) xs = true /\ fit fl ts xs.
  Proof.
    intros W. unfold struct_type in W. destruct v; try discriminate W. rewrite wt_struct_eq in W. apply andb_true_iff in W. destruct W as [W W3].
    apply andb_true_iff in W. destruct W as [W1 W2]. cbn [s_cache s_state] in *. apply eqb_prop in W1, W2. subst c.
    exists r, fs. split; [reflexivity|]. split; [now destruct r|]. split; [exact W3|]. now apply (g_fit se d ts G).
  Qed.

  Ltac find_trait := unfold trait_method, struct_prog, struct_traits; cbn [p_traits]; repeat match goal with H : rs_partial_eq se = _ |- _ => rewrite H | H : rs_hash se = _ |- _ => rewrite H | H : rs_serialize se = _ |- _ => rewrite H | H : rs_deserialize se = _ |- _ => rewrite H | H : rs_state se = _ |- _ => rewrite H end;
    destruct (rs_partial_eq se), (rs_default se), (rs_hash se), (rs_serialize se), (rs_deserialize se), (rs_state se); reflexivity.

  (** Constructors. *)
  Lemma call_ctor n r s : cl (S n) (ctor se d) (rt_arg se r) s = (s, Go (RObj (ob (dflt t r)))).
  Proof.
    assert (Pa : params (fn_params (ctor se d)) (rt_arg se r) = Some (rt_env r d, [])).
    { unfold rt_arg, ctor, rt_env. cbn [fn_params]. pose proof (g_rt _ _ _ G) as R. destruct (ds_rt d); rewrite <- R; reflexivity. }
    rewrite (call_S _ _ _ _ _ _ _ _ _ Pa).
    rewrite (ctor_block m hl p (cl n) se d ts r).
    - cbn. f_equal; [now destruct s|]. do 2 f_equal. unfold own_rt, rt_part. rewrite Dv. pose proof (g_rt _ _ _ G) as R.
      destruct (ds_rt d); cbn in R; rewrite <- R; reflexivity.
    - unfold decl_of. cbn [p_decl struct_prog find]. unfold decl at 1. cbn [fst]. unfold variant_name. rewrite Dv. reflexivity.
    - exact (g_len _ _ _ G).
    - exact (g_names _ _ _ G).
    - exact (g_states _ _ _ G).
    - exact (g_none _ _ _ G).
  Qed.
  Lemma prefix_ctor : ctor_name se d = rs_prefix se. Proof. unfold ctor_name. now rewrite Dv. Qed.
  Lemma find_ctor : rs_ctors se = true -> named (rs_prefix se) (p_inherent p) = Some (ctor se d).
  Proof. intros E. unfold struct_prog, struct_inherent. cbn [p_inherent]. rewrite E. unfold named. cbn. rewrite prefix_ctor, String.eqb_refl. reflexivity. Qed.
  Lemma self_ctor n r s : rs_ctors se = true -> native_fun m p (cl (S n)) "Self" (rs_prefix se) (rt_arg se r) s = (s, Go (RObj (ob (dflt t r)))).
  Proof.
    intros E. unfold native_fun. cbn. unfold static. rewrite named_app, find_ctor by exact E. unfold call_static.
    cbn [fn_self ctor]. rewrite call_ctor. cbn. now destruct s.
  Qed.
  Lemma call_default n s : rs_ctors se = true -> cl (S (S n)) (default_fn se) [] s = (s, Go (RObj (ob (dflt t rt_default)))).
  Proof.
    intros E. rewrite (call_S _ _ _ _ (default_fn se) [] s [] [] eq_refl). unfold default_fn. cbn [fn_body]. rs.
    assert (V : each (fun x => v <~ eval m hl p (cl (S n)) [] x;; rval v) (rt_args se) (set_vars [] s) = (set_vars [] s, Go (rt_arg se rt_default))).
    { unfold rt_args, rt_arg. destruct (rs_state se); [|reflexivity]. rs. now rewrite nf_runtime. }
    rewrite V. cbv beta iota. rewrite self_ctor by exact E. cbn. now destruct s.
  Qed.
  Lemma call_with_runtime n r s : rs_state se = true -> cl (S (S n)) (with_runtime_fn se) [RRt r] s = (s, Go (RObj (ob (dflt t r)))).
  Proof.
    intros E. assert (C : rs_ctors se = true) by (destruct Se as [S1 S2]; apply S2, S1, E).
    rewrite (call_S _ _ _ _ (with_runtime_fn se) [RRt r] s [("runtime", RRt r)] [] eq_refl). unfold with_runtime_fn. cbn [fn_body]. rs.
    pose proof (self_ctor n r (set_vars [] s) C) as X. unfold rt_arg in X. rewrite E in X. rewrite X. cbn. now destruct s.
  Qed.
  Lemma struct_makes : makes_spec m hl p se t ob.
  Proof.
    split; [|split].
    - intros E r s. unfold make, depth. rewrite find_ctor by exact E. unfold call_static. cbn [fn_self ctor]. rewrite call_ctor. cbn. now destruct s.
    - intros E1 E2 s. unfold make_trait, depth.
      replace (named "default" (p_traits p)) with (Some (default_fn se)).
      2:{ unfold struct_prog, struct_traits. cbn [p_traits]. rewrite E1. destruct (rs_partial_eq se); reflexivity. }
      unfold call_static. cbn [fn_self default_fn]. rewrite call_default by exact E2. cbn. now destruct s.
    - intros E r s. unfold make_trait, depth.
      replace (named "with_runtime" (p_traits p)) with (Some (with_runtime_fn se)).
      2:{ unfold struct_prog, struct_traits. cbn [p_traits]. rewrite E. destruct (rs_partial_eq se), (rs_default se), (rs_hash se), (rs_serialize se), (rs_deserialize se); reflexivity. }
      unfold call_static. cbn [fn_self with_runtime_fn]. rewrite call_with_runtime by exact E. cbn. now destruct s.
  Qed.

  Lemma struct_eq : eq_spec m hl p se t ob.
  Proof.
    intros E v w s Wv Ww. destruct (wt_inv v Wv) as (r & xs & -> & Er & _ & F). destruct (wt_inv w Ww) as (r' & ys & -> & Er' & _ & F').
    unfold invoke, call_method, depth. cbn [s_self set_self].
    replace (trait_method p "eq") with (Some (Fn "eq" true [par "other"] (eq_block d))) by find_trait.
    set (o' := ob _) at 1. unfold depth.
    enter [("other", RObj o')] (@nil (string * rv)). cbn [fn_body]. unfold eq_block. rewrite not_variant, b_eq. cbn [rbind].
    assert (Ot : others m hl p (cl 7) false [("other", RObj o')] fl ts ys).
    { apply (others_of m hl p (cl 7) fl ts ys (variant_name d) [] (extra_cells d r') _ F' (g_nm _ _ _ G)). reflexivity. }
    rewrite (eq_list m hl p (cl 7) false [("other", RObj o')] fl ts xs ys (variant_name d) [] (extra_cells d r) _ (reach_self _ _) F F'); [|reflexivity|exact (g_nm _ _ _ G)|exact Ot].
    replace (veqb (VStruct (is_some (ds_cache d)) r xs) (VStruct (is_some (ds_cache d)) r' ys)) with (eq_fields xs ys) by reflexivity.
    destruct (eq_fields xs ys); rs; f_equal; now destruct s.
  Qed.

  Lemma struct_hash : hash_spec m hl p se t ob.
  Proof.
    intros E v s Wv. destruct (wt_inv v Wv) as (r & xs & -> & Er & _ & F). unfold invoke, call_method, depth. cbn [s_self set_self].
    replace (trait_method p "hash") with (Some (Fn "hash" true [par "state"] (Block (hasher d) None))) by find_trait.
    enter [("state", RHasher)] (@nil (string * rv)). cbn [fn_body]. unfold hasher. rewrite not_variant, b_eq. cbn [rbind].
    rewrite (hash_list m hl p (cl 7) false [("state", RHasher)] fl ts xs (variant_name d) [] (extra_cells d r) _ (reach_self _ _) F); [|reflexivity|exact (g_nm _ _ _ G)|reflexivity].
    cbn. f_equal.
  Qed.

  Lemma struct_size : size_spec m hl p se t ob.
  Proof.
    intros E v s Wv. destruct (wt_inv v Wv) as (r & xs & -> & Er & _ & F). unfold invoke, call_method, depth. cbn [s_self set_self].
    replace (trait_method p "compute_size") with (Some (Fn "compute_size" true [] (Block (SLetMut "size" (ENum 0) :: sizer d) (Some (EName "size"))))) by find_trait.
    enter (@nil (string * rv)) (@nil (string * rv)). cbn [fn_body]. unfold sizer. rewrite not_variant, b_eq, compute_struct. cbn [rbind thread]. rs.
    set (s1 := set_vars [("size", RNum 0)] _).
    pose proof (size_list m hl p (cl 7) false [("size", RMut "size")] fl ts xs (variant_name d) [] (extra_cells d r) s1 0 (reach_self _ _) F eq_refl (g_nm _ _ _ G) eq_refl eq_refl) as L.
    cbn [List.length s1 s_at s_heap set_vars set_self] in L.
    destruct (comp_fields m (s_at s) 0 0 xs (s_heap s)) as [[k h]|er| |]; cbn [returns].
    - rewrite L. rs. f_equal.
    - destruct L as [s' ->]. reflexivity.
    - destruct L as (s' & -> & L). split; [exact L|reflexivity].
    - destruct L as [s' ->]. reflexivity.
  Qed.

  Lemma struct_ser : ser_spec m hl p se t ob.
  Proof.
    intros E v s Wv. destruct (wt_inv v Wv) as (r & xs & -> & Er & _ & F). unfold invoke, call_method, depth. cbn [s_self set_self].
    replace (trait_method p "serialize_cached") with (Some (Fn "serialize_cached" true [par "writer"] (Block (serializer d) (Some (EOk EUnit))))) by find_trait.
    enter [("writer", RWriter)] (@nil (string * rv)). cbn [fn_body]. unfold serializer. rewrite not_variant, b_eq, ser_struct. cbn [rbind].
    set (s1 := set_vars [] _).
    pose proof (ser_list m hl p (cl 7) false [("writer", RWriter)] fl ts xs (variant_name d) [] (extra_cells d r) s1 (reach_self _ _) F eq_refl (g_nm _ _ _ G) eq_refl) as L.
    cbn [List.length s1 s_at s_heap set_vars set_self] in L.
    destruct (serc_fields m (s_at s) 0 xs (s_heap s)) as [[k h]|er| |]; cbn [answers].
    - rewrite L. rs. f_equal.
    - destruct L as (s' & -> & L). split; [exact L|reflexivity].
    - destruct L as (s' & -> & L). split; [exact L|reflexivity].
    - destruct L as [s' ->]. reflexivity.
  Qed.

  Lemma struct_cache : cache_spec m hl p se t ob.
  Proof.
    intros E v s Wv. destruct (wt_inv v Wv) as (r & xs & -> & Er & _ & F). unfold invoke, call_method, depth. cbn [s_self set_self].
    replace (trait_method p "size_cache") with
      (Some (Fn "size_cache" true [] (Block [] (Some match ds_cache d with Some f => ESome (ERef (field_of false f)) | None => ENone end)))) by find_trait.
    cbn [has_cache]. enter (@nil (string * rv)) (@nil (string * rv)). cbn [fn_body].
    destruct (ds_cache d) as [f|] eqn:Ec; cbn [is_some].
    - exists (access f). split; [|exact (cache_cell se d ts G xs r f F Ec)]. unfold field_of. rs. f_equal.
    - rs. f_equal.
  Qed.

  Definition merge_fn : fn := Fn "merge" true [par "reader"] (Block [merger_loop d] (Some (EOk EUnit))).
  Lemma call_merge n v s : wt t v = true -> s_self s = Some (ob v) ->
    let '(v', r) := merge m t v (s_in s) in merged s (ob v') r (cl (S n) merge_fn [RReader] s).
  Proof.
    intros Wv Es. destruct (wt_inv v Wv) as (r & xs & -> & Er & _ & F).
    enter [("reader", RReader)] (@nil (string * rv)). unfold merge_fn. cbn [fn_body]. rewrite b_eq. cbn [rbind thread].
    pose proof (merge_loop m hl p (cl n) false d [("reader", RReader)] ts xs (variant_name d) [] (extra_cells d r)
      (set_vars [] s) not_variant (fun k w => reach_self _ _) F Es (g_nm _ _ _ G) eq_refl) as L.
    cbn [s_in set_vars] in L.
    change (merge m t (VStruct (is_some (ds_cache d)) r xs) (s_in s)) with
      (let '(fs', o) := De.run (struct_step m (fmergers m (typed_fields d ts))) xs (s_in s) in (VStruct (is_some (ds_cache d)) r fs', o)).
    unfold typed_fields. destruct (De.run _ xs (s_in s)) as [xs' o]. destruct L as [i L]. exists i. rewrite L. destruct o; rs; reflexivity.
  Qed.
  Lemma find_merge : rs_deserialize se = true -> trait_method p "merge" = Some merge_fn.
  Proof. intros E. symmetry. unfold merge_fn. find_trait. Qed.
  Lemma struct_merge : merge_spec m hl p se t ob.
  Proof.
    intros E v s Wv. unfold invoke, call_method, depth. cbn [s_self set_self]. rewrite find_merge by exact E.
    pose proof (call_merge 7 v (on v s) Wv eq_refl) as M. cbn [s_in set_self] in M. destruct (merge m t v (s_in s)) as [v' r]. now apply merged_answers.
  Qed.

  (** [self.n()] for the methods of the traits. *)
  Lemma method_trait n : sets_name n = false -> method p n = trait_method p n.
  Proof.
    intros H. unfold method, trait_method, struct_prog, struct_inherent. cbn [p_inherent p_traits]. rewrite !filter_app, named_app.
    assert (A : named n (filter fn_self (when (rs_ctors se) [ctor se d]) ++ filter fn_self (when (rs_setters se) (setters se d))) = None).
    { replace (filter fn_self (when (rs_ctors se) [ctor se d])) with (@nil fn) by (destruct (rs_ctors se); reflexivity). cbn [app].
      destruct (rs_setters se); [|reflexivity]. cbn [when].
      pose proof (setters_all_self se [d]) as B. pose proof (setters_none se [d] n H) as C. cbn in B, C. rewrite app_nil_r in B, C. now rewrite B. }
    now rewrite A.
  Qed.

  Definition runtime_fn : fn := Fn "runtime" true [] (Block [] (Some match ds_rt d with Some f => ERef (field_of false f) | None => EUnimplemented end)).
  Lemma find_runtime : rs_state se = true -> trait_method p "runtime" = Some runtime_fn.
  Proof. intros E. symmetry. unfold runtime_fn. find_trait. Qed.
  Lemma rt_is : rs_state se = true -> exists f, ds_rt d = Some f.
  Proof. intros E. pose proof (g_rt _ _ _ G) as R. rewrite E in R. destruct (ds_rt d); [eauto|discriminate]. Qed.
  Lemma call_runtime n v s : rs_state se = true -> wt t v = true -> s_self s = Some (ob v) ->
    exists f r, ds_rt d = Some f /\ val_rt v = Ok r /\ lookup (access f) (o_cells (ob v)) = Some (CRt r) /\
                cl (S n) runtime_fn [] s = (s, Go (RPlace (access f))).
  Proof.
    intros E Wv Es. destruct (wt_inv v Wv) as (r & xs & -> & Er & _ & F). destruct (rt_is E) as [f Ef]. rewrite E in Er.
    destruct r as [r|]; [|discriminate]. exists f, r. split; [exact Ef|]. split; [reflexivity|]. split; [exact (proj1 (rt_cell se d ts G xs r f F Ef))|].
    unfold runtime_fn. rewrite Ef. enter (@nil (string * rv)) (@nil (string * rv)). unfold field_of. rs. rewrite Es. cbn. f_equal. now destruct s.
  Qed.
  Lemma self_runtime n v s : rs_state se = true -> wt t v = true -> s_self s = Some (ob v) ->
    exists f r, ds_rt d = Some f /\ val_rt v = Ok r /\ self_cell s (access f) = Some (CRt r) /\
                call_method (cl (S n)) (method p "runtime") [] s = (s, Go (RPlace (access f))).
  Proof.
    intros E Wv Es. destruct (call_runtime n v s E Wv Es) as (f & r & H1 & H2 & H3 & H4). exists f, r.
    split; [exact H1|]. split; [exact H2|]. split; [unfold self_cell; now rewrite Es|].
    unfold call_method. rewrite Es. now rewrite method_trait, find_runtime.
  Qed.
  Lemma struct_runtime : runtime_spec m hl p se t ob.
  Proof.
    intros E v s Wv. split.
    - destruct (call_runtime 7 v (on v s) E Wv eq_refl) as (f & r & H1 & H2 & H3 & H4). exists (access f), r. split; [|auto].
      unfold invoke, call_method, depth. cbn [s_self set_self]. now rewrite find_runtime.
    - intros b Hb. unfold invoke, depth.
      replace (trait_method p "is_root") with (Some (Fn "is_root" true [] (Block [] (Some (EMeth (EMeth ESelf "runtime" []) "is_root" []))))) by find_trait.
      unfold call_method at 1. cbn [s_self set_self].
      enter (@nil (string * rv)) (@nil (string * rv)). cbn [fn_body]. rs.
      destruct (self_runtime 6 v (set_vars [] (on v s)) E Wv eq_refl) as (f & r & H1 & H2 & H3 & H4).
      rewrite H4. cbn. rewrite H3. cbn.
      destruct (wt_inv v Wv) as (r' & xs & -> & Er & _ & F). unfold is_root in Hb. rewrite H2 in Hb. injection Hb as <-. f_equal.
  Qed.

  Lemma struct_set_runtime : set_runtime_spec m hl p se t ob.
  Proof.
    intros E v r s Wv. destruct (wt_inv v Wv) as (r0 & xs & -> & Er & _ & F). destruct (rt_is E) as [f Ef]. rewrite E in Er.
    destruct r0 as [r0|]; [|discriminate]. unfold invoke, call_method, depth. cbn [s_self set_self].
    replace (trait_method p "set_runtime") with (Some (Fn "set_runtime" true [par "runtime"] (Block (runtime_setter d) None))) by find_trait.
    enter [("runtime", RRt r)] (@nil (string * rv)). cbn [fn_body]. unfold runtime_setter. rewrite not_variant, Ef, b_eq. cbn [rbind].
    rewrite thread_app. cbn [rbind].
    rewrite (rt_list m hl p (cl 7) false [("runtime", RRt r)] r fl ts xs (variant_name d) [] (extra_cells d (Some r0)) _ (reach_self _ _) F (g_states _ _ _ G)); [|reflexivity|exact (g_nm _ _ _ G)|reflexivity].
    cbn [app].
    pose proof (rt_cell se d ts G (set_rts r xs) r0 f (set_rts_fit r fl ts xs F) Ef) as [Ha Hb]. cbn [o_cells obj_of] in Ha, Hb.
    rs. unfold self_cell, set_cell. cbn. rewrite Ha. cbn. rewrite Hb. reflexivity.
  Qed.

  Definition hu_fn : fn := Fn "handle_update" true [par "reader"]
     (Block [SDeref ESelf (EFun "<Self as State>" "with_runtime" [EMeth (EMeth ESelf "runtime" []) "clone" []])]
            (Some (EMeth ESelf "merge" [EName "reader"]))).
  Lemma find_hu : rs_state se = true -> trait_method p "handle_update" = Some hu_fn.
  Proof. intros E. symmetry. unfold hu_fn. find_trait. Qed.
  Lemma find_wr : rs_state se = true -> named "with_runtime" (p_traits p) = Some (with_runtime_fn se).
  Proof.
    intros E. unfold struct_prog, struct_traits. cbn [p_traits]. rewrite E.
    destruct (rs_partial_eq se), (rs_default se), (rs_hash se), (rs_serialize se), (rs_deserialize se); reflexivity.
  Qed.
  Hypothesis Ok_ : ty_ok t = true.

  (** What [handled] says, for a state that already has the object. *)
  Definition updated (s : st) (o : obj) (r : res unit) (out : st * ctl rv) : Prop :=
    exists i, out = (set_in i (set_self (Some o) s),
                     match r with Ok _ => Go (ROk RUnit) | Err er => Go (RErr er) | Panic => Boom | NoFuel => Stuck end).
  Lemma call_hu n v s : rs_state se = true -> wt t v = true -> s_self s = Some (ob v) ->
    let '(v', r) := handle_update m t (s_in s) v in updated s (ob v') r (cl (S (S (S n))) hu_fn [RReader] s).
  Proof.
    intros E Wv Es.
    rewrite (call_S m hl p (S (S n)) hu_fn [RReader] s [("reader", RReader)] [] eq_refl). unfold hu_fn. cbn [fn_body].
    destruct (self_runtime (S n) v (set_vars [] s) E Wv Es) as (f & r & H1 & H2 & H3 & H4).
    rewrite b_eq. cbn [thread rbind]. rs. rewrite Es. cbn. rewrite H4. cbn. rewrite H3. cbn.
    unfold native_fun. cbn [String.eqb Ascii.eqb Bool.eqb]. rewrite find_wr by exact E. unfold call_static. cbn [fn_self with_runtime_fn].
    rewrite call_with_runtime by exact E. pose proof (wt_dflt t Ok_ r) as W0. remember (dflt t r) as v0 eqn:E0.
    rs. rewrite Es. rs. unfold call_method. cbn [s_self set_self].
    rewrite method_trait, find_merge by (destruct Se as [S1 _]; try reflexivity; apply S1, E).
    match goal with |- context [cl (S (S n)) merge_fn [RReader] ?x] => pose proof (call_merge (S n) v0 x W0 eq_refl) as M end.
    cbn [s_in set_self] in M.
    destruct (wt_inv v Wv) as (r' & xs & -> & Er & _ & F). rewrite E in Er. destruct r' as [r'|]; [|discriminate]. injection H2 as ->.
    unfold handle_update. cbn [val_rt]. rewrite <- E0. cbn [s_in set_self set_vars] in M. destruct (merge m t v0 (s_in s)) as [v' o]. cbn [ok_unit].
    destruct M as [i M]. rewrite M.
    destruct o as [rest|er| |]; cbn [bind]; [exists rest|exists i..]; reflexivity.
  Qed.
  Lemma updated_handled s o r out : updated s o r out -> handled s o r out.
  Proof. intros [i ->]. destruct r; cbn; (split; [|reflexivity]) || reflexivity; exists i, (s_path s); reflexivity. Qed.
  Lemma struct_handle_update : handle_update_spec m hl p se t ob.
  Proof.
    intros E v s Wv. unfold invoke, depth. rewrite find_hu by exact E. unfold call_method. cbn [s_self set_self].
    pose proof (call_hu 5 v (on v s) E Wv eq_refl) as H. cbn [s_in set_self] in H. destruct (handle_update m t (s_in s) v) as [v' r].
    now apply updated_handled in H.
  Qed.

  Lemma handle_here kind key bs c r xs : handle m t [] kind key bs (VStruct c (Some r) xs) =
    match kind with KUpdate => handle_update m t bs (VStruct c (Some r) xs) | _ => (VStruct c (Some r) xs, Err InvalidData) end.
  Proof. destruct kind; reflexivity. Qed.
  Lemma handle_below k path kind key bs c r xs : handle m t (k :: path) kind key bs (VStruct c (Some r) xs) =
    let '(xs', o) := handle_field (hfields m (combine (map snd fl) ts)) xs k path kind key bs in (VStruct c (Some r) xs', o).
  Proof. reflexivity. Qed.
  Lemma struct_handle : handle_spec m hl p se t ob.
  Proof.
    intros E v path kind key s Wv. unfold invoke, depth.
    replace (trait_method p "handle") with
      (Some (Fn "handle" true [mut "path"; par "kind"; par "key"; par "reader"] (Block [] (Some (replayer d))))) by find_trait.
    unfold call_method at 1. cbn [s_self set_self set_path].
    destruct (wt_inv v Wv) as (r & xs & Ev & Er & _ & F). rewrite E in Er. destruct r as [r|]; [|discriminate].
    enter [("path", RMut "path"); ("kind", RKind kind); ("key", RKey key); ("reader", RReader)] [("path", RPath)].
    cbn [fn_body]. unfold replayer. rewrite not_variant.
    destruct path as [|k path].
    - rewrite Ev, handle_here. pose proof (fun n x => call_hu n v x E Wv) as H. rewrite Ev in H.
      remember (handle_update m t (s_in s) _) as hu eqn:Eh. remember (ob (VStruct _ _ _)) as o eqn:Eo in *. clear Ev Wv.
      rs. destruct kind; rs; try (subst o; split; [exists (s_in s), []; reflexivity|reflexivity]).
      rewrite method_trait, find_hu by (assumption || reflexivity). unfold call_method. cbn [s_self set_self set_vars].
      match goal with |- context [cl 7 hu_fn [RReader] ?x] => specialize (H 4%nat x eq_refl) end.
      cbn [s_in set_vars set_self set_path] in H. rewrite <- Eh in H. destruct hu as [v' q]. destruct H as [i H]. rewrite H. cbn.
      destruct q; cbn; (split; [|reflexivity]) || reflexivity; exists i, []; reflexivity.
    - rewrite Ev, handle_below. rs.
      match goal with |- context [first_arm _ ?e' _ _ ?x] =>
        rewrite (replay_arms m hl p (cl 7) false e' k path kind key (s_in s) fl ts xs (variant_name d) [] (extra_cells d (Some r)) x
                   (reach_self _ _) F (g_states _ _ _ G) eq_refl (g_nm _ _ _ G) eq_refl eq_refl eq_refl eq_refl eq_refl eq_refl eq_refl) end.
      destruct (handle_field _ xs k path kind key (s_in s)) as [xs' o].
      destruct o; cbn; (split; [|reflexivity]) || reflexivity; exists (s_in s), path; reflexivity.
  Qed.
End Struct.
