(** The derived setters. *)
From Verif Require Import Base Varint WireFmt Utf8 Types Ser De Hash Log State Meta Gen RsGen RsRun RsSpec SerProofs TypeProofs DeProofs EqProofs RsProofs RsStruct RsEnum.
From Coq Require Import String.
Import String.StringSyntax.
Local Open Scope string_scope.
Local Open Scope list_scope.
Local Open Scope N_scope.

Lemma app_str_assoc (a b c : string) : (a +++ b) +++ c = a +++ b +++ c.
Proof. induction a as [|x a IH]; [reflexivity|]. cbn. now rewrite IH. Qed.

(** A field, its tag and its place. *)
Lemma field_in f tf fl : forall tl xl A B, fit fl tl xl -> NoDup (map fst A ++ map nm fl) -> NoDup (map (fun f : dfield => f_tag (snd f)) fl) ->
  In (f, tf) (combine fl tl) -> exists x0,
  find_field (f_tag (snd f)) xl = Some (snd f, x0) /\
  lookup (access (fst f)) (A ++ val_cells fl tl xl ++ B) = Some (CVal tf x0) /\
  forall x, assign (access (fst f)) (CVal tf x) (A ++ val_cells fl tl xl ++ B) = A ++ val_cells fl tl (put_field (f_tag (snd f)) x xl) ++ B.
Proof.
  induction fl as [|g fl IH]; intros [|t tl] [|[fi y] xl] A B F N T I; try contradiction. destruct F as [Ef F]. subst fi.
  apply nodup_hd in N. destruct N as [Ni N]. cbn [map] in T. inversion T as [|? ? T1 T2]; subst. cbn [val_cells find_field put_field]. rewrite <- app_comm_cons.
  destruct I as [[= -> ->]|I].
  - exists y. rewrite N.eqb_refl. split; [reflexivity|]. split; [now apply lookup_mid|]. intros x. rewrite assign_mid by exact Ni. reflexivity.
  - destruct (N.eqb_spec (f_tag (snd f)) (f_tag (snd g))) as [E|_].
    { exfalso. apply T1. rewrite <- E. apply (in_map (fun f : dfield => f_tag (snd f))). now apply in_combine_l in I. }
    rewrite mid_app. destruct (IH tl xl _ B F (N (CVal t y)) T2 I) as (x0 & H1 & H2 & H3). exists x0. split; [exact H1|]. split; [exact H2|].
    intros x. rewrite H3. cbn [val_cells]. now rewrite <- mid_app.
Qed.
Lemma field_at se d ts r xs f tf : good se d ts -> fit (ds_fields d) ts xs -> In (f, tf) (combine (ds_fields d) ts) -> exists x0,
  find_field (f_tag (snd f)) xs = Some (snd f, x0) /\
  lookup (access (fst f)) (o_cells (obj_of d ts r xs)) = Some (CVal tf x0) /\
  forall x, assign (access (fst f)) (CVal tf x) (o_cells (obj_of d ts r xs)) = o_cells (obj_of d ts r (put_field (f_tag (snd f)) x xs)).
Proof.
  intros G F I. apply (field_in f tf (ds_fields d) ts xs [] (extra_cells d r) F (g_nm _ _ _ G)); [|exact I].
  pose proof (tags_nodup _ (g_tags _ _ _ G)) as T. unfold typed_fields in T.
  assert (L : forall (fl : list dfield) (tl : list ty), List.length tl = List.length fl ->
    map (fun p : finfo * ty => f_tag (fst p)) (combine (map snd fl) tl) = map (fun f : dfield => f_tag (snd f)) fl).
  { clear. induction fl as [|g fl IH]; intros [|t tl] L; try discriminate; [reflexivity|]. cbn in *. f_equal. apply IH. lia. }
  now rewrite L in T by exact (g_len _ _ _ G).
Qed.

(** ** The parts of a setter *)
Section Parts.
  Variables (se : rsetting) (d : dstruct).
  Definition setter_name (f : dfield) : string :=
    match ds_variant d with Some (v, _) => "set_" +++ to_snake_case v +++ "_" +++ alias (fst f) | None => alias_prefixed "set" (fst f) end.
  Definition reset_st : list stmt :=
    match ds_variant d with
    | Some (v, _) =>
        let new := if rs_state se then
            EBlock (Block [SLet "runtime" (EMeth (EMeth ESelf "runtime" []) "parent" []);
                           SLet "value" (EFun "Self" (ctor_name se d) [EMeth (EName "runtime") "clone" []]);
                           SExpr (EMeth (EMeth (EName "runtime") "log_update" [ERef (EName "value")]) "unwrap" [])]
                          (Some (EName "value")))
          else EFun "Self" (ctor_name se d) [] in
        [SExpr (EIfLet (PVariant v []) ESelf (Block [] None) (Some (Block [SDeref ESelf new] None)))]
    | None => []
    end.
  Definition set_st (f : dfield) : stmt :=
    match ds_variant d with
    | Some (v, _) => SExpr (EIfLet (PVariant v [destructure (fst f) "self_value"]) ESelf
                              (Block [SDeref (EName "self_value") (EName "value")] None) None)
    | None => SSet ESelf (access (fst f)) (EName "value")
    end.
  Definition rt_st : stmt := SLet "runtime" (EMeth ESelf "runtime" []).
  Definition log_st (f : dfield) : stmt :=
    SExpr (EMeth (EMeth (EName "runtime") "log_update_child" [ENum (f_tag (snd f)); ERef (EName "value")]) "unwrap" []).
  Definition given (f : dfield) : list stmt :=
    [rt_st; SExpr (EMeth (EName "value") "set_runtime" [EMeth (EName "runtime") "nested" [ENum (f_tag (snd f))]]); log_st f; set_st f].
  Definition gotten (f : dfield) : list stmt :=
    [rt_st; SExpr (EMeth (EName "runtime") "pause_logger" []);
     SLet "value" (EApp "get_value" [EMeth (EName "runtime") "nested" [ENum (f_tag (snd f))]]);
     SExpr (EMeth (EName "runtime") "unpause_logger" []); log_st f; set_st f].
  Definition set_fn f : fn := Fn (setter_name f) true [mut "value"] (Block (reset_st ++ given f) (Some ESelf)).
  Definition set_with_fn f : fn := Fn (setter_name f +++ "_with") true [par "get_value"] (Block (reset_st ++ gotten f) (Some ESelf)).
  Definition plain_fn f : fn := Fn (setter_name f) true [par "value"] (Block (reset_st ++ [set_st f]) (Some ESelf)).
  Lemma setter_eq f : setter se d f = if f_state (snd f) then [set_fn f; set_with_fn f] else [plain_fn f].
  Proof. reflexivity. Qed.
  Lemma setter_name_is f : setter_name f = set_name d f.
  Proof. unfold setter_name, set_name, variant_name. destruct (ds_variant d) as [[v tag]|]; [|reflexivity]. cbn [option_map fst]. now rewrite app_str_assoc. Qed.
End Parts.

(** How the statements of a setter end, with the object then and the calls on loggers. *)
Definition tails {A} (s : st) (o : obj) (x : list lev * res A) (out : st * ctl env) : Prop :=
  match snd x with
  | Ok _ => exists e vs, out = (put_log (fst x) (set_vars vs (set_self (Some o) s)), Go e)
  | Panic => exists s', out = (s', Boom) /\ s_self s' = Some o /\ s_log s' = s_log s ++ fst x
  | Err _ | NoFuel => exists s', out = (s', Stuck)
  end.

Arguments rval : simpl nomatch.
Section Tail.
  Variables (m : mode) (hl : store) (p : prog) (n : nat) (se : rsetting) (d : dstruct) (ts : list ty) (f : dfield) (tf : ty).
  Notation cl := (call m hl p).
  Notation sp := (step m hl p (cl n)).
  Notation tag := (f_tag (snd f)).
  Hypothesis G : good se d ts.
  Hypothesis I : In (f, tf) (combine (ds_fields d) ts).

  (** The assignment. *)
  Lemma set_stmt e s r xs x v : fit (ds_fields d) ts xs -> s_self s = Some (obj_of d ts r xs) ->
    lookup "value" e = Some v -> rval v s = (s, Go (RVal tf x)) ->
    sp e (set_st d f) s = (set_self (Some (obj_of d ts r (put_field tag x xs))) s, Go e).
  Proof.
    intros F Es L V. destruct (field_at se d ts r xs f tf G F I) as (x0 & H1 & H2 & H3). unfold set_st.
    assert (Sc : set_cell (access (fst f)) (CVal tf x) s = (set_self (Some (obj_of d ts r (put_field tag x xs))) s, Go tt)).
    { unfold set_cell. rewrite Es, H3. reflexivity. }
    assert (Sg : self_cell s (access (fst f)) = Some (CVal tf x0)) by (unfold self_cell; now rewrite Es).
    destruct (ds_variant d) as [[vn vt]|] eqn:Ev.
    - rewrite s_expr. cbn [rbind]. rewrite e_iflet, e_self. cbn [rbind]. rewrite Es. cbn [rbind rval ret matches]. rewrite Es. unfold is_variant_of. cbn [o_variant obj_of].
      unfold variant_name. rewrite Ev. cbn [option_map fst]. rewrite String.eqb_refl. cbn [map destructure init fst snd app]. rewrite b_eq. cbn [thread rbind ret].
      rewrite s_deref. cbn [rbind]. rewrite !e_name. cbn [lookup String.eqb Ascii.eqb Bool.eqb]. rewrite L. cbn [ret rbind]. rewrite V. cbn [rbind store_to].
      rewrite Sg, Sc. reflexivity.
    - rewrite s_set. cbn [rbind]. rewrite e_name, L. cbn [ret rbind]. rewrite V. rewrite e_self, Es. cbn [rbind store_to]. rewrite Sg, Sc. reflexivity.
  Qed.

  Hypothesis St_ : f_state (snd f) = true.
  Variables (r : rt) (xs : list (finfo * val)) (rb : list (finfo * val) -> val) (ob : val -> obj) (xr : string).
  Hypothesis F : fit (ds_fields d) ts xs.
  Hypothesis Hob : forall ys, ob (rb ys) = obj_of d ts (Some r) ys.
  Hypothesis Hr : forall s, s_self s = Some (obj_of d ts (Some r) xs) ->
    self_cell s xr = Some (CRt r) /\ call_method (cl n) (method p "runtime") [] s = (s, Go (RPlace xr)).

  Lemma state_tf : state_ty tf = true.
  Proof.
    pose proof (g_states _ _ _ G) as S_. revert I S_. clear - St_. generalize ts. induction (ds_fields d) as [|g l IH]; intros [|t tl] J S_; try contradiction.
    destruct S_ as [S1 S2]. destruct J as [[= -> ->]|J]; [auto|]. exact (IH tl J S2).
  Qed.
  Lemma rt_stmt e s : s_self s = Some (obj_of d ts (Some r) xs) -> sp e rt_st s = (s, Go (("runtime", RPlace xr) :: e)).
  Proof. intros Es. unfold rt_st. rs. rewrite Es. cbn. rewrite (proj2 (Hr s Es)). reflexivity. Qed.
  (** Logs the new value and assigns it. *)
  Lemma log_set e s x v : s_self s = Some (obj_of d ts (Some r) xs) ->
    lookup "runtime" e = Some (RPlace xr) -> lookup "value" e = Some v -> (forall s', s_vars s' = s_vars s -> rval v s' = (s', Go (RVal tf x))) ->
    let '(v', o) := mtry (rb xs) (rt_log_entry r (entry_update_child m r tag x hl)) (fun _ => (rb (put_field tag x xs), mret State.RSelf)) in
    tails s (ob v') o (thread sp e [log_st f; set_st d f] s).
  Proof.
    intros Es Lr Lv Rv. cbn [thread rbind]. unfold log_st. rewrite s_expr. cbn [rbind]. rewrite e_meth. cbn [rbind]. rewrite e_meth. cbn [rbind].
    rewrite e_name, Lr. cbn [ret rbind each]. rewrite e_num. cbn [ret rbind rval]. rewrite e_ref, e_name, Lv. cbn [ret rbind]. rewrite (Rv s eq_refl). cbn [rbind ret native].
    rewrite (proj1 (Hr s Es)). cbn [native_rt String.eqb Ascii.eqb Bool.eqb]. unfold rt_log_entry, mlift, mbind, plain.
    destruct (entry_update_child m r tag x hl) as [en|er| |]; cbn [mtry].
    2,4: eexists; cbn; reflexivity.
    2:{ eexists. cbn. split; [reflexivity|]. rewrite Hob. split; [exact Es|]. now rewrite app_nil_r. }
    cbn [rbind upd_st ret each native String.eqb Ascii.eqb Bool.eqb app].
    rewrite (set_stmt e (put_log [LLog (rt_log r) en] s) (Some r) xs x v F); [|exact Es|exact Lv|now apply Rv].
    cbn [mret app]. rewrite Hob. exists e, (s_vars s). reflexivity.
  Qed.
  Lemma given_ok s x : s_self s = Some (obj_of d ts (Some r) xs) -> s_vars s = [("value", RVal tf x)] ->
    let '(v', o) := set_field m hl r xs rb tag (set_value r xs tag x) in
    tails s (ob v') o (thread sp [("value", RMut "value")] (given d f) s).
  Proof.
    intros Es Vs. destruct (field_at se d ts (Some r) xs f tf G F I) as (x0 & H1 & _). unfold set_field, set_value. rewrite H1, St_. cbn [mtry mret].
    unfold given. cbn [thread rbind]. rewrite rt_stmt by exact Es.
    rewrite s_expr. cbn [rbind]. rewrite e_meth. cbn [rbind]. rewrite e_name. cbn [lookup String.eqb Ascii.eqb Bool.eqb ret rbind each].
    rewrite e_meth. cbn [rbind]. rewrite e_name. cbn [lookup String.eqb Ascii.eqb Bool.eqb ret rbind each]. rewrite e_num. cbn [ret rbind rval native].
    rewrite (proj1 (Hr s Es)). cbn [native_rt String.eqb Ascii.eqb Bool.eqb ret rbind rval native]. rewrite Vs. cbn [lookup String.eqb Ascii.eqb Bool.eqb assign].
    rewrite state_tf. cbn [andb rbind ret].
    match goal with |- context [step m hl p (cl n) ?e' (log_st f) ?s'] =>
      pose proof (log_set e' s' (set_rt (nested r tag) x) (RMut "value") Es eq_refl eq_refl) as L end.
    cbn [thread rbind] in L. unfold mret.
    destruct (mtry (rb xs) _ _) as [v' [ev q]]. cbn [app].
    assert (Rv : forall s', s_vars s' = [("value", RVal tf (set_rt (nested r tag) x))] -> rval (RMut "value") s' = (s', Go (RVal tf (set_rt (nested r tag) x)))).
    { intros s' E. unfold rval. rewrite E. reflexivity. }
    specialize (L Rv). destruct q; exact L.
  Qed.
  Lemma gotten_ok s g : s_self s = Some (obj_of d ts (Some r) xs) -> s_vars s = [] ->
    let '(v', o) := set_field m hl r xs rb tag (set_value_with r xs tag g) in
    tails s (ob v') o (thread sp [("get_value", RFun tf g)] (gotten d f) s).
  Proof.
    intros Es Vs. destruct (field_at se d ts (Some r) xs f tf G F I) as (x0 & H1 & _). unfold set_field, set_value_with. rewrite H1, St_.
    unfold call_paused, rt_pause, rt_unpause. cbn [mbind].
    unfold gotten. cbn [thread rbind]. rewrite rt_stmt by exact Es.
    rewrite s_expr. cbn [rbind]. rewrite e_meth. cbn [rbind]. rewrite e_name. cbn [lookup String.eqb Ascii.eqb Bool.eqb ret rbind each native].
    rewrite (proj1 (Hr s Es)). cbn [native_rt String.eqb Ascii.eqb Bool.eqb ret rbind upd_st].
    set (s1 := put_log [LPause (rt_log r)] s). assert (Es1 : s_self s1 = Some (obj_of d ts (Some r) xs)) by exact Es.
    rewrite s_let. cbn [rbind]. rewrite e_app. cbn [rbind each]. rewrite e_meth. cbn [rbind]. rewrite e_name. cbn [lookup String.eqb Ascii.eqb Bool.eqb ret rbind each].
    rewrite e_num. cbn [ret rbind rval native]. rewrite (proj1 (Hr s1 Es1)). cbn [native_rt String.eqb Ascii.eqb Bool.eqb ret rbind rval apply].
    destruct (g (nested r tag)) as [ev [x|er| |]]; cbn [plain mbind mtry ret rbind rval].
    2,4: eexists; reflexivity.
    2:{ eexists. split; [reflexivity|]. rewrite Hob. split; [exact Es|]. unfold s1. cbn. now rewrite <- app_assoc. }
    set (s2 := put_log ev s1). assert (Es2 : s_self s2 = Some (obj_of d ts (Some r) xs)) by exact Es.
    rewrite s_expr. cbn [rbind]. rewrite e_meth. cbn [rbind]. rewrite e_name. cbn [lookup String.eqb Ascii.eqb Bool.eqb ret rbind each native].
    rewrite (proj1 (Hr s2 Es2)). cbn [native_rt String.eqb Ascii.eqb Bool.eqb ret rbind upd_st].
    set (s3 := put_log [LUnpause (rt_log r)] s2). assert (Es3 : s_self s3 = Some (obj_of d ts (Some r) xs)) by exact Es.
    pose proof (log_set (("value", RVal tf x) :: ("runtime", RPlace xr) :: [("get_value", RFun tf g)]) s3 x (RVal tf x) Es3 eq_refl eq_refl (fun _ _ => eq_refl)) as L.
    cbn [thread rbind ret] in L. unfold mret in *. cbn [mbind]. unfold mtry at 1. cbv beta iota. destruct (mtry (rb xs) _ _) as [v' [ev' q]]. cbn [app].
    assert (Lg : s_log s3 = s_log s ++ LPause (rt_log r) :: ev ++ [LUnpause (rt_log r)]).
    { unfold s3, s2, s1. cbn. rewrite <- !app_assoc. reflexivity. }
    unfold tails in *. cbn [fst snd] in *. destruct q.
    - destruct L as (e' & vs & ->). exists e', vs. f_equal. unfold s3, s2, s1, put_log, set_vars, set_self. cbn. f_equal. repeat (rewrite <- app_assoc; cbn [app]). reflexivity.
    - exact L.
    - destruct L as (s' & -> & L1 & L2). exists s'. split; [reflexivity|]. split; [exact L1|]. rewrite L2, Lg. repeat (rewrite <- app_assoc; cbn [app]). reflexivity.
    - exact L.
  Qed.
End Tail.

(** Of a call. *)
Lemma tails_sets {A} s o (x : list lev * res A) vs out :
  tails (set_vars vs s) o x out ->
  forall ss e m hl p call fin,
  out = thread (step m hl p call) e ss (set_vars vs s) ->
  fin = Some ESelf -> s_self s <> None ->
  sets s o x (let '(s', c) := run_block m hl p call e (Block ss fin) (set_vars vs s) in (set_vars (s_vars s) s', match c with Ret v => Go v | c => c end)).
Proof.
  intros T ss e m hl p call fin -> -> Ns. rewrite b_eq. cbn [rbind]. unfold tails, sets in *. destruct (snd x).
  - destruct T as (e' & vs' & ->). rewrite e_self. cbn. f_equal.
  - destruct T as (s' & ->). reflexivity.
  - destruct T as (s' & -> & T1 & T2). cbn. repeat split; assumption.
  - destruct T as (s' & ->). reflexivity.
Qed.

Section Struct.
  Variables (m : mode) (hl : store) (se : rsetting) (d : dstruct) (ts : list ty).
  Hypothesis Se : settled se.
  Hypothesis Dv : ds_variant d = None.
  Hypothesis G : good se d ts.
  Hypothesis Ni : NoDup (map fn_name (struct_inherent se d)).
  Notation p := (struct_prog se d ts).
  Notation t := (struct_type se d ts).
  Notation ob := (struct_obj d ts).

  Lemma find_setter f g : rs_setters se = true -> In f (ds_fields d) -> In g (setter se d f) ->
    named (fn_name g) (filter fn_self (p_inherent p)) = Some g.
  Proof.
    intros E I Ig. apply named_in; [apply nodup_filter; exact Ni|]. apply filter_In. split; [|exact (setter_self se d f g Ig)].
    cbn [p_inherent struct_prog]. unfold struct_inherent. rewrite E. cbn [when]. apply in_or_app. right. apply in_flat_map. now exists f.
  Qed.
  Lemma no_reset : reset_st se d = []. Proof. unfold reset_st. now rewrite Dv. Qed.

  Lemma struct_setters : struct_setters_spec m hl se d ts.
  Proof.
    intros E f tf v s I Wv. cbn zeta. destruct Se as [S1 S2]. destruct (S1 E) as (_ & _ & Es). pose proof (in_combine_l _ _ _ _ I) as If.
    pose proof (fun s => self_runtime m hl se d ts G 6 v s E Wv) as Hr.
    destruct (wt_inv se d ts G v Wv) as (r & xs & -> & Er & _ & F). rewrite E in Er. destruct r as [r|]; [|discriminate].
    destruct (Hr (set_self (Some (ob (VStruct (is_some (ds_cache d)) (Some r) xs))) s) eq_refl) as (fr & r' & Hf & [= <-] & _).
    assert (Hr' : forall s, s_self s = Some (obj_of d ts (Some r) xs) -> self_cell s (access fr) = Some (CRt r) /\
      call_method (call m hl p 7) (method p "runtime") [] s = (s, Go (RPlace (access fr)))).
    { intros s' Es'. destruct (Hr s' Es') as (fr' & r' & Hf' & [= <-] & H1 & H2). rewrite Hf in Hf'. injection Hf' as <-. auto. }
    clear Hr. pose proof (setter_eq se d f) as Sq. rewrite <- (setter_name_is d f). unfold invoke_own, depth.
    split.
    - intros x. cbn [apply_op]. destruct (f_state (snd f)) eqn:Sf.
      + pose proof (given_ok m hl p 7 se d ts f tf G I Sf r xs (VStruct (is_some (ds_cache d)) (Some r)) ob (access fr) F (fun _ => eq_refl) Hr'
          (set_vars [("value", RVal tf x)] (set_self (Some (ob (VStruct (is_some (ds_cache d)) (Some r) xs))) s)) x eq_refl eq_refl) as T.
        destruct (set_field _ _ _ _ _ _ _) as [v' o].
        change (setter_name d f) with (fn_name (set_fn se d f)). rewrite (find_setter f) by (assumption || (rewrite Sq; now left)).
        unfold call_method. cbn [s_self set_self].
        enter [("value", RMut "value")] [("value", RVal tf x)]. unfold set_fn. cbn [fn_body]. rewrite no_reset. cbn [app].
        apply (tails_sets _ _ _ _ _ T); reflexivity || discriminate.
      + change (setter_name d f) with (fn_name (plain_fn se d f)). rewrite (find_setter f) by (assumption || (rewrite Sq; now left)).
        unfold call_method. cbn [s_self set_self].
        enter [("value", RVal tf x)] (@nil (string * rv)). unfold plain_fn. cbn [fn_body]. rewrite no_reset. cbn [app].
        destruct (field_at se d ts (Some r) xs f tf G F I) as (x0 & H1 & _). unfold set_field, set_value. rewrite H1, Sf. cbn [mtry mret app].
        rewrite b_eq. cbn [thread rbind].
        rewrite (set_stmt m hl p 7 se d ts f tf G I _ _ (Some r) xs x (RVal tf x) F); [|reflexivity..].
        cbn [rbind ret]. rewrite e_self. cbn. f_equal. unfold put_log. cbn. rewrite app_nil_r. now destruct s.
    - intros Sf g. cbn [apply_op].
      pose proof (gotten_ok m hl p 7 se d ts f tf G I Sf r xs (VStruct (is_some (ds_cache d)) (Some r)) ob (access fr) F (fun _ => eq_refl) Hr'
          (set_vars [] (set_self (Some (ob (VStruct (is_some (ds_cache d)) (Some r) xs))) s)) g eq_refl eq_refl) as T.
      destruct (set_field _ _ _ _ _ _ _) as [v' o].
      change (setter_name d f +++ "_with") with (fn_name (set_with_fn se d f)). rewrite (find_setter f) by (assumption || (rewrite Sq, Sf; right; now left)).
      unfold call_method. cbn [s_self set_self].
      enter [("get_value", RFun tf g)] (@nil (string * rv)). unfold set_with_fn. cbn [fn_body]. rewrite no_reset. cbn [app].
      apply (tails_sets _ _ _ _ _ T); reflexivity || discriminate.
  Qed.
  Lemma struct_plain_setters : struct_plain_setters_spec m hl se d ts.
  Proof.
    intros E Es f tf c xs x s I Wv. pose proof (in_combine_l _ _ _ _ I) as If.
    destruct (wt_inv se d ts G _ Wv) as (r & xs' & [= -> <- <-] & Er & Wf & F).
    assert (Sf : f_state (snd f) = false).
    { pose proof (g_rt _ _ _ G) as R. rewrite E in R. pose proof (g_none _ _ _ G) as Gn. destruct (ds_rt d); [discriminate|]. specialize (Gn eq_refl).
      rewrite forallb_forall in Gn. specialize (Gn f If). now apply negb_true_iff in Gn. }
    rewrite <- (setter_name_is d f). unfold invoke_own, depth.
    change (setter_name d f) with (fn_name (plain_fn se d f)). rewrite (find_setter f) by (assumption || (rewrite setter_eq, Sf; now left)).
    unfold call_method. cbn [s_self set_self].
    enter [("value", RVal tf x)] (@nil (string * rv)). unfold plain_fn. cbn [fn_body]. rewrite no_reset. cbn [app].
    rewrite b_eq. cbn [thread rbind].
    rewrite (set_stmt m hl p 7 se d ts f tf G I _ _ None xs x (RVal tf x) F); [|reflexivity..].
    cbn [rbind ret]. rewrite e_self. cbn. f_equal.
  Qed.
End Struct.

Section Enum.
  Variables (m : mode) (hl : store) (se : rsetting) (ds : list (dstruct * list ty)).
  Notation p := (enum_prog se ds).
  Notation t := (enum_type se ds).
  Notation ob := (enum_obj ds).
  Notation on v s := (set_self (Some (ob v)) s).
  Notation cl := (call m hl p).
  Notation D := (map fst ds).
  Hypothesis Se : settled se.
  Hypothesis Gd : forall d ts, In (d, ts) ds -> good se d ts.
  Hypothesis Va : forall d, In d D -> exists n tag, ds_variant d = Some (n, tag).
  Hypothesis Nn : NoDup (map v_name D).
  Hypothesis Na : forall d, In d D -> NoDup (aliases d).
  Hypothesis Ni : NoDup (map fn_name (enum_inherent se D)).
  Hypothesis Ok_ : ty_ok t = true.

  Lemma own_bytes_is n v s : none_named ["size"; "writer"] D -> rs_serialize se = true -> wt t v = true ->
    own_bytes hl p (cl (S n)) (ob v) s = (s, match to_bytes m v hl with Ok b => Go b | Panic => Boom | Err _ | NoFuel => Stuck end).
  Proof.
    intros Nm E Wv. unfold own_bytes. set (s0 := St None [] hl (s_in s) (s_path s) [] (s_hash s) (s_log s) []).
    change (St (Some (ob v)) [] hl (s_in s) (s_path s) [] (s_hash s) (s_log s) []) with (on v s0).
    rewrite (find_esize se ds E), (find_ecache se ds E), (find_eser se ds E). unfold call_method. cbn [rbind s_self set_self].
    pose proof (call_esize m hl se ds Gd Va Nn Na Ok_ n v s0) as Hz. cbn [s_at s_heap s0] in Hz.
    specialize (Hz ltac:(intros d x Id [<-|[]]; apply Nm; cbn; auto) Wv).
    unfold to_bytes, steit_serialize, cache_size.
    destruct (compute_oop v m [] hl) as [[[z h] Ez]|Ez]; rewrite Ez in *; cbn [returns fst snd bind unwrap] in *.
    2:{ destruct Hz as [_ Hz]. destruct (cl (S n) _ [] _) as [s' c]. cbn in Hz. subst c. reflexivity. }
    rewrite Hz. cbn [rbind]. change (s_self (set_heap h (on v s0))) with (Some (ob v)). cbv iota beta.
    change (set_heap h (on v s0)) with (on v (set_heap h s0)).
    pose proof (call_ecache m hl se ds Gd Va Nn Na Ok_ n v (set_heap h s0) Wv) as Hc.
    assert (Hs : forall h', answers (set_heap h' s0) (ob v) (ser_cached m [] v h') (fun '(b, h) s => put_out b (set_heap h s)) (cl (S n) (eser_fn ds) [RWriter] (on v (set_heap h' s0)))).
    { intros h'. apply (call_eser m hl se ds Gd Va Nn Na Ok_ n v (set_heap h' s0)); [intros d x Id [<-|[]]; apply Nm; cbn; auto|exact Wv]. }
    assert (Fin : forall h', (let '(s1, c) := cl (S n) (eser_fn ds) [RWriter] (on v (set_heap h' s0)) in
       (s, match c with Go (ROk _) => Go (s_out s1) | Go (RErr _) | Boom => Boom | _ => Stuck end))
       = (s, match (do (b, _) <- unwrap (ser_cached m [] v h'); Ok b) with Ok b => Go b | Panic => Boom | Err _ | NoFuel => Stuck end)).
    { intros h'. specialize (Hs h'). destruct (ser_cached m [] v h') as [[b h2]|er| |]; cbn [answers unwrap bind] in *.
      - rewrite Hs. reflexivity.
      - destruct Hs as [_ Hs]. destruct (cl (S n) (eser_fn ds) _ _) as [s1 c]. cbn in Hs. now subst c.
      - destruct Hs as [_ Hs]. destruct (cl (S n) (eser_fn ds) _ _) as [s1 c]. cbn in Hs. now subst c.
      - destruct (cl (S n) (eser_fn ds) _ _) as [s1 c]. cbn in Hs. now subst c. }
    destruct (has_cache v) eqn:Hh.
    - destruct Hc as (x & Hc & Lx). rewrite Hc. cbn [rbind]. unfold self_cell. cbn [s_self set_self]. rewrite Lx. cbn [rbind].
      change (s_at (on v (set_heap h s0))) with (@nil nat). change (s_heap (on v (set_heap h s0))) with h.
      change (set_heap (upd h [] z) (on v (set_heap h s0))) with (on v (set_heap (upd h [] z) s0)). cbn [s_self set_self].
      pose proof (Fin (upd h [] z)) as Ff. destruct (cl (S n) (eser_fn ds) _ _) as [s1 c]. rewrite <- Ff. destruct c; reflexivity.
    - rewrite Hc. cbn [rbind]. cbn [s_self set_self]. pose proof (Fin h) as Ff. destruct (cl (S n) (eser_fn ds) _ _) as [s1 c]. rewrite <- Ff. destruct c; reflexivity.
  Qed.

  (** Into the variant, with the entry for it. *)
  Lemma reset_ok n d ts e v s : none_named ["size"; "writer"] D -> rs_state se = true -> In (d, ts) ds -> wt t v = true -> s_self s = Some (ob v) ->
    let '(v', o) := reset_variant m hl t (v_tag d) v in
    match snd o with
    | Ok _ => thread (step m hl p (cl (S n))) e (reset_st se d) s = (put_log (fst o) (set_self (Some (ob v')) s), Go e) /\ wt t v' = true /\
              exists r ys, v' = VEnum (v_tag d) (is_some (ds_cache d)) (Some r) ys /\ fit (ds_fields d) ts ys
    | Panic => exists s', thread (step m hl p (cl (S n))) e (reset_st se d) s = (s', Boom) /\ s_self s' = Some (ob v') /\ s_log s' = s_log s ++ fst o
    | Err _ | NoFuel => exists s', thread (step m hl p (cl (S n))) e (reset_st se d) s = (s', Stuck)
    end.
  Proof.
    intros Nm E I Wv Es. destruct Se as [S1 S2]. destruct (S1 E) as (Ser_ & De_ & _). destruct (S2 De_) as [Ct _]. pose proof (in_d ds _ _ I) as Id.
    pose proof (fun s => self_eruntime m hl se ds Gd Va Nn Na Ok_ n v s E Wv) as Hr.
    destruct (wt_einv se ds Gd Va Na Ok_ v Wv) as (d0 & ts0 & r & xs & I0 & Ev & Er & Rb & Wf & F & Eo). rewrite E in Er. destruct r as [r|]; [|discriminate].
    pose proof (in_d ds _ _ I0) as Id0. destruct (Va d Id) as (vn & vt & Ed).
    assert (En : v_name d = vn) by (unfold v_name; now rewrite Ed).
    assert (Wt : wt (TEnum true (map va ds)) v = true) by (pose proof Wv as Wt; rewrite t_eq, E in Wt; exact Wt).
    rewrite Ev. unfold reset_variant at 1. rewrite t_eq. unfold reset_st. rewrite Ed, E. cbn [thread rbind].
    rewrite s_expr. cbn [rbind]. rewrite e_iflet, e_self. cbn [rbind]. rewrite Es. cbn [rbind rval ret matches]. rewrite Es, Eo. unfold is_variant_of. cbn [o_variant obj_of].
    rewrite (vn_some ds Va d0 Id0), <- En, (name_tag se ds Nn Ok_ d0 ts0 d ts) by assumption.
    destruct (N.eqb_spec (v_tag d0) (v_tag d)) as [Et|Et].
    - pose proof (by_tag_self se ds Ok_ _ _ I0) as B. rewrite Et, (by_tag_self se ds Ok_ _ _ I) in B. injection B as <- <-.
      cbn [map app mret snd fst]. rewrite b_eq. cbn [thread rbind ret]. split; [|split; [rewrite <- Ev; exact Wt|exists r, xs; auto]].
      f_equal. rewrite <- Ev, <- Es. unfold put_log. cbn. rewrite app_nil_r. now destruct s.
    - rewrite find_va, (by_tag_self se ds Ok_ _ _ I). cbn [option_map].
      destruct r as [lg [|q k]]; [discriminate Rb|]. set (r := mkRt lg (Child q k)) in *. set (rp := mkRt lg q).
      assert (Hp : rt_parent r = Ok rp) by reflexivity. rewrite Hp. cbn [mlift mtry].
      set (v1 := variant_ctor true (va (d, ts)) rp).
      assert (W1 : wt t v1 = true).
      { unfold v1. pose proof Ok_ as O. rewrite t_eq, E in O. rewrite t_eq, E. apply (ctor_wt true (map va ds) (v_tag d)); [exact O|]. now rewrite find_va, (by_tag_self se ds Ok_ _ _ I). }
      rewrite b_eq. cbn [thread rbind]. rewrite s_deref. cbn [rbind]. rewrite e_block, b_eq. cbn [thread rbind].
      rewrite s_let. cbn [rbind]. rewrite e_meth. cbn [rbind]. rewrite e_meth. cbn [rbind]. rewrite e_self. cbn [rbind]. rewrite Es. cbn [rbind ret each native].
      destruct (Hr s Es) as (x & r' & H1 & H2 & H3 & H4). rewrite Ev in H1. injection H1 as <-. rewrite H4. cbn [rbind ret each native]. rewrite H3.
      cbn [native_rt String.eqb Ascii.eqb Bool.eqb]. rewrite Hp. cbn [plain ret rbind rval].
      rewrite s_let. cbn [rbind]. rewrite e_fun. cbn [rbind each]. rewrite e_meth. cbn [rbind]. rewrite e_name. cbn [lookup String.eqb Ascii.eqb Bool.eqb ret rbind each native native_rt rval].
      pose proof (self_vctor m hl se ds Gd Va Nn Ni Ok_ n rp d ts s Ct I) as Sv. unfold rt_arg in Sv. rewrite E in Sv. rewrite Sv. fold v1. cbn [rbind rval ret].
      rewrite s_expr. cbn [rbind]. rewrite e_meth. cbn [rbind]. rewrite e_meth. cbn [rbind]. rewrite e_name. cbn [lookup String.eqb Ascii.eqb Bool.eqb ret rbind each].
      rewrite e_ref, e_name. cbn [lookup String.eqb Ascii.eqb Bool.eqb ret rbind each rval native native_rt].
      rewrite (own_bytes_is n v1 s Nm Ser_ W1). unfold rt_log_entry, entry_update, mlift.
      destruct (to_bytes m v1 hl) as [b|er| |]; cbn [bind mbind mtry].
      2,4: eexists; reflexivity.
      2:{ eexists. split; [reflexivity|]. cbn [fst snd app]. split; [now rewrite <- Ev|now rewrite app_nil_r]. }
      cbn [rbind upd_st ret each native String.eqb Ascii.eqb Bool.eqb app mret fst snd].
      rewrite e_name. cbn [lookup String.eqb Ascii.eqb Bool.eqb ret rbind rval s_self put_log]. rewrite Es. unfold store_to. cbn [rbind ret s_self put_log]. rewrite ?Es.
      split; [reflexivity|]. split; [pose proof W1 as W2; rewrite t_eq, E in W2; exact W2|].
      destruct (wt_einv se ds Gd Va Na Ok_ v1 W1) as (d1 & ts1 & r1 & ys & I1 & Ev1 & Er1 & Rb1 & Wf1 & F1 & Eo1).
      assert (T1 : v_tag d1 = v_tag d) by (unfold v1, variant_ctor, va in Ev1; cbn in Ev1; congruence).
      pose proof (by_tag_self se ds Ok_ _ _ I1) as B. rewrite T1, (by_tag_self se ds Ok_ _ _ I) in B. injection B as <- <-.
      rewrite E in Er1. destruct r1 as [r1|]; [|discriminate]. exists r1, ys. auto.
  Qed.

  Lemma then_tails {A} n d ts e v s (k : val -> val * M A) b :
    none_named ["size"; "writer"] D -> rs_state se = true -> In (d, ts) ds -> wt t v = true -> s_self s = Some (ob v) ->
    (forall r ys s1, let v1 := VEnum (v_tag d) (is_some (ds_cache d)) (Some r) ys in
       fit (ds_fields d) ts ys -> wt t v1 = true -> s_self s1 = Some (ob v1) -> s_vars s1 = s_vars s ->
       let '(v', o) := k v1 in tails s1 (ob v') o (thread (step m hl p (cl (S n))) e b s1)) ->
    let '(v', o) := mthen (reset_variant m hl t (v_tag d) v) k in
    tails s (ob v') o (thread (step m hl p (cl (S n))) e (reset_st se d ++ b) s).
  Proof.
    intros Nm E I Wv Es K. pose proof (reset_ok n d ts e v s Nm E I Wv Es) as R. unfold mthen.
    destruct (reset_variant m hl t (v_tag d) v) as [v1 [ev q]]. cbn [snd fst] in R. rewrite thread_app. cbn [rbind]. unfold mtry. destruct q as [[]|er| |].
    - destruct R as (-> & W1 & r & ys & -> & F). specialize (K r ys (put_log ev (set_self (Some (ob (VEnum (v_tag d) (is_some (ds_cache d)) (Some r) ys))) s)) F W1 eq_refl eq_refl).
      destruct (k _) as [v' [ev' q]]. cbn [rbind]. unfold tails in *. cbn [fst snd] in *. destruct q.
      + destruct K as (e' & vs & ->). exists e', vs. unfold put_log, set_vars, set_self. cbn. now rewrite app_assoc.
      + exact K.
      + destruct K as (s' & -> & K1 & K2). exists s'. split; [reflexivity|]. split; [exact K1|]. rewrite K2. cbn. now rewrite app_assoc.
      + exact K.
    - destruct R as (s' & ->). eexists. reflexivity.
    - destruct R as (s' & -> & R1 & R2). exists s'. repeat split; assumption.
    - destruct R as (s' & ->). eexists. reflexivity.
  Qed.

  Lemma find_vsetter d ts f g : rs_setters se = true -> In (d, ts) ds -> In f (ds_fields d) -> In g (setter se d f) ->
    named (fn_name g) (filter fn_self (p_inherent p)) = Some g.
  Proof.
    intros E I If Ig. apply named_in; [apply nodup_filter; exact Ni|]. apply filter_In. split; [|exact (setter_self se d f g Ig)].
    cbn [p_inherent enum_prog]. unfold enum_inherent. rewrite E. cbn [when]. apply in_or_app. right. apply in_flat_map. exists d. split; [exact (in_d ds _ _ I)|].
    apply in_flat_map. now exists f.
  Qed.
  (** One place holds the runtime. *)
  Lemma ert_place n d ts r ys : rs_state se = true -> In (d, ts) ds -> fit (ds_fields d) ts ys ->
    exists x, forall s, s_self s = Some (obj_of d ts (Some r) ys) ->
      self_cell s x = Some (CRt r) /\ call_method (cl (S n)) (method p "runtime") [] s = (s, Go (RPlace x)).
  Proof.
    intros E I F. pose proof (in_d ds _ _ I) as Id. destruct (ert_is se ds Gd d ts E I) as [f Ef]. exists (access f). intros s Es. split.
    - unfold self_cell. rewrite Es. exact (proj1 (rt_cell se d ts (Gd d ts I) ys r f F Ef)).
    - unfold call_method. rewrite Es, method_etrait, (find_eruntime se ds E) by reflexivity.
      unfold eruntime_fn. enter (@nil (string * rv)) (@nil (string * rv)). cbn [fn_body]. rs. rewrite Es. cbn.
      rewrite (first_self m hl p (cl n) (fun d => match ds_rt d with Some f => [destructure f "runtime"] | None => [] end) runtime_arm d _ _ (obj_of d ts (Some r) ys) D);
        [|intros z; unfold runtime_arm; destruct (ds_rt z); reflexivity|exact Id|exact Nn|exact Es|cbn; now apply (vn_some ds Va)].
      unfold runtime_arm. rewrite Ef. cbn [snd]. rs. f_equal. now destruct s.
  Qed.

  Lemma enum_setters : none_named ["size"; "writer"] D -> enum_setters_spec m hl se ds.
  Proof.
    intros Nm E d ts f tf v s I If Wv. cbn zeta. destruct Se as [S1 S2]. destruct (S1 E) as (_ & _ & Es).
    pose proof (in_combine_l _ _ _ _ If) as If'. pose proof (Gd d ts I) as G. pose proof (setter_eq se d f) as Sq. rewrite <- (setter_name_is d f).
    assert (Hop : exists tg c r xs, v = VEnum tg c (Some r) xs).
    { destruct (wt_einv se ds Gd Va Na Ok_ v Wv) as (d0 & ts0 & r & xs & _ & Ev & Er & _). rewrite E in Er. destruct r as [r|]; [|discriminate]. eauto. }
    unfold invoke_own, depth. split.
    - intros x.
      replace (apply_op m hl t (OVSet (v_tag d) (f_tag (snd f)) x) v) with
        (mthen (reset_variant m hl t (v_tag d) v) (fun v' => match v' with
          | VEnum tag' c' (Some r') fs' => set_field m hl r' fs' (VEnum tag' c' (Some r')) (f_tag (snd f)) (set_value r' fs' (f_tag (snd f)) x)
          | _ => (v', mlift NoFuel) end))
        by (destruct Hop as (tg & c & r & xs & ->); reflexivity).
      destruct (f_state (snd f)) eqn:Sf.
      + change (setter_name d f) with (fn_name (set_fn se d f)). rewrite (find_vsetter d ts f) by (assumption || (rewrite Sq; now left)).
        unfold call_method. cbn [s_self set_self]. enter [("value", RMut "value")] [("value", RVal tf x)]. unfold set_fn. cbn [fn_body].
        pose proof (then_tails 6 d ts [("value", RMut "value")] v (set_vars [("value", RVal tf x)] (on v s))
          (fun v' => match v' with
          | VEnum tag' c' (Some r') fs' => set_field m hl r' fs' (VEnum tag' c' (Some r')) (f_tag (snd f)) (set_value r' fs' (f_tag (snd f)) x)
          | _ => (v', mlift NoFuel) end) (given d f) Nm E I Wv eq_refl) as T.
        destruct (mthen _ _) as [v' o]. refine (_ (T _)); [clear T; intros T; apply (tails_sets _ _ _ _ _ T); reflexivity || discriminate|clear T].
        intros r ys s1 v1 F W1 Es1 Vs1. unfold v1. destruct (ert_place 6 d ts r ys E I F) as [xr Hr].
        apply (given_ok m hl p 7 se d ts f tf G If Sf r ys (VEnum (v_tag d) (is_some (ds_cache d)) (Some r)) ob xr F); [|exact Hr| |exact Vs1].
        * intros ys'. now apply (obj_tag se ds Ok_ d ts).
        * rewrite Es1. unfold v1. now rewrite (obj_tag se ds Ok_ d ts) by exact I.
      + change (setter_name d f) with (fn_name (plain_fn se d f)). rewrite (find_vsetter d ts f) by (assumption || (rewrite Sq; now left)).
        unfold call_method. cbn [s_self set_self]. enter [("value", RVal tf x)] (@nil (string * rv)). unfold plain_fn. cbn [fn_body].
        pose proof (then_tails 6 d ts [("value", RVal tf x)] v (set_vars [] (on v s))
          (fun v' => match v' with
          | VEnum tag' c' (Some r') fs' => set_field m hl r' fs' (VEnum tag' c' (Some r')) (f_tag (snd f)) (set_value r' fs' (f_tag (snd f)) x)
          | _ => (v', mlift NoFuel) end) [set_st d f] Nm E I Wv eq_refl) as T.
        destruct (mthen _ _) as [v' o]. refine (_ (T _)); [clear T; intros T; apply (tails_sets _ _ _ _ _ T); reflexivity || discriminate|clear T].
        intros r ys s1 v1 F W1 Es1 Vs1. unfold v1. unfold set_field, set_value. destruct (field_at se d ts (Some r) ys f tf G F If) as (x0 & H1 & _). rewrite H1, Sf.
        cbn [mtry mret app]. cbn [thread rbind].
        unfold v1 in Es1. rewrite (obj_tag se ds Ok_ d ts) in Es1 by exact I.
        rewrite (set_stmt m hl p 7 se d ts f tf G If _ _ (Some r) ys x (RVal tf x) F Es1); [|reflexivity..].
        rewrite (obj_tag se ds Ok_ d ts) by exact I. unfold tails. cbn [rbind ret fst snd]. eexists _, _. unfold put_log, set_vars, set_self. cbn. rewrite app_nil_r. reflexivity.
    - intros Sf g.
      replace (apply_op m hl t (OVSetWith (v_tag d) (f_tag (snd f)) g) v) with
        (mthen (reset_variant m hl t (v_tag d) v) (fun v' => match v' with
          | VEnum tag' c' (Some r') fs' => set_field m hl r' fs' (VEnum tag' c' (Some r')) (f_tag (snd f)) (set_value_with r' fs' (f_tag (snd f)) g)
          | _ => (v', mlift NoFuel) end))
        by (destruct Hop as (tg & c & r & xs & ->); reflexivity).
      change (setter_name d f +++ "_with") with (fn_name (set_with_fn se d f)). rewrite (find_vsetter d ts f) by (assumption || (rewrite Sq, Sf; right; now left)).
      unfold call_method. cbn [s_self set_self]. enter [("get_value", RFun tf g)] (@nil (string * rv)). unfold set_with_fn. cbn [fn_body].
      pose proof (then_tails 6 d ts [("get_value", RFun tf g)] v (set_vars [] (on v s))
          (fun v' => match v' with
          | VEnum tag' c' (Some r') fs' => set_field m hl r' fs' (VEnum tag' c' (Some r')) (f_tag (snd f)) (set_value_with r' fs' (f_tag (snd f)) g)
          | _ => (v', mlift NoFuel) end) (gotten d f) Nm E I Wv eq_refl) as T.
      destruct (mthen _ _) as [v' o]. refine (_ (T _)); [clear T; intros T; apply (tails_sets _ _ _ _ _ T); reflexivity || discriminate|clear T].
      intros r ys s1 v1 F W1 Es1 Vs1. unfold v1. destruct (ert_place 6 d ts r ys E I F) as [xr Hr].
      apply (gotten_ok m hl p 7 se d ts f tf G If Sf r ys (VEnum (v_tag d) (is_some (ds_cache d)) (Some r)) ob xr F); [|exact Hr| |exact Vs1].
      * intros ys'. now apply (obj_tag se ds Ok_ d ts).
      * rewrite Es1. unfold v1. now rewrite (obj_tag se ds Ok_ d ts) by exact I.
  Qed.

  Lemma enum_plain_setters : enum_plain_setters_spec m hl se ds.
  Proof.
    intros E Es Ct d ts f tf tag c xs x s I If Wv. cbn zeta. pose proof (in_combine_l _ _ _ _ If) as If'. pose proof (Gd d ts I) as G. pose proof (in_d ds _ _ I) as Id.
    assert (All : forallb (fun f : dfield => negb (f_state (snd f))) (ds_fields d) = true).
    { pose proof (g_rt _ _ _ G) as R. rewrite E in R. apply (g_none _ _ _ G). now destruct (ds_rt d). }
    assert (Sf : f_state (snd f) = false) by (rewrite forallb_forall in All; specialize (All f If'); now apply negb_true_iff in All).
    rewrite <- (setter_name_is d f). unfold invoke_own, depth.
    change (setter_name d f) with (fn_name (plain_fn se d f)). rewrite (find_vsetter d ts f) by (assumption || (rewrite setter_eq, Sf; now left)).
    unfold call_method. cbn [s_self set_self]. enter [("value", RVal tf x)] (@nil (string * rv)). unfold plain_fn. cbn [fn_body].
    destruct (wt_einv se ds Gd Va Na Ok_ _ Wv) as (d0 & ts0 & r & ys & I0 & Ev & Er & Rb & Wf & F & Eo). rewrite E in Er. destruct r as [r|]; [discriminate|].
    injection Ev as -> -> <-. rewrite Eo. pose proof (in_d ds _ _ I0) as Id0. destruct (Va d Id) as (vn & vt & Ed).
    assert (En : v_name d = vn) by (unfold v_name; now rewrite Ed).
    rewrite b_eq. cbn [rbind]. rewrite thread_app. unfold reset_st. rewrite Ed, E. cbn [thread rbind].
    rewrite s_expr. cbn [rbind]. rewrite e_iflet, e_self. cbn [rbind rval ret matches s_self set_self set_vars]. unfold is_variant_of. cbn [o_variant obj_of].
    rewrite (vn_some ds Va d0 Id0), <- En, (name_tag se ds Nn Ok_ d0 ts0 d ts) by assumption.
    destruct (N.eqb_spec (v_tag d0) (v_tag d)) as [Et|Et].
    - pose proof (by_tag_self se ds Ok_ _ _ I0) as B. rewrite Et, (by_tag_self se ds Ok_ _ _ I) in B. injection B as <- <-.
      cbn [map app]. rewrite b_eq. cbn [thread rbind ret].
      rewrite (set_stmt m hl p 7 se d ts f tf G If _ _ None xs x (RVal tf x) F); [|reflexivity..].
      cbn [rbind ret]. rewrite e_self. cbn [s_self set_self set_vars rbind rval ret]. rewrite (obj_tag se ds Ok_ d ts) by exact I. reflexivity.
    - rewrite b_eq. cbn [thread rbind]. rewrite s_deref. cbn [rbind]. rewrite e_fun. cbn [rbind each ret].
      pose proof (fun s => self_vctor m hl se ds Gd Va Nn Ni Ok_ 6 rt_default d ts s Ct I) as Sv. unfold rt_arg in Sv. rewrite E in Sv. rewrite Sv. cbn [rbind rval ret].
      rewrite e_self. cbn [s_self set_self set_vars rbind ret store_to]. unfold variant_ctor, va. cbn [fst snd]. rewrite (obj_tag se ds Ok_ d ts) by exact I.
      assert (Dd : forall r, dflt_fields r (typed_fields d ts) = dflt_fields rt_default (typed_fields d ts)).
      { intros r. unfold typed_fields. revert All. clear. generalize ts. induction (ds_fields d) as [|g l IH]; intros [|t tl] A; try reflexivity.
        cbn [forallb] in A. apply andb_true_iff in A. destruct A as [A1 A2]. apply negb_true_iff in A1. unfold dflt_fields in *. cbn [map combine]. f_equal; [|exact (IH tl A2)].
        unfold field_rt. now rewrite A1. }
      rewrite Dd.
      rewrite (set_stmt m hl p 7 se d ts f tf G If _ _ None (dflt_fields rt_default (typed_fields d ts)) x (RVal tf x)); [|apply dflt_fit; exact (g_len _ _ _ G)|reflexivity..].
      cbn [rbind ret]. rewrite e_self. cbn [s_self set_self set_vars rbind rval ret]. rewrite (obj_tag se ds Ok_ d ts) by exact I. reflexivity.
  Qed.
End Enum.
