(** C73: the metadata that the derive macro writes describes the declarations. *)
From Verif Require Import Base Varint WireFmt Types Meta Gen RsGen Derive DeriveProofs RsDecl RsDeclProofs PropRsDecl RsMeta RsMetaProofs.
From Verif Require PropDerive.
From Coq Require Import String.
Import String.StringSyntax.
Local Open Scope string_scope.
Local Open Scope list_scope.
Local Open Scope N_scope.

(** ** What a declaration is *)

Definition tag_given (ats : list attr) (n : N) : Prop := In (NMeta (MNameValue "tag" (LInt n))) (items ats).
(** A name, and the C# name if an attribute gives one. *)
Definition called (ns : list Derive.nmeta) (name : string) (n : Meta.nmeta) : Prop := n_rust n = name /\ texted ns "csharp_name" (n_csharp n).
Definition field_as (sc : scope) (ps : list string) (self : rty) (name : string) (y : yfield) (f : Meta.field) : Prop :=
  called (items (yf_attrs y)) name (fd_name f) /\ tag_given (yf_attrs y) (fd_tag f) /\ means sc ps self (yf_type y) = Some (fd_ty f).
(** The fields of a tuple struct are [f0], [f1], ... *)
Definition fields_as (sc : scope) (ps : list string) (self : rty) (fs : yfields) (l : list Meta.field) : Prop :=
  match fs with
  | YNamed y => Forall2 (fun p => field_as sc ps self (fst p) (snd p)) y l
  | YUnnamed y => List.length y = List.length l /\
      forall k a b, nth_error y k = Some a -> nth_error l k = Some b -> field_as sc ps self ("f" +++ dec (N.of_nat k)) a b
  | YUnit => l = []
  end.
Definition variant_as (sc : scope) (ps : list string) (self : rty) (v : yvariant) (x : (Meta.nmeta * N) * list Meta.field) : Prop :=
  called (items (yv_attrs v)) (yv_name v) (fst (fst x)) /\ tag_given (yv_attrs v) (snd (fst x)) /\ fields_as sc ps self (yv_fields v) (snd x).
(** The [k]-th item of a crate. *)
Definition item_as (sc : scope) (k : nat) (i : yitem) (d : Meta.decl) : Prop :=
  called (items (yi_attrs i)) (yi_name i) (d_name d) /\ d_params d = yi_params i /\
  (d_owned d = true <-> says (items (yi_attrs i)) "steit_owned" (LBool true)) /\
  match yi_data i, d_body d with
  | YStruct fs, BStruct l => fields_as sc (yi_params i) (self_type k (yi_params i)) fs l
  | YEnum vs, BEnum l => Forall2 (variant_as sc (yi_params i) (self_type k (yi_params i))) vs l
  | _, _ => False
  end.
(** Accepted by the macro, with metadata. *)
Definition accepted (i : yitem) : Prop :=
  fst (derive (bare_decl (bare_item i))) = [] /\
  (asks (bare_item i) "State" \/ asks (bare_item i) "Deserialize") /\ ~ flagged (bare_item i) "no_meta".
Definition field_types (fs : yfields) : list yty := match fs with YNamed l => map (fun p => yf_type (snd p)) l | YUnnamed l => map yf_type l | YUnit => [] end.
Definition item_types (i : yitem) : list yty :=
  match yi_data i with YStruct fs => field_types fs | YEnum vs => flat_map (fun v => field_types (yv_fields v)) vs | YUnion => [] end.
(** Items that have names, parameters and types: every type in them is described as it is. *)
Definition crate_as (sc : scope) (cr : list yitem) (e : env) : Prop :=
  scope_ok sc e /\ List.length cr = List.length e /\
  forall k i, nth_error cr k = Some i -> item_as sc k i (decl_of e k) /\ accepted i /\ NoDup (yi_params i) /\ forallb (plain sc (yi_params i)) (item_types i) = true.

(** ** Attributes *)

Lemma texted_fun ns x a b : texted ns x a -> texted ns x b -> a = b.
Proof.
  intros A B. destruct a as [y|].
  - symmetry. apply B. now apply A.
  - destruct b as [y|]; [|reflexivity]. apply A. now apply B.
Qed.
Lemma called_fun ns name a b : called ns name a -> called ns name b -> a = b.
Proof. intros [A1 A2] [B1 B2]. destruct a as [r c], b as [r' c']. cbn in *. subst. f_equal. now apply (texted_fun ns "csharp_name"). Qed.
Lemma called_text tab strict ns name ids : akind_of tab "csharp_name" = Some KStr -> tidy tab strict ns ->
  called ns name (NM name (text "csharp_name" (mkSl (singles tab ns) ids))).
Proof. intros K T. split; [reflexivity|]. cbn. apply text_says; [exact K|]. destruct strict; auto. Qed.
Lemma texted_filter tab ns o : akind_of tab "csharp_name" = None ->
  texted (filter (fun n => negb (known tab n)) ns) "csharp_name" o <-> texted ns "csharp_name" o.
Proof.
  intros K. unfold texted. assert (X : forall y, In (NMeta (MNameValue "csharp_name" (LStr y))) (filter (fun n => negb (known tab n)) ns) <-> In (NMeta (MNameValue "csharp_name" (LStr y))) ns).
  { intros y. rewrite filter_In. cbn [known]. rewrite K. cbn. tauto. }
  split; intros H y; rewrite (H y); [|symmetry]; apply X.
Qed.
Lemma called_filter tab ns name n : akind_of tab "csharp_name" = None -> called (filter (fun n => negb (known tab n)) ns) name n <-> called ns name n.
Proof. intros K. unfold called. now rewrite texted_filter. Qed.

Lemma the_tag_given tab strict ns n n' ids : akind_of tab "tag" = Some KInt -> tidy tab strict ns -> In (NMeta (MNameValue "tag" (LInt n))) ns -> n <= 2 ^ 29 - 1 ->
  In (NMeta (MNameValue "tag" (LInt n'))) ns -> the_tag (mkSl (singles tab ns) ids) = inl n'.
Proof.
  intros K T I L I'. assert (T2 : tidy tab true ns \/ tidy tab false ns) by (destruct strict; auto). apply (slot_tag tab ns _ K T2) in I, I'.
  unfold the_tag. cbn [sl_vals]. rewrite I'. assert (n = n') by congruence. subst n'.
  change (2 ^ 29) with 536870912 in L. destruct (N.ltb_spec TAG_MAX n) as [X|X]; [|reflexivity]. unfold TAG_MAX in X. lia.
Qed.

(** ** Fields *)

Lemma aliased_from sc ps self y : forall s l, List.length y = List.length l ->
  (forall k a b, nth_error y k = Some a -> nth_error l k = Some b -> field_as sc ps self ("f" +++ dec (N.of_nat (s + k))) a b) ->
  Forall2 (fun p => field_as sc ps self (fst p) (snd p)) (combine (map (fun k => "f" +++ dec (N.of_nat k)) (seq s (List.length y))) y) l.
Proof.
  induction y as [|a y IH]; intros s [|b l] L H; try discriminate; [constructor|]. cbn [List.length seq map combine]. constructor.
  - specialize (H O a b eq_refl eq_refl). now rewrite Nat.add_0_r in H.
  - apply IH; [now injection L|]. intros k x z Ex Ez. specialize (H (S k) x z Ex Ez). now rewrite Nat.add_succ_r in H.
Qed.
Lemma aliased_as sc ps self fs l : fields_as sc ps self fs l -> Forall2 (fun p => field_as sc ps self (fst p) (snd p)) (aliased fs) l.
Proof. destruct fs as [y|y|]; cbn [fields_as aliased]; [auto|intros [L H]; now apply aliased_from|intros ->; constructor]. Qed.
Lemma aliased_bare fs : bare (bare_fields fs) = map (fun p => bare_yfield (snd p)) (aliased fs).
Proof.
  destruct fs as [y|y|]; cbn [bare_fields bare aliased]; [now rewrite map_map| |reflexivity].
  rewrite <- (map_map snd bare_yfield). f_equal. symmetry. apply combine_snd. now rewrite map_length, seq_length.
Qed.
Lemma aliased_types fs : field_types fs = map (fun p => yf_type (snd p)) (aliased fs).
Proof.
  destruct fs as [y|y|]; cbn [field_types aliased]; [reflexivity| |reflexivity].
  rewrite <- (map_map snd yf_type). f_equal. symmetry. apply combine_snd. now rewrite map_length, seq_length.
Qed.

Lemma field_code_as sc ps self se p n f : st_meta se = true -> field_ok se (bare_yfield (snd p)) n -> field_as sc ps self (fst p) (snd p) f ->
  exists x, field_code ps p = Some (XF (fd_name f) x (fd_tag f)) /\ field_type_code ps (yf_type (snd p)) = Some x.
Proof.
  intros M (Cl & T & I & L & Su) (Nm & Tg & _). specialize (Su M). apply type_err_spec in Su. apply (code_supported ps) in Su. destruct Su as [x Ex].
  exists x. split; [|exact Ex]. unfold field_code. cbn [bare_yfield fd_attrs] in *.
  pose proof (parse_attrs_tidy field_table true (yf_attrs (snd p))) as H. destruct (parse_attrs field_table true no_slots (yf_attrs (snd p))) as [[s e] u].
  destruct H as (H1 & H2 & _). rewrite (H2 (proj2 H1 (conj Cl T))). rewrite (the_tag_given field_table true _ n (fd_tag f) _ eq_refl T I L Tg), Ex. do 2 f_equal.
  apply (called_fun _ _ _ _ (called_text field_table true _ (fst p) _ eq_refl T) Nm).
Qed.
Lemma fields_code_as sc ps self se l fs tags : st_meta se = true -> Forall2 (field_ok se) (map (fun p => bare_yfield (snd p)) l) tags ->
  Forall2 (fun p => field_as sc ps self (fst p) (snd p)) l fs ->
  exists xs, collect_args (field_code ps) l = Some xs /\
    Forall2 (fun x (pf : (string * yfield) * Meta.field) => xf_name x = fd_name (snd pf) /\ xf_tag x = fd_tag (snd pf) /\ field_type_code ps (yf_type (snd (fst pf))) = Some (xf_ty x)) xs (combine l fs).
Proof.
  intros M. revert fs tags. induction l as [|p l IH]; intros fs tags O F; inversion F as [|? f ? fs' A F']; subst; cbn [map] in O; inversion O as [|? n ? tags' B O']; subst.
  - exists []. split; [reflexivity|constructor].
  - destruct (field_code_as sc ps self se p n f M B A) as (x & E & Ex). destruct (IH fs' tags' O' F') as (xs & Es & Fs). eexists. cbn [collect_args]. rewrite E, Es.
    split; [reflexivity|]. cbn [combine]. constructor; [auto|exact Fs].
Qed.

(** ** Items *)

Definition coded (ps : list string) (fs : yfields) (l : list Meta.field) (xs : list xfield) : Prop :=
  Forall2 (fun x (pf : (string * yfield) * Meta.field) =>
    xf_name x = fd_name (snd pf) /\ xf_tag x = fd_tag (snd pf) /\ field_type_code ps (yf_type (snd (fst pf))) = Some (xf_ty x)) xs (combine (aliased fs) l).
Definition struct_coded (ps own : list string) (b : bool) (n : Meta.nmeta) (fs : yfields) (l : list Meta.field) (x : xstruct) : Prop :=
  xs_name x = n /\ xs_params x = own /\ xs_builtin x = b /\ coded ps fs l (xs_fields x).
Definition msg_coded (i : yitem) (d : Meta.decl) (m : xmsg) : Prop :=
  match yi_data i, d_body d, m with
  | YStruct fs, BStruct l, XMStruct x => struct_coded (d_params d) (d_params d) (d_owned d) (d_name d) fs l x
  | YEnum vs, BEnum l, XMEnum ps xs b => ps = d_params d /\ b = d_owned d /\
      Forall2 (fun (x : xstruct * N) (vl : yvariant * ((Meta.nmeta * N) * list Meta.field)) =>
        snd x = snd (fst (snd vl)) /\ struct_coded (d_params d) [] (d_owned d) (fst (fst (snd vl))) (yv_fields (fst vl)) (snd (snd vl)) (fst x)) xs (combine vs l)
  | _, _, _ => False
  end.

Lemma struct_code_meta sc ps own self se b ns name n fs l tags : st_meta se = true -> struct_ok se ns (bare (bare_fields fs)) tags -> called ns name n ->
  fields_as sc ps self fs l -> exists x, struct_meta_code ps own b ns name fs = Some x /\ struct_coded ps own b n fs l x.
Proof.
  intros M (T & O & _) Nm F. apply aliased_as in F. rewrite aliased_bare in O. destruct (fields_code_as sc ps self se (aliased fs) l tags M O F) as (xs & E & Fx).
  unfold struct_meta_code. pose proof (parse_metas_tidy struct_table true ns) as H. destruct (parse_metas struct_table true no_slots ns) as [[s e] u]. destruct H as (H1 & H2 & _).
  rewrite (H2 (proj2 H1 T)), E. cbn [option_map]. eexists. split; [reflexivity|]. split; [|now split].
  cbn [xs_name]. apply (called_fun ns name); [|exact Nm]. now apply (called_text struct_table true).
Qed.
Lemma variant_code_meta sc ps self se b v n x : st_meta se = true -> variant_ok se (bare_variant (NV (yv_name v) (yv_attrs v) (bare_fields (yv_fields v)))) n ->
  variant_as sc ps self v x -> exists xs, variant_meta_code ps b v = Some (xs, snd (fst x)) /\ struct_coded ps [] b (fst (fst x)) (yv_fields v) (snd x) xs.
Proof.
  intros M (Cl & T & I & L & tags & So) (Nm & Tg & F). cbn [bare_variant nv_attrs nv_fields vr_attrs vr_fields] in *.
  assert (Nm' : called (filter (fun x => negb (known variant_table x)) (items (yv_attrs v))) (yv_name v) (fst (fst x))) by now apply called_filter.
  destruct (struct_code_meta sc ps [] self se b _ _ _ _ _ tags M So Nm' F) as (xs & E & S). exists xs. split; [|exact S]. unfold variant_meta_code.
  pose proof (parse_attrs_tidy variant_table false (yv_attrs v)) as H. destruct (parse_attrs variant_table false no_slots (yv_attrs v)) as [[s e] u]. destruct H as (H1 & H2 & ->).
  rewrite (H2 (proj2 H1 (conj Cl T))), (the_tag_given variant_table false _ n (snd (fst x)) _ eq_refl T I L Tg), E. reflexivity.
Qed.
Lemma links_types fs : links_code fs = field_types fs.
Proof. unfold links_code. now rewrite aliased_types. Qed.

Lemma meta_code_as sc k i d : accepted i -> item_as sc k i d ->
  exists x, meta_code i = Some x /\ x_name x = d_name d /\ x_params x = d_params d /\ x_type x = d_params d /\ x_links x = item_types i /\ msg_coded i d (x_msg x).
Proof.
  intros (A & As & Nf) (Nm & Ps & Ow & B). destruct (PropDerive.c37_generates _ A) as (sh & Esh & _). unfold meta_code.
  pose proof (PropDerive.parse_setting_spec (bare_decl (bare_item i))) as P. cbn [bare_decl bare_item d_args d_attrs it_args it_attrs] in P.
  apply PropDerive.c37_accepts in A. destruct A as (Ta & Ca & Ts & _ & se' & Se' & D). cbn [bare_decl bare_item d_args d_attrs it_args it_attrs] in Ta, Ca, Ts.
  destruct (parse_setting (yi_args i) (yi_attrs i)) as [[st es] u]. destruct P as (P1 & P2 & ->). specialize (P2 (proj2 P1 (conj Ta (conj Ca Ts)))).
  rewrite (PropDerive.setting_unique _ _ _ Se' P2) in D. clear Se'.
  assert (M : st_meta st = true). { apply (proj2 (proj2 P2)). split; [exact As|exact Nf]. }
  pose proof (parse_attrs_tidy setting_table false (yi_attrs i)) as H. destruct (parse_attrs setting_table false no_slots (yi_attrs i)) as [[s e] u'].
  destruct H as (H1 & H2 & _). rewrite (H2 (proj2 H1 (conj Ca Ts))), Esh, M.
  assert (Bo : flag "steit_owned" (mkSl (singles setting_table (items (yi_attrs i))) (ints setting_table (items (yi_attrs i)))) = d_owned d).
  { apply Bool.eq_iff_eq_true. rewrite Ow. apply (flag_says setting_table); [reflexivity|now right]. }
  rewrite Bo. clear Bo. set (ns := PropDerive.rest _) in *.
  assert (Nm' : called ns (yi_name i) (d_name d)) by now apply (called_filter setting_table). clearbody ns.
  unfold item_types, msg_coded. cbn [bare_decl bare_item it_data d_data] in D.
  destruct (yi_data i) as [fs|vs|]; [| |contradiction]; destruct (d_body d) as [l|l]; try contradiction.
  - destruct D as (tags & So). pose proof So as (T & _).
    destruct (struct_code_meta sc (yi_params i) (yi_params i) _ st (d_owned d) ns _ _ _ _ tags M So Nm' B) as (x & -> & Sx).
    pose proof (parse_metas_tidy struct_table true ns) as H. destruct (parse_metas struct_table true no_slots ns) as [[a ea] ua]. destruct H as (H3 & H4 & _). rewrite (H4 (proj2 H3 T)).
    cbn [option_map]. eexists. split; [reflexivity|]. cbn [x_name x_params x_type x_links x_msg]. rewrite Ps, links_types. split; [|now auto].
    apply (called_fun ns (yi_name i)); [|exact Nm']. now apply (called_text struct_table true).
  - destruct D as (tags & T & Vo & _). pose proof (parse_metas_tidy enum_table true ns) as H. destruct (parse_metas enum_table true no_slots ns) as [[a ea] ua].
    destruct H as (H3 & H4 & _). rewrite (H4 (proj2 H3 T)).
    assert (X : exists xs, collect_args (variant_meta_code (yi_params i) (d_owned d)) vs = Some xs /\
      Forall2 (fun (x : xstruct * N) (vl : yvariant * ((Meta.nmeta * N) * list Meta.field)) =>
        snd x = snd (fst (snd vl)) /\ struct_coded (yi_params i) [] (d_owned d) (fst (fst (snd vl))) (yv_fields (fst vl)) (snd (snd vl)) (fst x)) xs (combine vs l)).
    { clear -M Vo B. revert tags l Vo B. induction vs as [|v vs IH]; intros tags l Vo B; inversion B as [|? x ? l' B1 B2]; subst; cbn [map] in Vo; inversion Vo as [|? n ? tags' V1 V2]; subst.
      - exists []. split; [reflexivity|constructor].
      - destruct (variant_code_meta sc _ _ st (d_owned d) v n x M V1 B1) as (xs & E & S). destruct (IH tags' l' V2 B2) as (ys & Es & Fs). eexists. cbn [collect_args]. rewrite E, Es.
        split; [reflexivity|]. cbn [combine]. constructor; [now split|exact Fs]. }
    destruct X as (xs & -> & Fx). cbn [option_map]. eexists. split; [reflexivity|]. cbn [x_name x_params x_type x_links x_msg]. rewrite Ps. split.
    { apply (called_fun ns (yi_name i)); [|exact Nm']. now apply (called_text enum_table true). }
    do 2 (split; [reflexivity|]). split; [|now auto]. apply flat_map_ext. intros v. apply links_types.
Qed.

(** ** Evaluation *)

Section Crate.
  Variable sc : scope.
  Variable impls : list ximpl.
  Variable e : env.
  Hypothesis So : scope_ok sc e.
  Hypothesis names : forall d, x_name (impl_of impls d) = d_name (decl_of e d).
  Hypothesis params : forall d, x_params (impl_of impls d) = d_params (decl_of e d).
  Hypothesis type : forall d, x_type (impl_of impls d) = d_params (decl_of e d).
  Hypothesis unique_params : forall d, NoDup (d_params (decl_of e d)).
  Variable k : nat.

  Lemma eval_fields_as fs l xs args : forallb (plain sc (ps e k)) (field_types fs) = true -> fields_as sc (ps e k) (self e k) fs l -> coded (ps e k) fs l xs ->
    collect_args (eval_field sc impls k args) xs = Some (map (field_meta e (ps e k)) l).
  Proof.
    intros P F C. apply aliased_as in F. rewrite aliased_types in P. unfold coded in C. revert xs P C. induction F as [|p f ys l (_ & _ & Mn) F IH]; intros xs P C; cbn [combine] in C;
      inversion C as [|x ? xs' ? (C1 & C2 & C3) C4]; subst; [reflexivity|]. cbn [map forallb snd fst] in *. apply andb_prop in P. destruct P as [P1 P2].
    cbn [collect_args]. unfold eval_field at 1. destruct (field_type_eval sc impls e So names params type unique_params k _ P1 _ Mn) as (y & E & V).
    assert (y = xf_ty x) as -> by congruence. rewrite V, (IH xs' P2 C4). cbn [option_map map]. unfold field_meta at 2. now rewrite C1, C2.
  Qed.
  Lemma eval_struct_as own b n fs l x args : forallb (plain sc (ps e k)) (field_types fs) = true -> fields_as sc (ps e k) (self e k) fs l -> struct_coded (ps e k) own b n fs l x ->
    eval_struct sc impls k args x = Some (SM n own (map (field_meta e (ps e k)) l) b).
  Proof. intros P F (N1 & N2 & N3 & C). unfold eval_struct. rewrite (eval_fields_as fs l _ args P F C). cbn [option_map]. now rewrite N1, N2, N3. Qed.
  Lemma links_as fs l args : fields_as sc (ps e k) (self e k) fs l ->
    Forall2 (fun t r => written sc impls k args t = Some r) (field_types fs) (map (fun f => subst args (fd_ty f)) l).
  Proof.
    intros F. apply aliased_as in F. rewrite aliased_types. induction F as [|p f ys l (_ & _ & Mn) F IH]; [constructor|]. cbn [map]. constructor; [|exact IH].
    rewrite (written_means sc impls e params k). now rewrite Mn.
  Qed.
  Lemma eval_item_as i m args : item_as sc k i (decl_of e k) -> forallb (plain sc (yi_params i)) (item_types i) = true -> msg_coded i (decl_of e k) m ->
    eval_msg sc impls k args m = Some (decl_msg e (decl_of e k)) /\
    collect_args (written sc impls k args) (item_types i) = Some (map (fun f => subst args (fd_ty f)) (body_fields (d_body (decl_of e k)))).
  Proof.
    intros (_ & Ps & _ & B) P C. unfold msg_coded in C. unfold item_types in *. unfold decl_msg. rewrite <- Ps in *. fold (ps e k) in *. fold (self e k) in *.
    destruct (yi_data i) as [fs|vs|]; [| |contradiction]; destruct (d_body (decl_of e k)) as [l|l]; try contradiction; destruct m as [x|qs xs b]; try contradiction.
    - split; [|apply collect_args_all; now apply links_as]. cbn [eval_msg]. rewrite (eval_struct_as _ _ _ _ _ _ args P B C). reflexivity.
    - destruct C as (-> & -> & C). split.
      + cbn [eval_msg]. rewrite names. erewrite (collect_args_all _ xs); [reflexivity|]. revert xs C P. induction B as [|v x vs l (_ & _ & F) B IH]; intros xs C P; cbn [combine] in C;
          inversion C as [|y ? ys ? (C1 & C2) C3]; subst; [constructor|]. cbn [map flat_map fst snd] in *. rewrite forallb_app in P. apply andb_prop in P. destruct P as [P1 P2].
        constructor; [|now apply IH]. rewrite (eval_struct_as _ _ _ _ _ _ args P1 F C2). cbn [option_map]. rewrite C1. destruct x as [[n t] fs]. reflexivity.
      + apply collect_args_all. clear C P. cbn [body_fields]. induction B as [|v x vs l (_ & _ & F) B IH]; [constructor|]. cbn [flat_map]. rewrite map_app. apply Forall2_app; [now apply links_as|exact IH].
  Qed.
End Crate.

(** ** C73 *)

Lemma same_impls l xs ys : Forall2 (fun i x => meta_code i = Some x) l xs -> Forall2 (fun i x => meta_code i = Some x) l ys -> xs = ys.
Proof.
  intros F. revert ys. induction F as [|i x l xs A F IH]; intros ys H; inversion H as [|? y ? ys' B H']; subst; [reflexivity|].
  rewrite A in B. injection B as <-. f_equal. apply IH. exact H'.
Qed.

(** Every constant of the implementations is what Meta.v says, for all types of the crate. *)
Definition describes (sc : scope) (impls : list ximpl) (e : env) : Prop :=
  forall t, wf e t = true -> type_const impls t = type_of e t /\ msg_const sc impls t = msg_of e t /\ links_const sc impls t = links_of e t.

Lemma crate_wf sc cr e : crate_as sc cr e -> forall k f, In f (body_fields (d_body (decl_of e k))) -> wf e (fd_ty f) = true.
Proof.
  intros (So & L & C) k f I. destruct (nth_error cr k) as [i|] eqn:Ei.
  - destruct (C k i Ei) as ((_ & Ps & _ & B) & _). assert (Ws : wf e (self_type k (yi_params i)) = true).
    { unfold self_type. cbn [wf]. rewrite map_length, seq_length, Ps, Nat.eqb_refl. cbn. apply forallb_forall. intros x X. apply in_map_iff in X. now destruct X as (y & <- & _). }
    assert (G : forall fs l, fields_as sc (yi_params i) (self_type k (yi_params i)) fs l -> In f l -> wf e (fd_ty f) = true).
    { intros fs l F J. apply aliased_as in F. clear -F J So Ws. induction F as [|p x ys l (_ & _ & Mn) F IH]; [easy|]. destruct J as [<-|J]; [|auto]. now apply (means_wf sc e _ _ _ So Ws _ Mn). }
    destruct (yi_data i) as [fs|vs|], (d_body (decl_of e k)) as [l|l]; try contradiction; cbn [body_fields] in I; [now apply (G fs l)|].
    clear -B G I. induction B as [|v x vs l (_ & _ & F) B IH]; [easy|]. cbn [flat_map] in I. apply in_app_or in I. destruct I as [I|I]; [now apply (G _ _ F)|auto].
  - apply nth_error_None in Ei. unfold decl_of in I. rewrite nth_overflow in I by lia. destruct I.
Qed.
Lemma links_wf sc cr e : crate_as sc cr e -> forall t, wf e t = true -> forall u, In u (links_of e t) -> wf e u = true.
Proof.
  intros C. induction t using rty_ind'; intros W u I; cbn [links_of wf] in *; try contradiction; try (destruct I as [<-|[]]; exact W); [|now apply IHt].
  apply in_map_iff in I. destruct I as (f & <- & I). apply andb_prop in W. apply subst_wf; [now destruct W|]. now apply (crate_wf sc cr e C d).
Qed.

Section Same.
  (** Collection looks at the links only. *)
  Variables (ty1 ty2 : rty -> tmeta) (m1 m2 : rty -> option message) (l1 l2 : rty -> list rty) (gn : message -> string) (P : rty -> Prop).
  Hypothesis same : forall t, P t -> ty1 t = ty2 t /\ m1 t = m2 t /\ l1 t = l2 t.
  Hypothesis closed : forall t, P t -> forall u, In u (l2 t) -> P u.
  Lemma visit_same fuel : forall t st, P t -> visit_link rty ty1 m1 l1 gn fuel t st = visit_link rty ty2 m2 l2 gn fuel t st.
  Proof.
    induction fuel as [|fuel IH]; intros t [seen msgs] Pt; [reflexivity|]. cbn [visit_link]. destruct (same t Pt) as (-> & -> & ->). destruct (tmem (ty2 t) seen); [reflexivity|].
    pose proof (closed t Pt) as Cl. revert Cl. generalize (l2 t) as ls. generalize (match m2 t with Some m => or_insert (gn m) m msgs | None => msgs end) as ms. intros ms ls.
    generalize (ty2 t :: seen, ms) as st. clear seen msgs ms. induction ls as [|u ls IHl]; intros st Cl; [reflexivity|]. cbn [each_link]. rewrite IH by (apply Cl; now left).
    destruct (visit_link rty ty2 m2 l2 gn fuel u st) as [st'| | |]; try reflexivity. cbn [bind]. apply IHl. intros x X. apply Cl. now right.
  Qed.
End Same.

Theorem c73_crate : forall sc cr e, crate_as sc cr e ->
  exists impls, Forall2 (fun i x => meta_code i = Some x) cr impls /\ describes sc impls e /\
    forall fuel s root, wf e root = true -> generate_consts sc impls fuel s root = Meta.generate fuel e s root.
Proof.
  intros sc cr e Cr. pose proof Cr as (So & L & C).
  assert (G : forall c k0, (forall k i, nth_error c k = Some i -> item_as sc (k0 + k) i (decl_of e (k0 + k)) /\ accepted i) -> exists impls, List.length impls = List.length c /\
    forall k i, nth_error c k = Some i -> exists x, nth_error impls k = Some x /\ meta_code i = Some x /\ x_name x = d_name (decl_of e (k0 + k)) /\ x_params x = d_params (decl_of e (k0 + k)) /\
      x_type x = d_params (decl_of e (k0 + k)) /\ x_links x = item_types i /\ msg_coded i (decl_of e (k0 + k)) (x_msg x)).
  { clear. induction c as [|i c IH]; intros k0 H; [exists []; split; [reflexivity|]; intros [|k] i; discriminate|].
    destruct (H O i eq_refl) as [I A]. destruct (meta_code_as sc _ i _ A I) as (x & X). destruct (IH (S k0)) as (impls & Li & F).
    { intros k j J. specialize (H (S k) j J). rewrite Nat.add_succ_r in H. exact H. }
    exists (x :: impls). split; [cbn; now rewrite Li|]. intros [|k] j J.
    - injection J as <-. exists x. split; [reflexivity|exact X].
    - destruct (F k j J) as (y & Y1 & Y2). exists y. split; [exact Y1|]. rewrite Nat.add_succ_r. exact Y2. }
  destruct (G cr O) as (impls & Li & F); clear G; [intros k i E; destruct (C k i E) as (A & B & _); now split|]. cbn [plus] in F.
  assert (At : forall d, match nth_error cr d with
    | Some i => meta_code i = Some (impl_of impls d) /\ x_links (impl_of impls d) = item_types i /\ msg_coded i (decl_of e d) (x_msg (impl_of impls d))
    | None => impl_of impls d = no_impl /\ decl_of e d = no_decl end /\
    x_name (impl_of impls d) = d_name (decl_of e d) /\ x_params (impl_of impls d) = d_params (decl_of e d) /\ x_type (impl_of impls d) = d_params (decl_of e d) /\ NoDup (d_params (decl_of e d))).
  { intros d. destruct (nth_error cr d) as [i|] eqn:Ei.
    - destruct (F d i Ei) as (x & X1 & X2 & X3 & X4 & X5 & X6 & X7). unfold impl_of. rewrite (nth_error_nth _ _ _ X1). destruct (C d i Ei) as ((_ & P & _) & _ & D & _).
      split; [now auto|]. repeat (split; [assumption|]). now rewrite P.
    - apply nth_error_None in Ei. unfold impl_of, decl_of. rewrite !nth_overflow by lia. repeat split. constructor. }
  assert (N1 : forall d, x_name (impl_of impls d) = d_name (decl_of e d)) by (intros d; apply At).
  assert (N2 : forall d, x_params (impl_of impls d) = d_params (decl_of e d)) by (intros d; apply At).
  assert (N3 : forall d, x_type (impl_of impls d) = d_params (decl_of e d)) by (intros d; apply At).
  assert (N4 : forall d, NoDup (d_params (decl_of e d))) by (intros d; apply At).
  assert (D : describes sc impls e).
  { intros t W. split; [now apply type_consts|].
    induction t using rty_ind'; try (split; reflexivity); [|exact (IHt W)]. cbn [msg_const msg_of links_const links_of]. destruct (At d) as [X _]. destruct (nth_error cr d) as [i|] eqn:Ei.
    - destruct X as (X1 & X2 & X3). destruct (C d i Ei) as (It & _ & _ & Pl). destruct (eval_item_as sc impls e So N1 N2 N3 N4 d i _ l It Pl X3) as [E1 E2]. rewrite E1, X2, E2. now split.
    - destruct X as [-> ->]. now split. }
  exists impls. split; [|split; [exact D|]].
  - assert (F' : forall k i, nth_error cr k = Some i -> exists x, nth_error impls k = Some x /\ meta_code i = Some x) by (intros k i E; destruct (F k i E) as (x & X1 & X2 & _); eauto).
    clear -F' Li. rename F' into F. revert impls F Li. induction cr as [|i cr IH]; intros [|x impls] F Li; try discriminate; constructor.
    + destruct (F O i eq_refl) as (y & [= <-] & Y). exact Y.
    + apply IH; [|now injection Li]. intros k j J. exact (F (S k) j J).
  - intros fuel s root W. unfold generate_consts, Meta.generate, collect_meta, collect.
    rewrite (visit_same _ (type_of e) _ (msg_of e) _ (links_of e) (g_name s) (fun t => wf e t = true)); [reflexivity|exact D|now apply (links_wf sc cr)|exact W].
Qed.
Print Assumptions c73_crate.
(** The macro writes a description for exactly the field types that it does not refuse. *)
Theorem c73_types : forall ps t, (exists x, field_type_code ps t = Some x) <-> supported (bare_type t).
Proof. intros ps t. rewrite <- type_err_spec. apply code_supported. Qed.
Print Assumptions c73_types.
