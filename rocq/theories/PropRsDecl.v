(** C69-C71: from a declaration to what its generated code does. *)
From Verif Require Import Base Varint WireFmt Types Ser Spec De Hash Log State StateSpec VarintProofs TypeProofs LogProofs ExecProofs PropLog Meta Gen RsGen RsRun RsSpec RsProofs PropRs
  Derive DeriveProofs RsDecl RsDeclProofs.
From Verif Require PropDe PropDerive PropState EvoGrow.
From Coq Require Import String.
Import String.StringSyntax.
Local Open Scope string_scope.
Local Open Scope list_scope.
Local Open Scope N_scope.

(** ** C69: the code is that of the declaration *)

(** The shape of the type (Derive.v) that code is for. *)
Definition code_shape (c : code) : shape :=
  match c with
  | CdStruct se d => ShStruct (mkS (is_some (ds_cache d)) (rs_state se)) (map snd (ds_fields d))
  | CdEnum se ds => ShEnum (rs_state se) (map (fun d => ((v_tag d, is_some (ds_cache d)), map snd (ds_fields d))) ds)
  end.
Theorem c69_shape : forall i, option_map code_shape (generate i) = snd (derive (bare_decl i)).
Proof.
  intros i. unfold generate, derive, bare_decl. cbn [d_args d_attrs d_data d_consts]. pose proof (full_setting_st (it_args i) (it_attrs i)) as S.
  destruct (parse_setting (it_args i) (it_attrs i)) as [[st es] u]. destruct S as [S1 S2]. destruct (it_data i) as [fs|vs|]; [| |reflexivity].
  - pose proof (struct_code_shape st (full_setting (it_args i) (it_attrs i)) u None fs S2) as Sh. destruct (Derive.parse_struct st u (bare fs)) as [e o]. cbn [snd] in *.
    destruct (struct_code st (full_setting (it_args i) (it_attrs i)) u None fs) as [d|]; cbn [option_map] in Sh; subst o; [|reflexivity].
    cbn [struct_shape option_map code_shape]. now rewrite S1.
  - destruct vs as [|v vs]; [reflexivity|]. unfold parse_enum. change (map bare_variant (v :: vs)) with (bare_variant v :: map bare_variant vs). cbv iota beta.
    destruct (parse_metas enum_table true no_slots u) as [[s e1] u1].
    pose proof (variants_code_shape st (full_setting (it_args i) (it_attrs i)) (sl_ints s) (v :: vs) S2 []) as Sh.
    change (map bare_variant (v :: vs)) with (bare_variant v :: map bare_variant vs) in Sh.
    destruct (variants_loop st (sl_ints s) [] (bare_variant v :: map bare_variant vs)) as [[e2 r] un]. cbn [fst snd] in Sh.
    destruct (Nat.eqb (List.length r) (List.length (bare_variant v :: map bare_variant vs)) && un); [|reflexivity].
    cbn [snd option_map code_shape]. rewrite S1. do 2 f_equal. exact Sh.
Qed.
Print Assumptions c69_shape.

(** What the attributes ask for, in the words of PropDerive.v. *)
Definition asks (i : item) (tr : string) : Prop := In (NMeta (MPath tr)) (it_args i).
Definition flagged (i : item) (x : string) : Prop := says (items (it_attrs i)) x (LBool true).
Definition texted (ns : list nmeta) (x : string) (o : option string) : Prop :=
  forall y, o = Some y <-> In (NMeta (MNameValue x (LStr y))) ns.
Definition setting_as (i : item) (se : rsetting) : Prop :=
  (rs_serialize se = true <-> asks i "State" \/ asks i "Serialize") /\
  (rs_deserialize se = true <-> asks i "State" \/ asks i "Deserialize") /\
  (rs_state se = true <-> asks i "State") /\
  (rs_partial_eq se = true <-> asks i "PartialEq") /\
  (rs_default se = true <-> asks i "State" \/ asks i "Deserialize" \/ asks i "Default") /\
  (rs_hash se = true <-> asks i "Hash") /\
  (rs_size_cache se = true <-> (asks i "State" \/ asks i "Serialize") /\ ~ flagged i "no_size_cache") /\
  (rs_ctors se = true <-> asks i "State" \/ asks i "Deserialize" \/ flagged i "derive_ctors") /\
  (rs_setters se = true <-> asks i "State" \/ flagged i "derive_setters") /\
  (exists o, texted (items (it_attrs i)) "ctor_prefix" o /\ rs_prefix se = match o with Some x => x | None => "new" end) /\
  texted (items (it_attrs i)) "size_cache_renamed" (rs_size_cache_renamed se) /\
  texted (items (it_attrs i)) "runtime_renamed" (rs_runtime_renamed se).

Lemma text_says tab ns name ids : akind_of tab name = Some KStr -> tidy tab true ns \/ tidy tab false ns -> texted ns name (text name (mkSl (singles tab ns) ids)).
Proof.
  intros K T y. assert (D : NoDup (map fst (singles tab ns))) by (now destruct T as [(_ & _ & D)|(_ & _ & D)]).
  unfold text. cbn [sl_vals]. split.
  - destruct (slot name (singles tab ns)) as [[| |x|]|] eqn:E; try discriminate. intros [= ->]. apply (slot_in _ _ _ D), in_singles in E.
    destruct E as [[I _]|[X _]]; [exact I|discriminate].
  - intros I. assert (X : In (name, LStr y) (singles tab ns)).
    { apply in_singles. left. split; [exact I|]. cbn [known]. now rewrite K. }
    apply (slot_in _ _ _ D) in X. now rewrite X.
Qed.
Lemma setting_meets i : fst (derive (bare_decl i)) = [] -> setting_as i (full_setting (it_args i) (it_attrs i)).
Proof.
  intros E. apply PropDerive.c37_accepts in E. destruct E as (Ta & _ & Ts & _ & _). cbn [bare_decl d_args d_attrs] in Ta, Ts. unfold full_setting.
  pose proof (parse_metas_tidy args_table false (it_args i)) as H. destruct (parse_metas args_table false no_slots (it_args i)) as [[a e1] u1]. destruct H as (H1 & H2 & _).
  pose proof (parse_attrs_tidy setting_table false (it_attrs i)) as K. destruct (parse_attrs setting_table false no_slots (it_attrs i)) as [[s e2] u2] eqn:Es. destruct K as (K1 & K2 & _).
  pose proof (H2 (proj2 H1 Ta)) as Ea. subst a.
  assert (Es2 : s = mkSl (singles setting_table (items (it_attrs i))) (ints setting_table (items (it_attrs i)))).
  { pose proof (parse_attrs_items setting_table false (it_attrs i) no_slots) as X. rewrite Es in X.
    pose proof (parse_metas_tidy setting_table false (items (it_attrs i))) as Y. destruct (parse_metas setting_table false no_slots (items (it_attrs i))) as [[s2 e3] u3].
    destruct X as (-> & _). destruct Y as (Y1 & Y2 & _). now apply Y2, Y1. }
  subst s. set (ta := or_intror Ta : tidy args_table true (it_args i) \/ tidy args_table false (it_args i)).
  set (ts := or_intror Ts : tidy setting_table true (items (it_attrs i)) \/ tidy setting_table false (items (it_attrs i))).
  unfold setting_as, settle, asks, flagged.
  cbn [rs_serialize rs_deserialize rs_state rs_partial_eq rs_default rs_hash rs_size_cache rs_ctors rs_setters rs_prefix rs_size_cache_renamed rs_runtime_renamed].
  rewrite !Bool.andb_true_iff, !Bool.orb_true_iff.
  rewrite (negb_iff _ _ (flag_says setting_table _ "no_size_cache" (ints setting_table (items (it_attrs i))) eq_refl ts)).
  rewrite (flag_says setting_table _ "derive_ctors" (ints setting_table (items (it_attrs i))) eq_refl ts).
  rewrite (flag_says setting_table _ "derive_setters" (ints setting_table (items (it_attrs i))) eq_refl ts).
  rewrite (flag_path args_table (it_args i) "State" _ eq_refl ta), (flag_path args_table (it_args i) "Serialize" _ eq_refl ta),
    (flag_path args_table (it_args i) "Deserialize" _ eq_refl ta), (flag_path args_table (it_args i) "PartialEq" _ eq_refl ta),
    (flag_path args_table (it_args i) "Default" _ eq_refl ta), (flag_path args_table (it_args i) "Hash" _ eq_refl ta).
  do 9 (split; [tauto|]). split; [|split; now apply text_says]. eexists. split; [now apply (text_says setting_table _ "ctor_prefix" (ints setting_table (items (it_attrs i))))|reflexivity].
Qed.

(** The names of the fields declared, and of those the macro adds. *)
Definition field_names (fs : nfields) : list string :=
  match fs with NNamed l => map fst l | NUnnamed l => map (fun k => dec (N.of_nat k)) (seq 0 (List.length l)) | NUnit => [] end.
Definition added (ns : list nmeta) (fs : nfields) (attr dfl : string) (whole : option string) (k : nat) (f : rfield) : Prop :=
  match fs with
  | NUnnamed _ => access f = dec (N.of_nat k)
  | _ => exists o, texted ns attr o /\ access f = match o, whole with Some x, _ => x | None, Some x => x | None, None => dfl end
  end.
Definition struct_as (se : rsetting) (ns : list nmeta) (fs : nfields) (d : dstruct) : Prop :=
  map (fun f : dfield => access (fst f)) (ds_fields d) = field_names fs /\
  (forall f, ds_cache d = Some f -> added ns fs "size_cache_renamed" "size_cache" (rs_size_cache_renamed se) (List.length (bare fs)) f) /\
  (forall f, ds_rt d = Some f -> added ns fs "runtime_renamed" "runtime" (rs_runtime_renamed se)
     (List.length (bare fs) + if is_some (ds_cache d) then 1 else 0) f).

Lemma number_access l : forall i, map (fun f : dfield => access (fst f)) (number i (map (fun fi : finfo => (None, fi)) l))
  = map (fun k => dec (i + N.of_nat k)) (seq 0 (List.length l)).
Proof.
  induction l as [|fi l IH]; intros i; [reflexivity|]. cbn [map number List.length seq fst]. rewrite IH, <- seq_shift, map_map. f_equal.
  - unfold access. cbn. f_equal. lia.
  - apply map_ext. intros k. f_equal. lia.
Qed.
Lemma named_access (l : list (string * finfo)) : forall i, map (fun f : dfield => access (fst f)) (number i (map (fun p => (Some (fst p), snd p)) l)) = map fst l.
Proof. induction l as [|[n fi] l IH]; intros i; [reflexivity|]. cbn. now rewrite IH. Qed.
Lemma attach_names fs r : List.length r = List.length (bare fs) -> map (fun f : dfield => access (fst f)) (dfields (attach fs r)) = field_names fs.
Proof.
  intros L. unfold dfields. destruct fs as [l|l|]; cbn [attach bare field_names] in *.
  - rewrite named_access. apply combine_fst. rewrite map_length in L. rewrite map_length. now symmetry.
  - rewrite number_access, L. apply map_ext. intros k. f_equal.
  - reflexivity.
Qed.
Lemma attach_length fs r : List.length r = List.length (bare fs) -> lenN (dfields (attach fs r)) = N.of_nat (List.length (bare fs)).
Proof. intros L. pose proof (f_equal (@List.length _) (attach_snd fs r L)) as H. rewrite map_length in H. unfold lenN. f_equal. exact (eq_trans H L). Qed.

Lemma struct_code_parse st se ns v fs d : struct_code st se ns v fs = Some d ->
  exists at_ r, d = RsGen.parse_struct se at_ v (attach fs r) /\ List.length r = List.length (bare fs).
Proof.
  unfold struct_code. destruct (parse_metas struct_table true no_slots ns) as [[s es] u].
  pose proof (parse_fields_length st (sl_ints s) (bare fs)) as L. destruct (snd (parse_fields st (sl_ints s) (bare fs))) as [r|]; [|discriminate]. intros [= <-]. eauto.
Qed.
Lemma struct_code_as st se ns v fs d : tidy struct_table true ns -> struct_code st se ns v fs = Some d -> struct_as se ns fs d.
Proof.
  intros T. unfold struct_code. pose proof (parse_metas_tidy struct_table true ns) as H. destruct (parse_metas struct_table true no_slots ns) as [[s es] u].
  destruct H as (H1 & H2 & _). specialize (H2 (proj2 H1 T)). subst s.
  pose proof (parse_fields_length st (ints struct_table ns) (bare fs)) as L. cbn [sl_ints]. destruct (snd (parse_fields st (ints struct_table ns) (bare fs))) as [r|]; [|discriminate]. intros [= <-].
  unfold struct_as, RsGen.parse_struct. cbn [ds_fields ds_cache ds_rt struct_attrs sa_no_size_cache sa_size_cache_renamed sa_runtime_renamed].
  rewrite (attach_length fs r L). split; [exact (attach_names fs r L)|].
  set (has := rs_size_cache se && negb (flag "no_size_cache" _)). split; intros f.
  - destruct has; [|discriminate]. intros [= <-]. unfold added. destruct fs as [l|l|]; cbn [attach add_field]; try reflexivity;
      (eexists; split; [now apply (text_says struct_table ns "size_cache_renamed" (ints struct_table ns)); [|left]|]; reflexivity).
  - destruct (rs_state se); [|discriminate]. intros [= <-]. unfold added. destruct fs as [l|l|]; cbn [attach add_field];
      try (eexists; split; [now apply (text_says struct_table ns "runtime_renamed" (ints struct_table ns)); [|left]|]; reflexivity).
    unfold access. cbn [r_name r_index]. f_equal. destruct has; cbn [is_some]; lia.
Qed.

(** The types of the fields: good ones, and of state fields State types. *)
Definition typed (d : dstruct) (ts : list ty) : Prop :=
  Forall2 (fun (f : dfield) t => ty_ok t = true /\ (f_state (snd f) = true -> state_ty t = true)) (ds_fields d) ts.
Lemma typed_length d ts : typed d ts -> List.length ts = List.length (ds_fields d).
Proof. intros F. symmetry. exact (forall2_len _ _ _ F). Qed.
Lemma typed_typed d ts : typed d ts -> PropDerive.typed_fields (map snd (ds_fields d)) (typed_fields d ts).
Proof.
  intros F. split.
  - unfold typed_fields. apply combine_fst. rewrite map_length. symmetry. now apply typed_length.
  - unfold typed_fields. induction F as [|f t fs ts X F IH]; cbn; constructor; assumption.
Qed.

Lemma full_settled args ats : exists se0 nc, full_setting args ats = settle se0 nc.
Proof.
  unfold full_setting. destruct (parse_metas args_table false no_slots args) as [[a e1] u1]. destruct (parse_attrs setting_table false no_slots ats) as [[s e2] u2]. eauto.
Qed.

Definition implements_struct (m : mode) (hl : store) (se : rsetting) (d : dstruct) (ts : list ty) : Prop :=
  let p := struct_prog se d ts in let t := struct_type se d ts in let ob := struct_obj d ts in
  (makes_spec m hl p se t ob /\ eq_spec m hl p se t ob /\ hash_spec m hl p se t ob /\
   size_spec m hl p se t ob /\ ser_spec m hl p se t ob /\ cache_spec m hl p se t ob /\ merge_spec m hl p se t ob) /\
  (runtime_spec m hl p se t ob /\ set_runtime_spec m hl p se t ob /\ handle_spec m hl p se t ob /\ handle_update_spec m hl p se t ob) /\
  (struct_setters_spec m hl se d ts /\ struct_plain_setters_spec m hl se d ts).

(** An accepted struct declaration: the generated code implements what its attributes ask for. *)
Theorem c69_struct : forall i fs, it_data i = NStruct fs -> fst (derive (bare_decl i)) = [] ->
  exists se d, generate i = Some (CdStruct se d) /\ setting_as i se /\ struct_as se (PropDerive.rest (bare_decl i)) fs d /\
    PropDerive.shape_is (bare_decl i) (code_shape (CdStruct se d)) /\
    forall m hl ts, typed d ts -> struct_compiles se d -> ty_ok (struct_type se d ts) = true /\ implements_struct m hl se d ts.
Proof.
  intros i fs Ed E. pose proof (PropDerive.c37_ty_ok _ E) as Ty. destruct (PropDerive.c37_generates _ E) as (sh & Esh & Sh). pose proof (c69_shape i) as C. rewrite Esh in *.
  pose proof (setting_meets i E) as Sm. apply PropDerive.c37_accepts in E. destruct E as (_ & _ & _ & _ & st' & _ & E).
  unfold generate in *. pose proof (PropDerive.parse_setting_spec (bare_decl i)) as Ps. cbn [bare_decl d_args d_attrs] in Ps.
  destruct (parse_setting (it_args i) (it_attrs i)) as [[st es] u]. destruct Ps as (_ & _ & ->). rewrite Ed, Esh in *. cbn [bare_decl d_data] in E. rewrite Ed in E. destruct E as (tags & Td & _).
  set (se := full_setting (it_args i) (it_attrs i)) in *. fold (bare_decl i) in *.
  change (PropDerive.rest _) with (PropDerive.rest (bare_decl i)) in *.
  destruct (struct_code st se (PropDerive.rest (bare_decl i)) None fs) as [d|] eqn:Ec; cbn [option_map] in C |- *; [|discriminate]. injection C as C. change (code_shape (CdStruct se d) = sh) in C.
  exists se, d. split; [reflexivity|]. split; [exact Sm|]. split; [now apply (struct_code_as st se _ None)|]. split; [now rewrite C|].
  intros m hl ts Tt Cp. rewrite <- C in Ty. cbn [code_shape] in Ty.
  assert (O : ty_ok (struct_type se d ts) = true) by (apply Ty; now apply typed_typed). split; [exact O|].
  destruct (struct_code_parse _ _ _ _ _ _ Ec) as (at_ & r & -> & _). destruct (full_settled (it_args i) (it_attrs i)) as (se0 & nc & Es). fold se in Es. rewrite Es in *.
  pose proof (typed_length _ _ Tt) as L. split; [now apply c65_struct|]. split; [now apply c65_state|now apply c67_struct_setters].
Qed.
Print Assumptions c69_struct.

(** The attributes of a variant that are not read by the enum. *)
Definition own (v : nvariant) : list nmeta := filter (fun n => negb (known variant_table n)) (items (nv_attrs v)).
Lemma variants_code_all st se vs : (List.length (variants_code st se vs) <= List.length vs)%nat /\
  (List.length (variants_code st se vs) = List.length vs ->
   Forall2 (fun v d => exists n, struct_code st se (own v) (Some (nv_name v, n)) (nv_fields v) = Some d) vs (variants_code st se vs)).
Proof.
  induction vs as [|v vs [IH1 IH2]]; [split; [cbn; lia|constructor]|]. cbn [variants_code].
  pose proof (parse_attrs_tidy variant_table false (nv_attrs v)) as H. destruct (parse_attrs variant_table false no_slots (nv_attrs v)) as [[s es] u]. destruct H as (_ & _ & ->). fold (own v).
  destruct (the_tag s) as [n|e].
  - destruct (struct_code st se (own v) (Some (nv_name v, n)) (nv_fields v)) as [d|] eqn:E; cbn [app List.length].
    + split; [lia|]. intros L. constructor; [eauto|]. apply IH2. lia.
    + split; [lia|]. intros L. exfalso. lia.
  - cbn [app List.length]. split; [lia|]. intros L. exfalso. lia.
Qed.
Lemma variants_parse st se vs D : Forall2 (fun v d => exists n, struct_code st se (own v) (Some (nv_name v, n)) (nv_fields v) = Some d) vs D ->
  exists rvs, D = map (parse_variant se) rvs.
Proof.
  induction 1 as [|v d vs D (n & E) F (rvs & ->)]; [now exists []|]. destruct (struct_code_parse _ _ _ _ _ _ E) as (at_ & r & -> & _).
  now exists (RV (nv_name v) n at_ (attach (nv_fields v) r) :: rvs).
Qed.
Lemma combine_variants se rvs : forall tss, combine (map (parse_variant se) rvs) tss = variants_of se (combine rvs tss).
Proof. induction rvs as [|v rvs IH]; intros [|ts tss]; [reflexivity..|]. cbn. f_equal. apply IH. Qed.

Definition implements_enum (m : mode) (hl : store) (se : rsetting) (ds : list (dstruct * list ty)) : Prop :=
  let D := map fst ds in let p := enum_prog se ds in let t := enum_type se ds in let ob := enum_obj ds in
  (makes_spec m hl p se t ob /\
   (none_named ["other"] D -> no_other D -> eq_spec m hl p se t ob) /\
   (none_named ["state"] D -> hash_spec m hl p se t ob) /\
   (none_named ["size"] D -> size_spec m hl p se t ob) /\
   (none_named ["writer"] D -> ser_spec m hl p se t ob) /\
   cache_spec m hl p se t ob /\
   (none_named ["reader"; "wire_type"; "field_number"] D -> merge_spec m hl p se t ob) /\
   (rs_ctors se = true -> forall d ts r s, In (d, ts) ds ->
      make m hl p (rs_prefix se +++ "_" +++ to_snake_case (v_name d)) (rt_arg se r) s
      = (s, Go (RObj (ob (variant_ctor (rs_state se) ((v_tag d, is_some (ds_cache d)), typed_fields d ts) r)))))) /\
  (runtime_spec m hl p se t ob /\
   (none_named ["runtime"; "self_runtime"] D -> set_runtime_spec m hl p se t ob) /\
   (none_named ["reader"; "wire_type"; "field_number"] D -> no_with_runtime se ds ->
      handle_update_spec m hl p se t ob /\
      (none_named ["path"; "kind"; "key"; "tag"] D -> handle_spec m hl p se t ob))) /\
  ((none_named ["size"; "writer"] D -> enum_setters_spec m hl se ds) /\ enum_plain_setters_spec m hl se ds).

(** An accepted enum declaration. *)
Theorem c69_enum : forall i vs, it_data i = NEnum vs -> fst (derive (bare_decl i)) = [] ->
  exists se D, generate i = Some (CdEnum se D) /\ setting_as i se /\
    Forall2 (fun v d => v_name d = nv_name v /\ struct_as se (own v) (nv_fields v) d) vs D /\
    PropDerive.shape_is (bare_decl i) (code_shape (CdEnum se D)) /\
    forall m hl tss, Forall2 typed D tss -> enum_compiles se D ->
      ty_ok (enum_type se (combine D tss)) = true /\ implements_enum m hl se (combine D tss).
Proof.
  intros i vs Ed E. pose proof (PropDerive.c37_ty_ok _ E) as Ty. destruct (PropDerive.c37_generates _ E) as (sh & Esh & Sh). pose proof (c69_shape i) as C. rewrite Esh in *.
  pose proof (setting_meets i E) as Sm. apply PropDerive.c37_accepts in E. destruct E as (_ & _ & _ & _ & st' & _ & E).
  unfold generate in *. destruct (parse_setting (it_args i) (it_attrs i)) as [[st es] u]. rewrite Ed, Esh in *. cbn [bare_decl d_data] in E. rewrite Ed in E. destruct E as (tags & _ & Vo & _).
  set (se := full_setting (it_args i) (it_attrs i)) in *. destruct (variants_code_all st se vs) as [_ A].
  set (D := variants_code st se vs) in *. clearbody D. cbn [option_map] in C. injection C as C. change (code_shape (CdEnum se D) = sh) in C. rewrite <- C in *.
  assert (L : List.length D = List.length vs).
  { destruct Sh as (se' & _ & Sh). cbn [bare_decl d_data code_shape] in Sh. rewrite Ed in Sh. destruct Sh as (_ & Sh & _). apply forall2_len in Sh. now rewrite !map_length in Sh. }
  specialize (A L). exists se, D. split; [reflexivity|]. split; [exact Sm|]. split; [|split; [exact Sh|]].
  - clear -A Vo. revert tags Vo. induction A as [|v d vs D (n & E) A IH]; intros tags Vo; cbn [map] in Vo; inversion Vo as [|? k ? tags' V1 V2]; subst; constructor; [|now apply (IH tags')].
    split; [unfold v_name; now rewrite (struct_code_variant _ _ _ _ _ _ E)|]. destruct V1 as (_ & _ & _ & _ & tg & T & _). now apply (struct_code_as st se _ _ _ _ T E).
  - intros m hl tss Tt Cp. cbn [code_shape] in Ty.
    assert (Hf : map fst (combine D tss) = D) by (apply combine_fst; exact (forall2_len _ _ _ Tt)).
    assert (Ta : typed_all (combine D tss)).
    { clear -Tt. intros d ts I. induction Tt as [|x y D tss T Tt IH]; [easy|]. cbn in I. destruct I as [[= -> ->]|I]; [now apply typed_length|auto]. }
    assert (O : ty_ok (enum_type se (combine D tss)) = true).
    { apply Ty; clear -Tt; induction Tt as [|x y D tss T Tt IH]; cbn; [reflexivity|now f_equal|constructor|constructor; [now apply typed_typed|exact IH]]. }
    split; [exact O|]. destruct (variants_parse _ _ _ _ A) as (rvs & ->). destruct (full_settled (it_args i) (it_attrs i)) as (se0 & nc & Es). fold se in Es. rewrite Es in *.
    rewrite combine_variants in *. rewrite <- Hf in Cp. split; [now apply c66_enum|]. split; [now apply c66_state|now apply c67_enum_setters].
Qed.
Print Assumptions c69_enum.

(** ** C70: what the generated code writes, it reads *)

Definition round_trips (p : prog) (t : ty) (ob : val -> obj) : Prop :=
  forall m m' hl hl' v s s', wt t v = true -> lossless t v = true -> lenN (enc v) < 2 ^ 32 ->
  exists bs v', run_to_bytes m hl p (ob v) s = (s, Go bs) /\
    run_deserialize m' hl' p bs s' = (set_in [] (set_self (Some (ob v')) s'), Go (ob v')) /\
    v' = norm rt_default v /\ wt t v' = true /\ veqb v v' = true.
Lemma runs_round_trip p se t ob : (forall m hl, size_spec m hl p se t ob /\ ser_spec m hl p se t ob /\ cache_spec m hl p se t ob) ->
  (forall m hl, makes_spec m hl p se t ob /\ merge_spec m hl p se t ob) ->
  rs_serialize se = true -> rs_deserialize se = true -> rs_default se = true -> rs_ctors se = true -> ty_ok t = true -> round_trips p t ob.
Proof.
  intros Hs Hd S D Df Ct O m m' hl hl' v s s' W L Ln. destruct (PropDe.c10_round_trip m m' t v hl O W L Ln) as (bs & v' & E1 & E2 & Ev & W' & Q).
  exists bs, v'. destruct (Hs m hl) as (H1 & H2 & H3). rewrite (to_bytes_runs p se t ob m hl v s H1 H2 H3 S W), E1. split; [reflexivity|].
  destruct (Hd m' hl') as (H4 & H5). pose proof (deserialize_runs p se t ob m' hl' bs s' H4 H5 Df Ct D O) as X. rewrite E2 in X. split; [exact X|]. now split.
Qed.

(** ** C71: replicas *)

Definition converges (p : prog) (t : ty) (ob : val -> obj) (stands : string * list rv -> op -> Prop) : Prop :=
  forall m m' m'' hl hl' lg lg' v w cs os s s',
  wt t v = true -> placed (mkRt lg Root) t v -> wt t w = true -> placed (mkRt lg' Root) t w -> same v w ->
  Forall2 stands cs os -> legal m t v (map (mkCall [] hl) os) ->
  exists v' evs b, run_calls m hl p cs (set_self (Some (ob v)) s) = (put_log evs (set_self (Some (ob v')) s), Go tt) /\
    feeds m lg (rl_new []) evs = Ok (mkRL b 0) /\
    (Forall fits (map fst b) ->
     exists bs b' w' i q, buf_bytes m' b = Ok (bs, b') /\
       run_replay m'' hl' p bs (set_self (Some (ob w)) s') = (set_in i (set_path q (set_self (Some (ob w')) s')), Go (ROk RUnit)) /\
       same v' w' /\ wt t v' = true /\ wt t w' = true /\ veqb v' w' = true).

Lemma calls_run p t ob m hl lg (stands : string * list rv -> op -> Prop) : ty_ok t = true -> state_ty t = true ->
  (forall c o v s, stands c o -> wt t v = true -> let '(v', x) := apply_op m hl t o v in sets s (ob v') x (invoke_own m hl p (fst c) (snd c) (set_self (Some (ob v)) s))) ->
  forall cs os, Forall2 stands cs os -> forall v s, wt t v = true -> coh (mkRt lg Root) v -> legal m t v (map (mkCall [] hl) os) ->
  let '(v', (evs, _)) := exec m t v (map (mkCall [] hl) os) in
  run_calls m hl p cs (set_self (Some (ob v)) s) = (put_log evs (set_self (Some (ob v')) s), Go tt).
Proof.
  intros O S H cs os F. induction F as [|c o cs os Co F IH]; intros v s W C Lg; cbn [map exec run_calls].
  - cbn. now destruct s as [a b c d e f g h i]; unfold put_log; cbn; rewrite app_nil_r.
  - cbn [map legal] in Lg. destruct Lg as [Lo Lg]. destruct (exec_effect m t (mkRt lg Root) O S [mkCall [] hl o] v W C) as (v1 & evs & rets & es & E & W1 & C1 & _).
    { cbn [legal]. split; [exact Lo|]. intros; exact I. }
    cbn [exec at_node c_at c_op c_caches] in E, Lg |- *. pose proof (H c o v s Co W) as X. specialize (Lg (fst (apply_op m hl t o v)) (snd (apply_op m hl t o v))). destruct c as [n vs]. cbn [fst snd] in X.
    destruct (apply_op m hl t o v) as [v2 [ev2 r2]]. cbn [fst snd] in *. specialize (Lg eq_refl).
    destruct r2 as [x|e| |]; cbn [mtry mbind mret fst snd] in *; try discriminate. injection E as E1 _ _. subst v2.
    unfold sets in X. cbn [fst snd] in X. unfold rbind. rewrite X.
    specialize (IH v1 (put_log ev2 s) W1 C1 Lg).
    destruct (exec m t v1 (map (mkCall [] hl) os)) as [v3 [ev3 r3]]. cbn [mbind fst snd] in *.
    change (put_log ev2 (set_self (Some (ob v1)) s)) with (set_self (Some (ob v1)) (put_log ev2 s)). rewrite IH.
    destruct r3; cbn; f_equal; destruct s; unfold put_log; cbn; rewrite <- app_assoc, ?app_nil_r; reflexivity.
Qed.
Lemma wire_ok es : Forall fits es -> bytes_ok (List.concat (map entry_wire es)).
Proof.
  induction 1 as [|e es [E _] F IH]; [constructor|]. cbn [map List.concat]. apply bytes_ok_app. split; [|exact IH]. unfold entry_wire. apply bytes_ok_app.
  split; [apply leb128_ok|]. apply (EvoGrow.enc_ok tEntry). now apply wt_entry.
Qed.
Lemma runs_converge p se t ob (stands : string * list rv -> op -> Prop) :
  (forall m hl, runtime_spec m hl p se t ob /\ handle_spec m hl p se t ob) ->
  (forall m hl c o v s, stands c o -> wt t v = true ->
     let '(v', x) := apply_op m hl t o v in sets s (ob v') x (invoke_own m hl p (fst c) (snd c) (set_self (Some (ob v)) s))) ->
  rs_state se = true -> ty_ok t = true -> state_ty t = true -> root_ty t = true -> converges p t ob stands.
Proof.
  intros Hh Hs Rs O S R m m' m'' hl hl' lg lg' v w cs os s s' W Pl Ww Plw Sm F Lg.
  destruct (PropState.c23_converge m m' m'' t lg lg' v w (map (mkCall [] hl) os) O S R W Pl Ww Plw Sm Lg) as (v' & evs & rets & b & E & _ & W' & _ & Fd & Rp).
  exists v', evs, b. split; [|split; [exact Fd|]].
  - pose proof (calls_run p t ob m hl lg stands O S (Hs m hl) cs os F v s W) as X. rewrite E in X. apply X; [now apply (placed_coh t)|exact Lg].
  - intros Fi. destruct (Rp Fi) as (bs & b' & w' & Eb & Er & Sm' & Q & Ww' & _). destruct (Hh m'' hl') as [H1 H2].
    assert (Bo : bytes_ok bs). { destruct (buf_bytes_spec m' b Fi) as (b2 & E2 & _). rewrite Eb in E2. injection E2 as -> _. now apply wire_ok. }
    pose proof (replay_runs p se t ob m'' hl' bs w true s' H2 H1 Rs O S Bo Ww) as X. rewrite Er in X.
    destruct X as [(i & q & X1) X2]; [apply (is_root_coh t w lg' S R Ww); now apply (placed_coh t)|].
    exists bs, b', w', i, q. split; [exact Eb|]. split; [|now split].
    destruct (run_replay m'' hl' p bs (set_self (Some (ob w)) s')) as [s2 c2]. cbn [fst snd] in *. now subst.
Qed.

(** For a struct. *)
Theorem c70_struct : forall i fs, it_data i = NStruct fs -> fst (derive (bare_decl i)) = [] ->
  asks i "State" \/ (asks i "Serialize" /\ asks i "Deserialize") ->
  exists se d, generate i = Some (CdStruct se d) /\
    forall ts, typed d ts -> struct_compiles se d -> round_trips (struct_prog se d ts) (struct_type se d ts) (struct_obj d ts).
Proof.
  intros i fs Ed E A. destruct (c69_struct i fs Ed E) as (se & d & G & (S1 & S2 & _ & _ & S5 & _ & _ & S8 & _) & _ & _ & H).
  exists se, d. split; [exact G|]. intros ts T C. destruct (H Debug (fun _ => 0) ts T C) as [O _].
  apply (runs_round_trip _ se); [| |tauto..|exact O]; intros m hl; destruct (H m hl ts T C) as (_ & (X1 & _ & _ & X4 & X5 & X6 & X7) & _);
    [exact (conj X4 (conj X5 X6))|exact (conj X1 X7)].
Qed.
Print Assumptions c70_struct.
(** A setter of the struct and the operation it stands for. *)
Definition struct_setter (d : dstruct) (ts : list ty) (c : string * list rv) (o : op) : Prop :=
  exists f tf, In (f, tf) (combine (ds_fields d) ts) /\
    ((exists x, c = (set_name d f, [RVal tf x]) /\ o = OSet (f_tag (snd f)) x) \/
     (f_state (snd f) = true /\ exists g, c = (set_name d f +++ "_with", [RFun tf g]) /\ o = OSetWith (f_tag (snd f)) g)).
Theorem c71_struct : forall i fs, it_data i = NStruct fs -> fst (derive (bare_decl i)) = [] -> asks i "State" ->
  exists se d, generate i = Some (CdStruct se d) /\
    forall ts, typed d ts -> struct_compiles se d ->
      converges (struct_prog se d ts) (struct_type se d ts) (struct_obj d ts) (struct_setter d ts).
Proof.
  intros i fs Ed E A. destruct (c69_struct i fs Ed E) as (se & d & G & (_ & _ & S3 & _) & _ & _ & H).
  exists se, d. split; [exact G|]. intros ts T C. destruct (H Debug (fun _ => 0) ts T C) as [O _]. assert (Rs : rs_state se = true) by tauto.
  apply (runs_converge _ se); try assumption.
  - intros m hl. destruct (H m hl ts T C) as (_ & _ & (X1 & _ & X3 & _) & _). now split.
  - intros m hl c o v s (f & tf & I & Co) W. destruct (H m hl ts T C) as (_ & _ & _ & X & _). destruct (X Rs f tf v s I W) as [Y Z].
    destruct Co as [(x & -> & ->)|(Sf & g & -> & ->)]; [apply Y|apply Z; exact Sf].
  - reflexivity.
Qed.
Print Assumptions c71_struct.

(** For an enum. *)
Theorem c70_enum : forall i vs, it_data i = NEnum vs -> fst (derive (bare_decl i)) = [] ->
  asks i "State" \/ (asks i "Serialize" /\ asks i "Deserialize") ->
  exists se D, generate i = Some (CdEnum se D) /\
    forall tss, Forall2 typed D tss -> enum_compiles se D ->
      none_named ["size"] D -> none_named ["writer"] D -> none_named ["reader"; "wire_type"; "field_number"] D ->
      round_trips (enum_prog se (combine D tss)) (enum_type se (combine D tss)) (enum_obj (combine D tss)).
Proof.
  intros i vs Ed E A. destruct (c69_enum i vs Ed E) as (se & D & G & (S1 & S2 & _ & _ & S5 & _ & _ & S8 & _) & _ & _ & H).
  exists se, D. split; [exact G|]. intros tss T C N1 N2 N3. destruct (H Debug (fun _ => 0) tss T C) as [O _].
  assert (Hf : map fst (combine D tss) = D) by (apply combine_fst; exact (forall2_len _ _ _ T)).
  apply (runs_round_trip _ se); [| |tauto..|exact O]; intros m hl; destruct (H m hl tss T C) as (_ & X & _); rewrite Hf in X; destruct X as (X1 & _ & _ & X4 & X5 & X6 & X7 & _);
    [exact (conj (X4 N1) (conj (X5 N2) X6))|exact (conj X1 (X7 N3))].
Qed.
Print Assumptions c70_enum.
Definition enum_setter (ds : list (dstruct * list ty)) (c : string * list rv) (o : op) : Prop :=
  exists d ts f tf, In (d, ts) ds /\ In (f, tf) (combine (ds_fields d) ts) /\
    ((exists x, c = (set_name d f, [RVal tf x]) /\ o = OVSet (v_tag d) (f_tag (snd f)) x) \/
     (f_state (snd f) = true /\ exists g, c = (set_name d f +++ "_with", [RFun tf g]) /\ o = OVSetWith (v_tag d) (f_tag (snd f)) g)).
Theorem c71_enum : forall i vs, it_data i = NEnum vs -> fst (derive (bare_decl i)) = [] -> asks i "State" ->
  exists se D, generate i = Some (CdEnum se D) /\
    forall tss, Forall2 typed D tss -> enum_compiles se D ->
      none_named ["size"; "writer"] D -> none_named ["reader"; "wire_type"; "field_number"] D -> none_named ["path"; "kind"; "key"; "tag"] D ->
      no_with_runtime se (combine D tss) ->
      converges (enum_prog se (combine D tss)) (enum_type se (combine D tss)) (enum_obj (combine D tss)) (enum_setter (combine D tss)).
Proof.
  intros i vs Ed E A. destruct (c69_enum i vs Ed E) as (se & D & G & (_ & _ & S3 & _) & _ & _ & H).
  exists se, D. split; [exact G|]. intros tss T C N1 N2 N3 N4. destruct (H Debug (fun _ => 0) tss T C) as [O _]. assert (Rs : rs_state se = true) by tauto.
  assert (Hf : map fst (combine D tss) = D) by (apply combine_fst; exact (forall2_len _ _ _ T)).
  apply (runs_converge _ se); try assumption.
  - intros m hl. destruct (H m hl tss T C) as (_ & _ & X & _). rewrite Hf in X. destruct X as (X1 & _ & X3). destruct (X3 N2 N4) as [_ X4]. split; [exact X1|now apply X4].
  - intros m hl c o v s (d & ts & f & tf & Id & I & Co) W. destruct (H m hl tss T C) as (_ & _ & _ & X). rewrite Hf in X. destruct X as [X _]. destruct (X N1 Rs d ts f tf v s Id I W) as [Y Z].
    destruct Co as [(x & -> & ->)|(Sf & g & -> & ->)]; [apply Y|apply Z; exact Sf].
  - reflexivity.
Qed.
Print Assumptions c71_enum.

(** ** Examples *)

Definition tagged (ns : list nmeta) (n : N) : attr := ASteit (NMeta (MNameValue "tag" (LInt n)) :: ns).
Definition the_type (x : string) : sty := SPath false (Some x) ANone.
Definition p_ (x : string) : nmeta := NMeta (MPath x).
Definition owned : attr := ASteit [p_ "steit_owned"; NMeta (MNameValue "ctor_prefix" (LStr "empty"))].
(** test_util.rs 25-27, log/entry.rs 19-48 and steit-derive/test-crate/src/lib.rs 204-212, with what PropRs.v has for them. *)
Definition foo_item : item := Item [p_ "PartialEq"; p_ "Debug"; p_ "Serialize"; p_ "Deserialize"] [owned] 0
  (NStruct (NUnnamed [mkField [tagged [] 0] (the_type "i32"); mkField [tagged [] 1] (the_type "i32")])).
Definition path_field : string * field :=
  ("path", mkField [tagged [NMeta (MNameValue "csharp_name" (LStr "flatten_path"))] 0] (SPath false (Some "Vec") (AAngle [GType (the_type "u32")]))).
Definition log_item : item := Item [p_ "Clone"; p_ "Debug"; p_ "Serialize"; p_ "Deserialize"; p_ "JsonSerialize"] [owned] 0
  (NEnum [NV "Update" [tagged [] 0] (NNamed [path_field; ("value", mkField [tagged [] 1] (the_type "Bytes"))]);
          NV "ListPush" [tagged [] 8] (NNamed [path_field; ("item", mkField [tagged [] 1] (the_type "Bytes"))]);
          NV "ListPop" [tagged [] 9] (NNamed [path_field]);
          NV "MapRemove" [tagged [] 12] (NNamed [path_field; ("key", mkField [tagged [] 1] (the_type "u32"))])]).
Definition outer_item : item := Item [p_ "Debug"; p_ "State"] [] 0
  (NStruct (NNamed [("foo", mkField [tagged [] 0] (the_type "i32")); ("bar", mkField [tagged [] 1] (the_type "bool"));
                    ("inner", mkField [tagged [] 2] (the_type "Inner"))])).
Example c69_case :
  fst (derive (bare_decl foo_item)) = [] /\ generate foo_item = Some (CdStruct foo_se foo_d) /\
  fst (derive (bare_decl log_item)) = [] /\ generate log_item = Some (CdEnum log_se (map fst log_ds)) /\
  fst (derive (bare_decl outer_item)) = [] /\ generate outer_item = Some (CdStruct state_se outer_d) /\
  typed foo_d foo_ts /\ Forall2 typed (map fst log_ds) (map snd log_ds) /\ typed outer_d outer_ts.
Proof. repeat split; try reflexivity; repeat constructor; cbn; try reflexivity; intros; discriminate. Qed.
(** Attributes that rename what the macro adds and leave things out. *)
Definition renamed_item : item := Item [p_ "Serialize"; p_ "Hash"]
  [AForeign; ASteit [NMeta (MNameValue "size_cache_renamed" (LStr "sz")); p_ "derive_setters"]] 0
  (NEnum [NV "Zero" [tagged [p_ "no_size_cache"] 0] NUnit;
          NV "Some" [tagged [NMeta (MNameValue "size_cache_renamed" (LStr "mine"))] 1] (NNamed [("a", mkField [tagged [] 4] (the_type "i32"))]);
          NV "Other" [tagged [] 2] (NNamed [("b", mkField [tagged [] 0] (the_type "i32"))])]).
Example c69_renamed : exists se z s o, generate renamed_item = Some (CdEnum se [z; s; o]) /\
  rs_setters se = true /\ rs_ctors se = false /\ rs_hash se = true /\ rs_deserialize se = false /\ rs_default se = false /\
  ds_cache z = None /\ option_map access (ds_cache s) = Some "mine" /\ option_map access (ds_cache o) = Some "sz".
Proof. do 4 eexists. split; [reflexivity|]. vm_compute. auto 9. Qed.

Definition hl0 : store := fun _ => 0.
(** [Foo(3, -2)] there and back. *)
Example c70_case : let p := struct_prog foo_se foo_d foo_ts in
  let v := VStruct true None [(fn_ 0, VInt I32 3); (fn_ 1, VInt I32 (-2))] in
  snd (run_to_bytes Debug hl0 p (struct_obj foo_d foo_ts v) (st0 None)) = Go [0; 6; 8; 3] /\
  snd (run_deserialize Debug hl0 p [0; 6; 8; 3] (st0 None)) = Go (struct_obj foo_d foo_ts v).
Proof. vm_compute. auto. Qed.
(** [set_foo(127)] and [set_inner_with(..)] on one [Outer], the log on another. *)
Example c71_case : let p := struct_prog state_se outer_d outer_ts in let ob := struct_obj outer_d outer_ts in let t := struct_type state_se outer_d outer_ts in
  let one := run_calls Debug hl0 p [("set_foo", [RVal (TInt I32) (VInt I32 127)]); ("set_inner_with", [RFun inner_t (fun r => ([], Ok (dflt inner_t r)))])]
               (st0 (Some (ob (dflt t (mkRt 7 Root))))) in
  snd one = Go tt /\
  match feeds Debug 7 (rl_new []) (s_log (fst one)) with
  | Ok (mkRL b _) =>
      match buf_bytes Debug b with
      | Ok (bs, _) =>
          bs = [8; 0; 2; 1; 0; 10; 2; 254; 1; 4; 0; 2; 1; 2] /\
          let two := run_replay Debug hl0 p bs (st0 (Some (ob (dflt t (mkRt 8 Root))))) in
          snd two = Go (ROk RUnit) /\
          option_map (fun o => lookup "foo" (o_cells o)) (s_self (fst two)) = Some (Some (CVal (TInt I32) (VInt I32 127)))
      | _ => False
      end
  | _ => False
  end.
Proof. vm_compute. auto 6. Qed.
