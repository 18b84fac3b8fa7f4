(** The class of an enum, from its description to what its methods do: proofs for PropGen.v. *)
From Verif Require Import Base Varint WireFmt Types De Meta MetaProofs Gen CSharp CsRead CSharpProofs CsRun GenSpec GenLex GenParse GenStmt GenMember GenClass GenFile GenEnum GenRun GenStruct GenRunEnum.
From Coq Require Import String Lia.
Import Ascii String.StringSyntax.
Local Open Scope string_scope.
Local Open Scope list_scope.
Local Open Scope N_scope.

Lemma NoDup_last {A} (a b : list A) : NoDup (a ++ b) -> NoDup b.
Proof. induction a as [|x a IH]; [auto|]. cbn [app]. intros H. apply NoDup_cons_iff in H. apply IH, H. Qed.

(** ** What usable names give *)

Section Fine.
  Variable params : list (string * cty).
  Variable user : string -> list cty -> option cty.
  Variables (n : string) (ps : list string) (vs : list variant) (d : variant).
  Notation user' := (in_scope vs user).
  Notation ty := (resolve params user').
  Notation cls := (x_enum n ps (map ev_of vs) (ev_of d)).
  Hypothesis lib : no_library user.
  Hypothesis pfree : params_free params = true.
  Hypothesis fine : enum_fine params user' n ps vs = true.

  Ltac fine_parts := pose proof fine as F; unfold enum_fine in F; cbv zeta in F; rewrite !andb_true_iff in F;
    destruct F as [[[[[[[[[[[Fn Fv] Fr] Fl] Fps] Fo] Fk] Fu] Ft] Ff] Fw] Fvs].
  Ltac variant_parts Fx := unfold variant_fine in Fx; rewrite !andb_true_iff in Fx; destruct Fx as [[[[[[F1 F2] F3] F4] F5] F6] F7].

  Lemma each_variant v : In v vs -> variant_fine params user' (with_params ps (enum_names vs)) v = true.
  Proof. fine_parts. rewrite forallb_forall in Fvs. apply Fvs. Qed.
  Lemma enum_lib : no_library user'.
  Proof.
    intros m cs Hm. unfold in_scope. destruct cs; [|now apply lib].
    destruct (find (fun v => String.eqb m (va_name v)) vs) as [v|] eqn:E; [|now apply lib].
    apply find_some in E. destruct E as [Hv E]. apply String.eqb_eq in E. exfalso. subst m.
    pose proof (each_variant v Hv) as Fx. variant_parts Fx. apply negb_true_iff, mem_false in F5. now apply F5.
  Qed.
  Lemma enum_declared : NoDup (map fst (enum_names vs)).
  Proof.
    fine_parts. apply unique_nodup, NoDup_cons_iff in Fu. destruct Fu as [_ Fu]. unfold with_params in Fu. rewrite map_app in Fu. now apply NoDup_left in Fu.
  Qed.
  Lemma variant_names : NoDup (map va_name vs).
  Proof.
    pose proof enum_declared as D. unfold enum_names in D. rewrite !map_app, !map_map in D. cbn [fst] in D. now do 5 apply NoDup_last in D.
  Qed.
  Lemma enum_classes v : In v vs -> ty (CN (va_name v) []) = Some (va_class v).
  Proof.
    intros Hv. rewrite resolve_eq. cbn [some_all]. pose proof (each_variant v Hv) as Fx. variant_parts Fx.
    apply negb_true_iff, sassoc_not in F4. rewrite F4. unfold in_scope.
    destruct (find (fun x => String.eqb (va_name v) (va_name x)) vs) as [x|] eqn:E.
    - apply find_some in E. destruct E as [Hx E]. apply String.eqb_eq in E. now rewrite (NoDup_map_inj va_name vs v x variant_names Hv Hx E).
    - eapply find_none in E; [|exact Hv]. now rewrite String.eqb_refl in E.
  Qed.
  Lemma enum_params_ok : Forall (fun p => exists c, ty (CN p []) = Some c) ps.
  Proof.
    fine_parts. rewrite forallb_forall in Fk. apply Forall_forall. intros p Hp. specialize (Fk p Hp). destruct (ty (CN p [])) as [c|]; [eauto|discriminate].
  Qed.
  Lemma enum_tags : NoDup (map va_tag vs).
  Proof. fine_parts. now apply distinct_spec. Qed.
  Lemma enum_names_is : names cls [] = with_params ps (enum_names vs).
  Proof. rewrite enum_names_are, app_nil_r. reflexivity. Qed.
  Lemma enum_free m : In m library_names -> str_mem m (map fst (with_params ps (enum_names vs))) = false -> free ty cls [] m.
  Proof. intros Hm H. split; [|intros a; apply library_none; [exact enum_lib|assumption..]]. rewrite enum_names_is. now apply sassoc_not. Qed.
  Lemma enum_own : exists c, ty (own_type n ps) = Some c.
  Proof. fine_parts. destruct (ty (own_type n ps)) as [c|]; [eauto|discriminate]. Qed.
  Lemma enum_var : uncap_first_char n <> "reader".
  Proof. fine_parts. apply negb_true_iff, mem_false in Fr. intros E. apply Fr. left. now rewrite E. Qed.
  Lemma enum_own_free : sassoc n (names cls []) = None.
  Proof. fine_parts. rewrite enum_names_is. apply unique_nodup, NoDup_cons_iff in Fu. apply sassoc_none, Fu. Qed.
  Lemma enum_own_local : ~ In n update_locals.
  Proof. fine_parts. now apply negb_true_iff, mem_false in Fl. Qed.
  Lemma variant_free v : In v vs -> ~ In (va_name v) replace_locals.
  Proof. intros Hv. pose proof (each_variant v Hv) as Fx. variant_parts Fx. now apply negb_true_iff, mem_false in F6. Qed.

  (** ** The class *)
  Hypothesis default : find (fun v => va_tag v =? 0) vs = Some d.
  Lemma default_variant : In d vs /\ va_tag d = 0.
  Proof. apply find_some in default. destruct default as [H1 H2]. now apply N.eqb_eq in H2. Qed.

  Lemma variants_assoc v : In v vs -> assoc (va_tag v) (cvariants vs) = Some (cfields (va_fields v)).
  Proof.
    intros Hv. pose proof enum_tags as D. clear - Hv D. induction vs as [|x l IH]; [destruct Hv|]. cbn [cvariants map assoc]. fold (cvariants l).
    cbn [map] in D. apply NoDup_cons_iff in D. destruct D as [D1 D2]. destruct Hv as [->|Hv]; [now rewrite N.eqb_refl|].
    destruct (N.eqb_spec (va_tag v) (va_tag x)) as [E|]; [|now apply IH]. exfalso. apply D1. rewrite <- E. now apply in_map.
  Qed.
  Lemma variants_find tag : assoc tag (cvariants vs) = option_map (fun v => cfields (va_fields v)) (find (fun v => tag =? va_tag v) vs).
  Proof.
    clear. induction vs as [|x l IH]; [reflexivity|]. cbn [cvariants map assoc find]. fold (cvariants l). destruct (tag =? va_tag x); [reflexivity|exact IH].
  Qed.
  Lemma eobj_is p v xs : In v vs -> eobj p (va_tag v) (va_class v) (CVStruct xs, p ++ [va_tag v]) = enum_object p vs (va_tag v) xs.
  Proof. intros Hv. unfold enum_object. rewrite variants_assoc by assumption. reflexivity. Qed.
  Lemma tagged tag : In tag (map va_tag vs) -> exists v, In v vs /\ va_tag v = tag.
  Proof. intros H. apply in_map_iff in H. destruct H as (v & H1 & H2). eauto. Qed.

  Lemma whole_enum : enum_class ty cls ps vs.
  Proof.
    destruct default_variant as [Hd Hd0].
    pose proof enum_classes as H1. pose proof enum_params_ok as H2. pose proof enum_declared as H3. pose proof enum_tags as H4.
    assert (H5 : free ty cls [] "StateFactory") by (fine_parts; apply enum_free; [cbn; tauto|now apply negb_true_iff]).
    assert (H6 : free ty cls [] "WireType") by (fine_parts; apply enum_free; [cbn; tauto|now apply negb_true_iff]).
    assert (HL : forall m, In m library_names -> forall a, ty (CN m a) = None) by (intros m Hm a; apply library_none; [exact enum_lib|assumption..]).
    assert (H7 : forall a, ty (CN "Path" a) = None) by (apply HL; cbn; tauto).
    assert (H8 : forall a, ty (CN "VariantUpdateEventArgs" a) = None) by (apply HL; cbn; tauto).
    assert (H9 : forall a, ty (CN "IState" a) = None) by (apply HL; cbn; tauto).
    pose proof enum_own as H10. pose proof enum_var as H11. pose proof enum_own_free as H12. pose proof enum_own_local as H13. pose proof variant_free as H14.
    pose proof (variants_assoc d Hd) as Ad. rewrite Hd0 in Ad.
    assert (Nv : forall v, c_new (va_class v) = do xs <- c_new_fields (cfields (va_fields v)); Ok (CVStruct xs)) by reflexivity.
    assert (Dv : forall v bs, c_deser (va_class v) bs =
      do xs <- c_new_fields (cfields (va_fields v)); do xs <- crun (c_struct_step (c_readers (cfields (va_fields v)))) xs bs; Ok (CVStruct xs, [])) by reflexivity.
    split.
    - intros a. rewrite enum_new by assumption. rewrite c_new_enum, Ad. cbn [w_new client]. rewrite Nv.
      destruct (c_new_fields (cfields (va_fields d))) as [xs| | |]; cbn [bind]; try reflexivity. cbn [inside tag_in]. rewrite eobj_is, Hd0 by assumption. reflexivity.
    - intros v a bs Hv.
      assert (G1 : ps = [] -> run_static _ client ty cls [] ("New" +++ va_camel v) [a_path a] bs =
        do x <- c_new (va_class v); Ok (enum_object (root_or a) vs (va_tag v) (inside x), bs, [])).
      { intros Eq. rewrite factory_plain by assumption. cbn [w_new client]. rewrite Nv.
        destruct (c_new_fields (cfields (va_fields v))) as [xs| | |]; cbn [bind]; try reflexivity. cbn [inside]. rewrite eobj_is by assumption. reflexivity. }
      assert (G2 : ps <> [] -> run_static _ client ty cls [] ("New" +++ va_camel v) [a_path a] bs = NoFuel) by (intros Eq; now apply factory_generic).
      revert G1 G2. generalize (run_static _ client ty cls [] ("New" +++ va_camel v) [a_path a] bs). clear. intros r G1 G2.
      destruct ps; [now apply G1|]. apply G2. discriminate.
    - intros a bs. rewrite enum_deserialize by assumption. unfold enum_read. rewrite c_deser_enum, c_new_enum, Ad. cbn [w_new client]. rewrite Nv.
      destruct (c_new_fields (cfields (va_fields d))) as [xs| | |]; cbn [bind]; try reflexivity.
      destruct (c_int U32 bs) as [[z rest]| | |]; cbn [bind]; try reflexivity. rewrite variants_find.
      destruct (find (fun v => Z.to_N z =? va_tag v) vs) as [v|] eqn:Ev; cbn [option_map].
      + apply find_some in Ev. destruct Ev as [Hv Ev]. apply N.eqb_eq in Ev. cbn [w_read client]. rewrite Dv.
        destruct (c_new_fields (cfields (va_fields v))) as [ys| | |]; cbn [bind]; try reflexivity.
        destruct (crun (c_struct_step (c_readers (cfields (va_fields v)))) ys rest) as [zs| | |]; cbn [bind]; try reflexivity.
        cbn [inside tag_in]. rewrite eobj_is, Ev by assumption. reflexivity.
      + cbn [bind inside tag_in]. rewrite eobj_is, Hd0 by assumption. reflexivity.
    - intros o tag. rewrite enum_wire_type by assumption. unfold wire_of. rewrite variants_find, <- find_exists.
      destruct (find (fun v => tag =? va_tag v) vs); reflexivity.
    - intros p tag xs tag' Ht. destruct (tagged tag Ht) as (v & Hv & <-). rewrite <- eobj_is by assumption. rewrite enum_get_nested by assumption.
      cbn [c_child]. destruct (N.eqb_spec tag' (va_tag v)) as [->|]; [|reflexivity]. rewrite variants_assoc by assumption. reflexivity.
    - intros p tag xs v k bs b Ht Hv. destruct (tagged tag Ht) as (v0 & Hv0 & <-). rewrite <- eobj_is by assumption. rewrite enum_replace_at by assumption.
      destruct (find (fun x => va_tag v =? va_tag x) vs) as [x|] eqn:E.
      2:{ eapply find_none in E; [|exact Hv]. now rewrite N.eqb_refl in E. }
      apply find_some in E. destruct E as [Hx E]. apply N.eqb_eq in E. rewrite <- (NoDup_map_inj va_tag vs v x H4 Hv Hx E). cbn [w_read client].
      rewrite Dv.
      destruct (c_new_fields (cfields (va_fields v))) as [ys| | |]; cbn [bind]; try reflexivity.
      destruct (crun (c_struct_step (c_readers (cfields (va_fields v)))) ys bs) as [zs| | |]; cbn [bind]; try reflexivity.
      cbn [inside]. rewrite eobj_is by assumption. rewrite (variants_assoc v0) by assumption. reflexivity.
    - intros p tag xs tag' k bs b Ht Hn. destruct (tagged tag Ht) as (v0 & Hv0 & <-). rewrite <- eobj_is by assumption. rewrite enum_replace_at by assumption.
      destruct (find (fun x => tag' =? va_tag x) vs) as [x|] eqn:E; [|reflexivity].
      apply find_some in E. destruct E as [Hx E]. apply N.eqb_eq in E. exfalso. apply Hn. rewrite E. now apply in_map.
  Qed.
End Fine.
(** ** The text *)

Lemma variants_ops cs l : forall vs : list variant,
  Forall2 (fun v (sv : smeta * N) => va_meta v = fst sv /\ va_tag v = snd sv /\ exists ty, fields_of ty (sm_fields (fst sv)) = Some (va_fields v)) vs l ->
  map ev_meta (map ev_of vs) = l /\ all_ok (map (enum_variant cs) l) = Ok (map variant_text (map ev_of vs)).
Proof.
  intros vs H. induction H as [|v [m t] vs l (E1 & E2 & ty & E3) Hr [IH1 IH2]]; [auto|]. cbn [fst snd] in *.
  destruct (fields_of_cs _ _ _ E3) as (F1 & F2 & _). cbn [map all_ok]. rewrite (variant_ops (m, t) cs _ F1). cbn [bind]. rewrite IH1, IH2. cbn [bind].
  split.
  - f_equal. cbn [ev_of ev_meta]. congruence.
  - do 2 f_equal. unfold variant_text, ev_of, ev_tag, ev_name, ev_params. cbn [ev_meta ev_fields fst snd]. rewrite E1, E2, F2. reflexivity.
Qed.
Lemma enum_text e cs (vs : list variant) d : map ev_meta (map ev_of vs) = em_variants e -> all_ok (map (enum_variant cs) (em_variants e)) = Ok (map variant_text (map ev_of vs)) ->
  find (fun v => va_tag v =? 0) vs = Some d ->
  gen_text (MEnum e) cs = Ok (emit 4 0 (gen_file_opening cs ++ enum_ops (cs_name (em_name e)) (em_params e) (map ev_of vs) (ev_of d) ++ gen_file_closing)).
Proof.
  intros H1 H2 H3. unfold gen_text, gen_message, gen_enum. rewrite H2.
  assert (D : find (fun v : smeta * N => snd v =? 0) (em_variants e) = Some (ev_meta (ev_of d))).
  { rewrite <- H1. clear - H3. induction vs as [|v l IH]; [discriminate|]. cbn [map find] in *. cbn [ev_of ev_meta snd]. destruct (va_tag v =? 0); [congruence|auto]. }
  rewrite D. cbn [bind]. do 2 f_equal. unfold enum_ops. rewrite <- H1, own_print, flat_map_concat_map, <- !app_assoc. reflexivity.
Qed.
Lemma enum_reads params user e cs (vs : list variant) d : setting_ok cs = true ->
  variants_of (resolve params (in_scope vs user)) e vs ->
  enum_fine params (in_scope vs user) (cs_name (em_name e)) (em_params e) vs = true ->
  find (fun v => va_tag v =? 0) vs = Some d ->
  exists text, gen_text (MEnum e) cs = Ok text /\
    parse text = Some (File (map split (file_usings cs)) (split (cs_namespace cs))
      (x_enum (cs_name (em_name e)) (em_params e) (map ev_of vs) (ev_of d))).
Proof.
  intros Hs Hv Hf Hd.
  destruct (variants_ops cs (em_variants e) vs) as [V1 V2].
  { unfold variants_of in Hv. revert Hv. generalize (resolve params (in_scope vs user)). intros ty Hv. clear - Hv. induction Hv as [|v sv l l' (E1 & E2 & E3) Hr IH]; constructor; [|auto]. eauto. }
  eexists. split; [exact (enum_text e cs vs d V1 V2 Hd)|].
  assert (K : Forall ev_ok (map ev_of vs)).
  { apply Forall_forall. intros x Hx. apply in_map_iff in Hx. destruct Hx as (v & <- & Hi).
    assert (Fv : exists metas, fields_of (resolve params (in_scope vs user)) metas = Some (va_fields v)).
    { unfold variants_of in Hv. revert Hv. generalize (resolve params (in_scope vs user)). intros ty Hv. clear - Hv Hi. induction Hv as [|x sv l l' (E1 & E2 & E3) Hr IH]; [destruct Hi|]. destruct Hi as [->|Hi]; [eauto|auto]. }
    destruct Fv as [metas Fv]. pose proof (each_variant _ _ _ _ _ Hf v Hi) as Fx. unfold variant_fine in Fx. rewrite !andb_true_iff in Fx.
    destruct Fx as [[[[[[F1 F2] F3] F4] F5] F6] F7]. pose proof (fine_vs _ _ _ _ _ _ _ _ Fv F7) as Hv'.
    unfold struct_fine in F7. cbv zeta in F7. rewrite !andb_true_iff in F7. destruct F7 as [[[[[[[[[[[[[Gn Gv] Gr] Gps] Gvps] Go] Gk] Gu] Gc] Gz] Gt] Gf] Gw] Gfs].
    unfold ev_ok. repeat split; assumption. }
  assert (Kd : ev_ok (ev_of d)).
  { rewrite Forall_forall in K. apply K, in_map. apply find_some in Hd. apply Hd. }
  unfold enum_fine in Hf. cbv zeta in Hf. rewrite !andb_true_iff in Hf. destruct Hf as [[[[[[[[[[[Fn Fv] Fr] Fl] Fps] Fo] Fk] Fu] Ft] Ff] Fw] Fvs].
  apply parse_file; [assumption|now apply tidy_enum|]. exact (read_enum _ _ _ _ Fn Fv Fps K Kd).
Qed.
