(** The classes of Elab.v are those that CSharp.v expects for the Rust types: proofs for PropGen.v. *)
From Verif Require Import Base Varint WireFmt Types De Meta MetaProofs Gen CSharp CSharpProofs CsRead CsRun GenSpec GenRun GenStruct Elab.
From Coq Require Import String Lia.
Import String.StringSyntax.
Local Open Scope string_scope.
Local Open Scope list_scope.
Local Open Scope N_scope.

Lemma cn_of_user n args : ~ In (cs_name n) taken -> cn_of (MRef n args) = option_map (CN (cs_name n)) (some_all cn_of args).
Proof.
  intros H. destruct args as [|a args]; [reflexivity|]. rewrite cn_of_ref. destruct (some_all cn_of (a :: args)) as [l|]; [|reflexivity].
  destruct (String.eqb_spec (cs_name n) "Box") as [E|_]; [exfalso; apply H; rewrite E; cbn; tauto|].
  destruct (String.eqb_spec (cs_name n) "StateMap") as [E|_]; [exfalso; apply H; rewrite E; cbn; tauto|]. reflexivity.
Qed.
Lemma some_all_map {A B C} (f : A -> option B) (g : C -> A) l : some_all f (map g l) = some_all (fun x => f (g x)) l.
Proof. induction l as [|x l IH]; [reflexivity|]. cbn [map some_all]. now rewrite IH. Qed.
Lemma some_all_forall2 {A B} (f : A -> option B) l : forall l', some_all f l = Some l' -> Forall2 (fun a b => f a = Some b) l l'.
Proof.
  induction l as [|a l IH]; intros l'; cbn [some_all]; [intros [= <-]; constructor|].
  destruct (f a) as [b|] eqn:E; [|discriminate]. destruct (some_all f l) as [bs|]; [|discriminate]. intros [= <-]. constructor; auto.
Qed.

(** Names that are neither parameters nor declared mean what the library says. *)
Definition undeclared (e : env) (n : string) : Prop := ~ In n (map (fun d => cs_name (d_name d)) e).
Lemma user_undeclared k e n cs : undeclared e n -> user_of k e n cs = None.
Proof.
  intros H. destruct k; [reflexivity|]. cbn [user_of]. destruct (find (fun d => String.eqb (cs_name (d_name d)) n) e) as [d|] eqn:E; [|reflexivity].
  apply find_some in E. destruct E as [E1 E2]. apply String.eqb_eq in E2. exfalso. apply H. apply in_map_iff. eauto.
Qed.

Section Env.
  Variable e : env.
  Hypothesis ok : env_ok e = true.
  Notation ns := (map (fun d => cs_name (d_name d)) e).

  Lemma env_names : NoDup ns.
  Proof. unfold env_ok in ok. rewrite !andb_true_iff in ok. now apply unique_nodup. Qed.
  Lemma env_free n : In n ns -> ~ In n taken.
  Proof.
    unfold env_ok in ok. rewrite !andb_true_iff in ok. destruct ok as [[_ H] _]. rewrite forallb_forall in H. intros Hn. specialize (H n Hn).
    now apply negb_true_iff, mem_false in H.
  Qed.
  Lemma taken_undeclared n : In n taken -> undeclared e n.
  Proof. intros H Hn. now apply env_free in Hn. Qed.
  Definition params_ok (ps : list string) : Prop := NoDup ps /\ forall p, In p ps -> ~ In p ns /\ ~ In p taken.
  Lemma env_decl d : In d e -> params_ok (d_params d) /\ forall f, In f (body_fields (d_body d)) -> plain_field f = true.
  Proof.
    intros Hd. unfold env_ok in ok. cbv zeta in ok. rewrite !andb_true_iff in ok. destruct ok as [_ H]. rewrite forallb_forall in H. specialize (H d Hd).
    rewrite !andb_true_iff in H. destruct H as [[H1 H2] H3]. rewrite forallb_forall in H2, H3. split; [split|].
    - now apply unique_nodup.
    - intros p Hp. specialize (H2 p Hp). apply negb_true_iff, mem_false in H2. rewrite in_app_iff in H2. tauto.
    - exact H3.
  Qed.
  Lemma decl_is d : (In (decl_of e d) e /\ In (cs_name (d_name (decl_of e d))) ns) \/ cs_name (d_name (decl_of e d)) = "".
  Proof.
    unfold decl_of. destruct (nth_in_or_default d e no_decl) as [H|H]; [left|right; now rewrite H]. split; [exact H|]. apply in_map_iff. eauto.
  Qed.
  Lemma find_decl d : In d e -> find (fun x => String.eqb (cs_name (d_name x)) (cs_name (d_name d))) e = Some d.
  Proof.
    intros H. destruct (find _ e) as [x|] eqn:E.
    - apply find_some in E. destruct E as [E1 E2]. apply String.eqb_eq in E2. f_equal.
      exact (NoDup_map_inj (fun d => cs_name (d_name d)) e x d env_names E1 H E2).
    - eapply find_none in E; [|exact H]. now rewrite String.eqb_refl in E.
  Qed.

  Lemma not_param_name ps (cs : list cty) n : params_ok ps -> In n ns \/ In n taken -> sassoc n (combine ps cs) = None.
  Proof.
    intros [_ H] Hn. apply sassoc_none. intros Hi. apply in_map_iff in Hi. destruct Hi as ([p c] & <- & Hi). apply in_combine_l in Hi.
    cbn [fst] in Hn. destruct (H p Hi). tauto.
  Qed.
  Lemma param_class ps : forall (cs : list cty) i, NoDup ps -> List.length cs = List.length ps -> (i < List.length ps)%nat ->
    sassoc (nth i ps "") (combine ps cs) = nth_error cs i.
  Proof.
    induction ps as [|p ps IH]; intros cs i D L Hi; [cbn in Hi; lia|]. destruct cs as [|x cs]; [discriminate|]. apply NoDup_cons_iff in D. destruct D as [D1 D2].
    cbn [combine sassoc]. destruct i as [|i].
    - cbn [nth]. now rewrite String.eqb_refl.
    - cbn [nth nth_error List.length] in *. destruct (String.eqb_spec (nth i ps "") p) as [E|N]; [|apply IH; [assumption|lia..]].
      exfalso. apply D1. rewrite <- E. apply nth_In. lia.
  Qed.

  (** A type of the library applied to one argument. *)
  Lemma resolve_library ps cs j n a c : params_ok ps -> In n taken -> resolve (combine ps cs) (user_of j e) (CN n a) = Some c ->
    exists l, some_all (resolve (combine ps cs) (user_of j e)) a = Some l /\ builtin n l = Some c.
  Proof.
    intros Hp Hn. rewrite resolve_eq. destruct (some_all _ a) as [l|]; [|discriminate]. rewrite user_undeclared by now apply taken_undeclared.
    rewrite not_param_name by auto. destruct l; eauto.
  Qed.
  Lemma resolve_library1 ps cs j n a c : params_ok ps -> In n taken -> resolve (combine ps cs) (user_of j e) (CN n [a]) = Some c ->
    exists x, resolve (combine ps cs) (user_of j e) a = Some x /\ builtin n [x] = Some c.
  Proof.
    intros Hp Hn H. apply resolve_library in H; [|assumption..]. destruct H as (l & H1 & H2). cbn [some_all] in H1.
    destruct (resolve (combine ps cs) (user_of j e) a) as [x|]; [|discriminate]. injection H1 as <-. eauto.
  Qed.
  Lemma resolve_prim ps cs j n c0 c : params_ok ps -> sassoc n primitives = Some c0 -> resolve (combine ps cs) (user_of j e) (CN n []) = Some c -> c = c0.
  Proof.
    intros Hp Hn H.
    assert (Hi : In n (map fst primitives)) by (destruct (in_dec string_dec n (map fst primitives)) as [Hi|Hi]; [exact Hi|apply sassoc_none in Hi; congruence]).
    apply resolve_library in H; [|assumption|unfold taken; rewrite !in_app_iff; auto]. destruct H as (l & H1 & H2). injection H1 as <-.
    cbn [builtin] in H2. destruct (String.eqb_spec n "Bytes") as [->|_]; [discriminate Hn|congruence].
  Qed.
  Lemma resolve_user ps cs j d a c : params_ok ps -> resolve (combine ps cs) (user_of j e) (CN (cs_name (d_name (decl_of e d))) a) = Some c ->
    In (decl_of e d) e /\ exists l, some_all (resolve (combine ps cs) (user_of j e)) a = Some l /\ user_of j e (cs_name (d_name (decl_of e d))) l = Some c.
  Proof.
    intros Hp H. destruct (decl_is d) as [[Hd Hn]|Hn].
    - split; [exact Hd|]. rewrite resolve_eq in H. destruct (some_all _ a) as [l|]; [|discriminate]. exists l. split; [reflexivity|].
      rewrite not_param_name in H by auto.
      assert (B : builtin (cs_name (d_name (decl_of e d))) l = None).
      { apply env_free in Hn. revert Hn. generalize (cs_name (d_name (decl_of e d))). intros n Hn. unfold builtin.
        destruct (String.eqb_spec n "Bytes") as [->|_]; [exfalso; apply Hn; cbn; tauto|].
        destruct (String.eqb_spec n "Option") as [->|_]; [exfalso; apply Hn; cbn; tauto|].
        destruct (String.eqb_spec n "Vector") as [->|_]; [exfalso; apply Hn; cbn; tauto|].
        destruct (String.eqb_spec n "StateList") as [->|_]; [exfalso; apply Hn; cbn; tauto|].
        destruct (String.eqb_spec n "StateMap") as [->|_]; [exfalso; apply Hn; cbn; tauto|].
        destruct l as [|x [|y l]]; [|reflexivity..]. apply sassoc_none. intros Hi. apply Hn. unfold taken. rewrite !in_app_iff. auto. }
      rewrite B in H. destruct l; [|destruct (user_of j e _ _); congruence]. destruct (user_of j e _ _); congruence.
    - exfalso. rewrite Hn in H. apply resolve_library in H; [|assumption|cbn; tauto]. destruct H as (l & _ & H). destruct l as [|x [|y l]]; discriminate.
  Qed.

  Definition agree (k : nat) : Prop := forall j ps cs args t T cn c,
    params_ok ps -> List.length ps = List.length cs -> Forall2 (fun T c => cls T c = true) args cs -> stands k e args t T ->
    cn_of (type_of e t) = Some cn \/ cn_of (field_type_meta e ps t) = Some cn ->
    resolve (combine ps cs) (user_of j e) cn = Some c -> cls T c = true.

  Lemma unboxed k : forall t args T, stands k e args t T -> boxed t = false -> type_of e t = MParam "" \/ forall T', T <> TBox T'.
  Proof.
    induction k as [|k IH]; intros t args T H B; [destruct H|].
    destruct t as [| | | | | | | | |t|d l|i|t]; cbn [stands boxed type_of] in *; try discriminate B;
      try (right; intros T' ->; contradiction).
    - right. intros T' ->. destruct H as (Ts & _ & _ & H). destruct (d_body (decl_of e d)); exact H.
    - now left.
    - exact (IH t args T H B).
  Qed.
  Lemma agree_fields k : agree k -> forall j ps cs args fs fts fcs,
    params_ok ps -> List.length ps = List.length cs -> Forall2 (fun T c => cls T c = true) args cs -> (forall f, In f fs -> plain_field f = true) ->
    Forall2 (field_stands (stands k e) args) fs fts ->
    class_fields (resolve (combine ps cs) (user_of j e)) (map (field_meta e ps) fs) = Some fcs -> cls_fields fts fcs = true.
  Proof.
    intros Hk j ps cs args fs fts fcs Hp HL Hc Hpl Hf. unfold class_fields. revert fcs.
    induction Hf as [|f [fi T] fs fts [F1 F2] Hr IH]; intros fcs; [intros [= <-]; reflexivity|].
    cbn [map]. unfold fields_of in *. cbn [some_all]. destruct (field_of _ (field_meta e ps f)) as [[v c]|] eqn:Ef; [|discriminate].
    destruct (some_all _ (map (field_meta e ps) fs)) as [l|]; [|discriminate]. cbn [forallb]. destruct (constructed (v, c)) eqn:Ec; [|discriminate].
    cbn [andb]. destruct (forallb constructed l); [|discriminate]. intros [= <-]. cbn [fst snd] in *.
    specialize (IH (fun f Hf => Hpl f (or_intror Hf)) _ eq_refl). cbn [cfields map cls_fields fst snd]. fold (cfields l). rewrite IH, andb_true_r.
    unfold field_of, vf_of in Ef. cbn [field_meta fm_ty fm_name] in Ef. destruct (cn_of (field_type_meta e ps (fd_ty f))) as [cn|] eqn:En; [|discriminate].
    cbn [option_map v_type] in Ef. destruct (resolve _ _ cn) as [c'|] eqn:Er; [|discriminate]. injection Ef as <- <-.
    unfold v_tag, is_param, constructed in *. cbn [v_meta fm_tag fm_ty fst snd field_meta] in *. rewrite F1, N.eqb_refl. cbn [andb].
    rewrite (Hk j ps cs args (fd_ty f) T cn c' Hp HL Hc F2 (or_intror En) Er). cbn [andb].
    specialize (Hpl f (or_introl eq_refl)). unfold plain_field in Hpl.
    destruct k as [|k]; [destruct F2|]. destruct (fd_ty f) as [| | | | | | | | |t| | |t]; cbn [stands field_type_meta] in *;
      try reflexivity; try (destruct T; (reflexivity || contradiction)).
    - destruct T; (exact Ec || reflexivity).
    - destruct F2 as (Ts & _ & _ & F2). destruct (d_body (decl_of e d)), T; (reflexivity || contradiction).
    - apply negb_true_iff in Hpl. destruct (unboxed k t args T F2 Hpl) as [->|N]; [reflexivity|]. destruct T; rewrite ?orb_true_r; try reflexivity. now destruct (N T).
  Qed.

  Lemma agree_variants k : agree k -> forall j ps cs args (o : bool) vs vts cvs,
    params_ok ps -> List.length ps = List.length cs -> Forall2 (fun T c => cls T c = true) args cs -> (forall f, In f (flat_map snd vs) -> plain_field f = true) ->
    Forall2 (fun (v : (nmeta * N) * list field) (vt : (N * bool) * list (finfo * ty)) =>
      snd (fst v) = fst (fst vt) /\ Forall2 (field_stands (stands k e) args) (snd v) (snd vt)) vs vts ->
    class_variants (resolve (combine ps cs) (user_of j e))
      (map (fun '((n, tag), fs) => (SM n [] (map (field_meta e ps) fs) o, tag)) vs) = Some cvs -> cls_variants vts cvs = true.
  Proof.
    intros Hk j ps cs args o vs vts cvs Hp HL Hc Hpl Hv. revert cvs.
    induction Hv as [|[[n tag] fs] [[tag' b] fts] vs vts [F1 F2] Hr IH]; intros cvs; [intros [= <-]; reflexivity|]. cbn [fst snd] in *.
    unfold class_variants in *. cbn [map some_all fst snd sm_fields]. destruct (class_fields _ (map (field_meta e ps) fs)) as [fcs|] eqn:Ef; [|discriminate].
    cbn [option_map]. destruct (some_all _ _) as [l|]; [|discriminate]. intros [= <-]. cbn [flat_map snd] in Hpl. cbn [cls_variants].
    rewrite F1, N.eqb_refl, (IH (fun f Hf => Hpl f (in_or_app _ _ _ (or_intror Hf))) l eq_refl), andb_true_r. cbn [andb].
    exact (agree_fields k Hk j ps cs args fs fts fcs Hp HL Hc (fun f Hf => Hpl f (in_or_app _ _ _ (or_introl Hf))) F2 Ef).
  Qed.

  Lemma agree_decl k : agree k -> forall d args T j cs c, In d e -> decl_stands (stands k e) d args T -> Forall2 (fun T c => cls T c = true) args cs ->
    user_of j e (cs_name (d_name d)) cs = Some c -> cls T c = true.
  Proof.
    intros Hk d args T j cs c Hd [HL Hs] Hc. destruct j as [|j]; [discriminate|]. cbn [user_of]. rewrite (find_decl d Hd).
    destruct (Nat.eqb_spec (List.length (d_params d)) (List.length cs)) as [L|]; [|discriminate].
    destruct (env_decl d Hd) as [Hp Hpl]. unfold class_msg, decl_msg. destruct (d_body d) as [fs|vs]; destruct T; try contradiction.
    - destruct (class_fields _ _) as [fcs|] eqn:E; [|discriminate]. intros [= <-]. rewrite cls_struct. eapply agree_fields; eauto.
    - destruct (class_variants _ _) as [cvs|] eqn:E; [|discriminate]. intros [= <-]. rewrite cls_enum. eapply agree_variants; eauto.
  Qed.

  Ltac lib1 H := apply resolve_library1 in H; [|assumption|cbn; tauto]; destruct H as (x & H1 & H2); injection H2 as <-.
  Lemma agree_all k : agree k.
  Proof.
    induction k as [|k IH]; intros j ps cs args t T cn c Hp HL Hc Hs Hn Hr; [destruct Hs|].
    assert (One : forall t' T' nm f, cn_of (type_of e t) = cn_of (MRef nm [type_of e t']) ->
      cn_of (field_type_meta e ps t) = cn_of (MRef nm [field_type_meta e ps t']) -> stands k e args t' T' -> In (cs_name nm) taken ->
      cs_name nm <> "Box" -> cs_name nm <> "StateMap" ->
      (forall x y, builtin (cs_name nm) [x] = Some y -> y = f x) -> exists x, cls T' x = true /\ c = f x).
    { intros t' T' nm f E1 E2 St Ht N1 N2 Hb. rewrite E1, E2 in Hn. rewrite !cn_of_ref in Hn. cbn [some_all] in Hn.
      apply String.eqb_neq in N1, N2. rewrite N1, N2 in Hn.
      assert (X : exists a, (cn_of (type_of e t') = Some a \/ cn_of (field_type_meta e ps t') = Some a) /\ cn = CN (cs_name nm) [a]).
      { destruct Hn as [Hn|Hn]; [destruct (cn_of (type_of e t')) as [a|]|destruct (cn_of (field_type_meta e ps t')) as [a|]]; try discriminate;
          injection Hn as <-; eauto. }
      destruct X as (a & Ha & ->). apply resolve_library1 in Hr; [|assumption..]. destruct Hr as (x & R1 & R2). exists x. split; [|auto].
      exact (IH j ps cs args t' T' a x Hp HL Hc St Ha R1). }
    destruct t as [i| | | |t|t|n t|t|i t|t|d l|i|t]; cbn [stands] in Hs.
    - destruct T as [i'| | | | | | | | | | | | |]; try contradiction. subst i'.
      assert (E : sassoc (cs_name (int_name i)) primitives = Some (CInt i)) by (destruct i; reflexivity).
      assert (En : cn = CN (cs_name (int_name i)) []) by (destruct i; cbn in Hn; destruct Hn as [Hn|Hn]; now injection Hn as <-).
      subst cn. rewrite (resolve_prim _ _ _ _ _ _ Hp E Hr). cbn [cls]. now destruct i.
    - destruct T; try contradiction. assert (En : cn = CN "Boolean" []) by (cbn in Hn; destruct Hn as [Hn|Hn]; now injection Hn as <-). subst cn.
      now rewrite (resolve_prim _ _ _ "Boolean" CBool _ Hp eq_refl Hr).
    - destruct T; try contradiction. assert (En : cn = CN "String" []) by (cbn in Hn; destruct Hn as [Hn|Hn]; now injection Hn as <-). subst cn.
      now rewrite (resolve_prim _ _ _ "String" CStr _ Hp eq_refl Hr).
    - destruct T; try contradiction. assert (En : cn = CN "Bytes" []) by (cbn in Hn; destruct Hn as [Hn|Hn]; now injection Hn as <-). subst cn.
      apply resolve_library in Hr; [|assumption|cbn; tauto]. destruct Hr as (l & H1 & H2). injection H1 as <-. now injection H2 as <-.
    - destruct T; try contradiction. destruct (One t T opt_name COpt) as (x & Hx & ->); try reflexivity; try assumption; try discriminate; [cbn; tauto|now intros x y [= <-]].
    - destruct T; try contradiction. destruct (One t T vec_name CVec) as (x & Hx & ->); try reflexivity; try assumption; try discriminate; [cbn; tauto|now intros x y [= <-]].
    - destruct T; try contradiction. destruct Hs as [_ Hs]. destruct (One t T vec_name CVec) as (x & Hx & ->); try reflexivity; try assumption; try discriminate; [cbn; tauto|now intros x y [= <-]].
    - destruct T; try contradiction. destruct (One t T list_name CList) as (x & Hx & ->); try reflexivity; try assumption; try discriminate; [cbn; tauto|now intros x y [= <-]].
    - destruct T; try contradiction. destruct Hs as [_ Hs]. cbn [type_of field_type_meta] in Hn. rewrite !cn_of_ref in Hn. cbn [some_all] in Hn.
      destruct Hn as [Hn|Hn]; [destruct (cn_of (type_of e t)); discriminate|].
      replace (cn_of (MPrim (int_name (key_kind i)) Varint)) with (Some (CN (cs_name (int_name (key_kind i))) [])) in Hn by (now destruct i).
      destruct (cn_of (field_type_meta e ps t)) as [a|] eqn:Ea; [|discriminate]. injection Hn as <-.
      apply resolve_library1 in Hr; [|assumption|cbn; tauto]. destruct Hr as (x & R1 & R2). injection R2 as <-.
      exact (IH j ps cs args t T a x Hp HL Hc Hs (or_intror Ea) R1).
    - destruct T; try contradiction. cbn [cls]. apply (IH j ps cs args t T cn c Hp HL Hc Hs); [|exact Hr]. cbn [type_of field_type_meta] in Hn.
      destruct Hn as [Hn|Hn]; [now left|right]. rewrite cn_of_ref in Hn. cbn [some_all] in Hn. destruct (cn_of (field_type_meta e ps t)); [exact Hn|discriminate].
    - destruct Hs as (Ts & Hl & Hs).
      assert (X : exists g, cn_of (MRef (d_name (decl_of e d)) (map g l)) = Some cn /\
        forall t x, cn_of (g t) = Some x -> cn_of (type_of e t) = Some x \/ cn_of (field_type_meta e ps t) = Some x).
      { destruct Hn as [Hn|Hn]; [exists (type_of e)|exists (field_type_meta e ps)]; split; auto. }
      destruct X as (g & En & Hg).
      destruct (decl_is d) as [[Hd Hdn]|Hdn].
      2:{ exfalso. destruct (map g l) as [|a r].
          - injection En as <-. rewrite Hdn in Hr. apply resolve_library in Hr; [|assumption|cbn; tauto]. destruct Hr as (l' & R1 & R2). injection R1 as <-. discriminate R2.
          - rewrite cn_of_ref, Hdn in En. destruct (some_all cn_of (a :: r)) as [l'|]; [|discriminate]. injection En as <-.
            apply resolve_library in Hr; [|assumption|cbn; tauto]. destruct Hr as (l'' & R1 & R2). destruct l'' as [|y [|z l'']]; discriminate R2. }
      rewrite cn_of_user in En by now apply env_free. rewrite some_all_map in En.
      destruct (some_all (fun x => cn_of (g x)) l) as [cns|] eqn:Ec; [|discriminate]. injection En as <-.
      apply resolve_user in Hr; [|assumption]. destruct Hr as (_ & ccs & R1 & R2).
      apply (agree_decl k IH (decl_of e d) Ts T j ccs c Hd Hs); [|exact R2].
      apply some_all_forall2 in Ec, R1. clear - IH Hp HL Hc Hg Hl Ec R1. revert cns ccs Ec R1.
      induction Hl as [|t T l Ts H Hl IHl]; intros cns ccs Ec R1; inversion Ec; subst; inversion R1; subst; constructor; [|eauto].
      eapply IH; eauto.
    - cbn [type_of field_type_meta cn_of] in Hn. assert (Li : (i < List.length ps)%nat).
      { assert (List.length args = List.length cs) by (clear - Hc; induction Hc; cbn; congruence). assert (i < List.length args)%nat by (apply nth_error_Some; congruence). lia. }
      destruct Hn as [Hn|Hn]; injection Hn as <-.
      + exfalso. apply resolve_library in Hr; [|assumption|cbn; tauto]. destruct Hr as (l' & R1 & R2). injection R1 as <-. discriminate R2.
      + rewrite resolve_eq in Hr. cbn [some_all] in Hr. destruct Hp as [D _]. rewrite param_class in Hr by (assumption || lia).
        destruct (nth_error cs i) as [c'|] eqn:Ei.
        * injection Hr as <-. clear - Hc Hs Ei. revert i Hs Ei. induction Hc as [|T0 c0 l l' H0 Hr IH]; intros [|i] H1 H2; cbn in H1, H2; try discriminate; [congruence|eauto].
        * apply nth_error_None in Ei. lia.
    - cbn [type_of field_type_meta] in Hn. apply (IH j ps cs args t T cn c Hp HL Hc Hs); [|exact Hr]. left. now destruct Hn.
  Qed.
  Lemma class_agrees d args T j cs c : In d e -> declared e d args T -> Forall2 (fun T c => cls T c = true) args cs ->
    user_of j e (cs_name (d_name d)) cs = Some c -> cls T c = true.
  Proof. intros Hd [k Hk] Hc Hu. exact (agree_decl k (agree_all k) d args T j cs c Hd Hk Hc Hu). Qed.
End Env.
