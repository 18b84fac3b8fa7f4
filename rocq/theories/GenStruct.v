(** The class of a struct, from its description to what its methods do: proofs for PropGen.v. *)
From Verif Require Import Base Varint WireFmt Types De Meta MetaProofs Gen CSharp CsRead CSharpProofs CsRun GenSpec GenLex GenParse GenStmt GenMember GenClass GenFile GenRun.
From Coq Require Import String Lia.
Import Ascii String.StringSyntax.
Local Open Scope string_scope.
Local Open Scope list_scope.
Local Open Scope N_scope.

(** ** Types of fields *)

Lemma cn_of_ref n a args : cn_of (MRef n (a :: args)) =
  match some_all cn_of (a :: args) with
  | None => None
  | Some l =>
      if String.eqb (cs_name n) "Box" then hd_error l
      else if String.eqb (cs_name n) "StateMap" then match tl l with [] => None | l => Some (CN (cs_name n) l) end
      else Some (CN (cs_name n) l)
  end.
Proof.
  assert (G : forall l, (fix go l := match l with
             | [] => Some []
             | t :: l => match cn_of t, go l with Some c, Some cs => Some (c :: cs) | _, _ => None end
             end) l = some_all cn_of l).
  { induction l as [|x l IH]; [reflexivity|]. cbn [some_all]. now rewrite <- IH. }
  rewrite <- G. reflexivity.
Qed.
Lemma cn_of_print t : forall c, cn_of t = Some c -> cs_field_type t = Ok (cprint c).
Proof.
  induction t as [n w|n args IH|p] using tmeta_ind'; intros c.
  - cbn [cn_of cs_field_type]. destruct (n_csharp n); [|discriminate]. intros [= <-]. now rewrite cprint_name.
  - destruct args as [|a args].
    + intros [= <-]. now rewrite cprint_name.
    + rewrite cn_of_ref. destruct (some_all cn_of (a :: args)) as [l|] eqn:E; [|discriminate].
      assert (A : all_ok (map cs_field_type (a :: args)) = Ok (map cprint l)).
      { revert l E. induction IH as [|x xs Hx Hxs IHl]; intros l; cbn [some_all map all_ok]; [now intros [= <-]|].
        destruct (cn_of x) as [y|]; [|discriminate]. destruct (some_all cn_of xs) as [ys|]; [|discriminate]. intros [= <-].
        rewrite (Hx y eq_refl). cbn [bind]. rewrite (IHl ys eq_refl). reflexivity. }
      assert (L : l <> []).
      { revert E. cbn [some_all]. destruct (cn_of a); [|discriminate]. destruct (some_all cn_of args); [|discriminate]. now intros [= <-]. }
      intros Hc. cbn [cs_field_type]. cbn [map] in A. cbn [map]. rewrite A. cbn [bind].
      destruct (String.eqb (cs_name n) "Box").
      { destruct l as [|x l]; [discriminate|]. cbn in Hc. injection Hc as ->. reflexivity. }
      destruct (String.eqb (cs_name n) "StateMap").
      * destruct l as [|x [|y l]]; try discriminate Hc. cbn [tl] in Hc. injection Hc as <-. reflexivity.
      * injection Hc as <-. destruct l as [|x l]; [congruence|reflexivity].
  - intros [= <-]. cbn [cs_field_type]. now rewrite cprint_name.
Qed.
Lemma vf_of_cs f v : vf_of f = Some v -> field_from_meta f = Ok (v_cs v) /\ v_meta v = f.
Proof.
  unfold vf_of, field_from_meta. destruct (cn_of (fm_ty f)) as [c|] eqn:E; [|discriminate]. intros [= <-].
  rewrite (cn_of_print _ _ E). auto.
Qed.
Lemma fields_of_cs ty l fcs : fields_of ty l = Some fcs ->
  all_ok (map field_from_meta l) = Ok (map v_cs (map fst fcs)) /\ map v_meta (map fst fcs) = l /\
  Forall (fun fc => vf_of (v_meta (fst fc)) = Some (fst fc) /\ ty (v_type (fst fc)) = Some (snd fc)) fcs.
Proof.
  revert fcs. induction l as [|f l IH]; intros fcs; cbn [fields_of some_all]; [intros [= <-]; auto|].
  fold (fields_of ty l). unfold field_of at 1. destruct (vf_of f) as [v|] eqn:E; [|discriminate].
  destruct (ty (v_type v)) as [c|] eqn:Et; [|discriminate]. unfold fields_of in IH |- *. destruct (some_all (field_of ty) l) as [l'|]; [|discriminate]. intros [= <-].
  destruct (IH l' eq_refl) as (H1 & H2 & H3). destruct (vf_of_cs _ _ E) as [H4 H5]. cbn [map all_ok fst]. rewrite H4. cbn [bind]. rewrite H1, H2, H5. cbn [bind].
  repeat split. constructor; [|assumption]. cbn [fst snd]. rewrite H5. auto.
Qed.

(** ** The text *)

Lemma struct_text s cs fs : all_ok (map field_from_meta (sm_fields s)) = Ok fs ->
  gen_text (MStruct s) cs = Ok (emit 4 0 (gen_file_opening cs ++
    struct_ops "public" (cs_name (sm_name s)) (cs_name (sm_name s) +++ type_params (sm_params s)) (sm_params s) (sm_fields s) fs ++ gen_file_closing)).
Proof.
  intros H. unfold gen_text, gen_message, gen_struct. rewrite H. cbn [bind negb when]. do 2 f_equal. unfold struct_ops. now rewrite <- !app_assoc.
Qed.
Lemma variant_ops v cs fs : all_ok (map field_from_meta (sm_fields (fst v))) = Ok fs ->
  enum_variant cs v = Ok (newline ++ writeln ("// Variant (" +++ dec (snd v) +++ "): " +++ vname v) ++ newline ++
    struct_ops "internal" (vname v) (vname v) (sm_params (fst v)) (sm_fields (fst v)) fs).
Proof.
  intros H. unfold enum_variant, gen_struct. rewrite H. cbn [bind negb when]. do 4 f_equal.
Qed.

(** ** What usable names give *)

Lemma resolve_eq params user n args : resolve params user (CN n args) =
  match some_all (resolve params user) args with
  | None => None
  | Some cs =>
      match (match cs with [] => sassoc n params | _ => None end) with
      | Some c => Some c
      | None => match user n cs with Some c => Some c | None => builtin n cs end
      end
  end.
Proof.
  cbn [resolve].
  assert (G : forall l, (fix go l := match l with
             | [] => Some []
             | t :: l => match resolve params user t, go l with Some c, Some cs => Some (c :: cs) | _, _ => None end
             end) l = some_all (resolve params user) l).
  { induction l as [|x l IH]; [reflexivity|]. cbn [some_all]. now rewrite <- IH. }
  now rewrite <- G.
Qed.
Lemma mem_false n l : str_mem n l = false -> ~ In n l.
Proof. intros H I. apply str_mem_spec in I. congruence. Qed.
Lemma sassoc_not {A} n (l : list (string * A)) : str_mem n (map fst l) = false -> sassoc n l = None.
Proof. intros H. apply sassoc_none, mem_false, H. Qed.
Lemma unique_nodup l : unique l = true -> NoDup l.
Proof.
  induction l as [|n l IH]; [constructor|]. cbn [unique]. intros H. apply andb_prop in H. destruct H as [H1 H2]. apply negb_true_iff in H1.
  constructor; [now apply mem_false|auto].
Qed.
Lemma distinct_spec l : distinct l = true -> NoDup l.
Proof.
  induction l as [|n l IH]; [constructor|]. cbn [distinct]. intros H. apply andb_prop in H. destruct H as [H1 H2]. apply negb_true_iff in H1.
  constructor; [|auto]. intros I. assert (E : existsb (N.eqb n) l = true) by (apply existsb_exists; exists n; split; [exact I|apply N.eqb_refl]). congruence.
Qed.
Lemma library_none params user n a : no_library user -> params_free params = true -> In n library_names -> resolve params user (CN n a) = None.
Proof.
  intros Hu Hp Hn. rewrite resolve_eq. destruct (some_all (resolve params user) a) as [cs|]; [|reflexivity].
  assert (Hn' : In n (library_names ++ header_names)) by (apply in_or_app; now left).
  rewrite Hu by assumption. unfold params_free in Hp. rewrite forallb_forall in Hp. specialize (Hp n Hn'). apply negb_true_iff, sassoc_not in Hp. rewrite Hp.
  assert (B : builtin n cs = None) by (cbn in Hn; repeat (destruct Hn as [<-|Hn]; [destruct cs as [|c [|c' cs]]; reflexivity|]); destruct Hn).
  destruct cs; exact B.
Qed.
Lemma struct_declares acc n ps vps vs : flat_map declares (x_struct_members acc n ps vps vs) = struct_names vs.
Proof.
  assert (G : forall (h : vfield -> member) (f : vfield -> string * meaning) l, (forall v, declares (h v) = [f v]) ->
    flat_map declares (map h l) = map f l) by (intros h f l H; induction l; cbn [map flat_map]; rewrite ?H; cbn [app]; congruence).
  unfold x_struct_members. cbv zeta. rewrite (cons_app (KProp _ _ _ _)), !flat_map_app.
  rewrite (G x_prop (fun v => (v_name v, IsProp (v_type v)))), (G (x_event (own_type n ps)) (fun v => (on v, IsOther))),
    (G x_clear (fun v => ("Clear" +++ v_name v +++ "UpdateHandlers", IsOther))) by reflexivity. reflexivity.
Qed.
Lemma cname_eqb_eq : forall a b, cname_eqb a b = true -> a = b.
Proof.
  fix IH 1. intros [n l] [n' l']. cbn [cname_eqb]. intros H. apply andb_prop in H. destruct H as [H1 H2]. apply String.eqb_eq in H1. subst n'. f_equal.
  revert l' H2. induction l as [|x l IHl]; intros [|x' l'] H; try discriminate; [reflexivity|].
  apply andb_prop in H. destruct H as [H1 H2]. f_equal; [now apply IH|now apply IHl].
Qed.
Section Fine.
  Variable params : list (string * cty).
  Variable user : string -> list cty -> option cty.
  Variable outer : list (string * meaning).
  Variables (acc n : string) (ps vps : list string) (metas : list fmeta) (fcs : list (vfield * cty)).
  Notation ty := (resolve params user).
  Notation vs := (map fst fcs).
  Hypothesis lib : no_library user.
  Hypothesis pfree : params_free params = true.
  Hypothesis of_metas : fields_of ty metas = Some fcs.
  Hypothesis fine : struct_fine params user outer n ps vps fcs = true.

  Lemma names_are : names (x_struct acc n ps vps vs) outer = with_params ps (struct_names vs) ++ outer.
  Proof.
    unfold names, with_params. change (c_members (x_struct acc n ps vps vs)) with (x_struct_members acc n ps vps vs). rewrite struct_declares.
    change (c_params (x_struct acc n ps vps vs)) with ps. now rewrite <- app_assoc.
  Qed.
  Ltac fine_parts := pose proof fine as F; unfold struct_fine in F; cbv zeta in F; rewrite !andb_true_iff in F;
    destruct F as [[[[[[[[[[[[[Fn Fv] Fr] Fps] Fvps] Fo] Fk] Fu] Fc] Fz] Ft] Ff] Fw] Ffs].
  Lemma fine_vs : Forall v_ok vs.
  Proof.
    fine_parts. destruct (fields_of_cs _ _ _ of_metas) as (_ & _ & H). rewrite Forall_forall in *. rewrite forallb_forall in Ffs.
    intros v Hv. apply in_map_iff in Hv. destruct Hv as [[v' c] [<- Hi]]. specialize (Ffs _ Hi). destruct (H _ Hi) as [E _]. cbn [fst] in *. clear H.
    unfold field_fine in Ffs. rewrite !andb_true_iff in Ffs. destruct Ffs as [[H1 H2] H3]. unfold v_ok. split; [exact H1|]. split; [exact H2|].
    unfold vf_of in E. destruct (fm_ty (v_meta v')) as [m k|m a|q] eqn:Em; [|exact I|].
    - cbn [cn_of] in E. destruct (n_csharp m) as [s|] eqn:Es; [|discriminate]. injection E as E. rewrite <- E. cbn [v_type]. unfold cs_name. now rewrite Es.
    - cbn [cn_of] in E. injection E as E. rewrite <- E. reflexivity.
  Qed.
  Lemma loc_none {A} m (loc : list (string * A)) : incl (map fst loc) replace_locals -> str_mem m replace_locals = false -> sassoc m loc = None.
  Proof. intros H E. apply sassoc_none. intros Hi. apply H in Hi. apply mem_false in E. contradiction. Qed.
  Lemma prim_read m c : sassoc m primitives = Some c -> c_state c = false /\ sassoc ("Read" +++ m) read_methods = Some c.
  Proof.
    unfold read_methods. change (String.append "Read" m) with (("Read" +++ m)).
    assert (P : forall l, Forall (fun p => c_state (snd p) = false) l -> sassoc m l = Some c ->
      c_state c = false /\ sassoc ("Read" +++ m) (map (fun p => ("Read" +++ fst p, snd p)) l) = Some c).
    { induction l as [|[x d] l IH]; [discriminate|]. intros HF. inversion HF as [|? ? F1 F2]; subst. cbn [sassoc map fst snd]. intros H.
      assert (E : ("Read" +++ m =? "Read" +++ x)%string = (m =? x)%string) by reflexivity. rewrite E.
      destruct (m =? x)%string; [|now apply IH]. injection H as <-. split; [exact F1|reflexivity]. }
    apply P. repeat constructor.
  Qed.
  Lemma fine_fields (V : Type) : Forall (fun fc => field_ok (V := V) ty acc n ps vps fcs outer (fst fc) (snd fc)) fcs.
  Proof.
    fine_parts. destruct (fields_of_cs _ _ _ of_metas) as (_ & _ & H). rewrite Forall_forall in *. rewrite forallb_forall in Ffs.
    intros [v c] Hi. specialize (Ffs _ Hi). destruct (H _ Hi) as [E R]. cbn [fst snd] in *. clear H.
    unfold field_fine in Ffs. rewrite !andb_true_iff in Ffs. destruct Ffs as [[H1 H2] H3]. unfold field_ok. split; [exact R|].
    unfold vf_of in E. destruct (fm_ty (v_meta v)) as [m k|m a|q] eqn:Em.
    - rewrite !andb_true_iff in H3. destruct H3 as [[H3 H4] H5]. destruct (sassoc (cs_name m) primitives) as [d|] eqn:Ed; [|discriminate].
      cbn [cn_of] in E. destruct (n_csharp m) as [s|] eqn:Es; [|discriminate]. injection E as E.
      assert (D : d = c).
      { rewrite <- E in R. cbn [v_type] in R. assert (Ecs : cs_name m = s) by (unfold cs_name; now rewrite Es). rewrite Ecs in *.
        rewrite resolve_eq in R. cbn [some_all] in R. apply negb_true_iff, sassoc_not in H4. rewrite H4 in R.
        apply negb_true_iff in H5. destruct (user s []); [discriminate|]. unfold builtin in R.
        destruct (s =? "Bytes")%string eqn:Eb; [|congruence]. apply String.eqb_eq in Eb. subst s. discriminate. }
      subst d. destruct (prim_read _ _ Ed) as [P1 P2]. split; [exact P1|]. split; [|exact P2]. now destruct (c_wty c), k.
    - apply andb_prop in H3. destruct H3 as [H3 H4]. split; [exact H3|]. intros loc Hl. destruct (v_type v) as [x [|y l]].
      + apply andb_prop in H4. destruct H4 as [H4 H5]. apply negb_true_iff in H4. cbn [texpr as_type]. rewrite (loc_none _ _ Hl H4).
        unfold type_seen in H5. rewrite names_are. destruct (sassoc x (with_params ps (struct_names vs) ++ outer)) as [[|t| |]|]; try reflexivity; try discriminate.
        rewrite H5. apply cname_eqb_eq in H5. now subst.
      + reflexivity.
    - cbn [cn_of] in E. injection E as E. rewrite <- E. reflexivity.
  Qed.
  Lemma fine_params : Forall (fun p => exists c, ty (CN p []) = Some c) vps.
  Proof.
    fine_parts. rewrite forallb_forall in Fk. apply Forall_forall. intros p Hp. specialize (Fk p Hp). destruct (ty (CN p [])) as [c|]; [eauto|discriminate].
  Qed.
  Lemma fine_declared : NoDup (map fst (flat_map declares (x_struct_members acc n ps vps vs))).
  Proof.
    fine_parts. rewrite struct_declares. apply unique_nodup, NoDup_cons_iff in Fu. destruct Fu as [_ Fu]. unfold with_params in Fu. rewrite map_app in Fu.
    now apply NoDup_left in Fu.
  Qed.
  Lemma fine_tags : NoDup (map v_tag vs).
  Proof. fine_parts. now apply distinct_spec. Qed.
  Lemma fine_free m : In m library_names -> str_mem m (map fst (with_params ps (struct_names vs) ++ outer)) = false -> free ty (x_struct acc n ps vps vs) outer m.
  Proof. intros Hm H. split; [|intros a; now apply library_none]. rewrite names_are. now apply sassoc_not. Qed.
  Lemma fine_factory : free ty (x_struct acc n ps vps vs) outer "StateFactory".
  Proof. fine_parts. apply fine_free; [cbn; tauto|]. now apply negb_true_iff. Qed.
  Lemma fine_wire : free ty (x_struct acc n ps vps vs) outer "WireType".
  Proof. fine_parts. apply fine_free; [cbn; tauto|]. now apply negb_true_iff. Qed.
  Lemma fine_own : exists c, ty (own_type n ps) = Some c.
  Proof. fine_parts. destruct (ty (own_type n ps)) as [c|]; [eauto|discriminate]. Qed.
  Lemma fine_class : param_name (x_struct acc n ps vps vs) outer (own_type n ps) = false.
  Proof.
    fine_parts. unfold own_type in *. revert Fc. unfold param_name, not_param. rewrite names_are. destruct (map (fun p => CN p []) ps); [|reflexivity].
    destruct (sassoc n (with_params ps (struct_names vs) ++ outer)) as [[| | |]|]; reflexivity || discriminate.
  Qed.
  Lemma fine_var : uncap_first_char n <> "reader".
  Proof. fine_parts. apply negb_true_iff, mem_false in Fr. intros E. apply Fr. left. now rewrite E. Qed.
End Fine.

(** ** Objects of the client *)

Section Client.
  Variable fcs : list (vfield * cty).
  Notation vs := (map fst fcs).
  Hypothesis tags : NoDup (map v_tag vs).
  Hypothesis prims : Forall (fun fc => match fm_ty (v_meta (fst fc)) with
    | MPrim _ _ => c_state (snd fc) = false | MRef _ _ => c_state (snd fc) = true | MParam _ => True end) fcs.

  Lemma at_tag_is v c : In (v, c) fcs -> at_tag fcs (v_tag v) = Some (v, c).
  Proof.
    intros Hi. unfold at_tag. destruct (find (fun fc => v_tag v =? v_tag (fst fc)) fcs) as [[v' c']|] eqn:E.
    - apply find_some in E. destruct E as [I' E]. cbn [fst] in E. apply N.eqb_eq in E. f_equal.
      eapply (NoDup_map_inj (fun fc : vfield * cty => v_tag (fst fc))); [rewrite <- (map_map fst v_tag); exact tags|assumption..|]. cbn [fst]. congruence.
    - exfalso. eapply find_none in E; [|exact Hi]. cbn [fst] in E. now rewrite N.eqb_refl in E.
  Qed.
  Definition place (p : list N) (tag : N) : list N :=
    match at_tag fcs tag with Some (_, c) => if c_state c then p ++ [tag] else [] | None => [] end.
  Definition up (p : list N) (xs : list (N * cval)) : list (N * (cval * list N)) := map (fun tx => (fst tx, (snd tx, place p (fst tx)))) xs.
  Lemma up_tags p xs : map fst (up p xs) = map fst xs.
  Proof. unfold up. rewrite map_map. reflexivity. Qed.
  Lemma up_assoc p xs tag : assoc tag (up p xs) = option_map (fun x => (x, place p tag)) (assoc tag xs).
  Proof.
    induction xs as [|[t x] xs IH]; [reflexivity|]. cbn [up map assoc fst snd]. fold (up p xs). rewrite IH.
    destruct (N.eqb_spec tag t) as [->|]; reflexivity.
  Qed.
  Lemma up_put p xs tag x : put tag (x, place p tag) (up p xs) = up p (c_put tag x xs).
  Proof.
    induction xs as [|[t y] xs IH]; [reflexivity|]. cbn [up map put c_put fst snd]. fold (up p xs). destruct (N.eqb_spec tag t) as [->|]; [reflexivity|].
    cbn [up map fst snd]. now rewrite IH.
  Qed.
  Lemma up_members p xs : map fst xs = map v_tag vs -> props fcs (up p xs) = members p fcs xs.
  Proof.
    assert (G : forall l, incl l fcs -> forall xs, map fst xs = map v_tag (map fst l) -> props l (up p xs) = members p l xs).
    { induction l as [|[v c] l IH]; intros Hl [|[t x] ys] H; try discriminate; [reflexivity|]. cbn [map fst] in H. injection H as -> H.
      cbn [up map props members fst snd]. fold (up p ys). rewrite IH by (try assumption; intros z Hz; apply Hl; now right).
      unfold held, place. rewrite (at_tag_is v c) by (apply Hl; now left). reflexivity. }
    apply G, incl_refl.
  Qed.
  Lemma up_object p xs : map fst xs = map v_tag vs -> obj fcs p (up p xs) = struct_object p fcs xs.
  Proof. intros H. unfold obj, struct_object. now rewrite up_members. Qed.

  Lemma c_new_prim c : c_state c = false -> exists x, c_new c = Ok x /\ w_default client c = (x, []).
  Proof. destruct c; try discriminate; cbn; eauto. Qed.
  Lemma new_fields_client p : new_fields client p fcs = do xs <- c_new_fields (cfields fcs); Ok (up p xs).
  Proof.
    assert (G : forall l, incl l fcs -> new_fields client p l = do xs <- c_new_fields (cfields l); Ok (up p xs)).
    { induction l as [|[v c] l IH]; intros Hl; [reflexivity|]. cbn [new_fields cfields map c_new_fields fst snd]. fold (cfields l).
      assert (Hi : In (v, c) fcs) by (apply Hl; now left).
      assert (N1 : new_field client p v c = do x <- (if is_param v && negb (c_constructible c) then Panic else c_new c); Ok (x, place p (v_tag v))).
      { unfold place. rewrite (at_tag_is v c) by assumption. rewrite Forall_forall in prims. specialize (prims _ Hi). cbn [fst snd] in prims.
        unfold new_field, is_param. destruct (fm_ty (v_meta v)); cbn [andb].
        - rewrite prims. destruct (c_new_prim c prims) as (x & -> & E). cbn [bind]. now rewrite E.
        - rewrite prims. reflexivity.
        - unfold construct_generic. destruct (c_state c) eqn:Ec.
          + destruct (c_constructible c); cbn [negb]; [|reflexivity]. reflexivity.
          + destruct (c_new_prim c Ec) as (x & En & E). replace (c_constructible c) with true by (destruct c; reflexivity || discriminate).
            cbn [negb]. rewrite En, E. reflexivity. }
      rewrite N1. destruct (if is_param v && negb (c_constructible c) then Panic else c_new c) as [x| | |]; cbn [bind]; try reflexivity.
      rewrite IH by (intros z Hz; apply Hl; now right). destruct (c_new_fields (cfields l)); reflexivity. }
    apply G, incl_refl.
  Qed.
  Lemma new_tags xs : c_new_fields (cfields fcs) = Ok xs -> map fst xs = map v_tag vs.
  Proof.
    generalize fcs. intros l. revert xs. induction l as [|[v c] l IH]; intros xs; cbn [cfields map c_new_fields fst snd]; [intros [= <-]; reflexivity|]. fold (cfields l).
    destruct (if is_param v && negb (c_constructible c) then Panic else c_new c); cbn [bind]; [|discriminate..].
    destruct (c_new_fields (cfields l)); cbn [bind]; [|discriminate..]. intros [= <-]. cbn [map fst]. f_equal. auto.
  Qed.
  Lemma shape_assoc tag : assoc tag (cfields fcs) = option_map (fun fc => (is_param (fst fc), snd fc)) (at_tag fcs tag).
  Proof.
    unfold at_tag. generalize fcs. intros l. induction l as [|[v c] l IH]; [reflexivity|]. cbn [cfields map assoc find fst snd]. fold (cfields l).
    destruct (N.eqb_spec tag (v_tag v)); [subst; reflexivity|assumption].
  Qed.
  Lemma readers_assoc tag : assoc tag (c_readers (cfields fcs)) =
    option_map (fun fc => (c_field_wty (is_param (fst fc)) (snd fc), c_deser (snd fc))) (at_tag fcs tag).
  Proof.
    unfold at_tag. generalize fcs. intros l. induction l as [|[v c] l IH]; [reflexivity|]. cbn [cfields map c_readers assoc find fst snd]. fold (cfields l). fold (c_readers (cfields l)).
    destruct (N.eqb_spec tag (v_tag v)); [subst; reflexivity|assumption].
  Qed.
  Lemma read_client p v c bs : In (v, c) fcs ->
    read_field client p v c bs = do (x, rest) <- c_deser c bs; Ok ((x, place p (v_tag v)), rest).
  Proof.
    intros Hi. unfold place. rewrite (at_tag_is v c) by assumption. rewrite Forall_forall in prims. specialize (prims _ Hi). cbn [fst snd] in prims.
    unfold read_field. destruct (fm_ty (v_meta v)); [rewrite prims; reflexivity|rewrite prims; reflexivity|]. destruct (c_state c); reflexivity.
  Qed.
  Lemma step_client p xs bs : silent_step client fcs p (up p xs) bs =
    do (xs, rest) <- c_struct_step (c_readers (cfields fcs)) xs bs; Ok (up p xs, rest).
  Proof.
    unfold silent_step, member_step, c_struct_step. destruct (c_key bs) as [[[tag k] r1]| | |]; cbn [bind]; try reflexivity.
    destruct (match k with Varint => Ok (r1, r1) | Sized => c_nested r1 end) as [[sub after]| | |] eqn:En; cbn [bind]; try reflexivity.
    rewrite readers_assoc. destruct (at_tag fcs tag) as [[v c]|] eqn:E; cbn [option_map fst snd].
    - destruct (at_tag_in fcs tag v c E) as [Hi Et].
      destruct (wtype_eqb k (c_field_wty (is_param v) c)).
      + unfold replaced. rewrite E, read_client by assumption. rewrite Et. destruct (c_deser c sub) as [[x rem]| | |]; cbn [bind]; try reflexivity.
        rewrite up_put. destruct k; reflexivity.
      + unfold skip. destruct k; cbn [bind]; [|reflexivity]. injection En as <- <-. destruct (c_bool r1 false) as [[b r]| | |]; reflexivity.
    - unfold replaced. rewrite E. unfold skip. destruct k; cbn [bind]; [|reflexivity]. injection En as <- <-.
      destruct (c_bool r1 false) as [[b r]| | |]; reflexivity.
  Qed.
  Lemma run_client p bs : forall xs, crun (silent_step client fcs p) (up p xs) bs = do xs <- crun (c_struct_step (c_readers (cfields fcs))) xs bs; Ok (up p xs).
  Proof.
    unfold crun. generalize (List.length bs). intros fuel. revert bs. induction fuel as [|fuel IH]; intros bs xs; cbn [cloop]; destruct bs as [|b bs]; try reflexivity.
    rewrite step_client. destruct (c_struct_step (c_readers (cfields fcs)) xs (b :: bs)) as [[ys rest]| | |]; cbn [bind]; try reflexivity. apply IH.
  Qed.
  Lemma step_tags xs bs ys rest : c_struct_step (c_readers (cfields fcs)) xs bs = Ok (ys, rest) -> map fst ys = map fst xs.
  Proof.
    assert (P : forall t x l, map fst (c_put t x l) = map fst l).
    { intros t x l. induction l as [|[t' y] l IH]; [reflexivity|]. cbn [c_put]. destruct (t =? t'); cbn [map fst]; congruence. }
    unfold c_struct_step. destruct (c_key bs) as [[[tag k] r1]| | |]; cbn [bind]; [|discriminate..].
    destruct (match k with Varint => Ok (r1, r1) | Sized => c_nested r1 end) as [[sub after]| | |]; cbn [bind]; [|discriminate..].
    assert (K : match k with Varint => do (_, r) <- c_bool after false; Ok (xs, r) | Sized => Ok (xs, after) end = Ok (ys, rest) -> map fst ys = map fst xs).
    { destruct k; [destruct (c_bool after false) as [[b r]| | |]; cbn [bind]; [|discriminate..]|]; now intros [= <- _]. }
    destruct (assoc tag (c_readers (cfields fcs))) as [[k' rd]|]; [|exact K]. destruct (wtype_eqb k k'); [|exact K].
    destruct (rd sub) as [[x rem]| | |]; cbn [bind]; [|discriminate..]. intros [= <- _]. apply P.
  Qed.
  Lemma run_tags bs : forall xs ys, crun (c_struct_step (c_readers (cfields fcs))) xs bs = Ok ys -> map fst ys = map fst xs.
  Proof.
    unfold crun. generalize (List.length bs). intros fuel. revert bs. induction fuel as [|fuel IH]; intros bs xs ys; cbn [cloop]; destruct bs as [|b bs];
      try (now intros [= <-]); try discriminate.
    destruct (c_struct_step (c_readers (cfields fcs)) xs (b :: bs)) as [[zs rest]| | |] eqn:E; cbn [bind]; [|discriminate..]. intros H.
    apply IH in H. apply step_tags in E. congruence.
  Qed.
End Client.

(** ** The class *)

Lemma put_keys t x l : map fst (c_put t x l) = map fst l.
Proof. induction l as [|[t' y] l IH]; [reflexivity|]. cbn [c_put]. destruct (t =? t'); cbn [map fst]; congruence. Qed.
Lemma assoc_keys {A} t (l : list (N * A)) : assoc t l = None -> ~ In t (map fst l).
Proof.
  induction l as [|[t' y] l IH]; [auto|]. cbn [assoc map fst In]. destruct (N.eqb_spec t t'); [discriminate|]. intros H [E|E]; [congruence|now apply IH].
Qed.

Section Whole.
  Variable params : list (string * cty).
  Variable user : string -> list cty -> option cty.
  Variable outer : list (string * meaning).
  Variables (acc n : string) (ps vps : list string) (metas : list fmeta) (fcs : list (vfield * cty)).
  Notation ty := (resolve params user).
  Notation vs := (map fst fcs).
  Hypothesis lib : no_library user.
  Hypothesis pfree : params_free params = true.
  Hypothesis of_metas : fields_of ty metas = Some fcs.
  Hypothesis fine : struct_fine params user outer n ps vps fcs = true.

  Lemma whole_prims : Forall (fun fc => match fm_ty (v_meta (fst fc)) with
    | MPrim _ _ => c_state (snd fc) = false | MRef _ _ => c_state (snd fc) = true | MParam _ => True end) fcs.
  Proof.
    pose proof (fine_fields params user outer acc n ps vps metas fcs of_metas fine unit) as H. rewrite Forall_forall in *.
    intros [v c] Hi. specialize (H _ Hi). cbn [fst snd] in *. destruct H as [_ H]. destruct (fm_ty (v_meta v)); [apply H|apply H|exact I].
  Qed.
  Lemma whole_class : struct_class ty (x_struct acc n ps vps vs) outer fcs.
  Proof.
    pose proof (fine_fields params user outer acc n ps vps metas fcs of_metas fine (cval * list N)) as H1.
    pose proof (fine_params params user outer n ps vps fcs fine) as H2.
    pose proof (fine_declared params user outer acc n ps vps fcs fine) as H3.
    pose proof (fine_tags params user outer n ps vps fcs fine) as H4.
    pose proof (fine_factory params user outer acc n ps vps fcs lib pfree fine) as H5.
    pose proof (fine_wire params user outer acc n ps vps fcs lib pfree fine) as H6.
    assert (H7 : forall a, ty (CN "Path" a) = None) by (intros a; apply library_none; [assumption..|cbn; tauto]).
    assert (H8 : forall a, ty (CN "FieldUpdateEventArgs" a) = None) by (intros a; apply library_none; [assumption..|cbn; tauto]).
    assert (H9 : forall a, ty (CN "IState" a) = None) by (intros a; apply library_none; [assumption..|cbn; tauto]).
    pose proof (fine_own params user outer n ps vps fcs fine) as H10.
    pose proof (fine_var params user outer n ps vps fcs fine) as H11.
    pose proof (fine_class params user outer acc n ps vps fcs fine) as H12.
    pose proof whole_prims as Hp.
    split.
    - intros a. rewrite struct_new by assumption. rewrite new_fields_client by assumption. rewrite c_new_struct.
      destruct (c_new_fields (cfields fcs)) as [xs| | |] eqn:E; cbn [bind]; try reflexivity. cbn [inside]. now rewrite up_object by (assumption || now apply new_tags).
    - intros a bs. rewrite struct_deserialize by assumption. unfold deserialized. rewrite new_fields_client by assumption. rewrite c_deser_struct.
      destruct (c_new_fields (cfields fcs)) as [xs| | |] eqn:E; cbn [bind]; try reflexivity. rewrite run_client by assumption.
      destruct (crun (c_struct_step (c_readers (cfields fcs))) xs bs) as [ys| | |] eqn:Er; cbn [bind]; try reflexivity. cbn [inside].
      rewrite up_object; [reflexivity|assumption|]. apply run_tags in Er. apply new_tags in E. congruence.
    - intros o tag. rewrite struct_wire_type by assumption. unfold wire_at. rewrite shape_assoc. destruct (at_tag fcs tag) as [[v c]|]; reflexivity.
    - intros p xs tag Hx. rewrite <- up_object by assumption. rewrite struct_get_nested by (assumption || now rewrite up_tags).
      unfold nested_at, c_child. rewrite shape_assoc. destruct (at_tag fcs tag) as [[v c]|] eqn:E; cbn [option_map fst snd]; [|reflexivity].
      destruct (c_state c) eqn:Ec; [|reflexivity]. rewrite up_assoc. unfold place. rewrite E, Ec. destruct (assoc tag xs) as [x|] eqn:Ex; [reflexivity|].
      exfalso. apply at_tag_in in E. destruct E as [E1 E2]. apply assoc_keys in Ex. apply Ex. rewrite Hx, <- E2. apply in_map, (in_map fst _ _ E1).
    - intros p xs v c y k bs b Hx Hi Hy. rewrite <- !up_object by assumption. rewrite struct_replace_at by (assumption || now rewrite up_tags).
      unfold replaced. rewrite (at_tag_is fcs H4 v c Hi), (read_client fcs H4 Hp) by assumption. unfold held.
      destruct (c_deser c bs) as [[x rest]| | |]; cbn [bind]; try reflexivity. rewrite up_put, up_assoc, Hy. cbn [option_map].
      unfold place. rewrite (at_tag_is fcs H4 v c Hi). unfold event.
      rewrite <- up_object by (assumption || (rewrite <- Hx; apply put_keys)). reflexivity.
    - intros p xs tag k bs b Hx Hn. rewrite <- !up_object by assumption. rewrite struct_replace_at by (assumption || now rewrite up_tags).
      unfold replaced. destruct (at_tag fcs tag) as [[v c]|] eqn:E.
      { exfalso. apply at_tag_in in E. destruct E as [E1 E2]. apply Hn. rewrite <- E2. apply in_map, (in_map fst _ _ E1). }
      unfold skip. destruct k; [destruct (c_bool bs false) as [[z r]| | |]|]; reflexivity.
  Qed.
End Whole.
Lemma struct_reads (params : list (string * cty)) user s cs fcs : setting_ok cs = true ->
  fields_of (resolve params user) (sm_fields s) = Some fcs ->
  struct_fine params user [] (cs_name (sm_name s)) (sm_params s) (sm_params s) fcs = true ->
  exists text, gen_text (MStruct s) cs = Ok text /\
    parse text = Some (File (map split (file_usings cs)) (split (cs_namespace cs))
      (x_struct "public" (cs_name (sm_name s)) (sm_params s) (sm_params s) (map fst fcs))).
Proof.
  intros Hs Hf Hi. destruct (fields_of_cs _ _ _ Hf) as (F1 & F2 & _).
  pose proof (fine_vs _ _ _ _ _ _ _ _ Hf Hi) as Hv.
  eexists. split; [apply (struct_text s cs _ F1)|]. rewrite <- F2.
  unfold struct_fine in Hi. cbv zeta in Hi. rewrite !andb_true_iff in Hi. destruct Hi as [[[[[[[[[[[[[Fn Fv] Fr] Fps] Fvps] Fo] Fk] Fu] Fc] Fz] Ft] Ff] Fw] Ffs].
  apply parse_file; [assumption| |].
  - apply tidy_struct. rewrite Forall_forall in *. intros f H. apply in_map_iff in H. destruct H as (v & <- & H). apply ident_word. apply (Hv v H).
  - exact (read_struct _ _ _ _ _ (or_introl eq_refl) Fn Fv Fps Fvps Hv).
Qed.
