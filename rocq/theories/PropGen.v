(** C57, C58: the text of the generated classes, read and run (CsRead.v, CsRun.v), behaves as the
    model of the client (CSharp.v) says. *)
From Verif Require Import Base Varint WireFmt Types Ser Spec De Meta MetaProofs Gen CSharp CsRead CSharpProofs PropCSharp CsRun GenSpec GenFile GenStruct GenEnum GenWhole GenGolden GenTests Elab ElabProofs.
From Coq Require Import String.
Import String.StringSyntax.
Local Open Scope string_scope.
Local Open Scope list_scope.
Local Open Scope N_scope.

Lemma usings_are s u : In u (map split (file_usings s)) <-> In u (map split ("System" :: lib_usings ++ cs_used s)).
Proof.
  rewrite !in_map_iff. assert (H : forall x, In x (file_usings s) <-> In x ("System" :: lib_usings ++ cs_used s)).
  { intros x. unfold file_usings. cbn [In]. now rewrite ssort_in. }
  split; intros (x & H1 & H2); exists x; (split; [exact H1|now apply H]).
Qed.

(** ** C57: structs *)

(** [user]: the classes other names mean; [params]: the type arguments of the object at hand. *)
Theorem c57_struct : forall params user s cs fcs,
  no_library user -> params_free params = true -> setting_ok cs = true ->
  fields_of (resolve params user) (sm_fields s) = Some fcs ->
  struct_fine params user [] (cs_name (sm_name s)) (sm_params s) (sm_params s) fcs = true ->
  exists text f, gen_text (MStruct s) cs = Ok text /\ parse text = Some f /\
    file_of cs (cs_name (sm_name s)) (sm_params s) "IState" f /\
    names (fl_class f) [] = with_params (sm_params s) (struct_names (map fst fcs)) /\
    struct_class (resolve params user) (fl_class f) [] fcs.
Proof.
  intros params user s cs fcs Hu Hp Hs Hf Hi. destruct (struct_reads params user s cs fcs Hs Hf Hi) as (text & H1 & H2).
  exists text. eexists. split; [exact H1|]. split; [exact H2|]. cbn [fl_class]. split; [|split].
  - repeat split; try (intros; now apply usings_are). cbn [fl_class]. do 2 eexists. split; [reflexivity|now left].
  - rewrite names_are, app_nil_r. reflexivity.
  - exact (whole_class params user [] "public" _ _ _ _ fcs Hu Hp Hf Hi).
Qed.
Print Assumptions c57_struct.

(** ** C58: enums *)

Theorem c58_enum : forall params user e cs vs d,
  no_library user -> params_free params = true -> setting_ok cs = true ->
  variants_of (resolve params (in_scope vs user)) e vs ->
  enum_fine params (in_scope vs user) (cs_name (em_name e)) (em_params e) vs = true ->
  find (fun v => va_tag v =? 0) vs = Some d ->
  exists text f, gen_text (MEnum e) cs = Ok text /\ parse text = Some f /\
    file_of cs (cs_name (em_name e)) (em_params e) "IEnumState" f /\
    names (fl_class f) [] = with_params (em_params e) (enum_names vs) /\
    enum_class (resolve params (in_scope vs user)) (fl_class f) (em_params e) vs /\
    forall v, In v vs -> exists mods ms,
      let c := KClass mods (va_name v) [] (CN "IState" []) ms in
      In c (c_members (fl_class f)) /\ In "public" mods /\
      struct_class (resolve params (in_scope vs user)) c (names (fl_class f) []) (va_fields v).
Proof.
  intros params user e cs vs d Hu Hp Hs Hv Hf Hd. destruct (enum_reads params user e cs vs d Hs Hv Hf Hd) as (text & H1 & H2).
  exists text. eexists. split; [exact H1|]. split; [exact H2|]. cbn [fl_class]. split; [|split; [|split]].
  - repeat split; try (intros; now apply usings_are). cbn [fl_class]. do 2 eexists. split; [reflexivity|now left].
  - apply enum_names_is.
  - now apply whole_enum.
  - intros v Hi. rewrite enum_names_is.
    assert (Fv : exists metas, fields_of (resolve params (in_scope vs user)) metas = Some (va_fields v)).
    { unfold variants_of in Hv. revert Hv. generalize (resolve params (in_scope vs user)). intros ty Hv. clear - Hv Hi.
      induction Hv as [|x sv l l' (E1 & E2 & E3) Hr IH]; [destruct Hi|]. destruct Hi as [->|Hi]; [eauto|auto]. }
    destruct Fv as [metas Fv]. pose proof (each_variant _ _ _ _ _ Hf v Hi) as Fx. unfold variant_fine in Fx. rewrite !andb_true_iff in Fx.
    destruct Fx as [_ Fx].
    assert (L : no_library (in_scope vs user)) by (eapply enum_lib; eassumption).
    pose proof (whole_class params (in_scope vs user) _ "internal" _ _ _ _ _ L Hp Fv Fx) as W.
    do 2 eexists. cbv zeta. split; [|split; [|exact W]]; [|now left].
    cbn [c_members x_enum]. unfold x_enum_members. rewrite !in_app_iff. do 9 right. apply in_map_iff. exists (GenRunEnum.ev_of v). split; [reflexivity|].
    now apply in_map.
Qed.
Print Assumptions c58_enum.

(** ** C59: classes of declarations *)

(** [declared e d args T]: the declaration [d] with type arguments [args] is the Rust type [T];
    [user_of k e]: the classes that the names in generated files mean.  The class is the one that the
    model of the client (C44, C45, C53, C54) expects for the type. *)
Theorem c59_class : forall e d args T k cs c, env_ok e = true -> In d e -> declared e d args T ->
  Forall2 (fun T c => cls T c = true) args cs -> user_of k e (cs_name (d_name d)) cs = Some c -> cls T c = true.
Proof. intros e d args T k cs c Hok. exact (class_agrees e Hok d args T k cs c). Qed.
Print Assumptions c59_class.

(** ** C60: from the bytes a Rust program writes to an object of the generated class *)

Lemma library_taken n : In n (library_names ++ header_names) -> In n taken.
Proof. intros H. unfold taken. apply in_or_app. right. apply in_or_app. now right. Qed.
Lemma user_library e k : env_ok e = true -> no_library (user_of k e).
Proof. intros Hok n cs Hn. apply user_undeclared, (taken_undeclared e Hok), library_taken, Hn. Qed.
Lemma decl_params_free e d (cs : list cty) : env_ok e = true -> In d e -> params_free (combine (d_params d) cs) = true.
Proof.
  intros Hok Hd. unfold params_free. apply forallb_forall. intros n Hn. apply negb_true_iff. destruct (str_mem n _) eqn:E; [|reflexivity]. exfalso.
  apply str_mem_spec, in_map_iff in E. destruct E as ([p c] & <- & Hi). apply in_combine_l in Hi. destruct (env_decl e Hok d Hd) as [[_ H] _].
  destruct (H _ Hi) as [_ H']. apply H', library_taken, Hn.
Qed.
Lemma args_length e d args T (cs : list cty) : declared e d args T -> Forall2 (fun T c => cls T c = true) args cs -> List.length (d_params d) = List.length cs.
Proof. intros (k & <- & _) H. clear - H. induction H; cbn; congruence. Qed.
Lemma fine_constructed params user outer n ps vps metas fcs : fields_of (resolve params user) metas = Some fcs ->
  struct_fine params user outer n ps vps fcs = true -> class_fields (resolve params user) metas = Some (cfields fcs).
Proof.
  intros Hf Hi. unfold class_fields. rewrite Hf. replace (forallb constructed fcs) with true; [reflexivity|]. symmetry.
  unfold struct_fine in Hi. rewrite !andb_true_iff in Hi. destruct Hi as [_ Hi]. rewrite forallb_forall in *. intros [v c] H. specialize (Hi _ H).
  unfold field_fine in Hi. unfold constructed. cbn [fst snd]. destruct (fm_ty (v_meta v)); try reflexivity.
  rewrite !andb_true_iff in Hi. apply Hi.
Qed.
Lemma has_default e d evs args T ty vs : d_body d = BEnum evs -> declared e d args T -> ty_ok T = true ->
  variants_of ty (EM (d_name d) (d_params d) (map (fun '((n, tag), fs) => (struct_meta e d n [] fs, tag)) evs) (d_owned d)) vs ->
  exists x, find (fun v => va_tag v =? 0) vs = Some x.
Proof.
  intros Hb (k & _ & Ht) O Hv. rewrite Hb in Ht. destruct T as [| | | | | | | | | | |s vts| |]; try contradiction.
  cbn [ty_ok] in O. rewrite !andb_true_iff in O. destruct O as [_ O]. apply existsb_exists in O. destruct O as (vt & O1 & O2). apply N.eqb_eq in O2.
  unfold variants_of in Hv. cbn [em_variants] in Hv.
  assert (X : exists v, In v vs /\ va_tag v = 0).
  { clear - Ht O1 O2 Hv. revert vs Hv. induction Ht as [|[[n tag] fs] vt' evs vts [E1 E2] Hr IH]; intros vs Hv; [destruct O1|].
    cbn [map] in Hv. inversion Hv as [|v sv l l' (V1 & V2 & V3) Hr']; subst. cbn [fst snd] in *. destruct O1 as [->|O1].
    - exists v. split; [now left|]. congruence.
    - destruct (IH O1 _ Hr') as (x & H1 & H2). exists x. split; [now right|exact H2]. }
  destruct X as (v & H1 & H2). destruct (find (fun v => va_tag v =? 0) vs) as [x|] eqn:E; [eauto|].
  eapply find_none in E; [|exact H1]. rewrite H2 in E. discriminate.
Qed.

Theorem c60_struct : forall e d fs st k args T cs fcs,
  env_ok e = true -> In d e -> d_body d = BStruct fs -> declared e d args T -> Forall2 (fun T c => cls T c = true) args cs -> setting_ok st = true ->
  let params := combine (d_params d) cs in
  fields_of (resolve params (user_of k e)) (map (field_meta e (d_params d)) fs) = Some fcs ->
  struct_fine params (user_of k e) [] (cs_name (d_name d)) (d_params d) (d_params d) fcs = true ->
  exists text f, gen_text (decl_msg e d) st = Ok text /\ parse text = Some f /\
    forall m v h, ty_ok T = true -> cls_ok (CStruct (cfields fcs)) = true -> wt T v = true -> c_carried v = true -> lenN (enc v) < 2 ^ 31 ->
    exists bs xs, to_bytes m v h = Ok bs /\
      run_deserialize _ client (resolve params (user_of k e)) (fl_class f) [] None bs = Ok (struct_object [] fcs xs, [], []) /\
      looks v (CVStruct xs) = true.
Proof.
  intros e d fs st k args T cs fcs Hok Hd Hb Ht Hc Hs params Hf Hi.
  destruct (c57_struct params (user_of k e) (struct_meta e d (d_name d) (d_params d) fs) st fcs) as (text & f & G1 & G2 & _ & _ & G3);
    [now apply user_library|exact (decl_params_free e d cs Hok Hd)|assumption..|].
  exists text, f. split; [unfold decl_msg; now rewrite Hb|]. split; [exact G2|]. intros m v h O K W Ca L.
  assert (U : user_of (S k) e (cs_name (d_name d)) cs = Some (CStruct (cfields fcs))).
  { cbn [user_of]. rewrite (find_decl e Hok d Hd), (args_length e d args T cs Ht Hc), Nat.eqb_refl. unfold decl_msg. rewrite Hb. cbn [class_msg].
    fold params. cbn [sm_fields struct_meta]. rewrite (fine_constructed _ _ _ _ _ _ _ _ Hf Hi). reflexivity. }
  destruct (c45_decode m T (CStruct (cfields fcs)) v h O (c59_class e d args T (S k) cs _ Hok Hd Ht Hc U) K W Ca L) as (bs & w & B1 & B2 & B3).
  exists bs, (inside w). split; [exact B1|]. split.
  - rewrite (sc_deserialize _ _ _ _ G3), B2. reflexivity.
  - rewrite <- B3. f_equal. clear - B2. rewrite c_deser_struct in B2. destruct (c_new_fields (cfields fcs)); try discriminate.
    cbn [bind] in B2. destruct (crun _ _ bs); try discriminate. cbn [bind] in B2. injection B2 as <-. reflexivity.
Qed.
Print Assumptions c60_struct.

Theorem c60_enum : forall e d evs st k args T cs vs,
  env_ok e = true -> In d e -> d_body d = BEnum evs -> declared e d args T -> Forall2 (fun T c => cls T c = true) args cs -> setting_ok st = true ->
  let params := combine (d_params d) cs in
  let em := EM (d_name d) (d_params d) (map (fun '((n, tag), fs) => (struct_meta e d n [] fs, tag)) evs) (d_owned d) in
  ty_ok T = true -> variants_of (resolve params (in_scope vs (user_of k e))) em vs ->
  (* No name of a variant is the name of a class used in a field. *)
  class_variants (resolve params (user_of k e)) (em_variants em) = Some (cvariants vs) ->
  enum_fine params (in_scope vs (user_of k e)) (cs_name (d_name d)) (d_params d) vs = true ->
  exists text f, gen_text (decl_msg e d) st = Ok text /\ parse text = Some f /\
    forall m v h, cls_ok (CEnum (cvariants vs)) = true -> wt T v = true -> c_carried v = true -> lenN (enc v) < 2 ^ 31 ->
    exists bs tag xs, to_bytes m v h = Ok bs /\
      run_deserialize _ client (resolve params (in_scope vs (user_of k e))) (fl_class f) [] None bs = Ok (enum_object [] vs tag xs, [], []) /\
      looks v (CVEnum tag xs) = true.
Proof.
  intros e d evs st k args T cs vs Hok Hd Hb Ht Hc Hs params em O Hv Hn Hf.
  assert (D : exists x, find (fun v => va_tag v =? 0) vs = Some x) by (eapply has_default; eassumption).
  destruct D as [x D].
  destruct (c58_enum params (user_of k e) em st vs x) as (text & f & G1 & G2 & _ & _ & G3 & _);
    [now apply user_library|exact (decl_params_free e d cs Hok Hd)|assumption..|].
  exists text, f. split; [unfold decl_msg; now rewrite Hb|]. split; [exact G2|]. intros m v h K W Ca L.
  assert (U : user_of (S k) e (cs_name (d_name d)) cs = Some (CEnum (cvariants vs))).
  { cbn [user_of]. rewrite (find_decl e Hok d Hd), (args_length e d args T cs Ht Hc), Nat.eqb_refl. unfold decl_msg. rewrite Hb. cbn [class_msg].
    fold params. fold em. now rewrite Hn. }
  destruct (c45_decode m T (CEnum (cvariants vs)) v h O (c59_class e d args T (S k) cs _ Hok Hd Ht Hc U) K W Ca L) as (bs & w & B1 & B2 & B3).
  exists bs, (tag_in w), (inside w). split; [exact B1|]. split.
  - rewrite (ec_deserialize _ _ _ _ G3), B2. reflexivity.
  - rewrite <- B3. f_equal. clear - B2. rewrite c_deser_enum in B2. destruct (c_new (CEnum (cvariants vs))) as [d| | |] eqn:Ed; try discriminate.
    cbn [bind] in B2. destruct (c_int U32 bs) as [[z rest]| | |]; try discriminate. cbn [bind] in B2. destruct (assoc (Z.to_N z) (cvariants vs)) as [fs|].
    + destruct (c_new_fields fs) as [xs| | |]; try discriminate. cbn [bind] in B2. destruct (crun _ xs rest); try discriminate. cbn [bind] in B2. now injection B2 as <-.
    + injection B2 as <-. rewrite c_new_enum in Ed. destruct (assoc 0 (cvariants vs)) as [fs|]; [|discriminate]. destruct (c_new_fields fs); try discriminate.
      cbn [bind] in Ed. now injection Ed as <-.
Qed.
Print Assumptions c60_enum.

(** ** Examples: files of the repository *)

Definition class_of (text : string) : member := match parse text with Some f => fl_class f | None => KClass [] "" [] (CN "" []) [] end.
Definition test_user := user_of 6 test_env.
Definition test_struct (d : nat) (cs : list cty) : bool :=
  let d := decl_of test_env d in
  let params := combine (d_params d) cs in
  match fields_of (resolve params test_user) (map (field_meta test_env (d_params d)) (body_fields (d_body d))) with
  | Some fcs => struct_fine params test_user [] (cs_name (d_name d)) (d_params d) (d_params d) fcs
  | None => false
  end.
(** steit-csharp/tests: the classes of fields, the names of all members, an object read from bytes. *)
Example c57_case :
  env_ok test_env = true /\ setting_ok (CS "Just.To.Test" []) = true /\
  test_struct dOuter [] = true /\ test_struct dInner [] = true /\ test_struct dHello [] = true /\ test_struct dWoof [] = true /\
  test_struct dSure [CInt U8] = true /\
  let cInner := CStruct [(0, (false, CInt I32)); (1, (false, CBool))] in
  let old := [("Path", VPath [7]); ("Foo", VObj (CInt I32) (CVInt 1, [])); ("Bar", VObj CBool (CVBool true, []));
              ("Inner", VObj cInner (CVStruct [(0, CVInt (-2)); (1, CVBool true)], [7; 2]))] in
  run_deserialize _ client (resolve [] test_user) (class_of golden_Outer) [] (Some [7]) [0; 2; 8; 1; 18; 4; 0; 3; 8; 1] = Ok (old, [], []) /\
  run_replace_at _ client (resolve [] test_user) (class_of golden_Outer) [] old 0 Varint [9] true =
    Ok (sput "Foo" (VObj (CInt I32) (CVInt (-5), [])) old, [],
        [("OnFooUpdate", [VThis; VArgs [VNum 0; VObj (CInt I32) (CVInt (-5), []); VObj (CInt I32) (CVInt 1, []); VThis]])]).
Proof. vm_compute. repeat split. Qed.

Definition test_variants (d : decl) (cs : list cty) : list variant :=
  match d_body d with
  | BEnum vs => match some_all (fun '((n, tag), fs) => option_map (Variant (struct_meta test_env d n [] fs) tag)
                  (fields_of (resolve (combine (d_params d) cs) test_user) (map (field_meta test_env (d_params d)) fs))) vs with
                | Some vs => vs | None => [] end
  | _ => []
  end.
Definition test_enum (d : nat) (cs : list cty) : bool :=
  let d := decl_of test_env d in
  enum_fine (combine (d_params d) cs) (in_scope (test_variants d cs) test_user) (cs_name (d_name d)) (d_params d) (test_variants d cs).
Example c58_case :
  test_enum dMulticase [] = true /\ test_enum dLogEntry [] = true /\ test_enum dMaybe [CInt U8] = true /\
  let vs := test_variants (decl_of test_env dMaybe) [CInt U8] in
  let ty := resolve [("T", CInt U8)] (in_scope vs test_user) in
  let some x := [("Path", VPath []); ("Tag", VNum 1); ("Variant", VObj (CStruct [(0, (true, CInt U8))]) (CVStruct [(0, CVInt x)], [1]))] in
  run_deserialize _ client ty (class_of golden_Maybe) [] None [1; 0; 5] = Ok (some 5%Z, [], []) /\
  (* NewSome of Maybe<T> *)
  run_static _ client ty (class_of golden_Maybe) [] "NewSome" [a_path None] [] = NoFuel /\
  let vs := test_variants (decl_of test_env dMulticase) [] in
  let ty := resolve [] (in_scope vs test_user) in
  run_static _ client ty (class_of golden_Multicase) [] "NewSecondCase" [a_path None] [] =
    Ok ([("Path", VPath []); ("Tag", VNum 1);
         ("Variant", VObj (CStruct [(0, (false, CInt I32)); (1, (false, CBool))]) (CVStruct [(0, CVInt 0); (1, CVBool false)], [1]))], [], []).
Proof. vm_compute. repeat split. Qed.

Definition plain_f (tag : N) : finfo := mkF tag false true true.
Definition tInner : Types.ty := TStruct (mkS true false) [(plain_f 0, TInt I32); (plain_f 1, TBool)].
Definition tOuter : Types.ty := TStruct (mkS true false) [(plain_f 0, TInt I32); (plain_f 1, TBool); (plain_f 2, TBox tInner)].
Definition box_env : env := [DL (nm "Outer") [] (BStruct [fd "foo" (RInt I32) 0; fd "bar" RBool 1; fd "inner" (RBox (RUser 1 [])) 2]) false;
  DL (nm "Inner") [] (BStruct [fd "foo" (RInt I32) 0; fd "bar" RBool 1]) false].
Example c59_case :
  env_ok box_env = true /\ declared box_env (decl_of box_env 0) [] tOuter /\
  user_of 2 box_env "Outer" [] = Some (CStruct [(0, (false, CInt I32)); (1, (false, CBool)); (2, (false, CStruct [(0, (false, CInt I32)); (1, (false, CBool))]))]) /\
  user_of 6 test_env "Maybe" [CList (CInt U16)] = Some (CEnum [(0, []); (1, [(0, (true, CList (CInt U16)))])]).
Proof.
  split; [reflexivity|]. split; [|split; vm_compute; reflexivity].
  exists 4%nat. split; [reflexivity|]. constructor; [exact (conj eq_refl eq_refl)|]. constructor; [exact (conj eq_refl I)|].
  constructor; [split; [reflexivity|]|constructor]. exists []. split; [constructor|]. split; [reflexivity|].
  constructor; [exact (conj eq_refl eq_refl)|]. constructor; [exact (conj eq_refl I)|constructor].
Qed.
Definition vOuter : val := VStruct true None [(plain_f 0, VInt I32 (-1)); (plain_f 1, Types.VBool true);
  (plain_f 2, VBox (VStruct true None [(plain_f 0, VInt I32 7); (plain_f 1, Types.VBool false)]))].
Example c60_case :
  ty_ok tOuter = true /\ wt tOuter vOuter = true /\ c_carried vOuter = true /\
  exists fcs, fields_of (resolve [] (user_of 3 box_env)) (map (field_meta box_env []) (body_fields (d_body (decl_of box_env 0)))) = Some fcs /\
    struct_fine [] (user_of 3 box_env) [] "Outer" [] [] fcs = true /\ cls_ok (CStruct (cfields fcs)) = true /\
    exists bs, to_bytes Debug vOuter (fun _ => 0) = Ok bs /\
    run_deserialize _ client (resolve [] (user_of 3 box_env)) (class_of golden_Outer) [] None bs =
      Ok (struct_object [] fcs [(0, CVInt (-1)); (1, CVBool true); (2, CVStruct [(0, CVInt 7); (1, CVBool false)])], [], []).
Proof.
  split; [reflexivity|]. split; [reflexivity|]. split; [reflexivity|].
  eexists. split; [vm_compute; reflexivity|]. split; [vm_compute; reflexivity|]. split; [vm_compute; reflexivity|].
  eexists. split; [vm_compute; reflexivity|]. vm_compute. reflexivity.
Qed.

(** ** C61: names that the generated text cannot use *)

Definition one (n : string) (fs : list field) : decl := DL (nm n) [] (BStruct fs) false.
Definition text_of (e : env) (d : decl) (text : string) : Prop := gen_text (decl_msg e d) (CS "A" []) = Ok text.

(** [var event = new Event(path);]: a struct whose name, uncapitalised, is a keyword. *)
Theorem c61_keyword_refuted : exists d text, d = one "Event" [fd "x" (RInt I32) 0] /\ text_of [d] d text /\ parse text = None.
Proof. do 2 eexists. split; [reflexivity|]. split; [vm_compute; reflexivity|]. vm_compute. reflexivity. Qed.
Print Assumptions c61_keyword_refuted.
(** [public Int32 1 { get; private set; }]. *)
Theorem c61_digit_refuted : exists d text, d = one "Foo" [fd "_1" (RInt I32) 0] /\ text_of [d] d text /\ parse text = None.
Proof. do 2 eexists. split; [reflexivity|]. split; [vm_compute; reflexivity|]. vm_compute. reflexivity. Qed.
Print Assumptions c61_digit_refuted.
(** [StateMap<>]. *)
Theorem c61_alias_refuted : exists d text, d = one "Foo" [fd "x" (RAlias (RMap K8 RBool)) 0] /\ text_of [d] d text /\ parse text = None.
Proof. do 2 eexists. split; [reflexivity|]. split; [vm_compute; reflexivity|]. vm_compute. reflexivity. Qed.
Print Assumptions c61_alias_refuted.
(** Two fields with one property. *)
Theorem c61_same_property_refuted : exists d text f, d = one "Foo" [fd "a_b" (RInt I32) 0; fd "aB" RBool 1] /\ text_of [d] d text /\
  parse text = Some f /\ ~ NoDup (map fst (names (fl_class f) [])).
Proof.
  do 3 eexists. split; [reflexivity|]. split; [vm_compute; reflexivity|]. split; [vm_compute; reflexivity|]. vm_compute. intros H.
  apply NoDup_cons_iff in H. destruct H as [_ H]. apply NoDup_cons_iff in H. destruct H as [H _]. apply H. now left.
Qed.
Print Assumptions c61_same_property_refuted.
(** A member with the name of its class. *)
Theorem c61_class_property_refuted : exists d text f, d = one "Foo" [fd "foo" (RInt I32) 0] /\ text_of [d] d text /\
  parse text = Some f /\ In (c_name (fl_class f)) (map fst (names (fl_class f) [])).
Proof. do 3 eexists. split; [reflexivity|]. split; [vm_compute; reflexivity|]. split; [vm_compute; reflexivity|]. vm_compute. tauto. Qed.
Print Assumptions c61_class_property_refuted.
(** [var reader = new Reader(path);] beside the parameter [reader]. *)
Theorem c61_local_refuted : exists d text f, d = one "Reader" [fd "x" (RInt I32) 0] /\ text_of [d] d text /\ parse text = Some f /\
  forall bs, run_deserialize _ client (resolve [] (user_of 2 [d])) (fl_class f) [] None bs = NoFuel.
Proof. do 3 eexists. split; [reflexivity|]. split; [vm_compute; reflexivity|]. split; [vm_compute; reflexivity|]. intros bs. vm_compute. reflexivity. Qed.
Print Assumptions c61_local_refuted.
(** [new Int32(this.Path.GetNested(0))], [new T(this.Path.GetNested(0))]: boxes of primitives and of parameters. *)
Theorem c61_box_refuted : exists d d' text text' f f',
  d = one "Foo" [fd "x" (RBox (RInt I32)) 0] /\ d' = DL (nm "Foo") ["T"] (BStruct [fd "x" (RBox (RVar 0)) 0]) false /\
  text_of [d] d text /\ text_of [d'] d' text' /\ parse text = Some f /\ parse text' = Some f' /\
  run_new _ client (resolve [] (fun n _ => if String.eqb n "Foo" then Some (CStruct []) else None)) (fl_class f) [] None = NoFuel /\
  run_new _ client (resolve [("T", CStruct [])] (fun n _ => if String.eqb n "Foo" then Some (CStruct []) else None)) (fl_class f') [] None = NoFuel.
Proof.
  do 6 eexists. split; [reflexivity|]. split; [reflexivity|]. split; [vm_compute; reflexivity|]. split; [vm_compute; reflexivity|].
  split; [vm_compute; reflexivity|]. split; [vm_compute; reflexivity|]. split; vm_compute; reflexivity.
Qed.
Print Assumptions c61_box_refuted.

(** Inside an enum the name of a variant hides the class of that name: what Rust wrote as a struct [A]
    is read as the variant [A]. *)
Definition capture : env := [one "A" [fd "x" (RInt I32) 0]; DL (nm "E") [] (BEnum [((nm "A", 0), []); ((nm "B", 1), [fd "f" (RUser 0 []) 0])]) false].
Definition tE : Types.ty := TEnum false [((0, false), []); ((1, false), [(plain_f 0, TStruct (mkS false false) [(plain_f 0, TInt I32)])])].
Definition vE : val := VEnum 1 false None [(plain_f 0, VStruct false None [(plain_f 0, VInt I32 5)])].
Definition capture_vs : list variant :=
  let e := decl_of capture 1 in
  [Variant (struct_meta capture e (nm "A") [] []) 0 [];
   Variant (struct_meta capture e (nm "B") [] [fd "f" (RUser 0 []) 0]) 1 [(VF (FM (nm "f") (MRef (nm "A") []) 0) "F" (CN "A" []), CStruct [])]].
Theorem c61_capture_refuted : exists text f bs xs,
  env_ok capture = true /\ declared capture (decl_of capture 1) [] tE /\ ty_ok tE = true /\ wt tE vE = true /\ c_carried vE = true /\
  text_of capture (decl_of capture 1) text /\ parse text = Some f /\
  enum_class (resolve [] (in_scope capture_vs (user_of 3 capture))) (fl_class f) [] capture_vs /\
  to_bytes Debug vE (fun _ => 0) = Ok bs /\
  run_deserialize _ client (resolve [] (in_scope capture_vs (user_of 3 capture))) (fl_class f) [] None bs = Ok (enum_object [] capture_vs 1 xs, [], []) /\
  looks vE (CVEnum 1 xs) = false.
Proof.
  destruct (c58_enum [] (user_of 3 capture) (EM (nm "E") [] (map (fun v => (va_meta v, va_tag v)) capture_vs) false) (CS "A" []) capture_vs
    (Variant (struct_meta capture (decl_of capture 1) (nm "A") [] []) 0 [])) as (text & f & G1 & G2 & _ & _ & G3 & _).
  - now apply user_library.
  - reflexivity.
  - reflexivity.
  - repeat constructor.
  - vm_compute. reflexivity.
  - reflexivity.
  - exists text, f, [1; 2; 2; 0; 10], [(0, CVStruct [])].
    split; [reflexivity|]. split.
    { exists 4%nat. split; [reflexivity|]. constructor; [split; [reflexivity|constructor]|]. constructor; [|constructor]. split; [reflexivity|].
      constructor; [|constructor]. split; [reflexivity|]. exists []. split; [constructor|]. split; [reflexivity|].
      constructor; [exact (conj eq_refl eq_refl)|constructor]. }
    split; [reflexivity|]. split; [reflexivity|]. split; [reflexivity|]. split; [exact G1|]. split; [exact G2|]. split; [exact G3|].
    split; [vm_compute; reflexivity|]. split; [|reflexivity]. rewrite (ec_deserialize _ _ _ _ G3). vm_compute. reflexivity.
Qed.
Print Assumptions c61_capture_refuted.
(** steit-csharp/tests/Action.cs: in [ActionsOr<Vector<ActionsOr<Attack>>> Attacks] of the variant
    [Attack], the name [Attack] is that of the variant. *)
Example c61_case :
  sassoc "Attack" (names (class_of golden_Action) []) = Some IsType /\
  match filter (fun c => String.eqb (c_name c) "Attack") (c_members (class_of golden_Action)) with
  | [c] => sassoc "Attacks" (names c []) = Some (IsProp (CN "ActionsOr" [CN "Vector" [CN "ActionsOr" [CN "Attack" []]]]))
  | _ => False
  end.
Proof. vm_compute. split; reflexivity. Qed.
