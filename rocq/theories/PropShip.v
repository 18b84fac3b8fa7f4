(** C74: from a declaration in Rust to objects of the C# class generated for it. *)
From Verif Require Import Base Varint WireFmt Types Ser Spec De Log State StateSpec TypeProofs LogProofs ExecProofs CohProofs PropLog Meta MetaProofs Gen CSharp CSharpProofs CSharpSim PropCSharp CsRead CsRun GenSpec Elab ElabProofs
  RsGen RsRun RsSpec RsProofs PropRs Meta Derive DeriveProofs RsDecl RsDeclProofs PropRsDecl RsMeta RsMetaProofs PropRsMeta.
From Verif Require PropDerive PropGen GenGolden.
From Verif Require Import RsMetaTests GenTests.
From Coq Require Import String.
Import String.StringSyntax.
Local Open Scope string_scope.
Local Open Scope list_scope.
Local Open Scope N_scope.

(** ** The type of an item *)

(** The types of the fields, as named in the declaration. *)
Definition types_stand (sc : scope) (e : Meta.env) (k n : nat) (ps : list string) (args : list ty) : list yty -> list ty -> Prop :=
  Forall2 (fun y t => exists r, means sc ps (self_type k ps) y = Some r /\ stands n e args r t).

Lemma tag_unique tab ns a b : akind_of tab "tag" = Some KInt -> tidy tab true ns \/ tidy tab false ns ->
  In (NMeta (MNameValue "tag" (LInt a))) ns -> In (NMeta (MNameValue "tag" (LInt b))) ns -> a = b.
Proof. intros K T A B. apply (slot_tag tab ns _ K T) in A, B. congruence. Qed.
Lemma fields_declared sc e k n ps args se ns fs l r c ts : fields_as sc ps (self_type k ps) fs l ->
  struct_is se ns (bare (bare_fields fs)) r c -> types_stand sc e k n ps args (field_types fs) ts ->
  Forall2 (field_stands (stands n e) args) l (combine r ts).
Proof.
  intros F (I & (O & _) & _) T. apply aliased_as in F. rewrite aliased_bare in *. rewrite aliased_types in T. unfold types_stand in T.
  revert r ts I O T. induction F as [|p f ys l (_ & Tg & Mn) F IH]; intros r ts I O T.
  - inversion I; subst. constructor.
  - cbn [map] in *. inversion I as [|? x ? r' Ix I']; subst. cbn [map] in O. inversion O as [|? ? ? ? Ox O']; subst. inversion T as [|? t ? ts' (y & My & St) T']; subst.
    cbn [combine]. constructor; [|now apply IH]. split; cbn [fst snd].
    + destruct Ox as (_ & Td & In1 & _). apply (tag_unique field_table _ _ _ eq_refl (or_introl Td) Tg In1).
    + rewrite Mn in My. injection My as <-. exact St.
Qed.

Lemma bare_struct i fs : yi_data i = YStruct fs -> it_data (bare_item i) = NStruct (bare_fields fs).
Proof. intros E. unfold bare_item. cbn. now rewrite E. Qed.
Lemma bare_enum i vs : yi_data i = YEnum vs -> it_data (bare_item i) = NEnum (map (fun v => NV (yv_name v) (yv_attrs v) (bare_fields (yv_fields v))) vs).
Proof. intros E. unfold bare_item. cbn. now rewrite E. Qed.

Lemma struct_declared sc e k n i fs args se d ts : item_as sc k i (decl_of e k) -> yi_data i = YStruct fs -> List.length args = List.length (yi_params i) ->
  PropDerive.shape_is (bare_decl (bare_item i)) (code_shape (CdStruct se d)) -> types_stand sc e k n (yi_params i) args (field_types fs) ts ->
  declared e (decl_of e k) args (struct_type se d ts).
Proof.
  intros (_ & Ps & _ & B) Ed L (se' & _ & Sh) T. exists n. split; [now rewrite Ps|]. rewrite Ed in B. unfold struct_type.
  destruct (d_body (decl_of e k)) as [l|l]; [|contradiction]. cbn [bare_decl d_data code_shape] in Sh. rewrite (bare_struct i fs Ed) in Sh. destruct Sh as [_ Sh].
  unfold typed_fields. now apply (fields_declared sc e k n (yi_params i) args se' _ fs l _ _ ts B Sh).
Qed.
Lemma enum_declared sc e k n i vs args se D tss : item_as sc k i (decl_of e k) -> yi_data i = YEnum vs -> List.length args = List.length (yi_params i) ->
  PropDerive.shape_is (bare_decl (bare_item i)) (code_shape (CdEnum se D)) ->
  Forall2 (fun v ts => types_stand sc e k n (yi_params i) args (field_types (yv_fields v)) ts) vs tss ->
  declared e (decl_of e k) args (enum_type se (combine D tss)).
Proof.
  intros (_ & Ps & _ & B) Ed L (se' & _ & Sh) T. exists n. split; [now rewrite Ps|]. rewrite Ed in B. unfold enum_type.
  destruct (d_body (decl_of e k)) as [l|l]; [contradiction|]. cbn [bare_decl d_data code_shape] in Sh. rewrite (bare_enum i vs Ed) in Sh. destruct Sh as [_ [Sh [Vo _]]].
  clear Ed L Ps. revert D tss l T B Sh Vo. induction vs as [|v vs IH]; intros D tss l T B Sh Vo; inversion B as [|? x ? l' (_ & Tg & Bf) B']; subst; inversion T as [|? ts ? tss' Tx T']; subst.
  - destruct D; constructor.
  - destruct D as [|d D]; [inversion Sh|]. cbn [map] in *. inversion Sh as [|? ? ? ? Sx S']; subst. inversion Vo as [|? ? ? ? Vx V']; subst. cbn [combine map]. constructor; [|now apply IH].
    destruct Sx as [St Sf]. cbn [fst snd] in *. split.
    + destruct Vx as (_ & Td & In1 & _). cbn [fst snd bare_variant vr_attrs nv_attrs] in In1, Td. apply (tag_unique variant_table _ _ _ eq_refl (or_intror Td) Tg In1).
    + unfold typed_fields. now apply (fields_declared sc e k n (yi_params i) args se' _ (yv_fields v) (snd x) _ _ ts Bf Sf).
Qed.

(** ** C74 *)

(** Calls in Rust, their log replayed in C#. *)
Definition follows (p : prog) (t : ty) (ob : val -> obj) (stands : string * list rv -> op -> Prop) (c : cty) : Prop :=
  forall m m' hl lg v w cs os s, wt t v = true -> placed (mkRt lg Root) t v -> looks v w = true ->
  Forall2 stands cs os -> legal m t v (map (mkCall [] hl) os) ->
  exists v' evs b, run_calls m hl p cs (set_self (Some (ob v)) s) = (put_log evs (set_self (Some (ob v')) s), Go tt) /\
    feeds m lg (rl_new []) evs = Ok (mkRL b 0) /\
    (Forall cfits (map fst b) ->
     exists bs b' w', buf_bytes m' b = Ok (bs, b') /\ c_replay c w bs = (w', Ok tt) /\ looks v' w' = true).
Lemma runs_follow p se t ob (stands : string * list rv -> op -> Prop) c :
  (forall m hl c o v s, stands c o -> wt t v = true ->
     let '(v', x) := apply_op m hl t o v in sets s (ob v') x (invoke_own m hl p (fst c) (snd c) (set_self (Some (ob v)) s))) ->
  rs_state se = true -> ty_ok t = true -> state_ty t = true -> cls t c = true -> cls_ok c = true -> follows p t ob stands c.
Proof.
  intros Hs Rs O S C K m m' hl lg v w cs os s W Pl Lk F Lg.
  destruct (c45_converge m m' t c lg v w (map (mkCall [] hl) os) O S C K W Pl Lk Lg) as (v' & evs & rets & b & E & _ & Fd & Rp).
  exists v', evs, b. split; [|split; [exact Fd|exact Rp]].
  pose proof (calls_run p t ob m hl lg stands O S (Hs m hl) cs os F v s W) as X. rewrite E in X. apply X; [now apply (placed_coh t)|exact Lg].
Qed.

(** What an item asks for. *)
Definition sends (i : item) : Prop := asks i "State" \/ (asks i "Serialize" /\ asks i "Deserialize").

Lemma item_in (cr : list yitem) (e : Meta.env) k i : nth_error cr k = Some i -> List.length cr = List.length e -> In (decl_of e k) e.
Proof. intros E L. apply nth_In. rewrite <- L. apply nth_error_Some. now rewrite E. Qed.
Lemma item_message sc cr e impls k i rargs : crate_as sc cr e -> Forall2 (fun i x => meta_code i = Some x) cr impls -> nth_error cr k = Some i ->
  List.length rargs = List.length (yi_params i) -> forallb (wf e) rargs = true -> msg_const sc impls (RUser k rargs) = Some (decl_msg e (decl_of e k)).
Proof.
  intros Cr F E L W. destruct (c73_crate sc cr e Cr) as (impls' & F' & D & _). rewrite (same_impls cr impls impls' F F').
  destruct Cr as (_ & _ & C). destruct (C k i E) as ((_ & Ps & _) & _). apply (D (RUser k rargs)). cbn [wf]. now rewrite Ps, L, Nat.eqb_refl.
Qed.

Lemma struct_cls e d fs j args T cs fcs : env_ok e = true -> In d e -> d_body d = BStruct fs -> declared e d args T -> Forall2 (fun T c => cls T c = true) args cs ->
  fields_of (resolve (combine (d_params d) cs) (user_of j e)) (map (field_meta e (d_params d)) fs) = Some fcs ->
  struct_fine (combine (d_params d) cs) (user_of j e) [] (cs_name (d_name d)) (d_params d) (d_params d) fcs = true -> cls T (CStruct (cfields fcs)) = true.
Proof.
  intros Hok Hd Hb Ht Hc Hf Hi. apply (PropGen.c59_class e d args T (S j) cs _ Hok Hd Ht Hc).
  cbn [user_of]. rewrite (find_decl e Hok d Hd), (PropGen.args_length e d args T cs Ht Hc), Nat.eqb_refl. unfold decl_msg. rewrite Hb. cbn [class_msg].
  cbn [sm_fields struct_meta]. now rewrite (PropGen.fine_constructed _ _ _ _ _ _ _ _ Hf Hi).
Qed.
Lemma enum_cls e d evs j args T cs vs : env_ok e = true -> In d e -> d_body d = BEnum evs -> declared e d args T -> Forall2 (fun T c => cls T c = true) args cs ->
  class_variants (resolve (combine (d_params d) cs) (user_of j e)) (map (fun '((n, tag), fs) => (struct_meta e d n [] fs, tag)) evs) = Some (cvariants vs) ->
  cls T (CEnum (cvariants vs)) = true.
Proof.
  intros Hok Hd Hb Ht Hc Hv. apply (PropGen.c59_class e d args T (S j) cs _ Hok Hd Ht Hc).
  cbn [user_of]. rewrite (find_decl e Hok d Hd), (PropGen.args_length e d args T cs Ht Hc), Nat.eqb_refl. unfold decl_msg. rewrite Hb. cbn [class_msg em_variants]. now rewrite Hv.
Qed.

Theorem c74_struct : forall sc cr e impls k i fs,
  crate_as sc cr e -> env_ok e = true -> Forall2 (fun i x => meta_code i = Some x) cr impls ->
  nth_error cr k = Some i -> yi_data i = YStruct fs -> sends (bare_item i) ->
  exists se d sm, generate (bare_item i) = Some (CdStruct se d) /\
  (forall rargs, List.length rargs = List.length (yi_params i) -> forallb (wf e) rargs = true -> msg_const sc impls (RUser k rargs) = Some (MStruct sm)) /\
  forall n args ts cs j st fcs, typed d ts -> struct_compiles se d ->
  List.length args = List.length (yi_params i) -> types_stand sc e k n (yi_params i) args (field_types fs) ts ->
  Forall2 (fun T c => cls T c = true) args cs -> setting_ok st = true ->
  let t := struct_type se d ts in let p := struct_prog se d ts in
  let ty := resolve (combine (yi_params i) cs) (user_of j e) in
  fields_of ty (sm_fields sm) = Some fcs -> cls_ok (CStruct (cfields fcs)) = true ->
  struct_fine (combine (yi_params i) cs) (user_of j e) [] (cs_name (sm_name sm)) (sm_params sm) (sm_params sm) fcs = true ->
  exists text f, gen_text (MStruct sm) st = Ok text /\ parse text = Some f /\
  (forall m hl v s, wt t v = true -> c_carried v = true -> lenN (enc v) < 2 ^ 31 ->
   exists bs xs, run_to_bytes m hl p (struct_obj d ts v) s = (s, Go bs) /\
     CsRun.run_deserialize _ client ty (fl_class f) [] None bs = Ok (struct_object [] fcs xs, [], []) /\ looks v (CVStruct xs) = true) /\
  (asks (bare_item i) "State" -> follows p t (struct_obj d ts) (struct_setter d ts) (CStruct (cfields fcs))).
Proof.
  intros sc cr e impls k i fs Cr Eok Im Ei Ed A. pose proof Cr as (_ & Le & C). destruct (C k i Ei) as (It & (Ac & _) & _).
  pose proof It as (_ & Ps & _ & B). rewrite Ed in B. destruct (d_body (decl_of e k)) as [l|l] eqn:Eb; [|contradiction].
  destruct (c69_struct (bare_item i) (bare_fields fs) (bare_struct i fs Ed) Ac) as (se & d & G & (S1 & S2 & S3 & _) & _ & Sh & H).
  exists se, d, (struct_meta e (decl_of e k) (d_name (decl_of e k)) (d_params (decl_of e k)) l). split; [exact G|]. split.
  { intros rargs L W. rewrite (item_message sc cr e impls k i rargs Cr Im Ei L W). unfold decl_msg. now rewrite Eb. }
  intros n args ts cs j st fcs T Cp L Ts Ac' So t p ty Fo Ko Fi. cbn [sm_name sm_params sm_fields struct_meta] in Fo, Fi.
  destruct (H Debug (fun _ => 0) ts T Cp) as [O _]. fold t in O. pose proof (item_in cr e k i Ei Le) as Ind.
  assert (Dc : declared e (decl_of e k) args t) by (now apply (struct_declared sc e k n i fs)). unfold ty in *. clear ty. rewrite <- Ps in *.
  destruct (PropGen.c60_struct e (decl_of e k) l st j args t cs fcs Eok Ind Eb Dc Ac' So Fo Fi) as (text & f & G1 & G2 & G3).
  exists text, f. split; [unfold decl_msg in G1; now rewrite Eb in G1|]. split; [exact G2|]. split.
  - intros m hl v s W Ca Ln. destruct (G3 m v hl O Ko W Ca Ln) as (bs & xs & E1 & E2 & E3). exists bs, xs. split; [|now split].
    destruct (H m hl ts T Cp) as (_ & (_ & _ & _ & X4 & X5 & X6 & _) & _). assert (Rs : rs_serialize se = true) by (unfold sends in A; tauto).
    fold t p in X4, X5, X6. now rewrite (to_bytes_runs p se t _ m hl v s X4 X5 X6 Rs W), E1.
  - intros St. assert (Rs : rs_state se = true) by tauto. apply (runs_follow p se); try assumption.
    + intros m hl c o v s (f' & tf & I & Co) W. destruct (H m hl ts T Cp) as (_ & _ & _ & X & _). destruct (X Rs f' tf v s I W) as [Y Z].
      destruct Co as [(x & -> & ->)|(Sf & g & -> & ->)]; [apply Y|apply Z; exact Sf].
    + now apply (struct_cls e (decl_of e k) l j args t cs fcs).
Qed.
Print Assumptions c74_struct.

Theorem c74_enum : forall sc cr e impls k i vs,
  crate_as sc cr e -> env_ok e = true -> Forall2 (fun i x => meta_code i = Some x) cr impls ->
  nth_error cr k = Some i -> yi_data i = YEnum vs -> sends (bare_item i) ->
  exists se D em, generate (bare_item i) = Some (CdEnum se D) /\
  (forall rargs, List.length rargs = List.length (yi_params i) -> forallb (wf e) rargs = true -> msg_const sc impls (RUser k rargs) = Some (MEnum em)) /\
  forall n args tss cs j st cvs, Forall2 typed D tss -> enum_compiles se D ->
  List.length args = List.length (yi_params i) -> Forall2 (fun v ts => types_stand sc e k n (yi_params i) args (field_types (yv_fields v)) ts) vs tss ->
  Forall2 (fun T c => cls T c = true) args cs -> setting_ok st = true ->
  let ds := combine D tss in let t := enum_type se ds in let p := enum_prog se ds in
  let params := combine (yi_params i) cs in let ty := resolve params (in_scope cvs (user_of j e)) in
  GenSpec.variants_of ty em cvs -> class_variants (resolve params (user_of j e)) (em_variants em) = Some (cvariants cvs) -> cls_ok (CEnum (cvariants cvs)) = true ->
  enum_fine params (in_scope cvs (user_of j e)) (cs_name (em_name em)) (em_params em) cvs = true ->
  exists text f, gen_text (MEnum em) st = Ok text /\ parse text = Some f /\
  (none_named ["size"] D -> none_named ["writer"] D ->
   forall m hl v s, wt t v = true -> c_carried v = true -> lenN (enc v) < 2 ^ 31 ->
   exists bs tag xs, run_to_bytes m hl p (enum_obj ds v) s = (s, Go bs) /\
     CsRun.run_deserialize _ client ty (fl_class f) [] None bs = Ok (enum_object [] cvs tag xs, [], []) /\ looks v (CVEnum tag xs) = true) /\
  (asks (bare_item i) "State" -> none_named ["size"; "writer"] D -> follows p t (enum_obj ds) (enum_setter ds) (CEnum (cvariants cvs))).
Proof.
  intros sc cr e impls k i vs Cr Eok Im Ei Ed A. pose proof Cr as (_ & Le & C). destruct (C k i Ei) as (It & (Ac & _) & _).
  pose proof It as (_ & Ps & _ & B). rewrite Ed in B. destruct (d_body (decl_of e k)) as [l|l] eqn:Eb; [contradiction|].
  destruct (c69_enum (bare_item i) _ (bare_enum i vs Ed) Ac) as (se & D & G & (S1 & S2 & S3 & _) & _ & Sh & H).
  exists se, D, (EM (d_name (decl_of e k)) (d_params (decl_of e k)) (map (fun '((n, tag), fs) => (struct_meta e (decl_of e k) n [] fs, tag)) l) (d_owned (decl_of e k))). split; [exact G|]. split.
  { intros rargs L W. rewrite (item_message sc cr e impls k i rargs Cr Im Ei L W). unfold decl_msg. now rewrite Eb. }
  intros n args tss cs j st cvs T Cp L Ts Ac' So ds t p params ty Vo Cv Ko Fi. cbn [em_name em_params em_variants] in Vo, Cv, Fi.
  destruct (H Debug (fun _ => 0) tss T Cp) as [O _]. fold ds in O. fold t in O. pose proof (item_in cr e k i Ei Le) as Ind.
  assert (Dc : declared e (decl_of e k) args t) by (now apply (enum_declared sc e k n i vs)). unfold ty, params in *. clear ty params. rewrite <- Ps in *.
  destruct (PropGen.c60_enum e (decl_of e k) l st j args t cs cvs Eok Ind Eb Dc Ac' So O Vo Cv Fi) as (text & f & G1 & G2 & G3).
  assert (Hf : map fst (combine D tss) = D) by (apply combine_fst; exact (forall2_len _ _ _ T)).
  exists text, f. split; [unfold decl_msg in G1; now rewrite Eb in G1|]. split; [exact G2|]. split.
  - intros N1 N2 m hl v s W Ca Ln. destruct (G3 m v hl Ko W Ca Ln) as (bs & tag & xs & E1 & E2 & E3). exists bs, tag, xs. split; [|now split].
    destruct (H m hl tss T Cp) as (_ & X & _). rewrite Hf in X. destruct X as (_ & _ & _ & X4 & X5 & X6 & _). specialize (X4 N1). specialize (X5 N2). assert (Rs : rs_serialize se = true) by (unfold sends in A; tauto).
    fold ds in X4, X5, X6. fold t p in X4, X5, X6. now rewrite (to_bytes_runs p se t _ m hl v s X4 X5 X6 Rs W), E1.
  - intros St N1. assert (Rs : rs_state se = true) by tauto. apply (runs_follow p se); try assumption.
    + intros m hl c o v s (d & ts & f' & tf & Id & I & Co) W. destruct (H m hl tss T Cp) as (_ & _ & _ & X). rewrite Hf in X. destruct X as [X _]. destruct (X N1 Rs d ts f' tf v s Id I W) as [Y Z].
      destruct Co as [(x & -> & ->)|(Sf & g & -> & ->)]; [apply Y|apply Z; exact Sf].
    + now apply (enum_cls e (decl_of e k) l j args t cs cvs).
Qed.
Print Assumptions c74_enum.

(** ** Examples: [Outer] and [Multicase] of the test crate *)

Definition outer_y : yitem := nth dOuter test_items (YI "" [] 0 [] [] YUnion).
Definition outer_sm : smeta := SM (Meta.NM "Outer" None) [] [FM (Meta.NM "foo" None) (type_of test_env (RInt I32)) 0; FM (Meta.NM "bar" None) (type_of test_env RBool) 1;
  FM (Meta.NM "inner" None) (type_of test_env (RUser dInner [])) 2] false.
Definition outer_fcs : list (vfield * cty) := match fields_of (resolve [] (user_of 3 test_env)) (sm_fields outer_sm) with Some l => l | None => [] end.
(** Everything c74_struct asks for. *)
Example c74_outer_meets :
  crate_as test_scope test_items test_env /\ env_ok test_env = true /\ Forall2 (fun i x => meta_code i = Some x) test_items test_impls /\
  nth_error test_items dOuter = Some outer_y /\ sends (bare_item outer_y) /\ generate (bare_item outer_y) = Some (CdStruct state_se outer_d) /\
  msg_const test_scope test_impls (RUser dOuter []) = Some (MStruct outer_sm) /\
  typed outer_d outer_ts /\ struct_compiles state_se outer_d /\
  (exists fs, yi_data outer_y = YStruct fs /\ types_stand test_scope test_env dOuter 3 [] [] (field_types fs) outer_ts) /\
  fields_of (resolve [] (user_of 3 test_env)) (sm_fields outer_sm) = Some outer_fcs /\ cls_ok (CStruct (cfields outer_fcs)) = true /\
  struct_fine [] (user_of 3 test_env) [] "Outer" [] [] outer_fcs = true.
Proof.
  split; [exact test_crate|]. split; [vm_compute; reflexivity|]. split; [exact impls_written|]. split; [reflexivity|]. split; [left; cbn; tauto|]. split; [reflexivity|]. split; [vm_compute; reflexivity|].
  split; [apply c69_case|]. split; [apply c65_outer_meets|]. split; [|vm_compute; repeat split; reflexivity].
  eexists. split; [reflexivity|]. constructor; [eexists; split; [vm_compute; reflexivity|reflexivity]|]. constructor; [eexists; split; [vm_compute; reflexivity|exact I]|].
  constructor; [|constructor]. eexists. split; [vm_compute; reflexivity|]. exists []. split; [constructor|]. split; [reflexivity|].
  constructor; [exact (conj eq_refl eq_refl)|]. constructor; [exact (conj eq_refl I)|constructor].
Qed.
(** An object written by the derived code, read by the generated text; then the log of two setters. *)
Example c74_case : let p := struct_prog state_se outer_d outer_ts in let ob := struct_obj outer_d outer_ts in let t := struct_type state_se outer_d outer_ts in
  let v := dflt t (mkRt 7 Root) in
  gen_text (MStruct outer_sm) (CS "Just.To.Test" []) = Ok GenGolden.golden_Outer /\
  let ran := run_calls Debug hl0 p [("set_foo", [RVal (TInt I32) (VInt I32 (-5))]); ("set_bar", [RVal TBool (Types.VBool true)])] (st0 (Some (ob v))) in
  snd ran = Go tt /\
  match s_self (fst ran), feeds Debug 7 (rl_new []) (s_log (fst ran)) with
  | Some o', Ok (mkRL b _) =>
      snd (run_to_bytes Debug hl0 p o' (st0 None)) = Go [0; 9; 8; 1] /\
      CsRun.run_deserialize _ client (resolve [] (user_of 3 test_env)) (PropGen.class_of GenGolden.golden_Outer) [] None [0; 9; 8; 1]
        = Ok (struct_object [] outer_fcs [(0, CVInt (-5)); (1, CVBool true); (2, CVStruct [(0, CVInt 0); (1, CVBool false)])], [], []) /\
      match buf_bytes Debug b with
      | Ok (bs, _) => c_replay (CStruct (cfields outer_fcs)) (CVStruct [(0, CVInt 0); (1, CVBool false); (2, CVStruct [(0, CVInt 0); (1, CVBool false)])]) bs
          = (CVStruct [(0, CVInt (-5)); (1, CVBool true); (2, CVStruct [(0, CVInt 0); (1, CVBool false)])], Ok tt)
      | _ => False
      end
  | _, _ => False
  end.
Proof. vm_compute. auto 6. Qed.

Definition multi_y : yitem := nth dMulticase test_items (YI "" [] 0 [] [] YUnion).
Definition multi_em : emeta := match decl_msg test_env (decl_of test_env dMulticase) with MEnum em => em | _ => EM (Meta.NM "" None) [] [] false end.
Definition multi_vs : list GenSpec.variant := PropGen.test_variants (decl_of test_env dMulticase) [].
Definition multi_D : list dstruct := match generate (bare_item multi_y) with Some (CdEnum _ D) => D | _ => [] end.
Definition multi_tss : list (list ty) := [[TInt I32; TBool]; [TInt I32; TBool]].
Example c74_multicase_meets :
  nth_error test_items dMulticase = Some multi_y /\ sends (bare_item multi_y) /\ generate (bare_item multi_y) = Some (CdEnum state_se multi_D) /\
  msg_const test_scope test_impls (RUser dMulticase []) = Some (MEnum multi_em) /\ Forall2 typed multi_D multi_tss /\ enum_compiles state_se multi_D /\
  (exists vs, yi_data multi_y = YEnum vs /\ Forall2 (fun v ts => types_stand test_scope test_env dMulticase 2 [] [] (field_types (yv_fields v)) ts) vs multi_tss) /\
  GenSpec.variants_of (resolve [] (in_scope multi_vs PropGen.test_user)) multi_em multi_vs /\
  class_variants (resolve [] PropGen.test_user) (em_variants multi_em) = Some (cvariants multi_vs) /\ cls_ok (CEnum (cvariants multi_vs)) = true /\
  enum_fine [] (in_scope multi_vs PropGen.test_user) "Multicase" [] multi_vs = true /\
  none_named ["size"; "writer"] multi_D /\ none_named ["size"] multi_D /\ none_named ["writer"] multi_D.
Proof.
  split; [reflexivity|]. split; [left; cbn; tauto|]. split; [reflexivity|]. split; [vm_compute; reflexivity|].
  split; [repeat constructor; cbn; try reflexivity; intros; discriminate|]. split; [|split; [|split; [|split; [vm_compute; reflexivity|split; [vm_compute; reflexivity|split; [vm_compute; reflexivity|]]]]]].
  - apply compiles. vm_compute. reflexivity.
  - eexists. split; [reflexivity|].
    repeat constructor; (eexists; split; [vm_compute; reflexivity|exact I || reflexivity]).
  - repeat constructor.
  - repeat split; intros d x I J K; cbn in I, J; repeat (destruct I as [<-|I]); try contradiction; repeat (destruct J as [<-|J]); try contradiction; cbn in K; repeat (destruct K as [K|K]); try discriminate; contradiction.
Qed.
