(** C65-C68: the code the derive macro generates, run. *)
From Verif Require Import Base Varint WireFmt Utf8 Types Ser De Hash Log State Meta Gen RsGen RsRun RsSpec TypeProofs RsProofs RsStruct RsEnum RsSet.
From Coq Require Import String.
Import String.StringSyntax.
Local Open Scope string_scope.
Local Open Scope list_scope.
Local Open Scope N_scope.

(** ** C65: structs *)

Lemma struct_good se d ts : is_some (ds_rt d) = rs_state se -> List.length ts = List.length (ds_fields d) ->
  ty_ok (struct_type se d ts) = true -> NoDup (cell_names d) -> good se d ts.
Proof.
  intros R L O N. unfold struct_type in O. rewrite ty_ok_struct in O. apply andb_true_iff in O. destruct O as [O1 O2].
  constructor; assumption.
Qed.
Lemma parse_rt se at_ v fs : is_some (ds_rt (parse_struct se at_ v fs)) = rs_state se.
Proof. unfold parse_struct. cbn. now destruct (rs_state se). Qed.

(** Whatever was asked for in the attributes: if rustc takes the generated code, each function of each derived
    trait does on every value of the type what the model of the type says. *)
Theorem c65_struct : forall m hl se0 no_size_cache at_ fs ts,
  let se := settle se0 no_size_cache in let d := parse_struct se at_ None fs in
  let p := struct_prog se d ts in let t := struct_type se d ts in let ob := struct_obj d ts in
  List.length ts = List.length (ds_fields d) -> ty_ok t = true -> struct_compiles se d ->
  makes_spec m hl p se t ob /\ eq_spec m hl p se t ob /\ hash_spec m hl p se t ob /\
  size_spec m hl p se t ob /\ ser_spec m hl p se t ob /\ cache_spec m hl p se t ob /\ merge_spec m hl p se t ob.
Proof.
  intros m hl se0 nc at_ fs ts se d p t ob L O [N1 N2]. pose proof (settle_settled se0 nc : settled se) as Se.
  pose proof (struct_good se d ts (parse_rt _ _ _ _) L O N1) as G. assert (Dv : ds_variant d = None) by reflexivity.
  split; [now apply struct_makes|]. split; [now apply struct_eq|]. split; [now apply struct_hash|]. split; [now apply struct_size|].
  split; [now apply struct_ser|]. split; [now apply struct_cache|now apply struct_merge].
Qed.
Print Assumptions c65_struct.
Theorem c65_state : forall m hl se0 no_size_cache at_ fs ts,
  let se := settle se0 no_size_cache in let d := parse_struct se at_ None fs in
  let p := struct_prog se d ts in let t := struct_type se d ts in let ob := struct_obj d ts in
  List.length ts = List.length (ds_fields d) -> ty_ok t = true -> struct_compiles se d ->
  runtime_spec m hl p se t ob /\ set_runtime_spec m hl p se t ob /\ handle_spec m hl p se t ob /\ handle_update_spec m hl p se t ob.
Proof.
  intros m hl se0 nc at_ fs ts se d p t ob L O [N1 N2]. pose proof (settle_settled se0 nc : settled se) as Se.
  pose proof (struct_good se d ts (parse_rt _ _ _ _) L O N1) as G. assert (Dv : ds_variant d = None) by reflexivity.
  split; [now apply struct_runtime|]. split; [now apply struct_set_runtime|]. split; [now apply struct_handle|now apply struct_handle_update].
Qed.
Print Assumptions c65_state.
Theorem c67_struct_setters : forall m hl se0 no_size_cache at_ fs ts,
  let se := settle se0 no_size_cache in let d := parse_struct se at_ None fs in
  List.length ts = List.length (ds_fields d) -> ty_ok (struct_type se d ts) = true -> struct_compiles se d ->
  struct_setters_spec m hl se d ts /\ struct_plain_setters_spec m hl se d ts.
Proof.
  intros m hl se0 nc at_ fs ts se d L O [N1 N2]. pose proof (settle_settled se0 nc : settled se) as Se.
  pose proof (struct_good se d ts (parse_rt _ _ _ _) L O N1) as G. assert (Dv : ds_variant d = None) by reflexivity.
  split; [now apply struct_setters|now apply struct_plain_setters].
Qed.
Print Assumptions c67_struct_setters.

(** ** C66: enums *)

(** The variants with the types of their fields. *)
Definition variants_of (se : rsetting) (vs : list (rvariant * list ty)) : list (dstruct * list ty) :=
  map (fun v => (parse_variant se (fst v), snd v)) vs.
Definition typed_all (ds : list (dstruct * list ty)) : Prop := forall d ts, In (d, ts) ds -> List.length ts = List.length (ds_fields d).
(** [Self::with_runtime(..)] is the trait's function: no constructor is called that. *)
Definition no_with_runtime (se : rsetting) (ds : list (dstruct * list ty)) : Prop :=
  forall f, In f (enum_inherent se (map fst ds)) -> fn_name f <> "with_runtime".

Lemma enum_good se vs : let ds := variants_of se vs in typed_all ds -> ty_ok (enum_type se ds) = true -> enum_compiles se (map fst ds) ->
  (forall d ts, In (d, ts) ds -> good se d ts) /\ (forall d, In d (map fst ds) -> exists n tag, ds_variant d = Some (n, tag)) /\
  NoDup (map v_name (map fst ds)) /\ (forall d, In d (map fst ds) -> NoDup (aliases d)) /\ NoDup (map fn_name (enum_inherent se (map fst ds))).
Proof.
  intros ds L O (C1 & C2 & C3). rewrite Forall_forall in C1. split; [|split; [|split; [exact C2|split; [|exact C3]]]].
  - intros d ts I. unfold enum_type in O. cbn [ty_ok] in O. apply andb_true_iff in O. destruct O as [O _]. apply andb_true_iff in O. destruct O as [O _].
    rewrite forallb_forall in O.
    specialize (O _ (in_map (fun d => ((v_tag (fst d), is_some (ds_cache (fst d))), typed_fields (fst d) (snd d))) _ _ I)). cbn [fst snd] in O.
    apply andb_true_iff in O. destruct O as [O O2]. apply andb_true_iff in O. destruct O as [_ O1].
    constructor; [exact (L d ts I)|exact (proj1 (C1 d (in_map fst _ _ I)))|exact O1|exact O2|].
    unfold ds, variants_of in I. apply in_map_iff in I. destruct I as (v & [= <- <-] & _). apply parse_rt.
  - intros d I. unfold ds, variants_of in I. rewrite map_map in I. apply in_map_iff in I. destruct I as (v & <- & _). cbn. eauto.
  - intros d I. exact (proj2 (C1 d I)).
Qed.
Lemma free_named se ds : no_with_runtime se ds -> with_runtime_free se ds.
Proof.
  unfold no_with_runtime, with_runtime_free. cbn [p_inherent enum_prog]. induction (enum_inherent se (map fst ds)) as [|f l IH]; intros H; [reflexivity|].
  unfold named in *. cbn [find]. destruct (String.eqb_spec "with_runtime" (fn_name f)) as [E|_]; [now destruct (H f (or_introl eq_refl))|]. apply IH. intros g I. apply H. now right.
Qed.

(** The names that matter to each function are those of its own variables: a field of that name would hide them. *)
Theorem c66_enum : forall m hl se0 no_size_cache vs,
  let se := settle se0 no_size_cache in let ds := variants_of se vs in let D := map fst ds in
  let p := enum_prog se ds in let t := enum_type se ds in let ob := enum_obj ds in
  typed_all ds -> ty_ok t = true -> enum_compiles se D ->
  makes_spec m hl p se t ob /\
  (none_named ["other"] D -> no_other D -> eq_spec m hl p se t ob) /\
  (none_named ["state"] D -> hash_spec m hl p se t ob) /\
  (none_named ["size"] D -> size_spec m hl p se t ob) /\
  (none_named ["writer"] D -> ser_spec m hl p se t ob) /\
  cache_spec m hl p se t ob /\
  (none_named ["reader"; "wire_type"; "field_number"] D -> merge_spec m hl p se t ob) /\
  (* each variant has its own constructor *)
  (rs_ctors se = true -> forall d ts r s, In (d, ts) ds ->
     make m hl p (rs_prefix se +++ "_" +++ to_snake_case (v_name d)) (rt_arg se r) s
     = (s, Go (RObj (ob (variant_ctor (rs_state se) ((v_tag d, is_some (ds_cache d)), typed_fields d ts) r))))).
Proof.
  intros m hl se0 nc vs se ds D p t ob L O C. pose proof (settle_settled se0 nc : settled se) as Se. destruct (enum_good se vs L O C) as (Gd & Va & Nn & Na & Ni).
  split; [now apply enum_makes|]. split; [intros; now apply enum_eq|]. split; [intros; now apply enum_hash|]. split; [intros; now apply enum_size|].
  split; [intros; now apply enum_ser|]. split; [now apply enum_cache|]. split; [intros; now apply enum_merge|].
  intros Ct d ts r s I.
  replace (rs_prefix se +++ "_" +++ to_snake_case (v_name d)) with (ctor_name se d)
    by (unfold ctor_name, v_name; destruct (Va d (in_map fst _ _ I)) as (n & tag & ->); reflexivity).
  unfold make, p. rewrite (find_vctor se ds Ni d Ct (in_map fst _ _ I)). unfold call_static, depth. cbn [fn_self ctor].
  rewrite (call_vctor m hl se ds Gd Va Nn O 7 r d ts) by exact I. cbn. now destruct s.
Qed.
Print Assumptions c66_enum.
Theorem c66_state : forall m hl se0 no_size_cache vs,
  let se := settle se0 no_size_cache in let ds := variants_of se vs in let D := map fst ds in
  let p := enum_prog se ds in let t := enum_type se ds in let ob := enum_obj ds in
  typed_all ds -> ty_ok t = true -> enum_compiles se D ->
  runtime_spec m hl p se t ob /\
  (none_named ["runtime"; "self_runtime"] D -> set_runtime_spec m hl p se t ob) /\
  (none_named ["reader"; "wire_type"; "field_number"] D -> no_with_runtime se ds ->
     handle_update_spec m hl p se t ob /\
     (none_named ["path"; "kind"; "key"; "tag"] D -> handle_spec m hl p se t ob)).
Proof.
  intros m hl se0 nc vs se ds D p t ob L O C. pose proof (settle_settled se0 nc : settled se) as Se. destruct (enum_good se vs L O C) as (Gd & Va & Nn & Na & Ni).
  split; [now apply enum_runtime|]. split; [intros; now apply enum_set_runtime|]. intros Nm Nw. apply free_named in Nw. split; [now apply enum_handle_update|].
  intros Nh. apply enum_handle; try assumption. intros d x I [<-|[<-|[<-|[<-|[<-|[]]]]]]; first [apply (Nm d); [exact I|cbn; tauto]|apply (Nh d); [exact I|cbn; tauto]].
Qed.
Print Assumptions c66_state.
Theorem c67_enum_setters : forall m hl se0 no_size_cache vs,
  let se := settle se0 no_size_cache in let ds := variants_of se vs in let D := map fst ds in
  typed_all ds -> ty_ok (enum_type se ds) = true -> enum_compiles se D ->
  (none_named ["size"; "writer"] D -> enum_setters_spec m hl se ds) /\ enum_plain_setters_spec m hl se ds.
Proof.
  intros m hl se0 nc vs se ds D L O C. pose proof (settle_settled se0 nc : settled se) as Se. destruct (enum_good se vs L O C) as (Gd & Va & Nn & Na & Ni).
  split; [intros; now apply enum_setters|now apply enum_plain_setters].
Qed.
Print Assumptions c67_enum_setters.

(** ** C68: names that hide one another *)

Fixpoint distinct (l : list string) : bool := match l with [] => true | x :: l => negb (existsb (String.eqb x) l) && distinct l end.
Lemma distinct_nodup l : distinct l = true -> NoDup l.
Proof.
  induction l as [|x l IH]; intros H; [constructor|]. cbn in H. apply andb_true_iff in H. destruct H as [H1 H2]. constructor; [|now apply IH].
  intros I. apply negb_true_iff in H1. assert (E : existsb (String.eqb x) l = true) by (apply existsb_exists; exists x; split; [exact I|apply String.eqb_refl]). congruence.
Qed.

(** [#[steit_derive(PartialEq)] enum E { #[steit(tag = 0)] V { #[steit(tag = 0)] x: u8, #[steit(tag = 1)] other_x: u8 } }]. *)
Definition plain_set (eq hash : bool) : rsetting := RS false false false eq false hash false false false "new" None None.
Definition u8f (tag : N) : finfo := mkF tag false true true.
Definition cap_se : rsetting := settle (plain_set true false) false.
Definition cap_vs : list (rvariant * list ty) :=
  [(RV "V" 0 (SA false None None) (FNamed [("x", u8f 0); ("other_x", u8f 1)]), [TInt U8; TInt U8])].
Definition cap_ds : list (dstruct * list ty) := variants_of cap_se cap_vs.
Definition cap_val (a b : Z) : val := VEnum 0 false None [(u8f 0, VInt U8 a); (u8f 1, VInt U8 b)].
Definition st0 (v : option obj) : st := St v [] (fun _ => 0) [] [] [] [] [] [].

(** [self.x] is compared with [other.x], and then [other.x] with [other.other_x]. *)
Theorem c68_capture : forall m hl a b c d, exists s,
  invoke m hl (enum_prog cap_se cap_ds) "eq" [RObj (enum_obj cap_ds (cap_val c d))] (st0 (Some (enum_obj cap_ds (cap_val a b))))
  = (s, Go (RBool ((a =? c)%Z && (c =? d)%Z))).
Proof.
  intros m hl a b c d. eexists. lazy -[Z.eqb]. destruct (a =? c)%Z; lazy -[Z.eqb]; [|reflexivity].
  destruct (c =? d)%Z; lazy; reflexivity.
Qed.
Print Assumptions c68_capture.

Lemma compiles se ds : forallb (fun d => distinct (cell_names d) && distinct (aliases d)) ds && distinct (map v_name ds) &&
  distinct (map fn_name (enum_inherent se ds)) = true -> enum_compiles se ds.
Proof.
  intros H. apply andb_true_iff in H. destruct H as [H H3]. apply andb_true_iff in H. destruct H as [H1 H2]. split; [|split; now apply distinct_nodup].
  rewrite forallb_forall in H1. apply Forall_forall. intros d I. specialize (H1 d I). apply andb_true_iff in H1. destruct H1. split; now apply distinct_nodup.
Qed.
Lemma compiles_struct se d : distinct (cell_names d) && distinct (map fn_name (struct_inherent se d)) = true -> struct_compiles se d.
Proof. intros H. apply andb_true_iff in H. destruct H. split; now apply distinct_nodup. Qed.

(** So derived equality of enums is not equality of the fields for all field names, nor reflexive. *)
Theorem c68_eq_refuted : ~ (forall m hl se0 no_size_cache vs,
  let se := settle se0 no_size_cache in let ds := variants_of se vs in
  typed_all ds -> ty_ok (enum_type se ds) = true -> enum_compiles se (map fst ds) ->
  eq_spec m hl (enum_prog se ds) se (enum_type se ds) (enum_obj ds)).
Proof.
  intros H. specialize (H Debug (fun _ => 0) (plain_set true false) false cap_vs).
  assert (E : eq_spec Debug (fun _ => 0) (enum_prog cap_se cap_ds) cap_se (enum_type cap_se cap_ds) (enum_obj cap_ds)).
  { apply H; [|reflexivity|apply compiles; reflexivity]. intros d ts [[= <- <-]|[]]. reflexivity. }
  specialize (E eq_refl (cap_val 1 2) (cap_val 1 2) (st0 None) eq_refl eq_refl).
  destruct (c68_capture Debug (fun _ => 0) 1 2 1 2) as [s C].
  change (set_self (Some (enum_obj cap_ds (cap_val 1 2))) (st0 None)) with (st0 (Some (enum_obj cap_ds (cap_val 1 2)))) in E. rewrite C in E. discriminate E.
Qed.
Print Assumptions c68_eq_refuted.

(** [ctor_name_prefix = "with"] and a variant [Runtime]: its constructor hides [State::with_runtime], and a failing
    update leaves that variant. *)
Definition wr_se : rsetting := settle (RS false false true false false false false false false "with" None None) true.
Definition wr_vs : list (rvariant * list ty) :=
  [(RV "Idle" 0 (SA false None None) FUnit, []); (RV "Runtime" 1 (SA false None None) FUnit, [])].
Theorem c68_with_runtime_refuted : ~ (forall m hl se0 no_size_cache vs,
  let se := settle se0 no_size_cache in let ds := variants_of se vs in let D := map fst ds in
  typed_all ds -> ty_ok (enum_type se ds) = true -> enum_compiles se D -> none_named ["reader"; "wire_type"; "field_number"] D ->
  handle_update_spec m hl (enum_prog se ds) se (enum_type se ds) (enum_obj ds)).
Proof.
  intros H. specialize (H Debug (fun _ => 0) (RS false false true false false false false false false "with" None None) true wr_vs).
  set (ds := variants_of wr_se wr_vs) in *.
  assert (E : handle_update_spec Debug (fun _ => 0) (enum_prog wr_se ds) wr_se (enum_type wr_se ds) (enum_obj ds)).
  { apply H; [|reflexivity|apply compiles; reflexivity|].
    - intros d ts [[= <- <-]|[[= <- <-]|[]]]; reflexivity.
    - intros d x [<-|[<-|[]]] _ []. }
  specialize (E eq_refl (VEnum 0 false (Some (mkRt 0 (Child Root 0))) []) (st0 None) eq_refl).
  lazy in E. destruct E as [(i & q & E) _]. discriminate E.
Qed.
Print Assumptions c68_with_runtime_refuted.

(** ** Examples *)

Definition fs_ (tag : N) : finfo := mkF tag true true true.
Definition fn_ (tag : N) : finfo := mkF tag false true true.
Definition none_at : sattrs := SA false None None.
Definition self_of (x : st * ctl rv) : st := match snd x with Go (RObj o) => st0 (Some o) | _ => st0 None end.

(** test_util.rs 25-37: [Foo], a tuple struct; its size cache is field 2. *)
Definition foo_se : rsetting := settle (RS true true false true false false false false false "empty" None None) false.
Definition foo_d : dstruct := parse_struct foo_se none_at None (FUnnamed [fn_ 0; fn_ 1]).
Definition foo_ts : list ty := [TInt I32; TInt I32].
Example c65_foo_meets : List.length foo_ts = List.length (ds_fields foo_d) /\ ty_ok (struct_type foo_se foo_d foo_ts) = true /\ struct_compiles foo_se foo_d.
Proof. split; [reflexivity|]. split; [reflexivity|]. apply compiles_struct. reflexivity. Qed.
Example c65_foo : let p := struct_prog foo_se foo_d foo_ts in
  let made := self_of (make Debug (fun _ => 0) p "empty" [] (st0 None)) in
  let out := invoke Debug (fun _ => 0) p "merge" [RReader] (set_in [8; 3; 0; 128; 1; 5; 0] made) in
  option_map o_cells (s_self (fst out)) = Some [("0", CVal (TInt I32) (VInt I32 64)); ("1", CVal (TInt I32) (VInt I32 (-2))); ("2", CSize)] /\
  s_in (fst out) = [5; 0] /\ snd out = Go (RErr InvalidData).                     (* key 5: no wire type *)
Proof. vm_compute. auto. Qed.

(** steit-derive/test-crate/src/lib.rs 204-220: [Outer] and [Inner], and calls of 300-307. *)
Definition state_se : rsetting := settle (RS false false true false false false false false false "new" None None) false.
Definition inner_d : dstruct := parse_struct state_se none_at None (FNamed [("foo", fs_ 0); ("bar", fs_ 1)]).
Definition inner_t : ty := struct_type state_se inner_d [TInt I32; TBool].
Definition outer_d : dstruct := parse_struct state_se none_at None (FNamed [("foo", fs_ 0); ("bar", fs_ 1); ("inner", fs_ 2)]).
Definition outer_ts : list ty := [TInt I32; TBool; inner_t].
Example c65_outer_meets : List.length outer_ts = List.length (ds_fields outer_d) /\ ty_ok (struct_type state_se outer_d outer_ts) = true /\ struct_compiles state_se outer_d.
Proof. split; [reflexivity|]. split; [reflexivity|]. apply compiles_struct. reflexivity. Qed.
Example c67_outer : let p := struct_prog state_se outer_d outer_ts in
  let made := self_of (make Debug (fun _ => 0) p "new" [RRt (mkRt 7 Root)] (st0 None)) in
  let out := invoke_own Debug (fun _ => 0) p "set_foo" [RVal (TInt I32) (VInt I32 127)] made in
  let out2 := invoke_own Debug (fun _ => 0) p "set_inner_with" [RFun inner_t (fun r => ([], Ok (dflt inner_t r)))] (fst out) in
  let out3 := invoke Debug (fun _ => 0) p "handle" [RPath; RKind KUpdate; RKey None; RReader] (set_path [2; 0] (set_in [192; 2] (fst out2))) in
  map fn_name (struct_inherent state_se outer_d) = ["new"; "set_foo"; "set_foo_with"; "set_bar"; "set_bar_with"; "set_inner"; "set_inner_with"] /\
  s_log (fst out2) = [LLog 7 (EUpdate [0] [254; 1]); LPause 7; LUnpause 7; LLog 7 (EUpdate [2] [])] /\
  option_map o_cells (s_self (fst out3)) = Some
    [("foo", CVal (TInt I32) (VInt I32 127)); ("bar", CVal TBool (VBool false));
     ("inner", CVal inner_t (VStruct true (Some (mkRt 7 (Child Root 2))) [(fs_ 0, VInt I32 160); (fs_ 1, VBool false)]));
     ("size_cache", CSize); ("runtime", CRt (mkRt 7 Root))] /\
  snd out3 = Go (ROk RUnit).
Proof. vm_compute. auto. Qed.

(** steit-derive/test-crate/src/lib.rs 222-238 and 321: [Multicase]. *)
Definition multi_vs : list (rvariant * list ty) :=
  [(RV "FirstCase" 0 none_at (FNamed [("counter", fs_ 0); ("enabled", fs_ 1)]), [TInt I32; TBool]);
   (RV "SecondCase" 1 none_at (FNamed [("counter", fs_ 0); ("enabled", fs_ 1)]), [TInt I32; TBool])].
Definition multi_ds : list (dstruct * list ty) := variants_of state_se multi_vs.
Example c66_multi_meets : let D := map fst multi_ds in
  typed_all multi_ds /\ ty_ok (enum_type state_se multi_ds) = true /\ enum_compiles state_se D /\ no_other D /\ no_with_runtime state_se multi_ds /\
  none_named ["other"; "state"; "size"; "writer"; "reader"; "wire_type"; "field_number"; "runtime"; "self_runtime"; "path"; "kind"; "key"; "tag"] D.
Proof.
  split; [intros d ts [[= <- <-]|[[= <- <-]|[]]]; reflexivity|]. split; [reflexivity|]. split; [apply compiles; reflexivity|].
  split; [intros d x y [<-|[<-|[]]] [<-|[<-|[]]] [<-|[<-|[]]]; discriminate|].
  split; [intros f I E; cbn in I; repeat (destruct I as [<-|I]; [discriminate E|]); contradiction|].
  intros d x [<-|[<-|[]]] I [<-|[<-|[]]]; cbn in I; repeat (destruct I as [I|I]; [discriminate I|]); contradiction.
Qed.
Example c67_multi : let p := enum_prog state_se multi_ds in
  let made := self_of (make Debug (fun _ => 0) p "new" [RRt (mkRt 7 Root)] (st0 None)) in
  let out := invoke_own Debug (fun _ => 0) p "set_second_case_counter" [RVal (TInt I32) (VInt I32 68)] made in
  option_map o_variant (s_self made) = Some (Some "FirstCase") /\ option_map o_variant (s_self (fst out)) = Some (Some "SecondCase") /\
  option_map o_cells (s_self (fst out)) = Some
    [("counter", CVal (TInt I32) (VInt I32 68)); ("enabled", CVal TBool (VBool false)); ("size_cache", CSize); ("runtime", CRt (mkRt 7 (Child Root 1)))] /\
  s_log (fst out) = [LLog 7 (EUpdate [] [1]); LLog 7 (EUpdate [1; 0] [136; 1])].
Proof. vm_compute. auto. Qed.

(** log/entry.rs 19-48: [LogEntry]. *)
Definition log_se : rsetting := settle (RS true true false false false false false false false "empty" None None) false.
Definition log_vs : list (rvariant * list ty) :=
  [(RV "Update" 0 none_at (FNamed [("path", fn_ 0); ("value", fn_ 1)]), [TVec (TInt U32); TBytes]);
   (RV "ListPush" 8 none_at (FNamed [("path", fn_ 0); ("item", fn_ 1)]), [TVec (TInt U32); TBytes]);
   (RV "ListPop" 9 none_at (FNamed [("path", fn_ 0)]), [TVec (TInt U32)]);
   (RV "MapRemove" 12 none_at (FNamed [("path", fn_ 0); ("key", fn_ 1)]), [TVec (TInt U32); TInt U32])].
Definition log_ds : list (dstruct * list ty) := variants_of log_se log_vs.
(** The type that Log.v decodes entries with. *)
Example c66_log_type : enum_type log_se log_ds = tEntry.
Proof. reflexivity. Qed.
Example c66_log : let p := enum_prog log_se log_ds in
  let made := self_of (make Debug (fun _ => 0) p "empty" [] (st0 None)) in
  let out := invoke Debug (fun _ => 0) p "merge" [RReader] (set_in [12; 2; 2; 1; 2; 8; 5] made) in
  let z := invoke Debug (fun _ => 0) p "compute_size" [] (fst out) in
  let w := invoke Debug (fun _ => 0) p "serialize_cached" [RWriter] (fst z) in
  map fn_name (enum_inherent log_se (map fst log_ds)) = ["empty"; "empty_update"; "empty_list_push"; "empty_list_pop"; "empty_map_remove"] /\
  option_map o_variant (s_self (fst out)) = Some (Some "MapRemove") /\
  option_map o_cells (s_self (fst out)) = Some [("path", CVal (TVec (TInt U32)) (VVec [VInt U32 1; VInt U32 2])); ("key", CVal (TInt U32) (VInt U32 5)); ("size_cache", CSize)] /\
  snd z = Go (RNum 7) /\ s_out (fst w) = [12; 2; 2; 1; 2; 8; 5].
Proof. vm_compute. auto 6. Qed.

(** C68's enum: not equal to itself. *)
Example c68_ex : snd (invoke Debug (fun _ => 0) (enum_prog cap_se cap_ds) "eq" [RObj (enum_obj cap_ds (cap_val 1 2))] (st0 (Some (enum_obj cap_ds (cap_val 1 2)))))
  = Go (RBool false).
Proof. vm_compute. reflexivity. Qed.
