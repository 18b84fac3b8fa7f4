(** The declarations of steit-derive/test-crate/src/lib.rs 47-244 and of steit/src/log/entry.rs 19-48, through
    the model of the derive macro: their metadata and the C# files generated from it. *)
From Verif Require Import Base Varint WireFmt Types Meta Gen GenTests RsGen Derive DeriveProofs RsDecl RsDeclProofs PropRsDecl RsMeta RsMetaProofs PropRsMeta.
From Coq Require Import String.
Import String.StringSyntax.
Local Open Scope string_scope.
Local Open Scope list_scope.
Local Open Scope N_scope.

(** [x], [x<ts>], [#[steit(tag = n)] ty], [name: ty] with a tag. *)
Definition y0 (x : string) : yty := YPath false [x] YNone.
Definition yg (x : string) (ts : list yty) : yty := YPath false [x] (YAngle (map YType ts)).
Definition at_tag (n : N) : list attr := [tagged [] n].
Definition tup (n : N) (t : yty) : yfield := YF (at_tag n) t.
Definition fld (name : string) (n : N) (t : yty) : string * yfield := (name, tup n t).
Definition derives (ts : list string) (name : string) (ps : list string) (d : ydata) : yitem := YI name ps 0 (map p_ ts) [] d.
Definition data_only := ["Debug"; "Serialize"; "Deserialize"].
Definition y_path : string * yfield := ("path", YF [tagged [NMeta (MNameValue "csharp_name" (LStr "flatten_path"))] 0] (yg "Vec" [y0 "u32"])).
Definition y_acts : yty := yg "Vec" [y0 "Action"].
Definition ors (x : string) : yty := yg "ActionsOr" [yg "Vec" [yg "ActionsOr" [y0 x]]].
Definition counted : yfields := YNamed [fld "counter" 0 (y0 "i32"); fld "enabled" 1 (y0 "bool")].
Definition foo_bar : list (string * yfield) := [fld "foo" 0 (y0 "i32"); fld "bar" 1 (y0 "bool")].

Definition test_items : list yitem := [
  YI "LogEntry" [] 0 [p_ "Clone"; p_ "Debug"; p_ "Serialize"; p_ "Deserialize"; p_ "JsonSerialize"] [owned] (YEnum [
    YV "Update" (at_tag 0) (YNamed [y_path; fld "value" 1 (y0 "Bytes")]);
    YV "ListPush" (at_tag 8) (YNamed [y_path; fld "item" 1 (y0 "Bytes")]);
    YV "ListPop" (at_tag 9) (YNamed [y_path]);
    YV "MapRemove" (at_tag 12) (YNamed [y_path; fld "key" 1 (y0 "u32")])]);
  derives ["Debug"; "State"] "Maybe" ["T"] (YEnum [YV "None" (at_tag 0) YUnit; YV "Some" (at_tag 1) (YUnnamed [tup 0 (y0 "T")])]);
  derives data_only "Sure" ["T"] (YStruct (YUnnamed [tup 0 (y0 "T")]));
  derives data_only "ActionsOr" ["T"] (YEnum [YV "Actions" (at_tag 0) (YUnnamed [tup 0 y_acts]); YV "Value" (at_tag 1) (YUnnamed [tup 0 (y0 "T")])]);
  derives ["Debug"; "State"] "OldAction" [] (YEnum [
    YV "Raw" (at_tag 0) (YNamed [fld "log_entries" 0 (yg "List" [y0 "u8"])]);
    YV "Attack" (at_tag 1) (YNamed [fld "attacker" 0 (y0 "u8"); fld "defender" 1 (y0 "u8"); fld "hits" 2 (yg "List" [y0 "OldHit"])])]);
  derives ["Debug"; "State"] "OldHit" [] (YStruct (YNamed [
    fld "before_attacking" 0 (yg "Box" [y0 "OldAction"]); fld "before_damaging" 1 (yg "Box" [y0 "OldAction"]); fld "damaging" 2 (yg "Box" [y0 "OldAction"]);
    fld "after_damaging" 3 (yg "Box" [y0 "OldAction"]); fld "after_attacking" 4 (yg "Box" [y0 "OldAction"]); fld "dummy" 5 (y0 "i32")]));
  derives data_only "Action" [] (YEnum [
    YV "Raw" (at_tag 0) (YNamed []);
    YV "CardDraw" (at_tag 1) (YNamed [fld "player_index" 0 (y0 "u16"); fld "draw" 1 y_acts; fld "post_draw" 2 y_acts]);
    YV "CardDiscard" (at_tag 2) (YNamed []);
    YV "Attack" (at_tag 3) (YNamed [fld "attacker_index" 0 (y0 "u16"); fld "card_id" 1 (y0 "u32"); fld "before_attacks" 2 y_acts;
      fld "attacks" 3 (ors "Attack"); fld "after_attacks" 4 y_acts]);
    YV "Skill" (at_tag 4) (YNamed [fld "caster_index" 0 (y0 "u16"); fld "card_id" 1 (y0 "u32"); fld "before_skills" 2 y_acts;
      fld "skills" 3 (ors "Skill"); fld "after_skills" 4 y_acts])]);
  derives data_only "Attack" [] (YStruct (YNamed [fld "target_index" 0 (y0 "u16"); fld "before_hits" 1 y_acts; fld "hits" 2 (ors "Hit"); fld "after_hits" 3 y_acts]));
  derives data_only "Hit" [] (YStruct (YNamed [fld "is_miss" 0 (y0 "bool"); fld "pre_damage" 1 y_acts; fld "damage" 2 y_acts; fld "post_damage" 3 y_acts]));
  derives data_only "Skill" [] (YStruct (YNamed [fld "target_index" 0 (y0 "u16"); fld "pre_cast" 1 y_acts; fld "cast" 2 y_acts;
    fld "post_cast" 3 (yg "Vec" [yg "Sure" [y0 "Action"]])]));
  derives ["State"] "Hello" [] (YStruct (YNamed [fld "numbers" 0 (yg "List" [y0 "i32"]); ("others", YF [tagged [p_ "no_state"] 1] (yg "Vec" [y0 "i32"]))]));
  derives ["Debug"; "State"] "Outer" [] (YStruct (YNamed (foo_bar ++ [fld "inner" 2 (y0 "Inner")])));
  derives ["Debug"; "State"] "Inner" [] (YStruct (YNamed foo_bar));
  derives ["Debug"; "State"] "Multicase" [] (YEnum [YV "FirstCase" (at_tag 0) counted; YV "SecondCase" (at_tag 1) counted]);
  derives ["Debug"; "State"] "Woof" [] (YStruct (YNamed [fld "map" 0 (yg "Map" [y0 "u16"; y0 "i32"])]))
].

(** The prelude, the types of steit, and the items of a crate by name. *)
Definition library : list (string * def) :=
  [("u8", DInt U8); ("u16", DInt U16); ("u32", DInt U32); ("u64", DInt U64); ("i8", DInt I8); ("i16", DInt I16); ("i32", DInt I32); ("i64", DInt I64);
   ("bool", DBool); ("String", DStr); ("Bytes", DBytes); ("Option", DCon COption); ("Vec", DCon CVector); ("Box", DCon CBx); ("List", DCon CLst); ("Map", DCon CMp)].
Fixpoint sfind (x : string) (l : list (string * def)) : option def :=
  match l with [] => None | (y, d) :: l => if String.eqb x y then Some d else sfind x l end.
Definition items_of (cr : list yitem) : list (string * def) :=
  combine (map yi_name cr) (map (fun k => DItem k (List.length (yi_params (nth k cr (YI "" [] 0 [] [] YUnion))))) (seq 0 (List.length cr))).
Definition scope_of (aliases : list (string * def)) (cr : list yitem) : scope :=
  fun p => match p with [x] => sfind x (aliases ++ items_of cr ++ library) | _ => None end.
Definition test_scope : scope := scope_of [] test_items.

Lemma sfind_in x l d : sfind x l = Some d -> In (x, d) l.
Proof. induction l as [|[y c] l IH]; [discriminate|]. cbn. destruct (String.eqb_spec x y) as [->|]; [intros [= ->]; now left|right; auto]. Qed.
Lemma scope_of_ok aliases cr e : Forall (fun x => match snd x with DItem d n => (d < List.length e)%nat /\ n = List.length (d_params (decl_of e d))
    | DAlias n t => wf e t = true /\ vars_below n t = true | _ => True end) (aliases ++ items_of cr ++ library) ->
  scope_of aliases cr ["i8"] = Some (DInt I8) -> scope_ok (scope_of aliases cr) e.
Proof.
  intros A I. rewrite Forall_forall in A. split; [|split; [|exact I]].
  - intros p d n E. destruct p as [|x [|? ?]]; try discriminate. apply sfind_in, A in E. exact E.
  - intros p n t E. destruct p as [|x [|? ?]]; try discriminate. apply sfind_in, A in E. exact E.
Qed.

Ltac among := let H := fresh in intros H; cbn in H; repeat (destruct H as [H|H]); try discriminate; try contradiction.
Ltac called_ := split; [reflexivity|intros ?; split; [intros [= <-]; cbn; tauto|intros H; cbn in H; repeat (destruct H as [H|H]); try discriminate; try contradiction; now injection H as <-]].
Ltac field_ := split; [called_|split; [cbn; tauto|reflexivity]].
Ltac fields_ :=
  match goal with
  | |- fields_as _ _ _ (YNamed _) _ => cbn; repeat first [apply Forall2_nil|apply Forall2_cons; [field_|]]
  | |- fields_as _ _ _ (YUnnamed _) _ => split; [reflexivity|]; let k := fresh in intros [|k] ? ? A B; [injection A as <-; injection B as <-; field_|destruct k; discriminate]
  | |- fields_as _ _ _ YUnit _ => reflexivity
  end.
Ltac flag_ := split; [intros H; try discriminate H; (now left) || (right; split; [reflexivity|cbn; tauto])|intros [H|[_ H]]; cbn in H; repeat (destruct H as [H|H]); try discriminate; try contradiction; reflexivity].
Ltac accepted_ := split; [vm_compute; reflexivity|split; [(left; cbn; tauto) || (right; cbn; tauto)|intros [H|[_ H]]; cbn in H; repeat (destruct H as [H|H]); try discriminate; contradiction]].
Ltac nodup_ := cbn; repeat first [apply NoDup_nil|apply NoDup_cons; [cbn; intuition discriminate|]].
Ltac item_ := split; [split; [called_|split; [reflexivity|split; [flag_|idtac]]]|split; [accepted_|split; [nodup_|vm_compute; reflexivity]]].
Lemma test_crate : crate_as test_scope test_items test_env.
Proof.
  split; [|split; [reflexivity|]].
  - apply scope_of_ok; [|reflexivity]. apply Forall_forall. intros x X. cbn in X. repeat (destruct X as [<-|X]; [first [exact I|split; [apply Nat.ltb_lt; reflexivity|reflexivity]]|]). contradiction.
  - intros k i E. repeat (destruct k as [|k]; [injection E as <-; item_|]); [..|destruct k; discriminate].
    all: cbn [yi_data derives decl_of nth d_body test_env]; unfold counted, foo_bar; match goal with
      | |- fields_as _ _ _ _ _ => fields_
      | |- Forall2 _ _ _ => repeat first [apply Forall2_nil|apply Forall2_cons; [split; [called_|split; [cbn; tauto|cbn [yv_fields snd]; fields_]]|]]
      end.
Qed.

(** Files from the constants, as [gen_files] from declarations. *)
Definition const_files (sc : scope) (impls : list ximpl) (ns : string) (skip : bool) (root : rty) : res (list (string * string)) :=
  do l <- generate_consts sc impls 100 (GS csharp_name skip []) root;
  all_ok (map (fun p : string * message => do t <- gen_text (snd p) (CS ns []); Ok (fst p +++ ".cs", t)) l).
Definition test_impls : list ximpl := match collect_args meta_code test_items with Some l => l | None => [] end.
Example impls_written : Forall2 (fun i x => meta_code i = Some x) test_items test_impls.
Proof. repeat first [apply Forall2_nil|apply Forall2_cons; [vm_compute; reflexivity|]]. Qed.
Example const_log_entry : const_files test_scope test_impls "Steit.State" false (RUser dLogEntry []) = Ok [("LogEntry.cs", GenGolden.golden_LogEntry)].
Proof. vm_compute. reflexivity. Qed.
Example const_maybe : const_files test_scope test_impls "Steit.Builtins" false (RUser dMaybe [RInt U8]) = Ok [("Maybe.cs", GenGolden.golden_Maybe)].
Proof. vm_compute. reflexivity. Qed.
(** For every root, by c73. *)
Example const_tests : forall root, wf test_env root = true -> const_files test_scope test_impls "Just.To.Test" true root = tests root.
Proof.
  intros root W. destruct (c73_crate _ _ _ test_crate) as (impls & F & _ & G).
  assert (E : impls = test_impls).
  { apply (same_impls test_items); [exact F|exact impls_written]. }
  subst impls. unfold const_files, tests, files, gen_files. now rewrite (G _ _ _ W).
Qed.

(** Without the condition on aliases and [Self]. *)
Definition crate_loosely (sc : scope) (cr : list yitem) (e : env) : Prop :=
  scope_ok sc e /\ List.length cr = List.length e /\
  forall k i, nth_error cr k = Some i -> item_as sc k i (decl_of e k) /\ accepted i /\ NoDup (yi_params i).

(** [type Bag<T> = Vec<Option<T>>; struct Sack { #[steit(tag = 0)] bag: Bag<u32> }]: the field is described as [Vector<UInt32>],
    the head of the alias with the arguments of the use. *)
Definition sack : list yitem := [derives ["State"] "Sack" [] (YStruct (YNamed [fld "bag" 0 (yg "Bag" [y0 "u32"])]))].
Definition sack_scope : scope := scope_of [("Bag", DAlias 1 (RVec (ROpt (RVar 0))))] sack.
Definition sack_env : env := [DL (nm "Sack") [] (BStruct [FD (nm "bag") (RAlias (RVec (ROpt (RInt U32)))) 0]) false].
Definition sack_impls : list ximpl := match collect_args meta_code sack with Some l => l | None => [] end.
Lemma sack_loosely : crate_loosely sack_scope sack sack_env.
Proof.
  split; [|split; [reflexivity|]].
  - apply scope_of_ok; [|reflexivity]. apply Forall_forall. intros x X. cbn in X. repeat (destruct X as [<-|X]; [first [exact I|split; first [reflexivity|apply Nat.ltb_lt; reflexivity]]|]). contradiction.
  - intros [|k] i E; [injection E as <-|destruct k; discriminate]. split; [|split; [accepted_|nodup_]]. split; [called_|split; [reflexivity|split; [flag_|]]]. cbn [yi_data derives d_body decl_of nth sack_env]. fields_.
Qed.
Theorem c73_alias_refuted : exists sc cr e impls, crate_loosely sc cr e /\ Forall2 (fun i x => meta_code i = Some x) cr impls /\
  exists t m m', wf e t = true /\ msg_const sc impls t = Some m /\ msg_of e t = Some m' /\ m <> m'.
Proof.
  exists sack_scope, sack, sack_env, sack_impls. split; [exact sack_loosely|split; [repeat first [apply Forall2_nil|apply Forall2_cons; [vm_compute; reflexivity|]]|]].
  exists (RUser 0 []). eexists. eexists. split; [reflexivity|split; [vm_compute; reflexivity|split; [vm_compute; reflexivity|discriminate]]].
Qed.
Print Assumptions c73_alias_refuted.
Definition types_in (m : option message) : list tmeta := match m with Some (MStruct s) => map fm_ty (sm_fields s) | _ => [] end.
Definition m_u32 : tmeta := MPrim (NM "u32" (Some "UInt32")) Varint.
Definition m_vec (t : tmeta) : tmeta := MRef (NM "Vec" (Some "Vector")) [t].
Example sack_described : types_in (msg_const sack_scope sack_impls (RUser 0 [])) = [m_vec m_u32].
Proof. reflexivity. Qed.
Example sack_is : types_in (msg_of sack_env (RUser 0 [])) = [m_vec (type_of sack_env (ROpt (RInt U32)))] /\ type_of sack_env (ROpt (RInt U32)) <> m_u32.
Proof. split; [reflexivity|discriminate]. Qed.

(** [struct Node<T> { #[steit(tag = 0)] item: T, #[steit(tag = 1)] next: Vec<Self> }]: the description of [Node<u32>] says
    [Vector<Node<UInt32>>] for the second field, which is read as the declaration of the C# class [Node<T>]. *)
Definition node : list yitem := [derives ["State"] "Node" ["T"] (YStruct (YNamed [fld "item" 0 (y0 "T"); fld "next" 1 (yg "Vec" [y0 "Self"])]))].
Definition node_scope : scope := scope_of [] node.
Definition node_env : env := [DL (nm "Node") ["T"] (BStruct [FD (nm "item") (RVar 0) 0; FD (nm "next") (RVec (RUser 0 [RVar 0])) 1]) false].
Definition node_impls : list ximpl := match collect_args meta_code node with Some l => l | None => [] end.
Lemma node_loosely : crate_loosely node_scope node node_env.
Proof.
  split; [|split; [reflexivity|]].
  - apply scope_of_ok; [|reflexivity]. apply Forall_forall. intros x X. cbn in X. repeat (destruct X as [<-|X]; [first [exact I|split; first [reflexivity|apply Nat.ltb_lt; reflexivity]]|]). contradiction.
  - intros [|k] i E; [injection E as <-|destruct k; discriminate]. split; [|split; [accepted_|nodup_]]. split; [called_|split; [reflexivity|split; [flag_|]]]. cbn [yi_data derives d_body decl_of nth node_env]. fields_.
Qed.
Theorem c73_self_refuted : exists sc cr e impls, crate_loosely sc cr e /\ Forall2 (fun i x => meta_code i = Some x) cr impls /\
  exists t m m', wf e t = true /\ msg_const sc impls t = Some m /\ msg_of e t = Some m' /\ m <> m'.
Proof.
  exists node_scope, node, node_env, node_impls. split; [exact node_loosely|split; [repeat first [apply Forall2_nil|apply Forall2_cons; [vm_compute; reflexivity|]]|]].
  exists (RUser 0 [RInt U32]). eexists. eexists. split; [reflexivity|split; [vm_compute; reflexivity|split; [vm_compute; reflexivity|discriminate]]].
Qed.
Print Assumptions c73_self_refuted.
Example node_described : types_in (msg_const node_scope node_impls (RUser 0 [RInt U32])) = [MParam "T"; m_vec (MRef (NM "Node" None) [m_u32])].
Proof. reflexivity. Qed.
Example node_is : types_in (msg_of node_env (RUser 0 [RInt U32])) = [MParam "T"; m_vec (MRef (NM "Node" None) [MParam "T"])].
Proof. reflexivity. Qed.
