(** C80: the generated classes that the C# client itself contains, LogEntry.cs and Maybe.cs (their texts
    are in GenGolden.v, byte for byte), behave as the client model (CSharp.v) takes them to. *)
From Verif Require Import Base Varint WireFmt Types Ser Spec De Log State StateSpec Meta MetaProofs Gen CSharp CsRead CSharpProofs CSharpSim CSharpSafe PropCSharp CsRun GenSpec GenFile GenStruct GenEnum GenWhole GenGolden GenTests Elab ElabProofs PropGen.
From Coq Require Import String.
Import String.StringSyntax.
Local Open Scope string_scope.
Local Open Scope list_scope.
Local Open Scope N_scope.

(** ** LogEntry.cs *)

Definition entry_vs : list variant := Eval vm_compute in test_variants (decl_of test_env dLogEntry) [].
Definition entry_ty : cname -> option cty := resolve [] (in_scope entry_vs test_user).
Definition entry_text : member := class_of golden_LogEntry.

(** steit-csharp/src/State/StateReplayer.cs 9-14, 16-64 and 71-83: how the replayer looks at an entry.
    [the_const]: a constant of the class, [LogEntry.UpdateTag]; [the_prop]: a property of the variant,
    [entry.UpdateVariant.Value]. *)
Definition the_const (n : string) : option N :=
  match find (fun m => match m with KConst _ _ n' _ => String.eqb n n' | _ => false end) (c_members entry_text) with
  | Some (KConst _ _ _ v) => Some v
  | _ => None
  end.
Definition has_tag (o : list (string * cvalue)) (n : string) : bool :=
  match sassoc "Tag" o, the_const n with Some (VNum tag), Some v => tag =? v | _, _ => false end.
Definition the_prop (o : list (string * cvalue)) (n m : string) : option cval :=
  match sassoc "Variant" o, find (fun v => String.eqb (va_name v) n) entry_vs with
  | Some (VObj _ (CVStruct xs, q)), Some v =>
      match sassoc m (struct_object q (va_fields v) xs) with Some (VObj _ (x, _)) => Some x | _ => None end
  | _, _ => None
  end.
Definition the_path (o : list (string * cvalue)) (n : string) : res (list N) :=
  match the_prop o n "FlattenPath" with Some x => match c_path x with Some p => Ok p | None => NoFuel end | None => NoFuel end.
Definition text_entry (o : list (string * cvalue)) : res entry :=
  if has_tag o "UpdateTag" then do p <- the_path o "Update"; match the_prop o "Update" "Value" with Some (CVBytes bs) => Ok (EUpdate p bs) | _ => NoFuel end
  else if has_tag o "ListPushTag" then do p <- the_path o "ListPush"; match the_prop o "ListPush" "Item" with Some (CVBytes bs) => Ok (EListPush p bs) | _ => NoFuel end
  else if has_tag o "ListPopTag" then do p <- the_path o "ListPop"; Ok (EListPop p)
  else if has_tag o "MapRemoveTag" then do p <- the_path o "MapRemove"; match the_prop o "MapRemove" "Key" with Some (CVInt k) => Ok (EMapRemove p (Z.to_N k)) | _ => NoFuel end
  else Panic.
(** 9-14, with the entries made by the text of LogEntry.cs. *)
Definition text_step (t : cty) (v : cval) (bs : bytes) : cval * res bytes :=
  try v (do (sub, rest) <- c_nested bs;
         do (oe, _) <- run_deserialize _ client entry_ty entry_text [] None sub;
         do e <- text_entry (fst oe); do v' <- c_handle t e v; Ok (v', rest))
    (fun '(v', rest) => (v', Ok rest)).
Definition text_replay (t : cty) (v : cval) (bs : bytes) : cval * res unit :=
  let '(v', o) := run (text_step t) v bs in (v', do _ <- o; Ok tt).

(** The text of LogEntry.cs is that of an enum with the variants of [cEntry]; the classes in it are those
    of structs with the fields of these variants. *)
Theorem c80_log_entry : CEnum (cvariants entry_vs) = cEntry /\ enum_class entry_ty entry_text [] entry_vs /\
  forall v, In v entry_vs -> exists mods ms,
    let c := KClass mods (va_name v) [] (CsRead.CN "IState" []) ms in
    In c (c_members entry_text) /\ In "public" mods /\ struct_class entry_ty c (names entry_text []) (va_fields v).
Proof.
  split; [reflexivity|].
  destruct (c58_enum [] test_user (EM (nm "LogEntry") [] (map (fun v => (va_meta v, va_tag v)) entry_vs) false) (CS "Steit.State" []) entry_vs (hd (Variant (SM (nm "") [] [] false) 0 []) entry_vs))
    as (text & f & G1 & G2 & _ & _ & G3 & G4).
  - apply user_library. reflexivity.
  - reflexivity.
  - reflexivity.
  - repeat constructor.
  - vm_compute. reflexivity.
  - reflexivity.
  - assert (E : text = golden_LogEntry) by (vm_compute in G1; injection G1 as <-; reflexivity).
    subst text. unfold entry_text, class_of. rewrite G2. split; [exact G3|exact G4].
Qed.
Print Assumptions c80_log_entry.
Lemma entry_class : enum_class entry_ty entry_text [] entry_vs.
Proof. exact (proj1 (proj2 c80_log_entry)). Qed.

Lemma consts : the_const "UpdateTag" = Some 0 /\ the_const "ListPushTag" = Some 8 /\ the_const "ListPopTag" = Some 9 /\ the_const "MapRemoveTag" = Some 12.
Proof. vm_compute. repeat split. Qed.
Definition obj (tag : N) (c : cty) (xs : list (N * cval)) : list (string * cvalue) :=
  [("Path", VPath []); ("Tag", VNum tag); ("Variant", VObj c (CVStruct xs, [tag]))].
Lemma props tag c t0 p t1 x :
  let o := obj tag c [(t0, p); (t1, x)] in
  the_prop o "Update" "FlattenPath" = Some p /\ the_prop o "Update" "Value" = Some x /\
  the_prop o "ListPush" "FlattenPath" = Some p /\ the_prop o "ListPush" "Item" = Some x /\
  the_prop (obj tag c [(t0, p)]) "ListPop" "FlattenPath" = Some p /\
  the_prop o "MapRemove" "FlattenPath" = Some p /\ the_prop o "MapRemove" "Key" = Some x.
Proof. vm_compute. repeat split. Qed.
Opaque the_const.
Lemma obj_tag tag c xs n v : the_const n = Some v -> has_tag (obj tag c xs) n = (tag =? v).
Proof. intros E. unfold has_tag. rewrite E. reflexivity. Qed.
Opaque has_tag the_prop obj.
Lemma text_entry_is x : cwt cEntry x = true -> text_entry (enum_object [] entry_vs (tag_in x) (inside x)) = c_entry x.
Proof.
  destruct x; try discriminate. unfold cEntry. rewrite cwt_enum. cbn [assoc tag_in inside]. destruct consts as (C1 & C2 & C3 & C4).
  unfold enum_object. cbn [app]. match goal with |- _ -> text_entry [_; _; ("Variant", VObj ?c _)] = _ => generalize c; intros c0 end.
  intros H. change (text_entry (obj tag c0 fs) = c_entry (CVEnum tag fs)).
  unfold text_entry, the_path. rewrite (obj_tag tag c0 fs _ _ C1), (obj_tag tag c0 fs _ _ C2), (obj_tag tag c0 fs _ _ C3), (obj_tag tag c0 fs _ _ C4).
  destruct (tag =? 0) eqn:T0; [|destruct (tag =? 8) eqn:T8; [|destruct (tag =? 9) eqn:T9; [|destruct (tag =? 12) eqn:T12; [|discriminate H]]]];
    (destruct fs as [|[t0 p] fs]; [discriminate H|]); cbn [cwt_fields] in H; apply andb_prop in H; destruct H as [H H'];
    apply andb_prop in H; destruct H as [_ H]; destruct (c_path_oks p H) as (q & Q & _);
    destruct fs as [|[t1 x] fs]; try discriminate H';
    try (destruct fs; [|apply andb_prop in H'; destruct H' as [_ H']; discriminate H']); try (apply andb_prop in H'; destruct H' as [H' _]; apply andb_prop in H'; destruct H' as [_ X]).
  - destruct (props tag c0 t0 p t1 x) as (P1 & P2 & _). rewrite P1, P2, Q. destruct x; try discriminate X. cbn [bind c_entry]. now rewrite Q, T0.
  - destruct (props tag c0 t0 p t1 x) as (_ & _ & P1 & P2 & _). rewrite P1, P2, Q. destruct x; try discriminate X. cbn [bind c_entry]. now rewrite Q, T0, T8.
  - destruct (props tag c0 t0 p t0 p) as (_ & _ & _ & _ & P1 & _). rewrite P1, Q. cbn [bind c_entry]. now rewrite Q, T9.
  - destruct (props tag c0 t0 p t1 x) as (_ & _ & _ & _ & _ & P1 & P2). rewrite P1, P2, Q. destruct x; try discriminate X. cbn [bind c_entry]. now rewrite Q, T12.
Qed.
(** What the client makes of the bytes of an entry: the methods of the text and the properties by their
    names on one side, the model's entries on the other. *)
Theorem c80_entry : forall bs,
  (do (oe, _) <- run_deserialize _ client entry_ty entry_text [] None bs; text_entry (fst oe)) =
  (do (x, _) <- c_deser cEntry bs; c_entry x).
Proof.
  intros bs. rewrite (ec_deserialize _ _ _ _ entry_class).
  change (CEnum (cvariants entry_vs)) with cEntry. pose proof (c_deser_fst cEntry bs eq_refl) as X.
  destruct (c_deser cEntry bs) as [[x rest]| | |]; cbn [bind fst] in *; try reflexivity. now apply text_entry_is.
Qed.
Print Assumptions c80_entry.
Lemma run_ext {S} (f g : S -> bytes -> S * res bytes) : (forall s bs, f s bs = g s bs) -> forall s bs, run f s bs = run g s bs.
Proof.
  intros E s bs. unfold run. generalize (List.length bs). intros n. revert s bs. induction n as [|n IH]; intros s bs; cbn [De.loop]; [reflexivity|].
  destruct bs as [|b bs]; [reflexivity|]. rewrite E. destruct (g s (b :: bs)) as [s' [bs'| | |]]; cbn [try]; [apply IH|reflexivity..].
Qed.
(** So replay by the model is replay by a client whose entries come from the text of LogEntry.cs. *)
Theorem c80_replay : forall t v bs, text_replay t v bs = c_replay t v bs.
Proof.
  intros t v bs. unfold text_replay, c_replay.
  assert (E : forall v bs, text_step t v bs = c_replay_step t v bs).
  { clear. intros v bs. unfold text_step, c_replay_step. destruct (c_nested bs) as [[sub rest]| | |]; cbn [bind]; try reflexivity.
    rewrite (ec_deserialize _ _ _ _ entry_class). change (CEnum (cvariants entry_vs)) with cEntry.
    pose proof (c_deser_fst cEntry sub eq_refl) as X. destruct (c_deser cEntry sub) as [[x r]| | |]; cbn [bind fst] in *; try reflexivity.
    cbn [root_or]. now rewrite (text_entry_is x X). }
  now rewrite (run_ext _ _ E).
Qed.
Print Assumptions c80_replay.

(** ** Maybe.cs *)

Definition maybe_vs (c : cty) : list variant := Eval vm_compute in test_variants (decl_of test_env dMaybe) [c].
Definition maybe_ty (c : cty) : cname -> option cty := resolve [("T", c)] (in_scope (maybe_vs c) test_user).
(** For every class [c] that [T] stands for, the text is that of an enum with the variants None, without
    fields, and Some, with a field of class [c]. *)
Theorem c80_maybe : forall c, cvariants (maybe_vs c) = [(0, []); (1, [(0, (true, c))])] /\
  enum_class (maybe_ty c) (class_of golden_Maybe) ["T"] (maybe_vs c).
Proof.
  intros c. split; [reflexivity|].
  destruct (c58_enum [("T", c)] test_user (EM (nm "Maybe") ["T"] (map (fun v => (va_meta v, va_tag v)) (maybe_vs c)) false) (CS "Steit.Builtins" []) (maybe_vs c) (hd (Variant (SM (nm "") [] [] false) 0 []) (maybe_vs c)))
    as (text & f & G1 & G2 & _ & _ & G3 & _).
  - apply user_library. reflexivity.
  - reflexivity.
  - reflexivity.
  - repeat constructor.
  - vm_compute. reflexivity.
  - reflexivity.
  - assert (E : text = golden_Maybe) by (vm_compute in G1; injection G1 as <-; reflexivity).
    subst text. unfold class_of. rewrite G2. exact G3.
Qed.
Print Assumptions c80_maybe.

(** Entries that the text reads; entries of a newer server (an unknown variant, tag 13) leave the
    default, an update with an empty path and no bytes; a replay with both. *)
Example c80_case :
  let read bs := do (oe, _) <- run_deserialize _ client entry_ty entry_text [] None bs; text_entry (fst oe) in
  read [0; 2; 2; 3; 1; 10; 1; 9] = Ok (EUpdate [3; 1] [9]) /\ read [8; 2; 1; 3; 10; 1; 9] = Ok (EListPush [3] [9]) /\
  read [9; 2; 1; 3] = Ok (EListPop [3]) /\ read [12; 2; 1; 3; 8; 7] = Ok (EMapRemove [3] 7) /\
  read [13; 1; 1] = Ok (EUpdate [] []) /\
  let t := CStruct [(3, (false, CList CBool))] in
  text_replay t (CVStruct [(3, CVList [])]) [7; 8; 2; 1; 3; 10; 1; 1] = (CVStruct [(3, CVList [CVBool true])], Ok tt) /\
  text_replay t (CVStruct [(3, CVList [])]) [2; 8; 2; 1; 3; 10; 1; 1] = c_replay t (CVStruct [(3, CVList [])]) [2; 8; 2; 1; 3; 10; 1; 1].
Proof. vm_compute. repeat split. Qed.
