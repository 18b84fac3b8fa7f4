(** C62: the paths of C# objects.  C63: the events raised during replay.  C64: which object is which. *)
From Verif Require Import Base Varint WireFmt Utf8 Types Ser Spec De Log State StateSpec Coll ValInd SerProofs TypeProofs DeProofs Examples PropState CSharp CSharpProofs CSharpSim CSharpSafe PropCSharp PropClient CsObj ObjSpec ObjProofs.

Lemma decodes_reads bs es rest : c_decodes bs es rest -> reads bs es rest.
Proof.
  induction 1 as [|? ? ? ? ? E _ IH]; [constructor|]. unfold c_next in E.
  destruct (c_nested bs) as [[sub rest0]| | |] eqn:N; cbn [bind] in E; try discriminate E.
  destruct (c_deser cEntry sub) as [[x rest']| | |] eqn:X; cbn [bind] in E; try discriminate E.
  destruct (c_entry x) as [e'| | |] eqn:Y; cbn [bind] in E; try discriminate E. injection E as -> ->. econstructor; eassumption.
Qed.
Lemma reads_next rest e rest' : reads rest [e] rest' -> c_next rest = Ok (e, rest').
Proof.
  intros X. inversion X; subst. match goal with X : reads _ [] _ |- _ => inversion X; subst end.
  unfold c_next. repeat match goal with X : ?a = Ok _ |- context [?a] => rewrite X; cbn [bind] end. reflexivity.
Qed.
Lemma cwt_rooted t p v : c_state t = true -> cwt t (erase v) = true -> at_home p v -> rooted p v.
Proof.
  intros S W H. assert (X : exists h, o_handle_of v = Some h) by (destruct t; try discriminate S; destruct v; try discriminate W; now eexists).
  destruct X as [[i q] X]. exists i. pose proof (H [] v _ eq_refl X) as P. rewrite app_nil_r in P. cbn in P. now subst q.
Qed.

(** ** C62 *)

(** Made by its constructor or decoded from whatever bytes, for a place [p] in the state: every object
    inside has the path of the place it is in, and no object is in two places. *)
Theorem c62_new : forall c p n v n', o_new c p n = Ok (v, n') -> at_home p v /\ own_place n' v.
Proof. intros c p n v n' E. destruct (new_good c p n v n' E) as [_ G]. exact (good_home _ _ _ _ G). Qed.
Print Assumptions c62_new.
Theorem c62_deserialize : forall c p n bs v rest n', o_deser c p n bs = Ok (v, rest, n') -> at_home p v /\ own_place n' v.
Proof. intros c p n bs v rest n' E. destruct (deser_good c p n bs v rest n' E) as [_ G]. exact (good_home _ _ _ _ G). Qed.
Print Assumptions c62_deserialize.

(** And so after any bytes have been replayed. *)
Theorem c62_replay : forall t c p v n bs v' n' evs o, ty_ok t = true -> state_ty t = true -> prim_under t = false -> cls t c = true ->
  cwt c (erase v) = true -> at_home p v -> own_place n v -> o_replay c v n bs = ((v', n', evs), o) ->
  cwt c (erase v') = true /\ at_home p v' /\ own_place n' v'.
Proof.
  intros t c p v n bs v' n' evs o O S P C W H Ow E. pose proof (cls_cgen t c O C) as G. pose proof (cls_state t c S C P) as St. split.
  - destruct (c53_any_bytes t c (erase v) bs O S P C W) as (w' & o' & _ & _ & R & W' & _). rewrite (replay_erase c v n bs G St W), E in R. injection R as R _. cbn in R. congruence.
  - destruct (o_replay_inv (homely p) c G St) with (4 := E) as (es & rest & _ & Q & _); try assumption.
    + intros w m R1 H1 O1. split; [lia|]. now split.
    + now apply homely_step.
    + destruct (Q (cwt_rooted c p v St W H) H Ow) as (_ & _ & Q'). exact Q'.
Qed.
Print Assumptions c62_replay.

(** Without a path: as with the path of the root, except for an option that holds a state. *)
Theorem c62_no_path : forall c n bs, (forall c', c = COpt c' -> c_state c' = true -> bs = []) -> o_deserialize c None n bs = o_deserialize c (Some []) n bs.
Proof. intros c n bs H. destruct c; try reflexivity. destruct bs as [|b bs]; [reflexivity|]. cbn [o_deserialize]. destruct (c_state c) eqn:S; [|reflexivity]. now specialize (H c eq_refl S). Qed.
Print Assumptions c62_no_path.
(** [Option<T>.Deserialize(reader)] throws on what Rust writes for any [Some(x)], if [T] is a class; with
    a path it reads it. *)
Theorem c62_option_refuted : forall m t c x h n, ty_ok (TOpt t) = true -> cls (TOpt t) (COpt c) = true -> cls_ok (COpt c) = true -> c_state c = true ->
  wt (TOpt t) (VOpt (Some x)) = true -> c_carried x = true -> lenN (enc (VOpt (Some x))) < 2 ^ 31 ->
  exists bs v n', to_bytes m (VOpt (Some x)) h = Ok bs /\ o_deserialize (COpt c) None n bs = Panic /\
    o_deserialize (COpt c) (Some []) n bs = Ok (v, [], n') /\ looks (VOpt (Some x)) (erase v) = true.
Proof.
  intros m t c x h n O C K S W Ca L. destruct (c45_decode m (TOpt t) (COpt c) (VOpt (Some x)) h O C K W Ca L) as (bs & w & E & D & Lk).
  pose proof (deser_erase (COpt c) [] n bs) as R. rewrite D in R. destruct (o_deser (COpt c) [] n bs) as [[[v rest] n']| | |] eqn:Ed; try discriminate R. injection R as <- ->.
  exists bs, v, n'. split; [exact E|]. cbn [o_deserialize]. rewrite S. destruct bs as [|b bs]; [cbn in D; injection D as D; now rewrite <- D in Lk|]. auto.
Qed.
Print Assumptions c62_option_refuted.

(** A log as it reaches a client: a push, an update inside the item, an insertion, an update that names
    nothing, another variant, a pop.  The root is at 7/1. *)
Definition stream : bytes :=
  [12; 8; 2; 1; 0; 10; 6; 0; 2; 8; 4; 16; 6] ++ [10; 0; 2; 3; 0; 0; 1; 10; 2; 14; 0] ++ [10; 0; 2; 2; 1; 5; 10; 3; 1; 2; 0] ++
  [8; 0; 2; 3; 1; 7; 1; 10; 0] ++ [8; 0; 2; 3; 1; 5; 0; 10; 0] ++ [4; 9; 2; 1; 0].
Example c62_case :
  (do (v, n) <- o_new cGame [7; 1] 0; Ok (v, cwt cGame (erase v), fst (o_replay cGame v n (firstn 35 stream)))) =
  Ok (OStruct (0, [7; 1]) [(0, OList (1, [7; 1; 0]) []); (1, OMap (2, [7; 1; 1]) []); (2, OBool false)], true,
      (OStruct (0, [7; 1])
         [(0, OList (1, [7; 1; 0]) [OStruct (3, [7; 1; 0; 0]) [(0, OInt 1); (1, OInt 7); (2, OInt 3)]]);
          (1, OMap (2, [7; 1; 1]) [(5, OEnum (4, [7; 1; 1; 5]) 1 (6, [7; 1; 1; 5; 1]) [(0, OStruct (8, [7; 1; 1; 5; 1; 0]) [(0, OInt 0); (1, OInt 0); (2, OInt 0)])])]);
          (2, OBool false)], 9, snd (fst (o_replay cGame (OStruct (0, [7; 1]) [(0, OList (1, [7; 1; 0]) []); (1, OMap (2, [7; 1; 1]) []); (2, OBool false)]) 3 (firstn 35 stream))))) /\
  o_deserialize (COpt cPoint) None 0 [2; 0; 5] = Panic /\
  o_deserialize (COpt cPoint) (Some []) 0 [2; 0; 10] = Ok (OOpt (1, []) (Some (OStruct (0, [0]) [(0, OInt 5); (1, OInt 0); (2, OInt 0)])), [], 2).
Proof. vm_compute. repeat split. Qed.

(** ** C63 *)

(** Any bytes, replayed onto an object: the contents become what CSharp.v says (C45, C53, C54); of the
    entries read, all but those that name nothing and those that replace the root raise one event each,
    of the kind that fits the entry, before the change, and the event tells the change. *)
Theorem c63_events : forall t c v n bs v' n' evs o, ty_ok t = true -> state_ty t = true -> prim_under t = false -> cls t c = true ->
  cwt c (erase v) = true -> o_replay c v n bs = ((v', n', evs), o) ->
  c_replay c (erase v) bs = (erase v', o) /\
  exists es rest, reads bs es rest /\ told c es v evs v' /\
    ((o = Ok tt /\ rest = []) \/ (o = Panic /\ rest <> [] /\ forall e rest', reads rest [e] rest' -> o_handle c e v' n' = Panic)).
Proof.
  intros t c v n bs v' n' evs o O S P C W E. pose proof (cls_cgen t c O C) as G. pose proof (cls_state t c S C P) as St.
  split; [now rewrite (replay_erase c v n bs G St W), E|].
  destruct (o_replay_inv (fun es v _ evs v' _ => told c es v evs v') c G St) with (4 := E) as (es & rest & D & T & Z); try assumption; [constructor|now apply told_step|].
  exists es, rest. split; [now apply decodes_reads|]. split; [exact T|]. destruct o as [[]| | |]; cbn in Z; [now left|right..]; destruct Z as (Z1 & Z2 & Z3); try discriminate Z1.
  split; [reflexivity|]. split; [exact Z2|]. intros e rest' R. apply (Z3 e rest'), reads_next, R.
Qed.
Print Assumptions c63_events.

(** An update of the root replaces everything and tells nobody. *)
Theorem c63_root_refuted : exists c v n bs v' n', cwt c (erase v) = true /\ at_home [] v /\ own_place n v /\
  o_replay c v n bs = ((v', n', []), Ok tt) /\ erase v' <> erase v.
Proof.
  exists cPoint, (OStruct (0, []) [(0, OInt 0); (1, OInt 0); (2, OInt 0)]), 1, [7; 0; 2; 0; 10; 2; 0; 8],
    (OStruct (1, []) [(0, OInt 4); (1, OInt 0); (2, OInt 0)]), 2. split; [reflexivity|].
  destruct (c62_new cPoint [] 0 _ _ eq_refl) as [H O]. repeat (split; [assumption || reflexivity|]). discriminate.
Qed.
Print Assumptions c63_root_refuted.

Example c63_case :
  (do (v, n) <- o_new cGame [] 0; Ok (snd (fst (o_replay cGame v n stream)), snd (o_replay cGame v n stream))) =
  (let p := OStruct (3, [0; 0]) [(0, OInt 1); (1, OInt 2); (2, OInt 3)] in
   let p' := OStruct (3, [0; 0]) [(0, OInt 1); (1, OInt 7); (2, OInt 3)] in
   let some := [(0, OStruct (8, [1; 5; 1; 0]) [(0, OInt 0); (1, OInt 0); (2, OInt 0)])] in
   let e := OEnum (4, [1; 5]) 1 (6, [1; 5; 1]) some in
   Ok ([EvPush (OList (1, [0]) []) 0 p; EvField p 1 (OInt 7) (OInt 2); EvInsert (OMap (2, [1]) []) 5 e;
        EvVariant e 0 (OStruct (9, [1; 5; 0]) []) 1 (OStruct (6, [1; 5; 1]) some); EvPop (OList (1, [0]) [p']) 0 p'], Ok tt)).
Proof. vm_compute. repeat split. Qed.

(** ** C64 *)

(** An object stays what it is as long as no event is about a place on the way to it: whoever holds on
    to it, or has subscribed to it, holds the object that is in the state. *)
Theorem c64_same_object : forall t c p v n bs v' n' evs o, ty_ok t = true -> state_ty t = true -> prim_under t = false -> cls t c = true ->
  cwt c (erase v) = true -> at_home p v -> own_place n v -> o_replay c v n bs = ((v', n', evs), o) ->
  exists es rest, reads bs es rest /\ told c es v evs v' /\
    ((forall b, ~ In (EUpdate [] b) es) -> forall q, (forall ev tag r, In ev evs -> In tag (ev_tags ev) -> p ++ q <> o_path (ev_owner ev) ++ tag :: r) ->
       option_map o_handle_of (here v' q) = option_map o_handle_of (here v q)).
Proof.
  intros t c p v n bs v' n' evs o O S P C W H Ow E. pose proof (cls_cgen t c O C) as G. pose proof (cls_state t c S C P) as St.
  destruct (o_replay_inv (fun es v n evs v' n' => told c es v evs v' /\ same_object p es v n evs v' n') c G St) with (4 := E) as (es & rest & D & [T Z] & _); try assumption.
  - intros w m. split; [constructor|]. intros _ _ _ _ q _. reflexivity.
  - intros e es w m evs1 w1 m1 evs2 w' m' Sg W1 Eh [T1 T2]. split; [eapply told_step; eassumption|eapply same_step; eassumption].
  - exists es, rest. split; [now apply decodes_reads|]. split; [exact T|]. intros NR q U. apply Z; try assumption. now apply cwt_rooted with (t := c).
Qed.
Print Assumptions c64_same_object.

(** Not otherwise: an update of the struct around a list puts another list in its place.  Whoever has
    subscribed to the pushes and pops of the old one is not told, then or later. *)
Definition cBox : cty := CStruct [(0, (false, CStruct [(0, (false, CList cPoint))]))].
Theorem c64_subscription_refuted : exists c v n bs v' n' evs h h' l', cwt c (erase v) = true /\ at_home [] v /\ own_place n v /\
  o_replay c v n bs = ((v', n', evs), Ok tt) /\ here v [0; 0] = Some (OList h []) /\ here v' [0; 0] = Some (OList h' l') /\ l' <> [] /\ fst h <> fst h' /\
  Forall (fun ev => option_map fst (o_handle_of (ev_owner ev)) <> Some (fst h)) evs.
Proof.
  destruct (c62_new cBox [] 0 _ _ eq_refl) as [H O].
  exists cBox, (OStruct (0, []) [(0, OStruct (1, [0]) [(0, OList (2, [0; 0]) [])])]), 3, ([6; 0; 2; 1; 0; 10; 0] ++ [7; 8; 2; 2; 0; 0; 10; 0]). do 6 eexists.
  split; [reflexivity|]. split; [exact H|]. split; [exact O|]. split; [vm_compute; reflexivity|]. repeat (split; [reflexivity|]). split; [discriminate|]. split; [discriminate|].
  repeat constructor; discriminate.
Qed.
Print Assumptions c64_subscription_refuted.

Example c64_case :
  (do (v, n) <- o_new cGame [] 0; let '((v', _, _), _) := o_replay cGame v n stream in
   Ok (map (fun q => (option_map o_handle_of (here v q), option_map o_handle_of (here v' q))) [[]; [0]; [1]; [1; 5]])) =
  Ok [(Some (Some (0, [])), Some (Some (0, []))); (Some (Some (1, [0])), Some (Some (1, [0]))); (Some (Some (2, [1])), Some (Some (2, [1])));
      (None, Some (Some (4, [1; 5])))].
Proof. vm_compute. repeat split. Qed.
