(** C79: event handlers that throw during C# replay. *)
From Verif Require Import Base Varint WireFmt Utf8 Types Ser Spec De Log State StateSpec Coll ValInd SerProofs TypeProofs DeProofs Examples PropState CSharp CSharpProofs CSharpSim CSharpSafe PropCSharp PropClient CsObj ObjSpec ObjProofs PropObj CsThrow ThrowProofs.

(** All handlers are told of an event, in the order in which they subscribed, and none throws. *)
Inductive hears {H} : list (handler H) -> H -> event -> H -> Prop :=
| hears_none s ev : hears [] s ev s
| hears_one f subs s ev s1 s' : f s ev = (s1, false) -> hears subs s1 ev s' -> hears (f :: subs) s ev s'.
(** So with each of a list of events. *)
Inductive heard {H} (subs : list (handler H)) : H -> list event -> H -> Prop :=
| heard_none s : heard subs s [] s
| heard_one s ev evs s1 s' : hears subs s ev s1 -> heard subs s1 evs s' -> heard subs s (ev :: evs) s'.
(** One of the handlers throws; those before it have been told, those after it have not. *)
Definition throws {H} (subs : list (handler H)) (s : H) (ev : event) (s' : H) : Prop :=
  exists before f after s1, subs = before ++ f :: after /\ hears before s ev s1 /\ f s1 ev = (s', true).

Lemma raise_hears {H} (subs : list (handler H)) ev : forall s s', raise subs s ev = (s', false) -> hears subs s ev s'.
Proof.
  induction subs as [|f subs IH]; intros s s' E; cbn in E; [injection E as <-; constructor|].
  destruct (f s ev) as [s1 []] eqn:F; [discriminate|]. econstructor; [exact F|]. now apply IH.
Qed.
Lemma raise_throws {H} (subs : list (handler H)) ev : forall s s', raise subs s ev = (s', true) -> throws subs s ev s'.
Proof.
  induction subs as [|f subs IH]; intros s s' E; cbn in E; [discriminate|]. destruct (f s ev) as [s1 []] eqn:F.
  - injection E as <-. exists [], f, subs, s. split; [reflexivity|]. split; [constructor|exact F].
  - destruct (IH _ _ E) as (b & g & a & s2 & -> & Hb & G). exists (f :: b), g, a, s2. split; [reflexivity|]. split; [econstructor; eassumption|exact G].
Qed.
Lemma raises_heard {H} (subs : list (handler H)) evs : forall s s', raises subs s evs = (s', false) -> heard subs s evs s'.
Proof.
  induction evs as [|ev evs IH]; intros s s' E; cbn in E; [injection E as <-; constructor|].
  destruct (raise subs s ev) as [s1 []] eqn:R; [discriminate|]. econstructor; [apply raise_hears, R|]. now apply IH.
Qed.

Lemma unsigned_taken bs k r : c_unsigned bs = Ok (k, r) -> exists d, d <> [] /\ bs = d ++ r.
Proof.
  unfold c_unsigned. enough (forall a a', c_varint bs a a' = Ok (k, r) -> exists d, d <> [] /\ bs = d ++ r) by eauto. induction bs as [|o bs IH]; intros a a' U; cbn in U; [discriminate|]. destruct (_ =? _).
  - injection U as _ <-. now exists [o].
  - destruct (IH _ _ U) as (d & _ & ->). now exists (o :: d).
Qed.
Lemma nested_taken bs sub r : c_nested bs = Ok (sub, r) -> exists d, d <> [] /\ bs = d ++ r.
Proof.
  unfold c_nested. destruct (c_unsigned bs) as [[k r0]| | |] eqn:U; cbn [bind]; try discriminate. destruct (unsigned_taken _ _ _ U) as (d & Nd & ->).
  destruct (_ || _); [discriminate|]. intros Nst. injection Nst as Nst. apply WireProofs.splitN_concat in Nst. exists (d ++ sub). split; [now destruct d|]. now rewrite Nst, <- app_assoc.
Qed.

(** Any bytes, replayed onto an object with any handlers.  The entries [es] have been applied, and all
    handlers have been told of the events [evs] that go with them (C63).  Then either the bytes are at
    their end; or the next entry would make [w] of the object, a handler told of that threw, and the
    object is as if the entry had not been there, although the reader is behind it; or the next entry
    cannot be read or applied, which nobody is told of.  In any case the object is in order; replaying
    the bytes from the entry on makes of it what replaying all of them in one go would have made; and the
    reader has moved on. *)
Theorem c79_stops : forall H (subs : list (handler H)) t c p v n s bs v' n' s' unread o,
  ty_ok t = true -> state_ty t = true -> prim_under t = false -> cls t c = true ->
  cwt c (erase v) = true -> at_home p v -> own_place n v -> t_replay subs c v n s bs = ((v', n', s'), unread, o) ->
  exists es rest evs s1, reads bs es rest /\ told c es v evs v' /\ heard subs s evs s1 /\
    ((o = Ok tt /\ rest = [] /\ unread = [] /\ s' = s1) \/
     (o = Panic /\ exists e ev w, reads rest [e] unread /\ fits e ev /\ tells (container e) ev v' w /\
        c_handle c e (erase v') = Ok (erase w) /\ throws subs s1 ev s') \/
     (o = Panic /\ rest <> [] /\ s' = s1 /\ (forall e rest', reads rest [e] rest' -> c_handle c e (erase v') = Panic) /\
        (forall sub rest', c_nested rest = Ok (sub, rest') -> unread = rest'))) /\
    cwt c (erase v') = true /\ at_home p v' /\ own_place n' v' /\
    c_replay c (erase v') rest = c_replay c (erase v) bs /\
    (o = Panic -> exists taken, taken <> [] /\ rest = taken ++ unread).
Proof.
  intros H subs t c p v n s bs v' n' s' unread o O S P C W Hm Ow E. pose proof (cls_cgen t c O C) as G. pose proof (cls_state t c S C P) as St.
  destruct (t_replay_inv subs (fun es v n evs v' n' => told c es v evs v' /\ homely p es v n evs v' n') c G St) with (4 := E)
    as (es & rest & evs & s1 & n1 & D & [T Q] & W' & Ha & R & Z); try assumption.
  { intros w m. split; [constructor|]. intros R1 H1 O1. split; [lia|]. now split. }
  { intros e es w m evs1 w1 m1 evs2 w' m' Sg W1 Eh [T1 T2]. split; [eapply told_step; eassumption|eapply homely_step; eassumption]. }
  destruct (Q (cwt_rooted c p v St W Hm) Hm Ow) as (_ & Rt' & Hm' & Ow').
  exists es, rest, evs, s1. split; [now apply decodes_reads|]. split; [exact T|]. split; [now apply raises_heard|].
  assert (Own : own_place n' v').
  { destruct Z as [(_ & _ & _ & _ & ->)|[(_ & e & w & ev & _ & Eh & _)|(_ & _ & _ & -> & _)]]; try exact Ow'.
    destruct (handle_home _ _ _ _ _ _ _ _ St Rt' Hm' Ow' Eh) as (L & _). destruct Ow' as [A B]. split; [intros q x h X Y; specialize (A q x h X Y); lia|exact B]. }
  split; [|split; [exact W'|split; [exact Hm'|split; [exact Own|split; [symmetry; exact (c_replay_cut c bs es rest D _ _ Ha)|]]]]].
  2:{ intros ->. destruct Z as [(F & _)|[(_ & e & w & ev & En & _)|(_ & Ne & _ & _ & _ & ->)]]; [discriminate F| |].
      - unfold c_next in En. destruct (c_nested rest) as [[sub r]| | |] eqn:Nst; cbn [bind] in En; try discriminate En. destruct (c_deser cEntry sub) as [[x y]| | |]; cbn [bind] in En; try discriminate En.
        destruct (c_entry x); cbn [bind] in En; try discriminate En. injection En as _ <-. exact (nested_taken _ _ _ Nst).
      - destruct (c_nested rest) as [[sub r]| | |] eqn:Nst; [exact (nested_taken _ _ _ Nst)|..]; unfold c_unread; destruct (c_unsigned rest) as [[k r]| | |] eqn:U;
          try exact (unsigned_taken _ _ _ U); exists rest; (split; [exact Ne|now rewrite app_nil_r]). }
  destruct Z as [(-> & -> & -> & -> & _)|[(-> & e & w & ev & En & Eh & Rs)|(-> & Ne & -> & _ & X & ->)]]; [now left|right; left|right; right].
  - split; [reflexivity|]. exists e, ev, w. split; [apply decodes_reads; econstructor; [exact En|constructor]|].
    assert (Dr : forall b, e <> EUpdate [] b).
    { intros b ->. cbn in Eh. destruct (o_deser _ _ _ _) as [[[x r] m]| | |]; discriminate Eh. }
    split; [eapply handle_fits; eassumption|]. destruct (handle_tells _ _ _ _ _ _ _ Dr Eh) as [(F & _)|(ev' & F & Te & _)]; [discriminate F|]. injection F as <-.
    split; [exact Te|]. split; [rewrite <- (handle_erase c e v' n1 G St W'), Eh; reflexivity|]. now apply raise_throws.
  - split; [reflexivity|]. split; [exact Ne|]. split; [reflexivity|]. split; [intros e rest' Rd; apply (X e rest'), reads_next, Rd|]. intros sub rest' ->. reflexivity.
Qed.
Print Assumptions c79_stops.

(** If no handler throws, the objects become what C62 to C64 say, and the handlers hear all events. *)
Theorem c79_calm : forall H (subs : list (handler H)) c v n s bs v' n' evs o, (forall f s ev, In f subs -> snd (f s ev) = false) ->
  o_replay c v n bs = ((v', n', evs), o) -> exists s' unread, heard subs s evs s' /\ t_replay subs c v n s bs = ((v', n', s'), unread, o).
Proof.
  intros H subs c v n s bs v' n' evs o Q E. unfold o_replay, run in E. pose proof (t_loop_quiet subs c Q (length bs) v n s [] bs) as X. cbn [raises fst] in X. unfold t_replay.
  destruct (t_loop subs (length bs) c v n s bs) as [[w l] o1]. destruct (loop _ _ _ _) as [[[v1 n1] evs1] o2]. destruct X as [-> ->]. injection E as -> -> -> <-.
  exists (fst (raises subs s evs)), l. split; [|reflexivity]. apply raises_heard. pose proof (raises_quiet subs s evs Q) as R. destruct (raises subs s evs) as [s2 []]; [discriminate R|reflexivity].
Qed.
Print Assumptions c79_calm.

(** So a C# client that replays what a Rust program has logged, and starts again at the entry at which a
    handler threw, ends with the contents that the Rust state has. *)
Theorem c79_converge : forall H (subs : list (handler H)) m m' t c lg p v w n s cs,
  ty_ok t = true -> state_ty t = true -> prim_under t = false -> cls t c = true -> cls_ok c = true ->
  wt t v = true -> placed (mkRt lg Root) t v -> cwt c (erase w) = true -> looks v (erase w) = true -> at_home p w -> own_place n w -> legal m t v cs ->
  exists v' evs rets b, exec m t v cs = (v', (evs, Ok rets)) /\ feeds m lg (rl_new []) evs = Ok (mkRL b 0) /\
    (Forall cfits (map fst b) -> exists bs b', buf_bytes m' b = Ok (bs, b') /\
       forall w1 n1 s1 unread o, t_replay subs c w n s bs = ((w1, n1, s1), unread, o) ->
       exists done rest, bs = done ++ rest /\ (o = Ok tt -> rest = []) /\
         forall H2 (subs2 : list (handler H2)) s2, (forall f s ev, In f subs2 -> snd (f s ev) = false) ->
         exists w2 n2 s3 unread2, t_replay subs2 c w1 n1 s2 rest = ((w2, n2, s3), unread2, Ok tt) /\ looks v' (erase w2) = true).
Proof.
  intros H subs m m' t c lg p v w n s cs O S P C K W Pl Cw Lk Hm Ow Lg.
  destruct (c45_converge m m' t c lg v (erase w) cs O S C K W Pl Lk Lg) as (v' & evs & rets & b & E & _ & F & Z).
  exists v', evs, rets, b. split; [exact E|]. split; [exact F|]. intros Fi. destruct (Z Fi) as (bs & b' & w' & Eb & R & Lk'). exists bs, b'. split; [exact Eb|].
  intros w1 n1 s1 unread o T. pose proof (cls_cgen t c O C) as G. pose proof (cls_state t c S C P) as St.
  destruct (c79_stops H subs t c p w n s bs w1 n1 s1 unread o O S P C Cw Hm Ow T) as (es & rest & evs1 & s4 & Rd & _ & _ & X & W1 & _ & _ & Re & _).
  assert (exists done, bs = done ++ rest) as [done Ed].
  { clear -Rd. induction Rd as [|bs sub rest e x rest' es bs' Nst _ _ _ [d ->]]; [now exists []|]. destruct (nested_taken _ _ _ Nst) as (d' & _ & ->). exists (d' ++ d). now rewrite <- app_assoc. }
  exists done, rest. split; [exact Ed|]. split.
  { intros ->. destruct X as [(_ & -> & _)|[(F1 & _)|(F1 & _)]]; [reflexivity|discriminate F1..]. }
  intros H2 subs2 s2 Q. rewrite R, (replay_erase c w1 n1 rest G St W1) in Re. destruct (o_replay c w1 n1 rest) as [[[w2 n2] evs2] o2] eqn:Er. injection Re as Re ->.
  destruct (c79_calm H2 subs2 c w1 n1 s2 rest _ _ _ _ Q Er) as (s3 & un2 & _ & T2). exists w2, n2, s3, un2. split; [exact T2|]. cbn in Re. now rewrite Re.
Qed.
Print Assumptions c79_converge.

(** Going on with the same reader instead passes over the entry: nothing is reported, and the object has
    other contents than without the exception. *)
Definition fussy : handler (list N) := fun s ev => (s ++ [0], match ev with EvField _ 1 _ _ => true | _ => false end).
Definition noting (k : N) : handler (list N) := fun s ev => (s ++ [k], false).
Theorem c79_same_reader_refuted : exists H (subs : list (handler H)) c v n s bs v1 n1 s1 unread v2 n2 s2 v3 n3 evs,
  cwt c (erase v) = true /\ at_home [] v /\ own_place n v /\ t_replay subs c v n s bs = ((v1, n1, s1), unread, Panic) /\
  t_replay subs c v1 n1 s1 unread = ((v2, n2, s2), [], Ok tt) /\ o_replay c v n bs = ((v3, n3, evs), Ok tt) /\ erase v2 <> erase v3.
Proof.
  destruct (c62_new cGame [] 0 _ _ eq_refl) as [Hm Ow]. destruct (o_replay cGame (OStruct (0, []) [(0, OList (1, [0]) []); (1, OMap (2, [1]) []); (2, OBool false)]) 3 (firstn 35 stream)) as [[[v3 n3] evs] o] eqn:R.
  exists (list N), [fussy], cGame, (OStruct (0, []) [(0, OList (1, [0]) []); (1, OMap (2, [1]) []); (2, OBool false)]), 3, [], (firstn 35 stream). do 7 eexists. exists v3, n3, evs.
  vm_compute in R. injection R as <- <- <- <-.
  split; [reflexivity|]. split; [exact Hm|]. split; [exact Ow|]. split; [vm_compute; reflexivity|]. split; [vm_compute; reflexivity|]. split; [vm_compute; reflexivity|]. discriminate.
Qed.
Print Assumptions c79_same_reader_refuted.

(** The second entry of the log of C62, an update of the item pushed by the first, meets a handler (0)
    that throws: the one that subscribed before it (1) has been told of both events, the one after it (2) of
    one.  Started again behind the 13 bytes of the first entry, with others listening, the client gets
    to the end. *)
Example c79_case :
  (do (v, n) <- o_new cGame [] 0;
   let '((v1, n1, s1), unread, o) := t_replay [noting 1; fussy; noting 2] cGame v n [] (firstn 35 stream) in
   let '((v2, _, s2), unread2, o2) := t_replay [noting 3] cGame v1 n1 [] (skipn 13 (firstn 35 stream)) in
   Ok (erase v1, s1, o, unread, (erase v2, s2, o2, unread2))) =
  Ok (CVStruct [(0, CVList [CVStruct [(0, CVInt 1); (1, CVInt 2); (2, CVInt 3)]]); (1, CVMap []); (2, CVBool false)],
      [1; 0; 2; 1; 0], Panic, [10; 0; 2; 2; 1; 5; 10; 3; 1; 2; 0],
      (CVStruct [(0, CVList [CVStruct [(0, CVInt 1); (1, CVInt 7); (2, CVInt 3)]]);
                 (1, CVMap [(5, CVEnum 1 [(0, CVStruct [(0, CVInt 0); (1, CVInt 0); (2, CVInt 0)])])]); (2, CVBool false)],
       [3; 3], Ok tt, [])).
Proof. vm_compute. reflexivity. Qed.
