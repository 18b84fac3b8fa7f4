(** C81: generating into a directory. *)
From Verif Require Import Base Varint WireFmt Types Ser Meta MetaProofs PropMeta Gen Sink SinkProofs GenDir GenGolden GenTests.
From Coq Require Import String Ascii Permutation.
Import String.StringSyntax.
Local Open Scope string_scope.
Local Open Scope list_scope.
Local Open Scope N_scope.

(** The messages for which there is to be a file. *)
Definition wanted (s : gsetting) (n : string) (m : message) : Prop :=
  ~ (is_builtin m = true /\ g_skip_builtins s = true) /\ ~ In n (g_skip s).
(** Files are created and, perhaps in pieces, take everything. *)
Definition willing (a : answer) : Prop := match a with inr ev => room_of ev = None | inl _ => False end.
(** The answer to which a failure is due. *)
Definition fails_with (x : werr) (a : answer) : Prop := match a with inr ev => fault_of ev = Some x | inl y => y = x end.

Lemma write_file_spec text ev r c : write_file text ev = (r, c) ->
  (exists k, c = firstn k text) /\ (8192 <= lenN text -> r = None -> c = text) /\
  (forall x, r = Some x -> fault_of ev = Some x) /\ (room_of ev = None -> r = None /\ c = text).
Proof.
  unfold write_file. pose proof (all_loop_outcome _ text (mkSink ev []) (Nat.le_refl _)) as O. cbn [script] in O.
  destruct (all_loop _ text _) as [q w]. cbn [fst snd] in O. intros [= <- <-].
  destruct O as [(F & -> & E & _ & _)|(k & x & R & L & Fx & -> & E)]; rewrite E; cbn [sent app].
  - split; [exists (List.length text); now rewrite firstn_all|]. split; [auto|]. split; [destruct (_ <? _); discriminate|]. destruct (_ <? _); auto.
  - split; [eauto|]. split.
    { intros B. unfold buf_capacity. destruct (N.ltb_spec (lenN text) 8192); [lia|discriminate]. }
    split; [intros y; destruct (_ <? _); [discriminate|]; intros [= <-]; exact Fx|].
    unfold room in R. cbn [script] in R. intros N. congruence.
Qed.

Lemma file_inj n n' : n +++ ".cs" = n' +++ ".cs" -> n = n'.
Proof.
  revert n'. induction n as [|c n IH]; intros [|c' n'] H; try reflexivity.
  - exfalso. destruct n' as [|a [|b [|d n']]]; cbn in H; try discriminate H; injection H as -> H; try discriminate H; destruct n'; discriminate.
  - exfalso. destruct n as [|a [|b [|d n]]]; cbn in H; try discriminate H; injection H as -> H; try discriminate H; destruct n; discriminate.
  - cbn in H. injection H as -> H. f_equal. auto.
Qed.
Lemma wanted_dec s n m : (is_builtin m && g_skip_builtins s = false -> str_mem n (g_skip s) = false -> wanted s n m) /\
  (is_builtin m && g_skip_builtins s = true -> ~ wanted s n m) /\ (str_mem n (g_skip s) = true -> ~ wanted s n m).
Proof.
  unfold wanted. split; [|split].
  - intros H1 H2. split; [intros [A B]; rewrite A, B in H1; discriminate|]. rewrite <- str_mem_spec, H2. discriminate.
  - intros H1 [A _]. apply andb_true_iff in H1. tauto.
  - intros H [_ A]. apply A, str_mem_spec, H.
Qed.
(** One message. *)
Inductive gstep (s : gsetting) (cs : cssetting) (n : string) (m : message) l a d : resW (list string) * folder -> Prop :=
| g_skip_it : ~ wanted s n m -> gstep s cs n m l a d (gen_dir s cs l a d)
| g_stop r : wanted s n m -> (forall t, gen_text m cs <> Ok t) -> (forall x, r <> IoW x) -> (forall x, r <> OkW x) -> gstep s cs n m l a d (r, d)
| g_refuse t x a' : wanted s n m -> gen_text m cs = Ok t -> next_answer a = (inl x, a') -> gstep s cs n m l a d (IoW x, d)
| g_write t ev a' r c : wanted s n m -> gen_text m cs = Ok t -> next_answer a = (inr ev, a') -> write_file (text_bytes t) ev = (r, c) ->
    gstep s cs n m l a d
      (match r with
       | Some x => (IoW x, set_file (n +++ ".cs") c d)
       | None => match gen_dir s cs l a' (set_file (n +++ ".cs") c d) with (OkW names, d) => (OkW (n :: names), d) | (r, d) => (r, d) end
       end).
Lemma gen_step s cs n m l a d : gstep s cs n m l a d (gen_dir s cs ((n, m) :: l) a d).
Proof.
  cbn [gen_dir]. destruct (wanted_dec s n m) as (W1 & W2 & W3).
  destruct (is_builtin m && g_skip_builtins s); [apply g_skip_it; auto|]. destruct (str_mem n (g_skip s)); [apply g_skip_it; auto|].
  destruct (gen_text m cs) as [t| | |] eqn:T; try (apply g_stop; [auto|congruence|discriminate|discriminate]).
  destruct (next_answer a) as [[x|ev] a'] eqn:A; [eapply g_refuse; eauto|].
  destruct (write_file (text_bytes t) ev) as [r c] eqn:F. eapply g_write; eauto.
Qed.
Lemma next_in a x a' : next_answer a = (x, a') -> (x = inr [] \/ In x a) /\ incl a' a.
Proof. destruct a as [|y a]; cbn; intros [= <- <-]; split; auto using incl_refl. now apply incl_tl, incl_refl. Qed.
Lemma set_same n c d : set_file n c d n = Some c.
Proof. unfold set_file. now rewrite String.eqb_refl. Qed.
Lemma set_other n c d f : f <> n -> set_file n c d f = d f.
Proof. unfold set_file. intros H. apply String.eqb_neq in H. now rewrite H. Qed.

(** Whatever the file system answers: no file is touched but those wanted; those contain what they did
    before or the beginning of their text.  If the call succeeds, it returns the names of the files wanted, and
    the files of at least 8192 bytes are complete.  If it fails, it does so because of an answer of the file
    system; if it panics, because of a message without a text. *)
Theorem c81_any : forall s cs l a d, NoDup (map fst l) ->
  let '(r, d') := gen_dir s cs l a d in
  (forall f, (forall n m, In (n, m) l -> wanted s n m -> f <> n +++ ".cs") -> d' f = d f) /\
  (forall n m, In (n, m) l -> wanted s n m -> d' (n +++ ".cs") = d (n +++ ".cs") \/
     exists t k, gen_text m cs = Ok t /\ d' (n +++ ".cs") = Some (firstn k (text_bytes t))) /\
  match r with
  | OkW names => NoDup names /\ (forall n, In n names <-> exists m, In (n, m) l /\ wanted s n m) /\
      forall n m, In (n, m) l -> wanted s n m -> exists t, gen_text m cs = Ok t /\
        (8192 <= lenN (text_bytes t) -> d' (n +++ ".cs") = Some (text_bytes t))
  | IoW x => exists y, In y a /\ fails_with x y
  | _ => exists n m, In (n, m) l /\ wanted s n m /\ forall t, gen_text m cs <> Ok t
  end.
Proof.
  intros s cs. induction l as [|[n m] l IH]; intros a d Nd.
  { cbn [gen_dir]. split; [auto|]. split; [intros n m []|]. split; [constructor|]. split; [|intros n m []]. intros n. split; [intros []|intros (m & [] & _)]. }
  cbn [map fst] in Nd. inversion Nd as [|? ? Nn Nd']; subst.
  assert (Other : forall n' m', In (n', m') l -> n' +++ ".cs" <> n +++ ".cs").
  { intros n' m' I E. apply file_inj in E. subst n'. apply Nn. exact (in_map fst _ _ I). }
  destruct (gen_step s cs n m l a d) as [Nw|r Wm T Ri Ro|t x a' Wm T A|t ev a' r c Wm T A F].
  - specialize (IH a d Nd'). destruct (gen_dir s cs l a d) as [r d']. destruct IH as (U & P & R). split; [|split].
    + intros f H. apply U. intros n' m' I. apply H. now right.
    + intros n' m' [[= <- <-]|I]; [contradiction|eauto].
    + destruct r as [names|e|x| |].
      * destruct R as (R1 & R2 & R3). split; [exact R1|]. split.
        -- intros n'. rewrite R2. split; intros (m' & I & W'); exists m'; [split; [now right|exact W']|]. destruct I as [[= <- <-]|I]; [contradiction|auto].
        -- intros n' m' [[= <- <-]|I]; [contradiction|eauto].
      * destruct R as (n' & m' & I & R). exists n', m'. split; [now right|exact R].
      * exact R.
      * destruct R as (n' & m' & I & R). exists n', m'. split; [now right|exact R].
      * destruct R as (n' & m' & I & R). exists n', m'. split; [now right|exact R].
  - split; [auto|]. split; [auto|]. destruct r; [now elim (Ro a0)| |now elim (Ri x)| |]; (exists n, m; split; [now left|auto]).
  - split; [auto|]. split; [auto|]. destruct (next_in _ _ _ A) as [[?|I] _]; [discriminate|]. exists (inl x). split; [exact I|reflexivity].
  - destruct (write_file_spec _ _ _ _ F) as ((k & Ck) & C2 & C3 & _). destruct (next_in _ _ _ A) as [An Ai].
    destruct r as [x|].
    + split; [|split].
      * intros f H. apply set_other, (H n m); [now left|exact Wm].
      * intros n' m' [[= <- <-]|I] W'; [right; exists t, k; split; [exact T|now rewrite set_same, Ck]|]. left. apply set_other. eauto.
      * destruct An as [[= ->]|I]; [specialize (C3 _ eq_refl); discriminate|]. exists (inr ev). split; [exact I|]. cbn. auto.
    + specialize (IH a' (set_file (n +++ ".cs") c d) Nd'). destruct (gen_dir s cs l a' _) as [r d']. destruct IH as (U & P & R).
      assert (Dn : d' (n +++ ".cs") = Some c) by (rewrite U, set_same; [reflexivity|]; intros n' m' I _; exact (not_eq_sym (Other _ _ I))).
      assert (G1 : forall f, (forall n0 m0, In (n0, m0) ((n, m) :: l) -> wanted s n0 m0 -> f <> n0 +++ ".cs") -> d' f = d f).
      { intros f H. rewrite U, set_other; [reflexivity| |]; [apply (H n m); [now left|exact Wm]|intros n' m' I; apply H; now right]. }
      assert (G2 : forall n0 m0, In (n0, m0) ((n, m) :: l) -> wanted s n0 m0 -> d' (n0 +++ ".cs") = d (n0 +++ ".cs") \/
          exists t k, gen_text m0 cs = Ok t /\ d' (n0 +++ ".cs") = Some (firstn k (text_bytes t))).
      { intros n' m' [[= <- <-]|I] W'; [right; exists t, k; rewrite Dn, Ck; auto|]. destruct (P n' m' I W') as [E|E]; [|auto].
        left. rewrite E. apply set_other. eauto. }
      destruct r as [names|e|x| |]; (split; [exact G1|split; [exact G2|]]).
      * destruct R as (R1 & R2 & R3). split; [|split].
        -- constructor; [|exact R1]. rewrite R2. intros (m' & I & _). apply Nn. exact (in_map fst _ _ I).
        -- intros n'. cbn [In]. rewrite R2. split.
           ++ intros [<-|(m' & I & W')]; [exists m; auto|exists m'; auto].
           ++ intros (m' & [[= <- <-]|I] & W'); [now left|right; eauto].
        -- intros n' m' [[= <- <-]|I] W'; [|eauto]. exists t. split; [exact T|]. intros B. rewrite Dn. f_equal. auto.
      * destruct R as (n' & m' & I & R). exists n', m'. split; [now right|exact R].
      * destruct R as (y & I & R). exists y. split; [now apply Ai|exact R].
      * destruct R as (n' & m' & I & R). exists n', m'. split; [now right|exact R].
      * destruct R as (n' & m' & I & R). exists n', m'. split; [now right|exact R].
Qed.
Print Assumptions c81_any.

(** A file system that does not fail. *)
Lemma gen_willing : forall s cs l a d, NoDup (map fst l) -> Forall willing a ->
  (forall n m, In (n, m) l -> wanted s n m -> exists t, gen_text m cs = Ok t) ->
  exists names d', gen_dir s cs l a d = (OkW names, d') /\
    forall n m t, In (n, m) l -> wanted s n m -> gen_text m cs = Ok t -> d' (n +++ ".cs") = Some (text_bytes t).
Proof.
  intros s cs. induction l as [|[n m] l IH]; intros a d Nd Fa Ht; [exists [], d; split; [reflexivity|intros n m t []]|].
  cbn [map fst] in Nd. inversion Nd as [|? ? Nn Nd']; subst.
  assert (Ht' : forall n m, In (n, m) l -> wanted s n m -> exists t, gen_text m cs = Ok t) by (intros n' m' I; apply (Ht n' m'); now right).
  destruct (gen_step s cs n m l a d) as [Nw|r Wm T Ri Ro|t x a' Wm T A|t ev a' r c Wm T A F].
  - destruct (IH a d Nd' Fa Ht') as (names & d' & E & K). exists names, d'. split; [exact E|]. intros n' m' t [[= <- <-]|I]; [contradiction|eauto].
  - destruct (Ht n m (or_introl eq_refl) Wm) as [t E]. elim (T t E).
  - destruct (next_in _ _ _ A) as [[?|I] _]; [discriminate|]. rewrite Forall_forall in Fa. elim (Fa _ I).
  - assert (Wi : room_of ev = None).
    { destruct (next_in _ _ _ A) as [[[= ->]|I] _]; [reflexivity|]. rewrite Forall_forall in Fa. exact (Fa _ I). }
    destruct (write_file_spec _ _ _ _ F) as (_ & _ & _ & C). destruct (C Wi) as [-> ->].
    assert (Fa' : Forall willing a').
    { destruct (next_in _ _ _ A) as [_ I]. apply Forall_forall. intros y Y. rewrite Forall_forall in Fa. auto. }
    destruct (IH a' (set_file (n +++ ".cs") (text_bytes t) d) Nd' Fa' Ht') as (names & d' & E & K). rewrite E.
    exists (n :: names), d'. split; [reflexivity|]. intros n' m' t' [[= <- <-]|I] W' T'; [|eauto].
    pose proof (c81_any s cs l a' (set_file (n +++ ".cs") (text_bytes t) d) Nd') as X. rewrite E in X. destruct X as (U & _).
    rewrite U, set_same; [congruence|]. intros n' m' I _ Eq. apply file_inj in Eq. subst n'. apply Nn. exact (in_map fst _ _ I).
Qed.

Lemma all_ok_in {A B} (f : A -> res B) l r : all_ok (map f l) = Ok r -> Forall2 (fun x y => f x = Ok y) l r.
Proof.
  revert r. induction l as [|x l IH]; cbn [map all_ok]; intros r H; [injection H as <-; constructor|].
  destruct (f x) as [y| | |] eqn:E; try discriminate H. cbn [bind] in H. destruct (all_ok (map f l)) as [ys| | |]; try discriminate H.
  cbn [bind] in H. injection H as <-. constructor; auto.
Qed.

(** In whatever order the map yields the messages, the call succeeds and the directory then contains the
    files of [gen_files] (C46, C57, C58) and else what it contained. *)
Theorem c81_files : forall fuel e s cs root msgs files l a d,
  collect_meta fuel e (g_name s) root = Ok msgs -> gen_files fuel e s cs root = Ok files ->
  Permutation msgs l -> Forall willing a ->
  exists names d', gen_dir s cs l a d = (OkW names, d') /\
    Permutation (map (fun n => n +++ ".cs") names) (map fst files) /\
    (forall f t, In (f, t) files -> d' f = Some (text_bytes t)) /\
    (forall f, ~ In f (map fst files) -> d' f = d f).
Proof.
  intros fuel e s cs root msgs files l a d C G Pe Fa. destruct (c46_once _ _ _ _ _ C) as [Nd _].
  assert (Nl : NoDup (map fst l)) by (eapply Permutation_NoDup; [apply Permutation_map, Pe|exact Nd]).
  unfold gen_files in G. pose proof (c46_files fuel e s root msgs C) as W. destruct (generate fuel e s root) as [ms| | |] eqn:Eg; try discriminate G.
  cbn [bind] in G. pose proof (all_ok_in _ _ _ G) as F2. clear G.
  assert (F1 : forall n m, In (n, m) ms -> exists t, gen_text m cs = Ok t /\ In (n +++ ".cs", t) files).
  { intros n m I. clear - F2 I. induction F2 as [|[n' m'] y ms fs Hy F2 IH]; [destruct I|]. cbn [fst snd] in Hy. destruct I as [[= -> ->]|I].
    - destruct (gen_text m cs) as [t| | |]; try discriminate Hy. injection Hy as <-. exists t. split; [reflexivity|now left].
    - destruct (IH I) as (t & E & I'). exists t. split; [exact E|now right]. }
  assert (F3 : forall f t, In (f, t) files -> exists n m, In (n, m) ms /\ gen_text m cs = Ok t /\ f = n +++ ".cs").
  { intros f t I. clear - F2 I. induction F2 as [|[n' m'] y ms fs Hy F2 IH]; [destruct I|]. cbn [fst snd] in Hy. destruct I as [->|I].
    - destruct (gen_text m' cs) as [t'| | |] eqn:E; try discriminate Hy. injection Hy as <- <-. exists n', m'. split; [now left|auto].
    - destruct (IH I) as (n & m & I' & E). exists n, m. split; [now right|exact E]. }
  assert (Inl : forall n m, In (n, m) l /\ wanted s n m <-> In (n, m) ms).
  { intros n m. rewrite W. unfold wanted. split; intros (I & K); (split; [|exact K]); [now apply (Permutation_in _ (Permutation_sym Pe))|now apply (Permutation_in _ Pe)]. }
  destruct (gen_willing s cs l a d Nl Fa) as (names & d' & E & K).
  { intros n m I Wm. destruct (F1 n m) as (t & T & _); [now apply Inl|eauto]. }
  exists names, d'. split; [exact E|]. pose proof (c81_any s cs l a d Nl) as X. rewrite E in X. destruct X as (U & _ & Nn & Ni & _).
  split; [|split].
  - assert (Nf : NoDup (map fst files)).
    { assert (Em : map fst files = map (fun n => n +++ ".cs") (map fst ms)).
      { clear - F2. induction F2 as [|[n' m'] y ms fs Hy F2 IH]; [reflexivity|]. cbn [fst snd map] in *. destruct (gen_text m' cs); try discriminate Hy.
        injection Hy as <-. cbn. now f_equal. }
      rewrite Em. apply FinFun.Injective_map_NoDup; [exact file_inj|]. clear - Eg C Nd. unfold generate in Eg. rewrite C in Eg. cbn [bind] in Eg. clear C. revert ms Eg.
      induction msgs as [|[n m] msgs IH]; cbn [gen_each]; intros ms Eg; [injection Eg as <-; constructor|]. cbn [map fst] in Nd. inversion Nd as [|? ? Nn Nd']; subst.
      destruct (_ && _); [auto|]. destruct (str_mem n (g_skip s)); [auto|]. destruct (gen_ok m); [|discriminate Eg].
      destruct (gen_each s msgs) as [l'| | |] eqn:El; try discriminate Eg. injection Eg as <-. cbn [map fst]. constructor; [|auto].
      intros I. apply Nn. clear - El I. revert l' El I. induction msgs as [|[n' m'] msgs IH]; cbn [gen_each]; intros l' El I; [injection El as <-; destruct I|].
      cbn [map fst]. destruct (_ && _); [right; eauto|]. destruct (str_mem n' (g_skip s)); [right; eauto|]. destruct (gen_ok m'); [|discriminate El].
      destruct (gen_each s msgs) as [l''| | |] eqn:El'; try discriminate El. injection El as <-. destruct I as [<-|I]; [now left|right; eauto]. }
    apply NoDup_Permutation; [apply FinFun.Injective_map_NoDup; [exact file_inj|exact Nn]|exact Nf|].
    intros f. rewrite !in_map_iff. split.
    + intros (n & <- & I). apply Ni in I. destruct I as (m & I). apply Inl in I. destruct (F1 _ _ I) as (t & _ & I'). exists (n +++ ".cs", t). auto.
    + intros ([f' t] & <- & I). destruct (F3 _ _ I) as (n & m & I' & _ & ->). exists n. split; [reflexivity|]. apply Ni. exists m. now apply Inl.
  - intros f t I. destruct (F3 _ _ I) as (n & m & I' & T & ->). apply Inl in I'. destruct I' as [I' Wm]. eauto.
  - intros f Nf. apply U. intros n m I Wm ->. destruct (F1 n m) as (t & _ & I'); [now apply Inl|]. apply Nf. exact (in_map fst _ _ I').
Qed.
Print Assumptions c81_files.

(** Success does not mean that the files are there: an error while the last bytes of a file are written (a
    full disk) is ignored.  Here the file of [Inner] remains empty. *)
Theorem c81_lost_refuted : exists l d', collect_meta 100 test_env csharp_name (RUser dOuter []) = Ok l /\
  gen_dir setting_new (CS "Just.To.Test" []) l [inr []; inr [Full]] (fun _ => None) = (OkW ["Outer"; "Inner"], d') /\
  d' "Outer.cs" = Some (text_bytes golden_Outer) /\ d' "Inner.cs" = Some [].
Proof. do 2 eexists. split; [vm_compute; reflexivity|]. split; [vm_compute; reflexivity|]. vm_compute. split; reflexivity. Qed.
Print Assumptions c81_lost_refuted.

(** The other order, a file that takes its bytes in pieces; an old file that remains, one that is
    replaced; names to be skipped, of which the last call counts.  A file that cannot be created, one of more
    than 8192 bytes that cannot be written. *)
Example c81_case :
  let st := CS "Just.To.Test" [] in
  let old : folder := fun n => if String.eqb n "Notes.txt" then Some [7] else if String.eqb n "Inner.cs" then Some [8] else None in
  match collect_meta 100 test_env csharp_name (RUser dOuter []) with
  | Ok [o; i] =>
      let '(r, d) := gen_dir setting_new st [i; o] [inr [Takes 99; Pauses; Takes 3]] old in
      r = OkW ["Inner"; "Outer"] /\ d "Outer.cs" = Some (text_bytes golden_Outer) /\ d "Inner.cs" = Some (text_bytes golden_Inner) /\
      d "Notes.txt" = Some [7] /\
      fst (gen_dir (skip_names ["Outer"] (skip_names ["Inner"] setting_new)) st [o; i] [] old) = OkW ["Inner"] /\
      (let '(r, d) := gen_dir setting_new st [o; i] [inr []; inl (WriteErr 5)] old in
       r = IoW (WriteErr 5) /\ d "Outer.cs" = Some (text_bytes golden_Outer) /\ d "Inner.cs" = Some [8])
  | _ => False
  end /\
  match collect_meta 100 test_env csharp_name (RUser dLogEntry []) with
  | Ok l => let '(r, d) := gen_dir (skip_builtins false setting_new) (CS "Steit.State" []) l [inr [Takes 1; Breaks 28]] old in
      r = IoW (WriteErr 28) /\ d "LogEntry.cs" = Some (firstn 2 (text_bytes golden_LogEntry)) /\ 8192 <= lenN (text_bytes golden_LogEntry)
  | _ => False
  end.
Proof. vm_compute. repeat split; discriminate. Qed.
