(** What the collection of messages visits. *)
From Verif Require Import Base Varint WireFmt Types Meta.
From Coq Require String.
Local Open Scope N_scope.

Lemma tmeta_ind' (P : tmeta -> Prop) :
  (forall n w, P (MPrim n w)) -> (forall n l, Forall P l -> P (MRef n l)) -> (forall s, P (MParam s)) ->
  forall t, P t.
Proof.
  intros H1 H2 H3. fix IH 1. intros [n w|n l|s]; [apply H1| |apply H3]. apply H2.
  induction l as [|x l IHl]; constructor; [apply IH|exact IHl].
Qed.

Lemma nmeta_eqb_spec a b : nmeta_eqb a b = true <-> a = b.
Proof.
  destruct a as [r c], b as [r' c']. unfold nmeta_eqb. cbn [n_rust n_csharp]. rewrite andb_true_iff, String.eqb_eq.
  split.
  - intros [-> H]. destruct c, c'; cbn in H; try discriminate; [|reflexivity].
    apply String.eqb_eq in H. now subst.
  - intros E. inversion E; subst. split; [reflexivity|]. destruct c'; cbn; [apply String.eqb_refl|reflexivity].
Qed.
Lemma wtype_eqb_spec a b : wtype_eqb a b = true <-> a = b.
Proof. destruct a, b; cbn; split; congruence. Qed.
Lemma tmeta_eqb_spec a : forall b, tmeta_eqb a b = true <-> a = b.
Proof.
  induction a as [n w|n l IH|s] using tmeta_ind'; intros [n' w'|n' l'|s']; cbn [tmeta_eqb];
    try (split; [discriminate|discriminate]).
  - rewrite andb_true_iff, nmeta_eqb_spec, wtype_eqb_spec. split; [intros [-> ->]; reflexivity|intros E; inversion E; auto].
  - rewrite andb_true_iff, nmeta_eqb_spec.
    assert (H : forall l', (fix go l l' := match l, l' with
       | [], [] => true | x :: l, x' :: l' => tmeta_eqb x x' && go l l' | _, _ => false end) l l' = true <-> l = l').
    { clear l'. induction IH as [|x l Hx _ IHl]; intros [|x' l']; try (split; [discriminate|discriminate]); [split; reflexivity|].
      rewrite andb_true_iff, Hx, IHl. split; [intros [-> ->]; reflexivity|intros E; inversion E; auto]. }
    rewrite H. split; [intros [-> ->]; reflexivity|intros E; inversion E; auto].
  - rewrite String.eqb_eq. split; [now intros ->|intros E; now inversion E].
Qed.
Lemma tmem_spec t l : tmem t l = true <-> In t l.
Proof.
  unfold tmem. rewrite existsb_exists. split.
  - intros (x & H & E). apply tmeta_eqb_spec in E. now subst.
  - intros H. exists t. split; [exact H|now apply tmeta_eqb_spec].
Qed.
Lemma str_mem_spec s l : str_mem s l = true <-> In s l.
Proof.
  unfold str_mem. rewrite existsb_exists. split.
  - intros (x & H & E). apply String.eqb_eq in E. now subst.
  - intros H. exists s. split; [exact H|apply String.eqb_refl].
Qed.

Definition has_name (s : string) (l : list (string * message)) : Prop := In s (map fst l).
Lemma or_insert_has name m l : has_name name (or_insert name m l).
Proof.
  unfold or_insert, has_name. destruct (str_mem name (map fst l)) eqn:E; [now apply str_mem_spec|].
  rewrite map_app, in_app_iff. cbn. auto.
Qed.
Lemma or_insert_keeps name m l p : In p l -> In p (or_insert name m l).
Proof. unfold or_insert. destruct (str_mem name (map fst l)); [auto|]. rewrite in_app_iff. auto. Qed.
Lemma or_insert_inv name m l p : In p (or_insert name m l) -> In p l \/ p = (name, m).
Proof. unfold or_insert. destruct (str_mem name (map fst l)); [auto|]. rewrite in_app_iff. cbn. intuition. Qed.
Lemma or_insert_nodup name m l : NoDup (map fst l) -> NoDup (map fst (or_insert name m l)).
Proof.
  intros H. unfold or_insert. destruct (str_mem name (map fst l)) eqn:E; [exact H|].
  rewrite map_app. cbn. assert (N : ~ In name (map fst l)). { rewrite <- str_mem_spec. now rewrite E. }
  revert N H. clear E. induction (map fst l) as [|x q IH]; cbn; intros N H; [constructor; [auto|constructor]|].
  inversion H; subst. constructor; [|apply IH; [intros Z; apply N; auto|assumption]].
  rewrite in_app_iff. cbn. intros [Z|[Z|[]]]; [auto|]. subst. apply N. auto.
Qed.

Section Links.
  Variable link : Type.
  Variable l_type : link -> tmeta.
  Variable l_msg : link -> option message.
  Variable l_links : link -> list link.
  Variable get_name : message -> string.
  Notation visit := (visit_link link l_type l_msg l_links get_name).
  Notation each := (each_link link).

  (** Paths from a root: the links passed before the last one. *)
  Inductive walk (root : link) : list link -> link -> Prop :=
  | walk_root : walk root [] root
  | walk_step p l c : walk root p l -> In c (l_links l) -> walk root (l :: p) c.
  Definition reachable (root l : link) : Prop := exists p, walk root p l.

  Definition le_st (a b : collected) : Prop :=
    incl (fst a) (fst b) /\ incl (snd a) (snd b).
  Lemma le_refl a : le_st a a.
  Proof. split; apply incl_refl. Qed.
  Lemma le_trans a b c : le_st a b -> le_st b c -> le_st a c.
  Proof. intros [A B] [C D]. split; eapply incl_tran; eauto. Qed.

  Definition add_msg (l : link) (msgs : list (string * message)) : list (string * message) :=
    match l_msg l with Some m => or_insert (get_name m) m msgs | None => msgs end.

  Lemma visit_S f l seen msgs : visit (S f) l (seen, msgs) =
    if tmem (l_type l) seen then Ok (seen, add_msg l msgs)
    else each (visit f) (l_links l) (l_type l :: seen, add_msg l msgs).
  Proof. reflexivity. Qed.

  Lemma add_msg_incl l msgs : incl msgs (add_msg l msgs).
  Proof. unfold add_msg. intros p H. destruct (l_msg l); [now apply or_insert_keeps|exact H]. Qed.

  Lemma visit_le f : forall l st st', visit f l st = Ok st' -> le_st st st'.
  Proof.
    induction f as [|f IH]; intros l [seen msgs] st'; [discriminate|].
    rewrite visit_S. destruct (tmem (l_type l) seen).
    - intros E. inversion E; subst. split; [apply incl_refl|apply add_msg_incl].
    - assert (H : forall ls st st', each (visit f) ls st = Ok st' -> le_st st st').
      { induction ls as [|c ls IHl]; intros st st2; cbn [each_link]; [intros E; inversion E; apply le_refl|].
        destruct (visit f c st) as [st1| | |] eqn:E; cbn; try discriminate. intros E2.
        eapply le_trans; [eapply IH, E|eapply IHl, E2]. }
      intros E. apply H in E. eapply le_trans; [|exact E]. split; cbn; [apply incl_tl, incl_refl|apply add_msg_incl].
  Qed.
  Lemma each_le f ls : forall st st', each (visit f) ls st = Ok st' -> le_st st st'.
  Proof.
    induction ls as [|c ls IHl]; intros st st2; cbn [each_link]; [intros E; inversion E; apply le_refl|].
    destruct (visit f c st) as [st1| | |] eqn:E; cbn; try discriminate. intros E2.
    eapply le_trans; [eapply visit_le, E|eapply IHl, E2].
  Qed.

  (** Termination: with more fuel than there are descriptions the recursion ends. *)
  Section Term.
    Variable root : link.
    Variable L : list tmeta.
    Hypothesis HL : forall l, reachable root l -> In (l_type l) L.

    (** Descriptions not seen yet. *)
    Definition fresh (seen : list tmeta) : list tmeta := filter (fun t => negb (tmem t seen)) L.
    Lemma fresh_incl seen seen' : incl seen seen' -> (length (fresh seen') <= length (fresh seen))%nat.
    Proof.
      intros H. unfold fresh. clear HL. induction L as [|t L' IH]; cbn; [lia|].
      destruct (tmem t seen) eqn:E.
      - assert (tmem t seen' = true) as -> by (apply tmem_spec, H, tmem_spec, E). cbn. exact IH.
      - destruct (tmem t seen'); cbn; lia.
    Qed.
    Lemma fresh_lt t seen : In t L -> tmem t seen = false -> (length (fresh (t :: seen)) < length (fresh seen))%nat.
    Proof.
      intros H E. unfold fresh. clear HL. induction L as [|u L' IH]; [destruct H|]. cbn [filter].
      assert (Hle : (length (filter (fun t0 => negb (tmem t0 (t :: seen))) L') <=
                     length (filter (fun t0 => negb (tmem t0 seen)) L'))%nat).
      { clear IH H. induction L' as [|w L' IH]; cbn [filter]; [lia|].
        destruct (tmem w seen) eqn:Ew.
        - assert (tmem w (t :: seen) = true) as -> by (apply tmem_spec; right; now apply tmem_spec). cbn [negb]. exact IH.
        - destruct (tmem w (t :: seen)); cbn [negb length]; lia. }
      destruct H as [<-|H].
      - rewrite E. assert (tmem u (u :: seen) = true) as -> by (apply tmem_spec; now left). cbn [negb length]. lia.
      - specialize (IH H). destruct (tmem u seen) eqn:Eu.
        + assert (tmem u (t :: seen) = true) as -> by (apply tmem_spec; right; now apply tmem_spec). cbn [negb]. exact IH.
        + destruct (tmem u (t :: seen)); cbn [negb length]; lia.
    Qed.

    Lemma visit_total f : forall l st, reachable root l -> (length (fresh (fst st)) < f)%nat ->
      exists st', visit f l st = Ok st'.
    Proof.
      induction f as [|f IH]; intros l [seen msgs] R Lf; [lia|]. rewrite visit_S.
      destruct (tmem (l_type l) seen) eqn:E; [eauto|].
      pose proof (fresh_lt _ _ (HL l R) E) as Hlt. cbn [fst] in Lf.
      assert (H : forall ls st, incl ls (l_links l) -> (length (fresh (fst st)) < f)%nat ->
                exists st', each (visit f) ls st = Ok st').
      { induction ls as [|c ls IHl]; intros st I Ls; cbn [each_link]; [eauto|].
        assert (Rc : reachable root c).
        { destruct R as [p W]. exists (l :: p). econstructor; [exact W|]. apply I. now left. }
        destruct (IH c st Rc Ls) as [st1 E1]. rewrite E1. cbn [bind].
        apply IHl; [intros x Hx; apply I; now right|]. apply visit_le in E1. destruct E1 as [Hi _].
        pose proof (fresh_incl _ _ Hi). lia. }
      apply H; [apply incl_refl|]. cbn [fst]. lia.
    Qed.
  End Term.

  (** More fuel changes nothing. *)
  Lemma visit_fuel f : forall l st st' g, visit f l st = Ok st' -> (f <= g)%nat -> visit g l st = Ok st'.
  Proof.
    induction f as [|f IH]; intros l [seen msgs] st' [|g]; try discriminate; [lia|].
    rewrite !visit_S. destruct (tmem (l_type l) seen); [auto|]. intros H Lg.
    revert H. generalize (l_type l :: seen, add_msg l msgs).
    induction (l_links l) as [|c ls IHl]; intros st; cbn [each_link]; [auto|].
    destruct (visit f c st) as [st1| | |] eqn:E1; cbn [bind]; try discriminate.
    rewrite (IH c st st1 g E1) by lia. cbn [bind]. apply IHl.
  Qed.

  (** Only messages of reachable links are collected, each under its name, each name once. *)
  Definition sound (root : link) (st : collected) : Prop :=
    (forall n m, In (n, m) (snd st) -> exists l, reachable root l /\ l_msg l = Some m /\ n = get_name m) /\
    NoDup (map fst (snd st)).
  Lemma add_msg_sound root l seen seen' msgs : reachable root l -> sound root (seen, msgs) -> sound root (seen', add_msg l msgs).
  Proof.
    intros R [A B]. unfold add_msg. destruct (l_msg l) as [m|] eqn:E; [|split; assumption].
    split; cbn [snd] in *; [|now apply or_insert_nodup].
    intros n m' H. apply or_insert_inv in H. destruct H as [H|H]; [now apply A|]. inversion H; subst. eauto.
  Qed.
  Lemma visit_sound root f : forall l st st', reachable root l -> sound root st -> visit f l st = Ok st' -> sound root st'.
  Proof.
    induction f as [|f IH]; intros l [seen msgs] st' R H; [discriminate|].
    rewrite visit_S. destruct (tmem (l_type l) seen).
    - intros E. inversion E; subst. eapply add_msg_sound; eauto.
    - assert (G : forall ls st st', incl ls (l_links l) -> sound root st -> each (visit f) ls st = Ok st' -> sound root st').
      { induction ls as [|c ls IHl]; intros st st2 I Hs; cbn [each_link]; [intros E; now inversion E; subst|].
        destruct (visit f c st) as [st1| | |] eqn:E; cbn; try discriminate. intros E2.
        eapply IHl; [intros x Hx; apply I; now right| |exact E2]. eapply IH; [| |exact E]; auto.
        destruct R as [p W]. exists (l :: p). econstructor; [exact W|]. apply I. now left. }
      apply G; [apply incl_refl|]. eapply add_msg_sound; eauto.
  Qed.

  (** Coverage.  [full l]: a link with the messages and links of its type; the others only lead to one. *)
  Section Cover.
    Variable root : link.
    Variable full : link -> Prop.
    Hypothesis full_dec : forall l, full l \/ ~ full l.
    Hypothesis not_full_msg : forall l, ~ full l -> l_msg l = None.
    Hypothesis not_full_links : forall l c, ~ full l -> In c (l_links l) -> l_type c = l_type l.
    Hypothesis full_same : forall l l', reachable root l -> reachable root l' -> full l -> full l' -> l_type l = l_type l' ->
      (forall m, l_msg l = Some m -> exists m', l_msg l' = Some m' /\ get_name m' = get_name m) /\
      (forall c, In c (l_links l) -> exists c', In c' (l_links l') /\ l_type c' = l_type c).
    Hypothesis dominated : forall p l, walk root p l -> ~ full l ->
      exists u, In u p /\ full u /\ l_type u = l_type l.

    Definition named (l : link) (st : collected) : Prop :=
      match l_msg l with Some m => has_name (get_name m) (snd st) | None => True end.
    Definition expanded (t : tmeta) (st : collected) : Prop :=
      exists u, reachable root u /\ full u /\ l_type u = t /\ named u st /\
                forall c, In c (l_links u) -> In (l_type c) (fst st).
    Lemma named_le l a b : le_st a b -> named l a -> named l b.
    Proof.
      intros [_ H]. unfold named. destruct (l_msg l); [|auto]. unfold has_name. rewrite !in_map_iff.
      intros (p & E & I). exists p. auto.
    Qed.
    Lemma expanded_le t a b : le_st a b -> expanded t a -> expanded t b.
    Proof.
      intros H (u & R & F & E & N & C). exists u. repeat split; auto; [eapply named_le; eauto|].
      intros c Hc. apply H. now apply C.
    Qed.
    Lemma add_msg_named l seen msgs : named l (seen, add_msg l msgs).
    Proof. unfold named, add_msg. destruct (l_msg l); [apply or_insert_has|exact I]. Qed.

    Lemma visit_cover f : forall l p st st', walk root p l ->
      (forall u, In u p -> In (l_type u) (fst st)) -> visit f l st = Ok st' ->
      In (l_type l) (fst st') /\
      forall t, In t (fst st') -> In t (fst st) \/ expanded t st'.
    Proof.
      induction f as [|f IH]; intros l p [seen msgs] st' W P; [discriminate|]. rewrite visit_S.
      destruct (tmem (l_type l) seen) eqn:E.
      - intros X. inversion X; subst. cbn [fst]. split; [now apply tmem_spec|auto].
      - intros X. assert (F : full l).
        { destruct (full_dec l) as [F|F]; [exact F|exfalso]. destruct (dominated p l W F) as (u & Hu & _ & Et).
          specialize (P u Hu). rewrite Et in P. cbn in P. apply tmem_spec in P. congruence. }
        assert (G : forall ls st st', incl ls (l_links l) ->
                  (forall u, In u (l :: p) -> In (l_type u) (fst st)) -> each (visit f) ls st = Ok st' ->
                  (forall c, In c ls -> In (l_type c) (fst st')) /\
                  forall t, In t (fst st') -> In t (fst st) \/ expanded t st').
        { clear X. induction ls as [|c ls IHl]; intros st st2 I0 Ps; cbn [each_link].
          - intros X. inversion X; subst. split; [intros c []|auto].
          - destruct (visit f c st) as [st1| | |] eqn:E1; cbn; try discriminate. intros E2.
            assert (Wc : walk root (l :: p) c) by (econstructor; [exact W|apply I0; now left]).
            pose proof (visit_le _ _ _ _ E1) as L1. pose proof (each_le _ _ _ _ E2) as L2.
            destruct (IH c (l :: p) st st1 Wc Ps E1) as [A1 B1].
            destruct (IHl st1 st2) as [A2 B2]; auto;
              [intros x Hx; apply I0; now right|intros u Hu; apply L1; now apply Ps|].
            split.
            + intros x [<-|Hx]; [now apply L2|now apply A2].
            + intros t Ht. destruct (B2 t Ht) as [H|H]; [|auto].
              destruct (B1 t H) as [H'|H']; [auto|]. right. eapply expanded_le; eauto. }
        assert (Q : forall u, In u (l :: p) -> In (l_type u) (fst (l_type l :: seen, add_msg l msgs))).
        { intros u [<-|Hu]; cbn; [now left|right; now apply P]. }
        destruct (G (l_links l) _ _ (incl_refl _) Q X) as [A B].
        pose proof (each_le _ _ _ _ X) as Lx.
        split; [apply Lx; now left|]. intros t Ht. destruct (B t Ht) as [[<-|H]|H]; auto.
        right. exists l. repeat split; auto; [now exists p|]. eapply named_le; [exact Lx|]. apply add_msg_named.
    Qed.

    Theorem cover f st : visit f root ([], []) = Ok st ->
      forall l, reachable root l -> In (l_type l) (fst st) /\ named l st.
    Proof.
      intros E. destruct (visit_cover f root [] ([], []) st (walk_root root)) as [A B]; [intros u []|exact E|].
      assert (K : forall l, reachable root l -> In (l_type l) (fst st)).
      { intros l [p W]. induction W as [|p l c W IH Hc]; [exact A|].
        destruct (B _ IH) as [[]|(u & Ru & Fu & Eu & Nu & Cu)].
        destruct (full_dec l) as [F|F].
        - destruct (full_same l u) as [_ Hs]; auto; [now exists p|]. destruct (Hs c Hc) as (c' & Hc' & Ec).
          rewrite <- Ec. now apply Cu.
        - now rewrite (not_full_links l c F Hc). }
      intros l R. split; [now apply K|]. destruct (full_dec l) as [F|F].
      - destruct (B _ (K l R)) as [[]|(u & Ru & Fu & Eu & Nu & Cu)].
        destruct (full_same l u) as [Hm _]; auto. unfold named in *. destruct (l_msg l) as [m|]; [|exact I].
        destruct (Hm m eq_refl) as (m' & Em & En). rewrite Em in Nu. now rewrite En in Nu.
      - unfold named. now rewrite (not_full_msg l F).
    Qed.
  End Cover.
End Links.

(** ** Links of Rust types *)

Lemma rty_ind' (P : rty -> Prop) :
  (forall k, P (RInt k)) -> P RBool -> P RStr -> P RBytes ->
  (forall t, P t -> P (ROpt t)) -> (forall t, P t -> P (RVec t)) -> (forall n t, P t -> P (RArr n t)) ->
  (forall t, P t -> P (RList t)) -> (forall k t, P t -> P (RMap k t)) -> (forall t, P t -> P (RBox t)) ->
  (forall d l, Forall P l -> P (RUser d l)) -> (forall i, P (RVar i)) -> (forall t, P t -> P (RAlias t)) ->
  forall t, P t.
Proof.
  intros H1 H2 H3 H4 H5 H6 H7 H8 H9 H10 H11 H12 H13. fix IH 1. intros [k| | | |t|t|n t|t|k t|t|d l|i|t];
    [apply H1|apply H2|apply H3|apply H4|apply H5, IH|apply H6, IH|apply H7, IH|apply H8, IH|apply H9, IH
    |apply H10, IH| |apply H12|apply H13, IH].
  apply H11. induction l as [|x l IHl]; constructor; [apply IH|exact IHl].
Qed.

(** The type behind aliases. *)
Fixpoint real (t : rty) : rty := match t with RAlias t => real t | _ => t end.
Definition boxed (t : rty) : Prop := exists u, real t = RBox u.

Lemma real_type e t : type_of e (real t) = type_of e t.
Proof. induction t using rty_ind'; cbn; auto. Qed.
Lemma real_msg e t : msg_of e (real t) = msg_of e t.
Proof. induction t using rty_ind'; cbn; auto. Qed.
Lemma real_links e t : links_of e (real t) = links_of e t.
Proof. induction t using rty_ind'; cbn; auto. Qed.
Lemma real_not_alias t u : real t <> RAlias u.
Proof. induction t using rty_ind'; cbn; auto; discriminate. Qed.

Lemma subst_type e args args' t : map (type_of e) args = map (type_of e) args' ->
  type_of e (subst args t) = type_of e (subst args' t).
Proof.
  intros H. induction t as [| | | |t IH|t IH|n t IH|t IH|k t IH|t IH|d l IH|i|t IH] using rty_ind';
    cbn [subst type_of]; try reflexivity; try (now rewrite IH); try exact IH.
  - f_equal. rewrite !map_map. induction IH as [|x l Hx _ IHl]; cbn; [reflexivity|now rewrite Hx, IHl].
  - rewrite <- !(map_nth (type_of e)). now rewrite H.
Qed.

(** Declared names are not empty, differ from each other and from the names of the built-in types. *)
Definition built_in_names : list nmeta := [bytes_name; opt_name; vec_name; list_name; map_name].
Definition names_ok (e : env) : Prop :=
  NoDup (map d_name (no_decl :: e)) /\ forall n, In n built_in_names -> ~ In n (map d_name (no_decl :: e)).

Lemma decl_of_in e d : In (decl_of e d) (no_decl :: e).
Proof. unfold decl_of. destruct (nth_in_or_default d e no_decl) as [H| ->]; [now right|now left]. Qed.
Lemma NoDup_map_eq {A B} (f : A -> B) l x y : NoDup (map f l) -> In x l -> In y l -> f x = f y -> x = y.
Proof.
  induction l as [|a l IH]; cbn; [contradiction|]. intros H. inversion H; subst.
  intros [<-|Hx] [<-|Hy] E; auto.
  - exfalso. apply H2. rewrite E. now apply in_map.
  - exfalso. apply H2. rewrite <- E. now apply in_map.
Qed.
Lemma names_inj e d d' : names_ok e -> d_name (decl_of e d) = d_name (decl_of e d') -> decl_of e d = decl_of e d'.
Proof. intros [H _]. apply NoDup_map_eq with (1 := H); apply decl_of_in. Qed.
Lemma names_user e d n : names_ok e -> In n built_in_names -> d_name (decl_of e d) <> n.
Proof. intros [_ H] I E. apply (H n I). rewrite <- E. apply in_map, decl_of_in. Qed.

Lemma same_type e l l' : names_ok e -> ~ boxed l -> ~ boxed l' -> type_of e l = type_of e l' ->
  msg_of e l = msg_of e l' /\ map (type_of e) (links_of e l) = map (type_of e) (links_of e l').
Proof.
  intros Hn B B'. rewrite <- (real_type e l), <- (real_type e l'), <- (real_msg e l), <- (real_msg e l'),
    <- (real_links e l), <- (real_links e l').
  assert (N : forall u, real l <> RBox u) by (intros u E; apply B; now exists u).
  assert (N' : forall u, real l' <> RBox u) by (intros u E; apply B'; now exists u).
  pose proof (real_not_alias l) as A. pose proof (real_not_alias l') as A'.
  assert (U : forall d n, In n built_in_names -> d_name (decl_of e d) <> n) by (intros d n; now apply names_user).
  pose proof (fun d => U d bytes_name ltac:(cbn; tauto)) as U1. pose proof (fun d => U d opt_name ltac:(cbn; tauto)) as U2.
  pose proof (fun d => U d vec_name ltac:(cbn; tauto)) as U3. pose proof (fun d => U d list_name ltac:(cbn; tauto)) as U4.
  pose proof (fun d => U d map_name ltac:(cbn; tauto)) as U5. clear U B B'.
  destruct (real l) as [k| | | |t|t|n t|t|k t|t|d a|i|t], (real l') as [k'| | | |t'|t'|n' t'|t'|k' t'|t'|d' a'|i'|t'];
    try (exfalso; now apply (N _ eq_refl)); try (exfalso; now apply (N' _ eq_refl));
    try (exfalso; now apply (A _ eq_refl)); try (exfalso; now apply (A' _ eq_refl));
    cbn [type_of]; intros E; try discriminate E;
    try (exfalso; injection E as E1; congruence);
    try (exfalso; injection E as E1 E2; congruence);
    try (split; [reflexivity|cbn; congruence]).
  injection E as E1 E2. pose proof (names_inj e d d' Hn E1) as Ed. cbn [msg_of links_of]. rewrite Ed. split; [reflexivity|].
  rewrite !map_map. apply map_ext. intros f. now apply subst_type.
Qed.
