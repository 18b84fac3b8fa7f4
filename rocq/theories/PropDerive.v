(** C37: what the derive macro accepts. *)
From Verif Require Import Base WireFmt Types TypeProofs Derive DeriveProofs.
From Coq Require String.
Import String.StringSyntax.
Local Open Scope string_scope.
Local Open Scope N_scope.

(** What the arguments and attributes of a declaration ask for. *)
Definition asks (d : decl) (tr : string) : Prop := In (NMeta (MPath tr)) (d_args d).
Definition setting_is (d : decl) (se : setting) : Prop :=
  (st_state se = true <-> asks d "State") /\
  (st_size_cache se = true <-> (asks d "State" \/ asks d "Serialize") /\ ~ says (items (d_attrs d)) "no_size_cache" (LBool true)) /\
  (st_meta se = true <-> (asks d "State" \/ asks d "Deserialize") /\ ~ says (items (d_attrs d)) "no_meta" (LBool true)).
(** Attributes of the item that are no settings. *)
Definition rest (d : decl) : list nmeta := filter (fun n => negb (known setting_table n)) (items (d_attrs d)).

(** A good declaration: tidy attributes everywhere, no const generics, and below that
    [struct_ok] / [enum_ok] (DeriveProofs.v): every field and variant has a tag of at most 2^29-1, no tag
    occurs twice or is reserved, one variant has tag 0, and field types can be described if metadata
    is derived. *)
Definition decl_ok (d : decl) : Prop :=
  tidy args_table false (d_args d) /\ Forall clean (d_attrs d) /\ tidy setting_table false (items (d_attrs d)) /\ d_consts d = O /\
  exists se, setting_is d se /\
    match d_data d with
    | DStruct fs => exists tags, struct_ok se (rest d) fs tags
    | DEnum vs => exists tags, enum_ok se (rest d) vs tags
    | DUnion => False
    end.
(** What is generated for it. *)
Definition shape_is (d : decl) (sh : shape) : Prop :=
  exists se, setting_is d se /\
    match d_data d, sh with
    | DStruct fs, ShStruct si r => s_state si = st_state se /\ struct_is se (rest d) fs r (s_cache si)
    | DEnum vs, ShEnum st r => st = st_state se /\ enum_is se (rest d) vs r
    | _, _ => False
    end.

Lemma setting_unique d se se' : setting_is d se -> setting_is d se' -> se = se'.
Proof.
  intros (A & B & C) (A' & B' & C'). destruct se as [a b c], se' as [a' b' c']. cbn in *.
  f_equal; apply Bool.eq_iff_eq_true; tauto.
Qed.
Lemma parse_setting_spec d : let '(se, es, u) := parse_setting (d_args d) (d_attrs d) in
  (es = [] <-> tidy args_table false (d_args d) /\ Forall clean (d_attrs d) /\ tidy setting_table false (items (d_attrs d))) /\
  (es = [] -> setting_is d se) /\ u = rest d.
Proof.
  unfold parse_setting. pose proof (parse_metas_tidy args_table false (d_args d)) as H.
  destruct (parse_metas args_table false no_slots (d_args d)) as [[a e1] u1]. destruct H as (H1 & H2 & _).
  pose proof (parse_attrs_tidy setting_table false (d_attrs d)) as K. destruct (parse_attrs setting_table false no_slots (d_attrs d)) as [[s e2] u2].
  destruct K as (K1 & K2 & K3). split; [now rewrite app_nil_iff, H1, K1|]. split; [|exact K3].
  intros E. apply app_nil_iff in E. destruct E as [E1 E2]. pose proof (proj1 H1 E1) as Ta. pose proof (proj1 K1 E2) as [_ Ts].
  rewrite (H2 E1), (K2 E2). unfold setting_is, asks. cbn [st_state st_size_cache st_meta].
  rewrite !Bool.andb_true_iff, !Bool.orb_true_iff.
  rewrite (negb_iff _ _ (flag_says setting_table (items (d_attrs d)) "no_size_cache" _ eq_refl (or_intror Ts))).
  rewrite (negb_iff _ _ (flag_says setting_table (items (d_attrs d)) "no_meta" _ eq_refl (or_intror Ts))).
  rewrite (flag_path args_table (d_args d) "State" _ eq_refl (or_intror Ta)).
  rewrite (flag_path args_table (d_args d) "Serialize" _ eq_refl (or_intror Ta)).
  rewrite (flag_path args_table (d_args d) "Deserialize" _ eq_refl (or_intror Ta)). tauto.
Qed.
Lemma consts_nil n : repeat EConst n = [] <-> n = O.
Proof. destruct n; cbn; split; easy. Qed.

Lemma derive_spec d : let '(es, o) := derive d in
  (es = [] <-> decl_ok d) /\ (es = [] -> exists sh, o = Some sh /\ shape_is d sh) /\ (o = None -> es <> []).
Proof.
  unfold derive, decl_ok, shape_is. pose proof (parse_setting_spec d) as H. destruct (parse_setting (d_args d) (d_attrs d)) as [[se es] u]. destruct H as (H1 & H2 & ->).
  destruct (d_data d) as [fs|vs|].
  - pose proof (parse_struct_spec se (rest d) fs) as P. destruct (parse_struct se (rest d) fs) as [e o]. destruct P as (P1 & P2 & P3).
    rewrite !app_nil_iff, consts_nil. split; [|split].
    + split.
      * intros (E1 & E2 & E3). pose proof (proj1 H1 E1) as (A & B & C). repeat (split; [assumption|]). exists se. split; [auto|]. now apply P1.
      * intros (A & B & C & E2 & se' & S & T). assert (E1 : es = []) by (apply H1; auto). split; [exact E1|]. split; [exact E2|].
        apply P1. now rewrite (setting_unique d se se' (H2 E1) S).
    + intros (E1 & E2 & E3). destruct (P2 E3) as (r & c & -> & S). eexists. split; [reflexivity|]. exists se. split; [auto|]. now split.
    + intros N (_ & _ & E3). destruct (P2 E3) as (r & c & -> & S). discriminate.
  - pose proof (parse_enum_spec se (rest d) vs) as P. destruct (parse_enum se (rest d) vs) as [e o]. destruct P as (P1 & P2 & P3).
    rewrite !app_nil_iff, consts_nil. split; [|split].
    + split.
      * intros (E1 & E2 & E3). pose proof (proj1 H1 E1) as (A & B & C). repeat (split; [assumption|]). exists se. split; [auto|]. now apply P1.
      * intros (A & B & C & E2 & se' & S & T). assert (E1 : es = []) by (apply H1; auto). split; [exact E1|]. split; [exact E2|].
        apply P1. now rewrite (setting_unique d se se' (H2 E1) S).
    + intros (E1 & E2 & E3). destruct (P2 E3) as (r & -> & S). eexists. split; [reflexivity|]. exists se. split; [auto|]. now split.
    + intros N (_ & _ & E3). destruct (P2 E3) as (r & -> & S). discriminate.
  - rewrite !app_nil_iff. split; [|split].
    + split; [intros (_ & _ & X); discriminate|]. intros (_ & _ & _ & _ & se' & _ & []).
    + intros (_ & _ & X); discriminate.
    + intros _ (_ & _ & X); discriminate.
Qed.

(** No error is reported exactly for the good declarations. *)
Theorem c37_accepts : forall d, fst (derive d) = [] <-> decl_ok d.
Proof. intros d. pose proof (derive_spec d) as H. destruct (derive d) as [es o]. now destruct H. Qed.
Print Assumptions c37_accepts.
(** Then code is generated, with the tags and flags that were asked for. *)
Theorem c37_generates : forall d, fst (derive d) = [] -> exists sh, snd (derive d) = Some sh /\ shape_is d sh.
Proof. intros d. pose proof (derive_spec d) as H. destruct (derive d) as [es o]. destruct H as (_ & H & _). exact H. Qed.
Print Assumptions c37_generates.
(** The macro never generates nothing without saying why. *)
Theorem c37_not_silent : forall d, snd (derive d) = None -> fst (derive d) <> [].
Proof. intros d. pose proof (derive_spec d) as H. destruct (derive d) as [es o]. destruct H as (_ & _ & H). exact H. Qed.
Print Assumptions c37_not_silent.

(** In the words of the property: an accepted type is well numbered. *)
Definition numbered (ns : list nmeta) (fs : list field) : Prop :=
  exists tags, length tags = length fs /\ NoDup tags /\ Forall (fun n => n <= 2 ^ 29 - 1 /\ ~ reserves ns n) tags /\
    Forall2 (fun f n => forall k, In (NMeta (MNameValue "tag" (LInt k))) (items (fd_attrs f)) <-> k = n) fs tags.
Lemma fields_numbered se ns fs tags : fields_ok se ns fs tags -> numbered ns fs.
Proof.
  intros (F & D & R). exists tags. split; [symmetry; now apply (forall2_len _ _ _ F)|]. split; [exact D|]. split.
  - rewrite Forall_forall. intros n I. split; [|now apply R]. clear -F I. induction F as [|f k fs tags Fo F IH]; [easy|]. destruct I as [->|I]; [|auto]. apply Fo.
  - clear -F. induction F as [|f n fs tags Fo F IH]; constructor; [|exact IH]. intros k. split; [|intros ->; apply Fo]. intros I. apply (field_ok_unique se f); [|exact Fo].
    destruct Fo as (A & B & C & D & E). apply (slot_tag field_table _ _ eq_refl (or_introl B)) in I, C. assert (Some (LInt k) = Some (LInt n)) by congruence. injection H as ->.
    split; [exact A|]. split; [exact B|]. split; [now apply (slot_tag field_table _ _ eq_refl (or_introl B))|]. now split.
Qed.
Theorem c37_numbered : forall d, fst (derive d) = [] ->
  match d_data d with
  | DStruct fs => numbered (rest d) fs
  | DEnum vs => exists tags, NoDup tags /\ In 0 tags /\ Forall (fun n => n <= 2 ^ 29 - 1 /\ ~ reserves (rest d) n) tags /\
      Forall2 (fun v n => (forall k, In (NMeta (MNameValue "tag" (LInt k))) (items (vr_attrs v)) <-> k = n) /\
        numbered (filter (fun x => negb (known variant_table x)) (items (vr_attrs v))) (vr_fields v)) vs tags
  | DUnion => False
  end.
Proof.
  intros d E. apply c37_accepts in E. destruct E as (_ & _ & _ & _ & se & _ & E). destruct (d_data d) as [fs|vs|]; [| |exact E].
  - destruct E as (tags & _ & F). now apply (fields_numbered se _ _ tags).
  - destruct E as (tags & _ & F & D & R & Z). exists tags. split; [exact D|]. split; [exact Z|]. split.
    + rewrite Forall_forall. intros n I. split; [|now apply R]. clear -F I. induction F as [|v k vs tags Fo F IH]; [easy|]. destruct I as [->|I]; [|auto]. apply Fo.
    + clear -F. induction F as [|v n vs tags Fo F IH]; constructor; [|exact IH]. destruct Fo as (A & B & C & D & t & _ & Fs). split; [|now apply (fields_numbered se _ _ t)].
      intros k. rewrite <- (slot_tag variant_table _ _ eq_refl (or_intror B)). apply (slot_tag variant_table _ _ eq_refl (or_intror B)) in C. rewrite C.
      split; [now intros [= ->]|now intros ->].
Qed.
Print Assumptions c37_numbered.

(** The types the model is about ([ty_ok]) are those the macro and the compiler accept: an accepted
    declaration with good field types is a good type. *)
Lemma nodupb_iff l : NoDup l -> nodupb l = true.
Proof.
  unfold nodupb. induction 1 as [|x l N D IH]; [reflexivity|]. cbn [nodupb]. rewrite IH, Bool.andb_true_r. destruct (existsb (N.eqb x) l) eqn:E; [|reflexivity].
  apply existsb_in in E. contradiction.
Qed.
Definition typed_fields (r : list finfo) (fs : list (finfo * ty)) : Prop :=
  map fst fs = r /\ Forall (fun p => ty_ok (snd p) = true /\ (f_state (fst p) = true -> state_ty (snd p) = true)) fs.
Lemma typed_fields_ok se ns fds r fs : Forall2 (field_is se) fds r -> fields_ok se ns fds (map f_tag r) -> typed_fields r fs ->
  forallb (fun p : finfo * ty => let '(fi, t) := p in
      (f_tag fi <=? FIELD_NUMBER_MAX) && ty_ok t && (negb (f_state fi) || (st_state se && state_ty t))) fs = true /\
  nodupb (map (fun p : finfo * ty => f_tag (fst p)) fs) = true.
Proof.
  intros F (O & D & _) [Er T]. split.
  - subst r. apply forallb_forall. intros [fi t] I. rewrite Forall_forall in T. destruct (T _ I) as [T1 T2]. cbn [fst snd] in *.
    assert (X : f_tag fi <= 2 ^ 29 - 1 /\ (f_state fi = true -> st_state se = true)).
    { clear -F O I. revert fds F O. induction fs as [|[fj s] fs IH]; [easy|]. intros fds F O. cbn [map fst] in *. inversion F as [|fd ? fds' ? F1 F2]; subst. inversion O as [|? ? ? ? O1 O2]; subst.
      destruct I as [[= -> ->]|I]; [|now apply (IH I fds')]. split; [apply O1|]. intros S. now apply F1. }
    destruct X as [X Y]. rewrite T1. assert (Z : f_tag fi <=? FIELD_NUMBER_MAX = true).
    { unfold FIELD_NUMBER_MAX. change (2 ^ 29) with 536870912 in *. lia. }
    rewrite Z. destruct (f_state fi); [|reflexivity]. now rewrite (Y eq_refl), (T2 eq_refl).
  - rewrite <- (map_map fst f_tag), Er. now apply nodupb_iff.
Qed.
Theorem c37_ty_ok : forall d, fst (derive d) = [] ->
  match snd (derive d) with
  | Some (ShStruct si r) => forall fs, typed_fields r fs -> ty_ok (TStruct si fs) = true
  | Some (ShEnum st r) => forall vs, map fst vs = map fst r -> Forall2 (fun va x => typed_fields (snd x) (snd va)) vs r -> ty_ok (TEnum st vs) = true
  | None => False
  end.
Proof.
  intros d E. destruct (c37_generates d E) as (sh & -> & se & _ & S). destruct sh as [si r|st r], (d_data d) as [fds|vds|]; try easy.
  - destruct S as [St (F & O & _)]. intros fs T. cbn [ty_ok]. rewrite St in *. apply (typed_fields_ok se (rest d) fds r fs F O) in T. destruct T as [T1 T2].
    apply Bool.andb_true_iff. now split.
  - destruct S as [-> (F & O & D & _ & Z)]. intros vs Ev T. cbn [ty_ok]. rewrite !Bool.andb_true_iff.
    assert (Em : map (fun va : N * bool * list (finfo * ty) => fst (fst va)) vs = map (fun x : N * bool * list finfo => fst (fst x)) r).
    { rewrite <- (map_map fst fst), Ev. apply map_map. }
    split; [split|].
    + apply forallb_forall. intros va I. clear Z D Em. revert vds F O Ev. induction T as [|vb x vs r T1 T IH]; [easy|]. intros vds F O Ev. cbn [map] in *.
      inversion F as [|vd ? vds' ? F1 F2]; subst. inversion O as [|? ? ? ? O1 O2]; subst. injection Ev as Ev1 Ev2.
      destruct I as [<-|I]; [|now apply (IH I vds')]. destruct F1 as (_ & G1 & G2 & _). destruct (typed_fields_ok se _ _ _ _ G1 G2 T1) as [Q1 Q2].
      rewrite Ev1. destruct O1 as (_ & _ & _ & O1 & _). rewrite !Bool.andb_true_iff. split; [split|exact Q2]; [|exact Q1].
      unfold FIELD_NUMBER_MAX. change (2 ^ 29) with 536870912 in *. lia.
    + rewrite Em. now apply nodupb_iff.
    + apply in_map_iff in Z. destruct Z as (x & Zx & I). apply existsb_exists. rewrite <- Em in *.
      assert (J : In 0 (map (fun va : N * bool * list (finfo * ty) => fst (fst va)) vs)) by (rewrite Em; apply in_map_iff; now exists x).
      apply in_map_iff in J. destruct J as (va & Zv & J). exists va. split; [exact J|]. now apply N.eqb_eq.
Qed.
Print Assumptions c37_ty_ok.

(** ** Examples *)
Definition at_tag (n : N) : attr := ASteit [NMeta (MNameValue "tag" (LInt n))].
Definition tyI32 : sty := SPath false (Some "i32") ANone.
Definition tyList : sty := SPath false None (AAngle [GType tyI32]).
Definition dPoint : decl := mkDecl [NMeta (MPath "State"); NMeta (MPath "Debug")] [AForeign] 0
  (DStruct [mkField [at_tag 0] tyI32; mkField [AForeign; at_tag 3; ASteit [NMeta (MPath "no_state")]] tyList]).
(** An enum with reserved tags on it and on a variant. *)
Definition dEnum (t1 t2 f1 f2 : N) : decl := mkDecl [NMeta (MPath "Deserialize"); NMeta (MPath "Serialize")]
  [ASteit [NMeta (MList "reserved_tags" [NLit (LInt 7); NLit (LInt 8)])]] 0
  (DEnum [mkVariant [at_tag t1] [];
          mkVariant [at_tag t2; ASteit [NMeta (MList "reserved_tags" [NLit (LInt 5)]); NMeta (MNameValue "no_size_cache" (LBool true))]]
            [mkField [at_tag f1] tyI32; mkField [at_tag f2] tyI32]]).
Example c37_case :
  derive dPoint = ([], Some (ShStruct (mkS true true) [mkF 0 true true true; mkF 3 false true true])) /\
  derive (dEnum 0 1 0 1) = ([], Some (ShEnum false [((0, true), []); ((1, false), [mkF 0 false true true; mkF 1 false true true])])) /\
  derive (dEnum 2 1 0 1) = ([ENoDefault], Some (ShEnum false [((2, true), []); ((1, false), [mkF 0 false true true; mkF 1 false true true])])) /\
  derive (dEnum 0 7 0 0) = ([EReserved 7; EDupTag 0], None) /\
  derive (dEnum 0 0 5 536870912) = ([EDupTag 0; EReserved 5; ETagMax], None) /\
  derive (mkDecl [NMeta (MPath "State")] [] 0 (DStruct [mkField [] tyI32; mkField [at_tag 1; at_tag 2] SOther])) = ([ENoTag; EDuplicate "tag"; EType], None) /\
  derive (mkDecl [NMeta (MPath "State")] [] 0 (DEnum [])) = ([ENoVariants], None) /\
  derive (mkDecl [NMeta (MPath "State")] [ASteit [NMeta (MPath "typo")]] 1 (DStruct [])) = ([EConst; EUnknown], Some (ShStruct (mkS true true) [])) /\
  derive (mkDecl [] [] 0 DUnion) = ([EUnion], None).
Proof. vm_compute. repeat split. Qed.
