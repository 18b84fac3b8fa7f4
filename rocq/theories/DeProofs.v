(** Decoding any bytes: termination, type preservation, causes of panics. *)
From Verif Require Import Base Varint WireFmt Utf8 Types Ser Spec De ValInd VarintProofs WireProofs
  SerProofs TypeProofs EqProofs.

(** ** Decoders look at a prefix only *)

Lemma uv_de_loop_ext m bits bs c : forall value off,
  match uv_de_loop m bits value off bs with
  | Ok (n, rest) => uv_de_loop m bits value off (bs ++ c) = Ok (n, rest ++ c)
  | Panic => uv_de_loop m bits value off (bs ++ c) = Panic
  | _ => True
  end.
Proof.
  induction bs as [|b bs IH]; intros value off; cbn [uv_de_loop app]; [exact I|].
  destruct (off <? bits).
  - destruct (N.land b 128 =? 0); [reflexivity|apply IH].
  - destruct m; [reflexivity|]. destruct (N.land b 128 =? 0); [reflexivity|apply IH].
Qed.
Lemma uv_deserialize_ext m bits bs c n rest :
  uv_deserialize m bits bs = Ok (n, rest) -> uv_deserialize m bits (bs ++ c) = Ok (n, rest ++ c).
Proof. intros H. pose proof (uv_de_loop_ext m bits bs c 0 0) as X. unfold uv_deserialize in *. now rewrite H in X. Qed.
Lemma uv_deserialize_ext_panic m bits bs c :
  uv_deserialize m bits bs = Panic -> uv_deserialize m bits (bs ++ c) = Panic.
Proof. intros H. pose proof (uv_de_loop_ext m bits bs c 0 0) as X. unfold uv_deserialize in *. now rewrite H in X. Qed.

Lemma uv_de_loop_release_np bits bs : forall value off, uv_de_loop Release bits value off bs <> Panic.
Proof.
  induction bs as [|b bs IH]; intros value off; cbn [uv_de_loop]; [discriminate|].
  destruct (off <? bits); (destruct (N.land b 128 =? 0); [discriminate|apply IH]).
Qed.

(** Why a decoder may panic on [bs]: somewhere in [bs] there is a length of 2^63 or
    more, or a varint with too many groups for its type (overflow checks only). *)
Definition cause (m : mode) (bs : bytes) : Prop :=
  exists a b, bs = a ++ b /\
    ((exists n rest, uv_deserialize m 64 b = Ok (n, rest) /\ 2 ^ 63 <= n) \/
     (exists k, uv_deserialize m (ibits k) b = Panic)).

Lemma cause_slice m p bs c : cause m bs -> cause m (p ++ bs ++ c).
Proof.
  intros (a & b & -> & H). exists (p ++ a), (b ++ c). split; [now rewrite <- !app_assoc|].
  destruct H as [(n & rest & E & L)|(k & E)].
  - left. exists n, (rest ++ c). split; [now apply uv_deserialize_ext|exact L].
  - right. exists k. now apply uv_deserialize_ext_panic.
Qed.
Lemma cause_suffix m p bs : cause m bs -> cause m (p ++ bs).
Proof. intros H. pose proof (cause_slice m p bs [] H) as X. now rewrite app_nil_r in X. Qed.
Lemma cause_panic m k bs : uv_deserialize m (ibits k) bs = Panic -> cause m bs.
Proof. intros H. exists [], bs. split; [reflexivity|]. right. eauto. Qed.

(** Outcomes: something was consumed / everything was consumed. *)
Definition oc (m : mode) (bs : bytes) (r : res bytes) : Prop :=
  match r with
  | Ok rest => exists p, bs = p ++ rest /\ p <> []
  | Err _ => True
  | Panic => cause m bs
  | NoFuel => False
  end.
Definition oe (m : mode) (bs : bytes) (r : res bytes) : Prop :=
  match r with
  | Ok rest => rest = []
  | Err _ => True
  | Panic => cause m bs
  | NoFuel => False
  end.
Definition ow (m : mode) (w : wtype) : bytes -> res bytes -> Prop :=
  match w with Varint => oc m | Sized => oe m end.

Lemma oc_after m p bs r : oc m bs r -> oc m (p ++ bs) r.
Proof.
  destruct r as [rest|e| |]; cbn; auto.
  - intros (q & -> & H). exists (p ++ q). split; [now rewrite app_assoc|]. destruct p; [exact H|discriminate].
  - apply cause_suffix.
Qed.
Lemma oe_after m p bs r : oe m bs r -> oe m (p ++ bs) r.
Proof. destruct r as [rest|e| |]; cbn; auto. apply cause_suffix. Qed.

Lemma uv_oc m k bs : oc m bs (do (_, rest) <- uv_deserialize m (ibits k) bs; Ok rest).
Proof.
  destruct (uv_deserialize m (ibits k) bs) as [[n rest]|e| |] eqn:E; cbn.
  - now apply uv_deserialize_suffix in E.
  - exact I.
  - now apply cause_panic in E.
  - now apply uv_deserialize_nofuel in E.
Qed.

Lemma skip_oc m w bs : oc m bs (rd_skip_field m w bs).
Proof.
  destruct w; cbn [rd_skip_field].
  - apply (uv_oc m U8).
  - pose proof (uv_oc m U64 bs) as H. cbn [ibits] in H.
    destruct (uv_deserialize m 64 bs) as [[n rest]|e| |] eqn:E; cbn [bind] in *; auto.
    destruct (n <? 2 ^ 63) eqn:L; cbn [oc].
    + destruct (splitN n rest) as [a b] eqn:S. apply splitN_concat in S. subst rest. cbn.
      destruct H as (p & -> & H). exists (p ++ a). split; [now rewrite app_assoc|]. destruct p; [congruence|discriminate].
    + exists [], bs. split; [reflexivity|]. left. exists n, rest. split; [exact E|lia].
Qed.

(** What the nested reader sees, and what lies behind. *)
Lemma rd_nested_cases m bs :
  match rd_nested m bs with
  | Ok (sub, after) => exists p, bs = p ++ sub ++ after /\ p <> []
  | Err _ => True
  | Panic => cause m bs
  | NoFuel => False
  end.
Proof.
  destruct (rd_nested m bs) as [[sub after]|e| |] eqn:E.
  - now apply rd_nested_suffix in E.
  - exact I.
  - unfold rd_nested in E. destruct (uv_deserialize m 64 bs) as [[n rest]|e| |] eqn:E'; try discriminate E.
    now apply (cause_panic m U64).
  - unfold rd_nested in E. destruct (uv_deserialize m 64 bs) as [[n rest]|e| |] eqn:E'; try discriminate E.
    now apply uv_deserialize_nofuel in E'.
Qed.

Lemma bytes_ok_mid a b c : bytes_ok (a ++ b ++ c) -> bytes_ok b /\ bytes_ok c.
Proof. rewrite !bytes_ok_app. tauto. Qed.

(** A merger that preserves [I] and has outcomes as its wire type promises. *)
Definition mgood (m : mode) (tw : wtype) (I : val -> Prop) (mg : merger) : Prop :=
  forall v bs, I v -> bytes_ok bs -> let '(v', r) := mg v bs in I v' /\ ow m tw bs r.

Lemma merge_nested_good m tw (I : val -> Prop) mg w v bs :
  mgood m tw I mg -> I v -> bytes_ok bs ->
  let '(v', r) := merge_nested m tw mg w v bs in I v' /\ oc m bs r.
Proof.
  intros G Iv Hb. unfold merge_nested. destruct (wtype_eqb w tw) eqn:E; cbn [negb].
  - destruct w, tw; try discriminate E.
    + exact (G v bs Iv Hb).
    + pose proof (rd_nested_cases m bs) as C. destruct (rd_nested m bs) as [[sub after]|e| |]; cbn [try];
        try (split; [exact Iv|exact C]).
      destruct C as (p & -> & Hp). apply bytes_ok_mid in Hb. destruct Hb as [Hs Ha].
      specialize (G v sub Iv Hs). destruct (mg v sub) as [v' r]. destruct G as [G1 G2]. split; [exact G1|].
      destruct r as [rest|e| |]; cbn in *; auto.
      * subst rest. exists (p ++ sub). split; [now rewrite <- app_assoc|]. destruct p; [congruence|discriminate].
      * now apply cause_slice.
  - split; [exact Iv|apply skip_oc].
Qed.

Definition dgood (m : mode) (I : val -> Prop) (bs : bytes) (r : res (val * bytes)) : Prop :=
  match r with
  | Ok (x, rest) => I x /\ exists p, bs = p ++ rest /\ p <> []
  | Err _ => True
  | Panic => cause m bs
  | NoFuel => False
  end.

Lemma de_nested_good m tw (I : val -> Prop) mg d bs :
  mgood m tw I mg -> I d -> bytes_ok bs -> dgood m I bs (de_nested m tw mg d bs).
Proof.
  intros G Id Hb. unfold de_nested. pose proof (merge_nested_good m tw I mg tw d bs G Id Hb) as H.
  destruct (merge_nested m tw mg tw d bs) as [v r]. destruct H as [H1 H2].
  destruct r; cbn in *; auto.
Qed.

(** ** Loops *)

Definition sgood {S} (m : mode) (I : S -> Prop) (step : S -> bytes -> S * res bytes) : Prop :=
  forall s bs, I s -> bytes_ok bs -> let '(s', r) := step s bs in I s' /\ oc m bs r.

Lemma loop_good {S} m (I : S -> Prop) step : sgood m I step -> forall fuel s bs,
  I s -> bytes_ok bs -> (length bs <= fuel)%nat ->
  let '(s', r) := loop fuel step s bs in I s' /\ oe m bs r.
Proof.
  intros G. induction fuel as [|fuel IH]; intros s bs Is Hb Hl.
  - destruct bs; [|cbn in Hl; lia]. cbn. auto.
  - destruct bs as [|b bs]; [cbn; auto|]. cbn [loop].
    pose proof (G s (b :: bs) Is Hb) as H. destruct (step s (b :: bs)) as [s' r]. destruct H as [H1 H2].
    destruct r as [rest|e| |]; cbn [try]; try (split; [exact H1|exact H2]).
    cbn in H2. destruct H2 as (p & E & Hp). rewrite E in *.
    assert (L : (length rest <= fuel)%nat).
    { rewrite app_length in Hl. destruct p; [congruence|]. cbn in Hl. lia. }
    apply bytes_ok_app in Hb. specialize (IH s' rest H1 (proj2 Hb) L).
    destruct (loop fuel step s' rest) as [s'' r']. destruct IH as [IH1 IH2]. split; [exact IH1|].
    now apply oe_after.
Qed.

Lemma run_good {S} m (I : S -> Prop) step s bs : sgood m I step -> I s -> bytes_ok bs ->
  let '(s', r) := run step s bs in I s' /\ oe m bs r.
Proof. intros G Is Hb. unfold run. now apply loop_good. Qed.

(** Consuming steps: more fuel changes nothing, so loops unroll. *)
Definition consuming {S} (step : S -> bytes -> S * res bytes) : Prop :=
  forall s bs s' rest, step s bs = (s', Ok rest) -> (length rest < length bs)%nat.

Lemma loop_fuel {S} (step : S -> bytes -> S * res bytes) : consuming step ->
  forall f1 f2 s bs, (length bs <= f1)%nat -> (length bs <= f2)%nat ->
  loop f1 step s bs = loop f2 step s bs.
Proof.
  intros C. induction f1 as [|f1 IH]; intros f2 s bs L1 L2.
  - destruct bs; [|cbn in L1; lia]. destruct f2; reflexivity.
  - destruct bs as [|b bs]; [destruct f2; reflexivity|]. destruct f2 as [|f2]; [cbn in L2; lia|].
    cbn [loop]. destruct (step s (b :: bs)) as [s' [rest|e| |]] eqn:E; try reflexivity. cbn [try].
    apply C in E. cbn [length] in *. apply IH; lia.
Qed.

Lemma run_nil {S} (step : S -> bytes -> S * res bytes) s : run step s [] = (s, Ok []).
Proof. reflexivity. Qed.

Lemma run_step {S} (step : S -> bytes -> S * res bytes) s bs : consuming step -> bs <> [] ->
  run step s bs = let '(s', r) := step s bs in try s' r (fun rest => run step s' rest).
Proof.
  intros C H. unfold run. destruct bs as [|b bs]; [congruence|]. cbn [length loop].
  destruct (step s (b :: bs)) as [s' [rest|e| |]] eqn:E; try reflexivity. cbn [try].
  apply C in E. cbn [length] in E. apply loop_fuel; [exact C|lia|lia].
Qed.

(** ** Defaults are well typed *)

Lemma wt_fields_dflt st r fs : fields_ok st fs = true ->
  Forall (fun p => ty_ok (snd p) = true -> forall r, wt (snd p) (dflt (snd p) r) = true) fs ->
  wt_fields fs (dflt_fields r fs) = true.
Proof.
  intros O H. induction H as [|[fi t] fs H _ IH]; [reflexivity|].
  unfold fields_ok in O. cbn [forallb] in O. bprop. cbn. rewrite (proj2 (finfo_eqb_eq fi fi) eq_refl).
  cbn in H. rewrite H by assumption. now apply IH.
Qed.

Lemma dflt_enum st vs r : dflt (TEnum st vs) r =
  match find_variant vs 0 with Some va => variant_ctor st va r | None => VBool false end.
Proof.
  unfold find_variant. cbn [dflt]. induction vs as [|[[tag c] fs] vs IH]; [reflexivity|].
  cbn [find fst]. destruct (tag =? 0) eqn:E; [|exact IH]. unfold variant_ctor, dflt_fields. reflexivity.
Qed.

Lemma find_variant_exists vs : existsb (fun va : variant => fst (fst va) =? 0) vs = true ->
  exists va, find_variant vs 0 = Some va.
Proof.
  intros H. apply existsb_exists in H. destruct H as (va & I & E).
  destruct (find_variant vs 0) as [va'|] eqn:F; [eauto|]. unfold find_variant in F.
  apply (find_none _ _ F) in I. congruence.
Qed.

Lemma variant_fields_ok st vs va : ty_ok (TEnum st vs) = true -> In va vs ->
  fst (fst va) <= FIELD_NUMBER_MAX /\ fields_ok st (snd va) = true /\
  nodupb (map (fun p => f_tag (fst p)) (snd va)) = true.
Proof.
  rewrite ty_ok_enum. intros H I. bprop.
  match goal with X : forallb _ vs = true |- _ => rewrite forallb_forall in X; specialize (X _ I) end.
  bprop. repeat split; try assumption. lia.
Qed.

Lemma wt_variant_ctor st vs tag va r : ty_ok (TEnum st vs) = true -> find_variant vs tag = Some va ->
  wt_fields (snd va) (dflt_fields (nested r tag) (snd va)) = true ->
  wt (TEnum st vs) (variant_ctor st va r) = true.
Proof.
  intros O F W. pose proof (find_variant_in _ _ _ F) as [I E]. destruct va as [[tag' c] fs]. cbn in E. subst tag'.
  unfold variant_ctor. rewrite wt_enum_eq. cbn [snd] in W. rewrite F, W.
  destruct st, c; reflexivity.
Qed.

Lemma wt_dflt t : ty_ok t = true -> forall r, wt t (dflt t r) = true.
Proof.
  induction t as [k| | | |t IH|t IH|n t IH|ts IH|k t IHk IHt|t IH|si fs IH|st vs IH|t IH|k t IH]
    using ty_ind'; intros O r; try reflexivity.
  - cbn. destruct k; reflexivity.
  - cbn in *. rewrite repeat_length, Nat.eqb_refl. bprop. clear - IH H0. cbn.
    induction n as [|n IHn]; [reflexivity|]. cbn. rewrite IH by assumption. exact IHn.
  - cbn [dflt]. rewrite wt_tup_eq. assert (O' : forallb ty_ok ts = true) by (cbn in O; bprop; assumption).
    clear O. induction IH as [|t ts H _ IHts]; [reflexivity|]. cbn in *. bprop. rewrite H by assumption. now apply IHts.
  - cbn in *. now apply IH.
  - cbn [dflt]. rewrite ty_ok_struct in O. bprop. rewrite wt_struct_eq.
    change (map _ fs) with (dflt_fields r fs).
    rewrite (wt_fields_dflt (s_state si)); try assumption. destruct (s_cache si), (s_state si); reflexivity.
  - rewrite dflt_enum. pose proof O as O'. rewrite ty_ok_enum in O'. bprop.
    match goal with X : existsb _ vs = true |- _ => destruct (find_variant_exists vs X) as (va & F) end.
    rewrite F. apply (wt_variant_ctor st vs 0); try assumption.
    pose proof (find_variant_in _ _ _ F) as [I _]. rewrite Forall_forall in IH.
    apply (wt_fields_dflt st); [now apply (variant_fields_ok st vs)|now apply IH].
Qed.

Lemma ctor_wt st vs tag va r : ty_ok (TEnum st vs) = true -> find_variant vs tag = Some va ->
  wt (TEnum st vs) (variant_ctor st va r) = true.
Proof.
  intros O F. apply (wt_variant_ctor st vs tag); try assumption.
  pose proof (find_variant_in _ _ _ F) as [I _].
  apply (wt_fields_dflt st); [now apply (variant_fields_ok st vs)|].
  apply Forall_forall. intros p _ Hp r'. now apply wt_dflt.
Qed.

(** ** The merge of each type *)

Definition TG (m : mode) (t : ty) : Prop := mgood m (wty t) (fun v => wt t v = true) (merge m t).

Lemma opt_step_good m t : TG m t -> ty_ok t = true ->
  sgood m (fun o => wt (TOpt t) (VOpt o) = true) (opt_step m (wty t) (merge m t) (dflt t rt_default)).
Proof.
  intros G O s bs Is Hb. unfold opt_step.
  set (x := match s with Some x => x | None => dflt t rt_default end).
  assert (Ix : wt t x = true) by (destruct s; [exact Is|now apply wt_dflt]).
  pose proof (merge_nested_good m _ _ _ (wty t) x bs G Ix Hb) as H.
  destruct (merge_nested m (wty t) (merge m t) (wty t) x bs) as [x' r]. exact H.
Qed.

Lemma vec_step_good m t : TG m t -> ty_ok t = true ->
  sgood m (fun l => forallb (wt t) l = true) (vec_step m (wty t) (merge m t) (dflt t rt_default)).
Proof.
  intros G O s bs Is Hb. unfold vec_step.
  pose proof (de_nested_good m _ _ _ (dflt t rt_default) bs G (wt_dflt t O _) Hb) as H.
  destruct (de_nested _ _ _ _ bs) as [[x rest]|e| |]; cbn in *; auto.
  destruct H as [H1 H2]. split; [|exact H2]. rewrite forallb_app. cbn. now rewrite Is, H1.
Qed.

Lemma arr_loop_good m t : TG m t -> ty_ok t = true -> forall l bs,
  forallb (wt t) l = true -> bytes_ok bs ->
  let '(l', r) := arr_loop m (wty t) (merge m t) (dflt t rt_default) l bs in
  forallb (wt t) l' = true /\ length l' = length l /\ oe m bs (drain r).
Proof.
  intros G O. induction l as [|x l IH]; intros bs W Hb; [cbn; auto|].
  destruct bs as [|b bs]; [cbn [arr_loop]; cbn; auto|]. cbn [arr_loop].
  pose proof (de_nested_good m _ _ _ (dflt t rt_default) (b :: bs) G (wt_dflt t O _) Hb) as H.
  destruct (de_nested _ _ _ _ (b :: bs)) as [[y rest]|e| |]; cbn [try]; cbn in H; try (cbn; auto; fail).
  destruct H as [H1 (p & E & Hp)]. rewrite E in *. apply bytes_ok_app in Hb. cbn [forallb] in W. bprop.
  specialize (IH rest ltac:(assumption) (proj2 Hb)). destruct (arr_loop _ _ _ _ l rest) as [l' r].
  destruct IH as (I1 & I2 & I3). cbn [forallb length]. rewrite H1, I1. split; [reflexivity|]. split; [now rewrite I2|].
  now apply oe_after.
Qed.

Lemma tup_read_good m ts : Forall (fun t => TG m t /\ ty_ok t = true) ts -> forall bs, bytes_ok bs ->
  match tup_read m (map (fun t => ((wty t, merge m t), dflt t rt_default)) ts) bs with
  | Ok (l, rest) => wt_list ts l = true /\ exists p, bs = p ++ rest
  | Err _ => True
  | Panic => cause m bs
  | NoFuel => False
  end.
Proof.
  induction 1 as [|t ts [G O] _ IH]; intros bs Hb; cbn [map tup_read].
  - split; [reflexivity|]. exists []. reflexivity.
  - pose proof (de_nested_good m _ _ _ (dflt t rt_default) bs G (wt_dflt t O _) Hb) as H.
    destruct (de_nested _ _ _ _ bs) as [[x rest]|e| |]; cbn [bind]; cbn in H; auto.
    destruct H as [H1 (p & -> & Hp)]. apply bytes_ok_app in Hb. specialize (IH rest (proj2 Hb)).
    destruct (tup_read _ _ rest) as [[l rest']|e| |]; cbn [bind]; auto.
    + destruct IH as [I1 (q & ->)]. cbn. rewrite H1, I1. split; [reflexivity|]. exists (p ++ q). now rewrite app_assoc.
    + now apply cause_suffix.
Qed.

Lemma hash_insert_in k x l e : In e (hash_insert k x l) ->
  In e l \/ (fst e = k /\ snd e = x) \/ (snd e = x /\ exists y, In (fst e, y) l).
Proof.
  induction l as [|[k' x'] l IH]; cbn [hash_insert]; intros H.
  - destruct H as [<-|[]]. cbn. auto.
  - destruct (veqb k k').
    + destruct H as [<-|H]; [|left; now right]. right. right. cbn. split; [reflexivity|]. exists x'. now left.
    + destruct H as [<-|H]; [left; now left|]. destruct (IH H) as [I|[I|[I (y & J)]]]; [left; now right|auto|].
      right. right. split; [exact I|]. exists y. now right.
Qed.

Lemma hash_insert_wt kt vt k x l : wt kt k = true -> wt vt x = true ->
  wt (THash kt vt) (VHash l) = true -> wt (THash kt vt) (VHash (hash_insert k x l)) = true.
Proof.
  intros Wk Wx W. cbn [wt] in *. bprop. apply andb_true_iff. split.
  - rewrite forallb_forall in *. intros e He. apply hash_insert_in in He.
    destruct He as [He|[[<- <-]|[<- (y & He)]]]; [auto| |].
    + now rewrite Wk, Wx.
    + specialize (H _ He). cbn in H. bprop. rewrite Wx, andb_true_r. assumption.
  - destruct (veqb_equiv kt) as (R & Sy & T).
    assert (K : forall e, In e l -> wt kt (fst e) = true).
    { intros e He. rewrite forallb_forall in H. specialize (H _ He). now bprop. }
    clear H Wx. induction l as [|[k' x'] l IH]; [reflexivity|].
    cbn [hkeys_distinct] in H0. bprop. cbn [hash_insert]. destruct (veqb k k') eqn:E.
    + cbn [hkeys_distinct]. apply andb_true_iff. now split.
    + cbn [hkeys_distinct]. apply andb_true_iff. split.
      * apply negb_true_iff. apply negb_true_iff in H. apply not_true_is_false. intros X.
        apply existsb_exists in X. destruct X as (e & He & Ee). apply hash_insert_in in He.
        destruct He as [He|[[E1 _]|[_ (y & He)]]].
        -- assert (existsb (fun e => veqb k' (fst e)) l = true) by (apply existsb_exists; eauto). congruence.
        -- rewrite E1 in Ee. apply Sy in Ee; [congruence| |exact Wk]. apply (K (k', x')). now left.
        -- assert (existsb (fun e => veqb k' (fst e)) l = true) by (apply existsb_exists; exists (fst e, y); auto). congruence.
      * apply IH; [assumption|]. intros e He. apply K. now right.
Qed.

Lemma hash_step_good m kt vt : TG m kt -> ty_ok kt = true -> TG m vt -> ty_ok vt = true ->
  sgood m (fun l => wt (THash kt vt) (VHash l) = true)
    (hash_step m (wty kt) (merge m kt) (dflt kt rt_default) (wty vt) (merge m vt) (dflt vt rt_default)).
Proof.
  intros Gk Ok Gv Ov s bs Is Hb. unfold hash_step.
  pose proof (de_nested_good m _ _ _ (dflt kt rt_default) bs Gk (wt_dflt kt Ok _) Hb) as H.
  destruct (de_nested _ _ _ _ bs) as [[x rest]|e| |]; cbn [try]; cbn in H; try (cbn; auto; fail).
  destruct H as [H1 (p & -> & Hp)]. apply bytes_ok_app in Hb.
  pose proof (de_nested_good m _ _ _ (dflt vt rt_default) rest Gv (wt_dflt vt Ov _) (proj2 Hb)) as H.
  destruct (de_nested _ _ _ _ rest) as [[y rest']|e| |]; cbn [try]; cbn in H; try (cbn; auto; fail).
  - destruct H as [H2 (q & -> & Hq)]. split; [now apply hash_insert_wt|]. apply oc_after. cbn. eauto.
  - split; [exact Is|]. apply oc_after. exact H.
Qed.

Lemma merge_field_good m ts : Forall (fun p => TG m (snd p)) ts -> forall fs fn w bs,
  wt_fields ts fs = true -> bytes_ok bs ->
  let '(fs', r) := merge_field m (fmergers m ts) fs fn w bs in
  wt_fields ts fs' = true /\ oc m bs r.
Proof.
  induction 1 as [|[fi t] ts G _ IH]; intros [|[fj x] fs] fn w bs W Hb; try discriminate W.
  - cbn. split; [reflexivity|apply skip_oc].
  - cbn [fmergers map merge_field]. cbn [wt_fields] in W. bprop. destruct (fn =? f_tag fi).
    + cbn [snd] in G. pose proof (merge_nested_good m _ _ _ w x bs G ltac:(assumption) Hb) as H3.
      destruct (merge_nested m (wty t) (merge m t) w x bs) as [x' r]. destruct H3 as [H3 H4].
      split; [|exact H4]. cbn. rewrite H3. rewrite H0. now rewrite H.
    + specialize (IH fs fn w bs ltac:(assumption) Hb). unfold fmergers in IH.
      destruct (merge_field m _ fs fn w bs) as [fs' r]. destruct IH as [I1 I2]. split; [|exact I2].
      cbn. rewrite I1, H. now rewrite H1.
Qed.

Lemma struct_step_good m ts : Forall (fun p => TG m (snd p)) ts ->
  sgood m (fun fs => wt_fields ts fs = true) (struct_step m (fmergers m ts)).
Proof.
  intros G s bs Is Hb. unfold struct_step.
  destruct (rd_tag m bs) as [[[fn w] rest]|e| |] eqn:E; cbn [try].
  - apply rd_tag_suffix in E. destruct E as (p & -> & Hp). apply bytes_ok_app in Hb.
    pose proof (merge_field_good m ts G s fn w rest Is (proj2 Hb)) as H.
    destruct (merge_field _ _ s fn w rest) as [fs' r]. destruct H as [H1 H2]. split; [exact H1|now apply oc_after].
  - split; [exact Is|exact I].
  - split; [exact Is|]. unfold rd_tag in E. destruct (uv_deserialize m 32 bs) as [[n rest]|e| |] eqn:E'; cbn [bind] in E; try discriminate E.
    + unfold parse_tag in E. destruct (wt_from_value _) as [w|?| |] eqn:X in E; cbn [bind] in E; try discriminate E.
      * destruct (validate_field_number _) as [u|?| |] eqn:Y in E; cbn [bind] in E; try discriminate E.
        unfold validate_field_number in Y. destruct (FIELD_NUMBER_MAX <? _) in Y; discriminate.
      * unfold wt_from_value in X. destruct (_ =? 0) in X; [discriminate|]. destruct (_ =? 2) in X; discriminate.
    + now apply (cause_panic m U32).
  - exfalso. unfold rd_tag in E. destruct (uv_deserialize m 32 bs) as [[n rest]|e| |] eqn:E'; cbn [bind] in E; try discriminate E.
    + unfold parse_tag in E. destruct (wt_from_value _) as [w|?| |] eqn:X in E; cbn [bind] in E; try discriminate E.
      * destruct (validate_field_number _) as [u|?| |] eqn:Y in E; cbn [bind] in E; try discriminate E.
        unfold validate_field_number in Y. destruct (FIELD_NUMBER_MAX <? _) in Y; discriminate.
      * unfold wt_from_value in X. destruct (_ =? 0) in X; [discriminate|]. destruct (_ =? 2) in X; discriminate.
    + now apply uv_deserialize_nofuel in E'.
Qed.

Lemma list_step_good m t r : TG m t -> ty_ok t = true ->
  sgood m (fun l => forallb (wt t) l = true)
    (list_step m (wty t) (merge m t) (fun i => dflt t (nested r i))).
Proof.
  intros G O s bs Is Hb. unfold list_step.
  pose proof (merge_nested_good m _ _ _ (wty t) (dflt t (nested r (lenN s))) bs G (wt_dflt t O _) Hb) as H.
  destruct (merge_nested _ _ _ _ _ bs) as [x o]. destruct H as [H1 H2].
  destruct o as [rest|e| |]; cbn [try]; try (split; [exact Is|exact H2]).
  split; [|exact H2]. rewrite forallb_app. cbn. now rewrite Is, H1.
Qed.

Lemma im_insert_in {A} k (x : A) l e : In e (im_insert k x l) -> e = (k, x) \/ In e l.
Proof.
  induction l as [|[k' x'] l IH]; cbn [im_insert]; intros H.
  - destruct H as [<-|[]]. auto.
  - destruct (k =? k') eqn:E.
    + destruct H as [<-|H]; [left; f_equal; lia|right; now right].
    + destruct H as [<-|H]; [right; now left|]. destruct (IH H); [auto|right; now right].
Qed.

Lemma im_insert_keys {A} k (x : A) l : nodupb (map fst l) = true -> nodupb (map fst (im_insert k x l)) = true.
Proof.
  rewrite !nodup_mdistinct. induction l as [|[k' x'] l IH]; [reflexivity|].
  cbn [mdistinct]. intros H. bprop. cbn [im_insert]. destruct (k =? k') eqn:E; cbn [mdistinct]; apply andb_true_iff.
  - now split.
  - split; [|now apply IH]. apply negb_true_iff. apply negb_true_iff in H. apply not_true_is_false. intros X.
    apply existsb_exists in X. destruct X as (e & He & Ee). apply im_insert_in in He. destruct He as [-> |He].
    + cbn in Ee. lia.
    + assert (existsb (fun e => k' =? fst e) l = true) by (apply existsb_exists; eauto). congruence.
Qed.

Lemma im_insert_wt k t r r' fn x es : fn < 2 ^ 32 -> wt t x = true ->
  wt (TMap k t) (VMap r es) = true -> wt (TMap k t) (VMap r' (im_insert fn x es)) = true.
Proof.
  intros Hf Wx W. cbn [wt] in *. bprop. rewrite im_insert_keys by assumption. rewrite andb_true_r.
  rewrite forallb_forall in *. intros e He. apply im_insert_in in He. destruct He as [-> |He]; [|auto].
  cbn. rewrite Wx, andb_true_r. lia.
Qed.

Lemma assoc_in {A} k (l : list (N * A)) x : assoc k l = Some x -> In (k, x) l.
Proof.
  induction l as [|[k' a] l IH]; cbn; [discriminate|]. destruct (k =? k') eqn:E.
  - intros H. inversion H; subst. left. f_equal. lia.
  - intros H. right. auto.
Qed.

Lemma map_step_good m k t r : TG m t -> ty_ok t = true ->
  sgood m (fun es => wt (TMap k t) (VMap r es) = true)
    (map_step m k (wty t) (merge m t) (fun i => dflt t (nested r i))).
Proof.
  intros G O s bs Is Hb. unfold map_step.
  pose proof (uv_oc m U32 bs) as U. cbn [ibits] in U.
  destruct (uv_deserialize m 32 bs) as [[n rest]|e| |] eqn:E; cbn [try bind] in *; try (split; [exact Is|exact U]).
  destruct U as (p & E1 & Hp). rewrite E1 in Hb. apply bytes_ok_app in Hb.
  unfold parse_tag. destruct (wt_from_value _) as [w|?| |] eqn:X; cbn [bind try]; try (cbn; auto; fail);
    try (exfalso; unfold wt_from_value in X; destruct (_ =? 0) in X; [discriminate|]; destruct (_ =? 2) in X; discriminate).
  set (fn := N.shiftr n WIRE_TYPE_BITS).
  destruct (validate_field_number fn) as [u|?| |] eqn:Y; cbn [bind try]; try (cbn; auto; fail);
    try (exfalso; unfold validate_field_number in Y; destruct (FIELD_NUMBER_MAX <? _) in Y; discriminate).
  rewrite Y. cbn [try]. unfold key_of_fn. destruct (fn <=? mkey_max k); cbn [try]; [|cbn; auto].
  assert (Hf : fn < 2 ^ 32).
  { unfold validate_field_number, FIELD_NUMBER_MAX in Y. destruct (_ <? fn) eqn:L in Y; [discriminate|].
    change (2 ^ 32) with 4294967296. lia. }
  destruct (assoc fn s) as [x|] eqn:A.
  - assert (Wx : wt t x = true).
    { apply assoc_in in A. cbn [wt] in Is. bprop. rewrite forallb_forall in H. specialize (H _ A). cbn in H. now bprop. }
    pose proof (merge_nested_good m _ _ _ (wty t) x rest G Wx (proj2 Hb)) as H.
    destruct (merge_nested _ _ _ _ _ rest) as [x' o]. destruct H as [H1 H2].
    split; [now apply (im_insert_wt k t r)|]. rewrite E1. now apply oc_after.
  - pose proof (merge_nested_good m _ _ _ (wty t) (dflt t (nested r fn)) rest G (wt_dflt t O _) (proj2 Hb)) as H.
    destruct (merge_nested _ _ _ _ _ rest) as [x' o]. destruct H as [H1 H2].
    destruct o as [rest'|e| |]; cbn [try];
      try (split; [exact Is|rewrite E1; exact (oc_after m p rest _ H2)]).
    split; [now apply (im_insert_wt k t r)|rewrite E1; exact (oc_after m p rest _ H2)].
Qed.

(** The enum case, with the search over variants made explicit. *)
Lemma merge_enum m st vs tag c r fs bs :
  merge m (TEnum st vs) (VEnum tag c r fs) bs =
  try (VEnum tag c r fs) (uv_deserialize m 32 bs) (fun '(tag', rest) =>
    match find_variant vs tag' with
    | None => (VEnum tag c r fs, Err InvalidData)
    | Some va =>
        try (VEnum tag c r fs)
            (if tag =? tag' then Ok (VEnum tag c r fs)
             else do p <- enum_parent r; Ok (variant_ctor st va p)) (fun v1 =>
          match v1 with
          | VEnum tag1 c1 r1 fs1 =>
              let '(fs', o) := run (struct_step m (fmergers m (snd va))) fs1 rest in
              (VEnum tag1 c1 r1 fs', o)
          | _ => (v1, NoFuel)
          end)
    end).
Proof.
  cbn [merge]. destruct (uv_deserialize m 32 bs) as [[tag' rest]|e| |]; try reflexivity. cbn [try].
  unfold find_variant. induction vs as [|[[vtag vc] fts] vs IH]; [reflexivity|].
  cbn [find fst]. rewrite (N.eqb_sym vtag tag'). destruct (tag' =? vtag); [reflexivity|exact IH].
Qed.

Lemma merge_struct m si fts c r fs bs :
  merge m (TStruct si fts) (VStruct c r fs) bs =
  let '(fs', o) := run (struct_step m (fmergers m fts)) fs bs in (VStruct c r fs', o).
Proof. reflexivity. Qed.

Lemma fields_tys st fs : fields_ok st fs = true -> Forall (fun p : finfo * ty => ty_ok (snd p) = true) fs.
Proof.
  intros H. apply Forall_forall. intros [fi t] I. unfold fields_ok in H. rewrite forallb_forall in H.
  specialize (H _ I). cbn in H. now bprop.
Qed.

Lemma Forall_mp {A} (P Q : A -> Prop) l : Forall (fun x => P x -> Q x) l -> Forall P l -> Forall Q l.
Proof. induction 1; intros H'; [constructor|]. inversion H'; subst. constructor; auto. Qed.

Lemma forallb_Forall {A} (f : A -> bool) l : forallb f l = true -> Forall (fun x => f x = true) l.
Proof. intros H. rewrite forallb_forall in H. now apply Forall_forall. Qed.

Lemma merge_good m t : ty_ok t = true -> TG m t.
Proof.
  induction t as [k| | | |t IH|t IH|n t IH|ts IH|k t IHk IHt|t IH|si fs IH|st vs IH|t IH|k t IH]
    using ty_ind'; intros O v bs W Hb.
  - destruct v as [k0 z| | | | | | | | | | | | |]; try discriminate W. cbn [wt] in W. bprop. cbn [merge wty ow]. rewrite H.
    apply ikind_eqb_eq in H. subst k0. pose proof (uv_oc m k bs) as U.
    destruct (int_deserialize m k bs) as [[z' rest]|e| |] eqn:E; cbn [try].
    + pose proof (int_deserialize_range m k bs z' rest Hb E) as Rg.
      cbn. rewrite Rg. split; [destruct k; reflexivity|].
      unfold int_deserialize in E. destruct (uv_deserialize m (ibits k) bs) as [[u r]|?| |]; cbn [bind] in *; try discriminate E.
      inversion E; subst. exact U.
    + cbn. rewrite H0. split; [destruct k; reflexivity|exact I].
    + cbn [wt]. rewrite H0. split; [destruct k; reflexivity|].
      unfold int_deserialize in E. destruct (uv_deserialize m (ibits k) bs) as [[u r]|?| |]; cbn [bind] in *; try discriminate E. exact U.
    + unfold int_deserialize in E. destruct (uv_deserialize m (ibits k) bs) as [[u r]|?| |]; cbn [bind] in *; try discriminate E. destruct U.
  - destruct v; try discriminate W. cbn [merge wty ow].
    destruct (bool_deserialize bs) as [[b' rest]|e| |] eqn:E; cbn [try]; try (split; [reflexivity|]).
    + unfold bool_deserialize in E. now apply bool_de_loop_suffix in E.
    + exact I.
    + exfalso. rewrite bool_decode in E by exact Hb. destruct (varint_prefix bs) as [[p r]|]; discriminate E.
    + rewrite bool_decode in E by exact Hb. destruct (varint_prefix bs) as [[p r]|]; discriminate E.
  - destruct v; try discriminate W. cbn [merge wty ow]. destruct (utf8_valid bs) eqn:E.
    + split; [|reflexivity]. cbn. rewrite E, andb_true_r. apply forallb_forall. intros b Hi.
      unfold bytes_ok in Hb. rewrite Forall_forall in Hb. specialize (Hb _ Hi). cbn in Hb. lia.
    + split; [exact W|exact I].
  - destruct v; try discriminate W. cbn [merge wty ow]. split; [|reflexivity]. cbn in *. rewrite forallb_app, W. cbn.
    apply forallb_forall. intros b Hi. unfold bytes_ok in Hb. rewrite Forall_forall in Hb. specialize (Hb _ Hi). cbn in Hb. lia.
  - destruct v as [| | | |o| | | | | | | | |]; try discriminate W. cbn [ty_ok] in O. cbn [merge wty ow].
    pose proof (run_good m _ _ o bs (opt_step_good m t (IH O) O) W Hb) as H.
    destruct (run _ o bs) as [o' r]. exact H.
  - destruct v as [| | | | |l| | | | | | | |]; try discriminate W. cbn [ty_ok] in O. cbn [merge wty ow].
    pose proof (run_good m _ _ l bs (vec_step_good m t (IH O) O) W Hb) as H.
    destruct (run _ l bs) as [o' r]. exact H.
  - destruct v as [| | | | | |l| | | | | | |]; try discriminate W. cbn [ty_ok] in O. cbn [wt] in W. bprop. cbn [merge wty ow].
    pose proof (arr_loop_good m t (IH ltac:(assumption)) ltac:(assumption) l bs ltac:(assumption) Hb) as HA.
    destruct (arr_loop _ _ _ _ l bs) as [l' r]. destruct HA as (A1 & A2 & A3). split; [|exact A3].
    cbn. rewrite A1, A2, H. reflexivity.
  - destruct v as [| | | | | | |l| | | | | |]; try discriminate W. cbn [merge wty ow].
    assert (O' : forallb ty_ok ts = true) by (cbn in O; bprop; assumption).
    apply forallb_Forall in O'. pose proof (Forall_mp _ _ _ IH O') as G.
    assert (G' : Forall (fun t => TG m t /\ ty_ok t = true) ts) by (apply Forall_and; assumption).
    pose proof (tup_read_good m ts G' bs Hb) as T.
    destruct (tup_read _ _ bs) as [[l' rest]|e| |]; cbn [try].
    + rewrite wt_tup_eq. split; [apply T|reflexivity].
    + auto.
    + split; [exact W|exact T].
    + destruct T.
  - destruct v as [| | | | | | | |l| | | | |]; try discriminate W. cbn [ty_ok] in O. bprop. cbn [merge wty ow].
    pose proof (run_good m _ _ l bs (hash_step_good m k t (IHk ltac:(assumption)) ltac:(assumption) (IHt ltac:(assumption)) ltac:(assumption)) W Hb) as R.
    destruct (run _ l bs) as [o' r]. exact R.
  - destruct v as [| | | | | | | | |x| | | |]; try discriminate W. cbn [ty_ok wt] in *. cbn [merge wty].
    pose proof (IH O x bs W Hb) as H. destruct (merge m t x bs) as [x' r]. exact H.
  - destruct v as [| | | | | | | | | |c r l| | |]; try discriminate W. rewrite ty_ok_struct in O. bprop.
    rewrite wt_struct_eq in W. bprop. rewrite merge_struct. cbn [wty ow].
    pose proof (Forall_mp _ _ _ IH (fields_tys _ _ H)) as G.
    pose proof (run_good m _ _ l bs (struct_step_good m fs G) ltac:(assumption) Hb) as R.
    destruct (run _ l bs) as [l' o]. destruct R as [R1 R2]. split; [|exact R2].
    rewrite wt_struct_eq, R1, H3. now rewrite H1.
  - destruct v as [| | | | | | | | | | |tag c r l| |]; try discriminate W.
    rewrite merge_enum. cbn [wty ow]. pose proof (uv_oc m U32 bs) as U. cbn [ibits] in U.
    destruct (uv_deserialize m 32 bs) as [[tag' rest]|e| |] eqn:E; cbn [try bind] in *; try (split; [exact W|exact U]).
    destruct U as (p & E1 & Hp). rewrite E1 in Hb. apply bytes_ok_app in Hb.
    destruct (find_variant vs tag') as [va|] eqn:F; [|split; [exact W|exact I]].
    pose proof (find_variant_in _ _ _ F) as [Iv Ev]. pose proof (variant_fields_ok st vs va O Iv) as (_ & FO & _).
    assert (G : Forall (fun p => TG m (snd p)) (snd va)).
    { rewrite Forall_forall in IH. specialize (IH _ Iv). exact (Forall_mp _ _ _ IH (fields_tys _ _ FO)). }
    assert (K : forall tag1 c1 r1 fs1, wt (TEnum st vs) (VEnum tag1 c1 r1 fs1) = true -> tag1 = tag' ->
      let '(v', r0) := (let '(fs', o) := run (struct_step m (fmergers m (snd va))) fs1 rest in (VEnum tag1 c1 r1 fs', o)) in
      wt (TEnum st vs) v' = true /\ oe m bs r0).
    { intros tag1 c1 r1 fs1 W1 ->. rewrite wt_enum_eq, F in W1. destruct va as [[tg cc] ts]. bprop.
      pose proof (run_good m _ _ fs1 rest (struct_step_good m ts G) ltac:(assumption) (proj2 Hb)) as R. cbn [snd].
      destruct (run _ fs1 rest) as [l' o]. destruct R as [R1 R2]. split; [|rewrite E1; now apply oe_after].
      rewrite wt_enum_eq, F, R1. rewrite H, H2. now rewrite H0. }
    destruct (tag =? tag') eqn:ET; cbn [try].
    + apply K; [exact W|lia].
    + pose proof W as W'. rewrite wt_enum_eq in W'. bprop. destruct r as [[lg [|pp nn]]|]; cbn [rt_below] in *; try discriminate; cbn [enum_parent bind try].
      * pose proof (ctor_wt st vs tag' va (mkRt lg pp) O F) as C. unfold variant_ctor in *. destruct va as [[tg cc] ts]. cbn in Ev. subst tg.
        apply K; [exact C|reflexivity].
      * pose proof (ctor_wt st vs tag' va rt_default O F) as C. unfold variant_ctor in *. destruct va as [[tg cc] ts]. cbn in Ev. subst tg.
        apply K; [exact C|reflexivity].
  - destruct v as [| | | | | | | | | | | |r l|]; try discriminate W. cbn [ty_ok] in O. bprop. cbn [merge wty ow].
    pose proof (run_good m _ _ l bs (list_step_good m t r (IH ltac:(assumption)) ltac:(assumption)) W Hb) as R.
    destruct (run _ l bs) as [l' o]. exact R.
  - destruct v as [| | | | | | | | | | | | |r l]; try discriminate W. cbn [ty_ok] in O. bprop. cbn [merge wty ow].
    pose proof (run_good m _ _ l bs (map_step_good m k t r (IH ltac:(assumption)) ltac:(assumption)) W Hb) as R.
    destruct (run _ l bs) as [l' o]. exact R.
Qed.
