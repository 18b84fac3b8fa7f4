(** Lemmas about the derive macro's checks. *)
From Verif Require Import Base WireFmt Types TypeProofs Derive.
From Coq Require String.
Import String.StringSyntax.
Local Open Scope string_scope.
Local Open Scope N_scope.

(** ** What a list of attribute items says, without parsing state *)

Definition items (ats : list attr) : list nmeta := flat_map (fun a => match a with ASteit ns => ns | _ => [] end) ats.
Definition clean (a : attr) : Prop := match a with ASteit _ | AForeign => True | _ => False end.
Definition is_int32 (n : nmeta) : bool := match n with NLit (LInt i) => i <? 2 ^ 32 | _ => false end.

(** An item the table knows, in a form it may have. *)
Definition known (tab : atable) (n : nmeta) : bool :=
  match n with
  | NMeta (MPath p) => match akind_of tab p with Some KBool | Some KPath => true | _ => false end
  | NMeta (MNameValue p _) => match akind_of tab p with Some KInt | Some KBool | Some KStr => true | _ => false end
  | NMeta (MList p _) => match akind_of tab p with Some KInts => true | _ => false end
  | NLit _ => false
  end.
(** Its value is of the right kind. *)
Definition valued (tab : atable) (n : nmeta) : bool :=
  match n with
  | NMeta (MNameValue p l) => match akind_of tab p with Some k => lit_ok k l | None => false end
  | NMeta (MList _ ns) => forallb is_int32 ns
  | _ => true
  end.
Definition single (tab : atable) (n : nmeta) : list (string * lit) :=
  if known tab n then
    match n with
    | NMeta (MPath p) => [(p, LBool true)]
    | NMeta (MNameValue p l) => [(p, l)]
    | _ => []
    end
  else [].
Definition listed (tab : atable) (n : nmeta) : list N :=
  if known tab n then
    match n with
    | NMeta (MList _ ns) => flat_map (fun n => match n with NLit (LInt i) => [i] | _ => [] end) ns
    | _ => []
    end
  else [].
Definition singles (tab : atable) (ns : list nmeta) : list (string * lit) := flat_map (single tab) ns.
Definition ints (tab : atable) (ns : list nmeta) : list N := flat_map (listed tab) ns.
(** Every known item has a value of the right kind, none but lists is given twice; no unknown items
    where they are not allowed. *)
Definition tidy (tab : atable) (strict : bool) (ns : list nmeta) : Prop :=
  (strict = true -> Forall (fun n => known tab n = true) ns) /\
  Forall (fun n => known tab n = true -> valued tab n = true) ns /\
  NoDup (map fst (singles tab ns)).

Lemma slot_none name vs : slot name vs = None <-> ~ In name (map fst vs).
Proof.
  induction vs as [|[n l] vs IH]; cbn [slot map fst In]; [tauto|]. destruct (String.eqb_spec n name) as [->|N].
  - split; [discriminate|]. intros H. exfalso. auto.
  - rewrite IH. tauto.
Qed.
Lemma slot_in name l vs : NoDup (map fst vs) -> (slot name vs = Some l <-> In (name, l) vs).
Proof.
  induction vs as [|[n k] vs IH]; cbn [slot map fst In]; intros D; [split; [discriminate|easy]|]. inversion D as [|? ? D1 D2]; subst.
  destruct (String.eqb_spec n name) as [->|N].
  - split.
    + intros [= ->]. auto.
    + intros [[= ->]|H]; [reflexivity|]. exfalso. apply D1. apply in_map_iff. now exists (name, l).
  - rewrite (IH D2). split; [auto|]. intros [[= -> ->]|H]; [congruence|exact H].
Qed.

Lemma set_slot_spec name l s : let '(s', e) := set_slot name l s in
  (e = [] <-> ~ In name (map fst (sl_vals s))) /\ (e = [] -> s' = mkSl (sl_vals s ++ [(name, l)]) (sl_ints s)).
Proof.
  unfold set_slot. pose proof (slot_none name (sl_vals s)) as H. destruct (slot name (sl_vals s)).
  - split; [|discriminate]. split; [discriminate|]. intros X. apply H in X. discriminate.
  - split; [|auto]. split; [|auto]. intros _. now apply H.
Qed.
Lemma int_list_spec name ns : forall s, let '(s', e) := int_list name ns s in
  (e = [] <-> forallb is_int32 ns = true) /\
  (e = [] -> s' = mkSl (sl_vals s) (sl_ints s ++ flat_map (fun n => match n with NLit (LInt i) => [i] | _ => [] end) ns)).
Proof.
  induction ns as [|n ns IH]; intros s; cbn [int_list forallb flat_map].
  - split; [tauto|]. intros _. rewrite app_nil_r. now destruct s.
  - destruct n as [m|[i|b|t|]]; cbn [is_int32].
    1,3,4,5: specialize (IH s); destruct (int_list name ns s) as [s2 e']; split; [split; discriminate|discriminate].
    destruct (i <? 2 ^ 32).
    + specialize (IH (mkSl (sl_vals s) (sl_ints s ++ [i]))). destruct (int_list name ns _) as [s2 e']. cbn [andb app sl_vals sl_ints] in *.
      destruct IH as [A B]. split; [exact A|]. intros E. rewrite (B E). now rewrite <- app_assoc.
    + specialize (IH s). destruct (int_list name ns s) as [s2 e']. split; [split; discriminate|discriminate].
Qed.

Lemma parse_meta_spec tab strict s n : let '(s', e, u) := parse_meta tab strict s n in
  (e = [] <-> (strict = true -> known tab n = true) /\ (known tab n = true -> valued tab n = true) /\
              (forall p l, In (p, l) (single tab n) -> ~ In p (map fst (sl_vals s)))) /\
  (e = [] -> s' = mkSl (sl_vals s ++ single tab n) (sl_ints s ++ listed tab n)) /\
  u = (if known tab n then [] else [n]).
Proof.
  assert (Same : s = mkSl (sl_vals s ++ []) (sl_ints s ++ [])) by (rewrite !app_nil_r; now destruct s).
  assert (Unknown : forall e, known tab n = false -> (e <> [] \/ strict = false) -> (e = [] \/ strict = true) ->
    (e = [] <-> (strict = true -> known tab n = true) /\ (known tab n = true -> valued tab n = true) /\
              (forall p l, In (p, l) (single tab n) -> ~ In p (map fst (sl_vals s)))) /\
    (@eq (list derr) e [] -> s = mkSl (sl_vals s ++ single tab n) (sl_ints s ++ listed tab n)) /\ [n] = (if known tab n then [] else [n])).
  { intros e K D1 D2. unfold single, listed. rewrite K. split; [|now split]. split.
    - intros ->. split; [destruct D1 as [X|X]; [easy|rewrite X; discriminate]|]. split; [discriminate|]. intros p l [].
    - intros [A _]. destruct D2 as [X|X]; [exact X|]. specialize (A X). discriminate. }
  destruct n as [m|l].
  - unfold parse_meta. destruct m as [p|p l|p ns]; cbn [accept].
    + destruct (akind_of tab p) as [k|] eqn:K.
      * assert (Kn : known tab (NMeta (MPath p)) = match k with KBool | KPath => true | _ => false end) by (cbn [known]; now rewrite K).
        destruct k.
        1,3,4: apply Unknown; [exact Kn|destruct strict; [left; discriminate|now right]|destruct strict; [now right|now left]].
        all: pose proof (set_slot_spec p (LBool true) s) as X; destruct (set_slot p (LBool true) s) as [s' e]; destruct X as [X1 X2];
          unfold single, listed; rewrite Kn; cbn [valued]; split; [|split; [intros E; rewrite (X2 E), app_nil_r; reflexivity|reflexivity]];
          rewrite X1; split; [intros D; split; [auto|]; split; [auto|]; intros q l [[= <- <-]|[]]; exact D|intros (_ & _ & D); apply (D p (LBool true)); now left].
      * assert (Kn : known tab (NMeta (MPath p)) = false) by (cbn [known]; now rewrite K).
        apply Unknown; [exact Kn|destruct strict; [left; discriminate|now right]|destruct strict; [now right|now left]].
    + destruct (akind_of tab p) as [k|] eqn:K.
      * assert (Kn : known tab (NMeta (MNameValue p l)) = match k with KInt | KBool | KStr => true | _ => false end) by (cbn [known]; now rewrite K).
        destruct k.
        4,5: apply Unknown; [exact Kn|destruct strict; [left; discriminate|now right]|destruct strict; [now right|now left]].
        all: unfold single, listed; rewrite Kn; cbn [valued]; rewrite K; destruct (lit_ok _ l);
          [pose proof (set_slot_spec p l s) as X; destruct (set_slot p l s) as [s' e]; destruct X as [X1 X2];
           split; [|split; [intros E; rewrite (X2 E), app_nil_r; reflexivity|reflexivity]];
           rewrite X1; split; [intros D; split; [auto|]; split; [auto|]; intros q l' [[= <- <-]|[]]; exact D|intros (_ & _ & D); apply (D p l); now left]
          |split; [|split; [discriminate|reflexivity]]; split; [discriminate|]; intros (_ & D & _); specialize (D eq_refl); discriminate].
      * assert (Kn : known tab (NMeta (MNameValue p l)) = false) by (cbn [known]; now rewrite K).
        apply Unknown; [exact Kn|destruct strict; [left; discriminate|now right]|destruct strict; [now right|now left]].
    + destruct (akind_of tab p) as [k|] eqn:K.
      * assert (Kn : known tab (NMeta (MList p ns)) = match k with KInts => true | _ => false end) by (cbn [known]; now rewrite K).
        destruct k.
        1,2,3,5: apply Unknown; [exact Kn|destruct strict; [left; discriminate|now right]|destruct strict; [now right|now left]].
        pose proof (int_list_spec p ns s) as X. destruct (int_list p ns s) as [s' e]. destruct X as [X1 X2].
        unfold single, listed. rewrite Kn. cbn [valued]. split; [|split; [intros E; rewrite (X2 E), app_nil_r; reflexivity|reflexivity]].
        rewrite X1. split; [intros D; split; [auto|]; split; [auto|]; intros q l' []|intros (_ & D & _); auto].
      * assert (Kn : known tab (NMeta (MList p ns)) = false) by (cbn [known]; now rewrite K).
        apply Unknown; [exact Kn|destruct strict; [left; discriminate|now right]|destruct strict; [now right|now left]].
  - unfold parse_meta. apply Unknown; [reflexivity|destruct strict; [left; discriminate|now right]|destruct strict; [now right|now left]].
Qed.

Lemma nodup_app_iff {A} (a b : list A) : NoDup (a ++ b) <-> NoDup a /\ NoDup b /\ (forall x, In x a -> ~ In x b).
Proof.
  induction a as [|x a IH]; cbn [app]; [split; [intros H; repeat split; auto; constructor|intros (_ & H & _); exact H]|].
  rewrite !NoDup_cons_iff, IH, in_app_iff. split.
  - intros (N & Da & Db & S). split; [tauto|]. split; [exact Db|]. intros y [<-|Y]; [tauto|now apply S].
  - intros ((N & Da) & Db & S). split; [|split; [exact Da|]; split; [exact Db|]; intros y Y; apply S; now right].
    intros [X|X]; [tauto|]. apply (S x); [now left|exact X].
Qed.
Lemma single_nodup tab n : NoDup (map fst (single tab n)).
Proof. unfold single. destruct (known tab n); [|constructor]. destruct n as [[p|p l|p ns]|l]; cbn; repeat constructor; easy. Qed.

Lemma app_nil_iff {A} (a b : list A) : a ++ b = [] <-> a = [] /\ b = [].
Proof. split; [apply app_eq_nil|]. now intros [-> ->]. Qed.

Lemma parse_metas_spec tab strict ns : forall s, NoDup (map fst (sl_vals s)) ->
  let '(s', e, u) := parse_metas tab strict s ns in
  (e = [] <-> (strict = true -> Forall (fun n => known tab n = true) ns) /\ Forall (fun n => known tab n = true -> valued tab n = true) ns /\
              NoDup (map fst (sl_vals s ++ singles tab ns))) /\
  (e = [] -> s' = mkSl (sl_vals s ++ singles tab ns) (sl_ints s ++ ints tab ns)) /\
  u = filter (fun n => negb (known tab n)) ns.
Proof.
  induction ns as [|n ns IH]; intros s D; cbn [parse_metas].
  - cbn. rewrite !app_nil_r. split; [|split; [now destruct s|reflexivity]]. split; [auto|tauto].
  - pose proof (parse_meta_spec tab strict s n) as X. destruct (parse_meta tab strict s n) as [[s1 e1] u1]. destruct X as (X1 & X2 & X3).
    assert (D1 : e1 = [] -> NoDup (map fst (sl_vals s1))).
    { intros E. rewrite (X2 E). cbn [sl_vals]. rewrite map_app, nodup_app_iff. split; [exact D|]. split; [apply single_nodup|].
      intros p P Q. apply in_map_iff in Q. destruct Q as ([q l] & <- & Q). apply X1 in E. destruct E as (_ & _ & E). now apply (E q l). }
    assert (U : u1 ++ filter (fun n => negb (known tab n)) ns = filter (fun n => negb (known tab n)) (n :: ns)).
    { cbn [filter]. rewrite X3. now destruct (known tab n). }
    destruct e1 as [|x e1].
    + specialize (IH s1 (D1 eq_refl)). destruct (parse_metas tab strict s1 ns) as [[s2 e2] u2]. destruct IH as (I1 & I2 & I3).
      rewrite (X2 eq_refl) in I1, I2. cbn [sl_vals sl_ints app] in *. subst u2. rewrite U. cbn [singles ints flat_map].
      fold (singles tab ns) (ints tab ns). rewrite !app_assoc. split; [|split; [exact I2|reflexivity]].
      rewrite I1. destruct X1 as [X1 _]. destruct (X1 eq_refl) as (A & B & _). split; intros (P & Q & R).
      * split; [intros E; constructor; auto|]. split; [constructor; auto|exact R].
      * split; [intros E; specialize (P E); now inversion P|]. split; [now inversion Q|exact R].
    + assert (U2 : snd (parse_metas tab strict s1 ns) = filter (fun n => negb (known tab n)) ns).
      { clear. revert s1. induction ns as [|n ns IH]; intros s; cbn [parse_metas filter]; [reflexivity|].
        pose proof (parse_meta_spec tab strict s n) as X. destruct (parse_meta tab strict s n) as [[s1 e1] u1]. destruct X as (_ & _ & ->).
        specialize (IH s1). destruct (parse_metas tab strict s1 ns) as [[s2 e2] u2]. cbn [snd] in *. rewrite IH. now destruct (known tab n). }
      destruct (parse_metas tab strict s1 ns) as [[s2 e2] u2]. cbn [snd] in U2. subst u2. split; [|split; [discriminate|exact U]].
      split; [discriminate|]. intros (P & Q & R). exfalso. assert (C : x :: e1 = []); [|discriminate]. apply X1.
      split; [intros E; specialize (P E); now inversion P|]. split; [now inversion Q|]. intros p l In1 In2.
      rewrite map_app in R. apply nodup_app_iff in R. destruct R as (_ & _ & R). apply (R p In2). cbn [singles flat_map]. rewrite map_app, in_app_iff. left.
      apply in_map_iff. now exists (p, l).
Qed.
Lemma parse_metas_tidy tab strict ns : let '(s', e, u) := parse_metas tab strict no_slots ns in
  (e = [] <-> tidy tab strict ns) /\ (e = [] -> s' = mkSl (singles tab ns) (ints tab ns)) /\ u = filter (fun n => negb (known tab n)) ns.
Proof. apply (parse_metas_spec tab strict ns no_slots). constructor. Qed.
Lemma parse_metas_app tab strict a : forall s b, parse_metas tab strict s (a ++ b) =
  let '(s1, e1, u1) := parse_metas tab strict s a in let '(s2, e2, u2) := parse_metas tab strict s1 b in (s2, e1 ++ e2, u1 ++ u2).
Proof.
  induction a as [|n a IH]; intros s b; cbn [app parse_metas]; [now destruct (parse_metas tab strict s b) as [[? ?] ?]|].
  destruct (parse_meta tab strict s n) as [[s1 e1] u1]. rewrite IH. destruct (parse_metas tab strict s1 a) as [[s2 e2] u2].
  destruct (parse_metas tab strict s2 b) as [[s3 e3] u3]. now rewrite !app_assoc.
Qed.
(** Attributes behave like their items. *)
Lemma parse_attrs_items tab strict ats : forall s, let '(s', e, u) := parse_attrs tab strict s ats in
  let '(s2, e2, u2) := parse_metas tab strict s (items ats) in s' = s2 /\ u = u2 /\ (e = [] <-> Forall clean ats /\ e2 = []).
Proof.
  induction ats as [|a ats IH]; intros s; cbn [parse_attrs items flat_map].
  - cbn. split; [reflexivity|]. split; [reflexivity|]. split; auto.
  - fold (items ats). destruct a as [ns| | |]; cbn [app].
    + rewrite parse_metas_app. destruct (parse_metas tab strict s ns) as [[s1 e1] u1]. specialize (IH s1).
      destruct (parse_attrs tab strict s1 ats) as [[s2 e2] u2]. destruct (parse_metas tab strict s1 (items ats)) as [[s3 e3] u3].
      destruct IH as (-> & -> & I). split; [reflexivity|]. split; [reflexivity|]. rewrite !app_nil_iff, I, Forall_cons_iff. cbn [clean]. tauto.
    + specialize (IH s). destruct (parse_attrs tab strict s ats) as [[s2 e2] u2]. destruct (parse_metas tab strict s (items ats)) as [[s3 e3] u3].
      destruct IH as (-> & -> & I). split; [reflexivity|]. split; [reflexivity|]. rewrite Forall_cons_iff. cbn [clean app]. split; [discriminate|tauto].
    + specialize (IH s). destruct (parse_attrs tab strict s ats) as [[s2 e2] u2]. destruct (parse_metas tab strict s (items ats)) as [[s3 e3] u3].
      destruct IH as (-> & -> & I). split; [reflexivity|]. split; [reflexivity|]. rewrite Forall_cons_iff. cbn [clean app]. split; [discriminate|tauto].
    + specialize (IH s). destruct (parse_attrs tab strict s ats) as [[s2 e2] u2]. destruct (parse_metas tab strict s (items ats)) as [[s3 e3] u3].
      destruct IH as (-> & -> & I). split; [reflexivity|]. split; [reflexivity|]. rewrite Forall_cons_iff. cbn [clean app]. tauto.
Qed.
Lemma parse_attrs_tidy tab strict ats : let '(s', e, u) := parse_attrs tab strict no_slots ats in
  (e = [] <-> Forall clean ats /\ tidy tab strict (items ats)) /\ (e = [] -> s' = mkSl (singles tab (items ats)) (ints tab (items ats))) /\
  u = filter (fun n => negb (known tab n)) (items ats).
Proof.
  pose proof (parse_attrs_items tab strict ats no_slots) as H. pose proof (parse_metas_tidy tab strict (items ats)) as X.
  destruct (parse_attrs tab strict no_slots ats) as [[s' e] u]. destruct (parse_metas tab strict no_slots (items ats)) as [[s2 e2] u2].
  destruct H as (-> & -> & H), X as (X1 & X2 & X3). split; [now rewrite H, X1|]. split; [|exact X3]. intros E. apply H in E. now apply X2.
Qed.

(** ** Tags, flags, reserved tags *)

Definition says (ns : list nmeta) (p : string) (l : lit) : Prop :=
  In (NMeta (MNameValue p l)) ns \/ (l = LBool true /\ In (NMeta (MPath p)) ns).
Lemma in_singles tab ns p l : In (p, l) (singles tab ns) <->
  In (NMeta (MNameValue p l)) ns /\ known tab (NMeta (MNameValue p l)) = true \/
  l = LBool true /\ In (NMeta (MPath p)) ns /\ known tab (NMeta (MPath p)) = true.
Proof.
  unfold singles. rewrite in_flat_map. split.
  - intros (n & I & S). unfold single in S. destruct (known tab n) eqn:K; [|easy]. destruct n as [[q|q k|q k]|k]; cbn in S; try easy.
    + destruct S as [[= -> <-]|[]]. right. auto.
    + destruct S as [[= -> ->]|[]]. left. auto.
  - intros [[I K]|(-> & I & K)]; (eexists; split; [exact I|]; unfold single; rewrite K; now left).
Qed.
Lemma slot_tag tab ns n : akind_of tab "tag" = Some KInt -> tidy tab true ns \/ tidy tab false ns ->
  (slot "tag" (singles tab ns) = Some (LInt n) <-> In (NMeta (MNameValue "tag" (LInt n))) ns).
Proof.
  intros K T. assert (D : NoDup (map fst (singles tab ns))) by (now destruct T as [(_ & _ & D)|(_ & _ & D)]).
  rewrite (slot_in _ _ _ D), in_singles. cbn [known]. rewrite K. split; [intros [[I _]|[X _]]; [exact I|discriminate]|auto].
Qed.
Lemma slot_tag_int tab ns l : akind_of tab "tag" = Some KInt -> tidy tab true ns \/ tidy tab false ns ->
  slot "tag" (singles tab ns) = Some l -> exists n, l = LInt n /\ n < 2 ^ 32.
Proof.
  intros K T E. assert (D : NoDup (map fst (singles tab ns))) by (now destruct T as [(_ & _ & D)|(_ & _ & D)]).
  apply (slot_in _ _ _ D), in_singles in E. cbn [known] in E. rewrite K in E. destruct E as [[I _]|(_ & _ & X)]; [|discriminate].
  assert (V : valued tab (NMeta (MNameValue "tag" l)) = true).
  { assert (F : Forall (fun n => known tab n = true -> valued tab n = true) ns) by (now destruct T as [(_ & F & _)|(_ & F & _)]).
    rewrite Forall_forall in F. apply (F _ I). cbn [known]. now rewrite K. }
  cbn [valued] in V. rewrite K in V. destruct l as [i|b|x|]; try discriminate. cbn [lit_ok] in V. exists i. split; [reflexivity|lia].
Qed.
Lemma flag_says tab ns name ids : akind_of tab name = Some KBool -> tidy tab true ns \/ tidy tab false ns ->
  (flag name (mkSl (singles tab ns) ids) = true <-> says ns name (LBool true)).
Proof.
  intros K T. assert (D : NoDup (map fst (singles tab ns))) by (now destruct T as [(_ & _ & D)|(_ & _ & D)]).
  unfold flag, says. cbn [sl_vals]. destruct (slot name (singles tab ns)) as [l|] eqn:E.
  - apply (slot_in _ _ _ D) in E. split.
    + destruct l as [| [|] | |]; try discriminate. intros _. apply in_singles in E. destruct E as [[I _]|(_ & I & _)]; auto.
    + intros S. assert (X : In (name, LBool true) (singles tab ns)).
      { apply in_singles. cbn [known]. rewrite K. destruct S as [S|[_ S]]; auto. }
      apply (slot_in _ _ _ D) in E, X. assert (Y : Some l = Some (LBool true)) by congruence. now injection Y as ->.
  - split; [discriminate|]. intros S. apply slot_none in E. exfalso. apply E. apply in_map_iff. exists (name, LBool true). split; [reflexivity|].
    apply in_singles. cbn [known]. rewrite K. destruct S as [S|[_ S]]; auto.
Qed.
Lemma flag_path tab ns name ids : akind_of tab name = Some KPath -> tidy tab true ns \/ tidy tab false ns ->
  (flag name (mkSl (singles tab ns) ids) = true <-> In (NMeta (MPath name)) ns).
Proof.
  intros K T. assert (D : NoDup (map fst (singles tab ns))) by (now destruct T as [(_ & _ & D)|(_ & _ & D)]).
  unfold flag. cbn [sl_vals]. destruct (slot name (singles tab ns)) as [l|] eqn:E.
  - apply (slot_in _ _ _ D), in_singles in E. cbn [known] in E. rewrite K in E. destruct E as [[_ X]|(-> & I & _)]; [discriminate|]. tauto.
  - split; [discriminate|]. intros S. apply slot_none in E. exfalso. apply E. apply in_map_iff. exists (name, LBool true). split; [reflexivity|].
    apply in_singles. cbn [known]. rewrite K. auto.
Qed.
Definition reserves (ns : list nmeta) (n : N) : Prop := exists l, In (NMeta (MList "reserved_tags" l)) ns /\ In (NLit (LInt n)) l.
Lemma ints_reserves tab ns n : akind_of tab "reserved_tags" = Some KInts -> (forall p, akind_of tab p = Some KInts -> p = "reserved_tags") ->
  (In n (ints tab ns) <-> reserves ns n).
Proof.
  intros K U. unfold ints, reserves. rewrite in_flat_map. split.
  - intros (x & I & L). unfold listed in L. destruct (known tab x) eqn:Kx; [|easy]. destruct x as [[p|p l|p l]|l]; try easy.
    apply in_flat_map in L. destruct L as (y & Iy & L). exists l. cbn [known] in Kx. destruct (akind_of tab p) as [[]|] eqn:Kp; try discriminate.
    rewrite (U p Kp) in I. split; [exact I|]. destruct y as [|[i| | |]]; try easy. destruct L as [->|[]]. exact Iy.
  - intros (l & I & L). eexists. split; [exact I|]. unfold listed. cbn [known]. rewrite K. apply in_flat_map. eexists. split; [exact L|]. now left.
Qed.

(** ** Field types *)

(** Parentheses, references and arrays of supported types, and paths, with supported type arguments. *)
Inductive supported : sty -> Prop :=
| SupParen t : supported t -> supported (SParen t)
| SupRef t : supported t -> supported (SRef t)
| SupArray t : supported t -> supported (SArray t)
| SupPlain id : supported (SPath false id ANone)
| SupArgs id l : (forall t, In (GType t) l -> supported t) -> ~ In GOther l -> supported (SPath false id (AAngle l)).
Fixpoint ssize (t : sty) : nat :=
  match t with
  | SParen t | SRef t | SArray t => S (ssize t)
  | SPath _ _ (AAngle l) => S ((fix go l := match l with [] => O | GType t :: l' => ssize t + go l' | _ :: l' => go l' end) l)%nat
  | _ => 1%nat
  end.
Lemma type_err_spec t : type_err t = None <-> supported t.
Proof.
  enough (G : forall n t, (ssize t <= n)%nat -> (type_err t = None <-> supported t)) by exact (G (ssize t) t (le_n _)).
  clear t. induction n as [|n IH]; intros t L.
  { destruct t as [t|t|t|q id a|]; cbn [ssize] in L; try lia. destruct a; lia. }
  destruct t as [t|t|t|q id a|]; cbn [ssize type_err] in *.
  1,2,3: rewrite (IH t) by lia; split; [intros X; now constructor|intros X; now inversion X].
  - destruct q; [split; [discriminate|intros X; inversion X]|]. destruct a as [|l|].
    + split; [intros _; constructor|reflexivity].
    + split.
      * intros E. enough (X : (forall t, In (GType t) l -> supported t) /\ ~ In GOther l) by (destruct X; now constructor).
        induction l as [|g l IHl]; [split; [intros t []|intros []]|]. destruct g as [|t|]; [| |discriminate].
        -- destruct (IHl L E) as [X Y]. split; [intros t [[=]|H]; now apply X|intros [[=]|H]; contradiction].
        -- destruct (type_err t) eqn:Et; [discriminate|]. destruct (IHl ltac:(lia) E) as [X Y].
           split; [intros t' [[= <-]|H]; [apply (IH t); [lia|exact Et]|now apply X]|intros [[=]|H]; contradiction].
      * intros X. inversion X as [| | | |? ? F G]; subst. clear X. induction l as [|g l IHl]; [reflexivity|]. destruct g as [|t|].
        -- apply IHl; [assumption|intros t H; apply F; now right|intros H; apply G; now right].
        -- assert (Et : type_err t = None) by (apply (IH t); [lia|apply F; now left]). rewrite Et.
           apply IHl; [lia|intros t' H; apply F; now right|intros H; apply G; now right].
        -- exfalso. apply G. now left.
    + split; [discriminate|intros X; inversion X].
  - split; [discriminate|intros X; inversion X].
Qed.

(** ** Fields *)

(** What a field declaration has to look like, [n] being its tag. *)
Definition field_ok (se : setting) (f : field) (n : N) : Prop :=
  Forall clean (fd_attrs f) /\ tidy field_table true (items (fd_attrs f)) /\
  In (NMeta (MNameValue "tag" (LInt n))) (items (fd_attrs f)) /\ n <= 2 ^ 29 - 1 /\
  (st_meta se = true -> supported (fd_type f)).
(** What becomes of it. *)
Definition field_is (se : setting) (f : field) (fi : finfo) : Prop :=
  In (NMeta (MNameValue "tag" (LInt (f_tag fi)))) (items (fd_attrs f)) /\
  (f_state fi = true <-> st_state se = true /\ ~ says (items (fd_attrs f)) "no_state" (LBool true)) /\
  (f_eq fi = true <-> ~ says (items (fd_attrs f)) "no_eq_hash" (LBool true)) /\
  (f_hash fi = true <-> ~ says (items (fd_attrs f)) "no_hash" (LBool true)).
Lemma negb_iff (b : bool) (P : Prop) : (b = true <-> P) -> (negb b = true <-> ~ P).
Proof. destruct b; cbn; intuition. Qed.
Lemma parse_field_spec se f : let '(es, o) := parse_field se f in
  (es = [] <-> exists n, field_ok se f n) /\
  (es = [] -> exists fi, o = Some fi /\ field_ok se f (f_tag fi) /\ field_is se f fi) /\ (o = None -> es <> []).
Proof.
  unfold parse_field. pose proof (parse_attrs_tidy field_table true (fd_attrs f)) as H.
  destruct (parse_attrs field_table true no_slots (fd_attrs f)) as [[s es] u]. destruct H as (H1 & H2 & _).
  assert (Bad : forall e : derr, (es = [] -> forall n, ~ field_ok se f n) ->
    (es ++ [e] = [] <-> exists n, field_ok se f n) /\
    (es ++ [e] = [] -> exists fi, @None finfo = Some fi /\ field_ok se f (f_tag fi) /\ field_is se f fi) /\ (@None finfo = None -> es ++ [e] <> [])).
  { intros e B. split; [|split; [intros X; now destruct es|intros _ X; now destruct es]]. split; [intros X; now destruct es|].
    intros (n & F). exfalso. pose proof F as (F1 & F2 & _). assert (E : es = []) by now apply H1. exact (B E n F). }
  unfold the_tag. destruct (slot "tag" (sl_vals s)) as [[n|b|x|]|] eqn:E.
  - destruct (N.ltb_spec TAG_MAX n) as [Lt|Le].
    + apply Bad. intros Ee n' (F1 & F2 & F3 & F4 & _). rewrite (H2 Ee) in E. cbn [sl_vals] in E.
      apply (slot_tag field_table _ n' eq_refl (or_introl F2)) in F3.
      assert (n = n') by congruence. subst n'. unfold TAG_MAX in Lt. change (2 ^ 29) with 536870912 in F4. lia.
    + destruct (if st_meta se then type_err (fd_type f) else None) as [e|] eqn:Te.
      * apply Bad. intros Ee n' (_ & _ & _ & _ & F5). destruct (st_meta se); [|discriminate].
        specialize (F5 eq_refl). apply type_err_spec in F5. congruence.
      * assert (F : es = [] -> field_ok se f n).
        { intros Ee. pose proof Ee as Ee'. apply H1 in Ee'. destruct Ee' as [F1 F2]. rewrite (H2 Ee) in E. cbn [sl_vals] in E.
          split; [exact F1|]. split; [exact F2|]. split; [now apply (slot_tag field_table _ n eq_refl (or_introl F2))|].
          split; [unfold TAG_MAX in Le; change (2 ^ 29) with 536870912; lia|]. intros M. rewrite M in Te. now apply type_err_spec. }
        split; [split; [intros Ee; exists n; now apply F|intros (n' & F1 & F2 & _); now apply H1]|]. split; [|discriminate].
        intros Ee. eexists. split; [reflexivity|]. cbn [f_tag]. split; [now apply F|]. destruct (F Ee) as (F1 & F2 & F3 & _).
        unfold field_is. cbn [f_tag f_state f_eq f_hash]. rewrite (H2 Ee).
        split; [exact F3|]. rewrite Bool.andb_true_iff.
        rewrite (negb_iff _ _ (flag_says field_table (items (fd_attrs f)) "no_state" _ eq_refl (or_introl F2))).
        rewrite (negb_iff _ _ (flag_says field_table (items (fd_attrs f)) "no_eq_hash" _ eq_refl (or_introl F2))).
        rewrite (negb_iff _ _ (flag_says field_table (items (fd_attrs f)) "no_hash" _ eq_refl (or_introl F2))). tauto.
  - apply Bad. intros Ee n' (F1 & F2 & F3 & F4 & _). rewrite (H2 Ee) in E. cbn [sl_vals] in E.
    apply (slot_tag_int field_table _ _ eq_refl (or_introl F2)) in E. destruct E as (? & [=] & _).
  - apply Bad. intros Ee n' (F1 & F2 & F3 & F4 & _). rewrite (H2 Ee) in E. cbn [sl_vals] in E.
    apply (slot_tag_int field_table _ _ eq_refl (or_introl F2)) in E. destruct E as (? & [=] & _).
  - apply Bad. intros Ee n' (F1 & F2 & F3 & F4 & _). rewrite (H2 Ee) in E. cbn [sl_vals] in E.
    apply (slot_tag_int field_table _ _ eq_refl (or_introl F2)) in E. destruct E as (? & [=] & _).
  - apply Bad. intros Ee n' (F1 & F2 & F3 & F4 & _). rewrite (H2 Ee) in E. cbn [sl_vals] in E.
    apply (slot_tag field_table _ n' eq_refl (or_introl F2)) in F3. congruence.
Qed.

Lemma field_ok_unique se f n n' : field_ok se f n -> field_ok se f n' -> n = n'.
Proof.
  intros (_ & T & A & _) (_ & _ & B & _). apply (slot_tag field_table _ _ eq_refl (or_introl T)) in A, B. congruence.
Qed.
Lemma existsb_in n l : existsb (N.eqb n) l = true <-> In n l.
Proof. rewrite existsb_exists. split; [intros (x & I & E); apply N.eqb_eq in E; now subst|]. intros I. exists n. split; [exact I|apply N.eqb_refl]. Qed.

Lemma fields_loop_spec se res fs : forall seen, let '(es, r, u) := fields_loop se res seen fs in
  (es = [] <-> exists tags, Forall2 (field_ok se) fs tags /\ NoDup tags /\ (forall n, In n tags -> ~ In n res /\ ~ In n seen)) /\
  (es = [] -> u = true /\ Forall2 (field_is se) fs r /\ Forall2 (field_ok se) fs (map f_tag r)) /\
  (length r <> length fs \/ u = false -> es <> []).
Proof.
  induction fs as [|f fs IH]; intros seen; cbn [fields_loop].
  { split; [split; [intros _; exists []; repeat constructor; easy|reflexivity]|]. split; [cbn; auto|]. cbn. intros [H|H]; [lia|discriminate]. }
  pose proof (parse_field_spec se f) as P. destruct (parse_field se f) as [es o]. destruct P as (P1 & P2 & P3). destruct o as [fi|].
  - specialize (IH (f_tag fi :: seen)). destruct (fields_loop se res (f_tag fi :: seen) fs) as [[es' r] u]. destruct IH as (I1 & I2 & I3).
    assert (E : es ++ (if existsb (N.eqb (f_tag fi)) res then [EReserved (f_tag fi)] else []) ++
                (if existsb (N.eqb (f_tag fi)) seen then [EDupTag (f_tag fi)] else []) ++ es' = [] <->
            es = [] /\ ~ In (f_tag fi) res /\ ~ In (f_tag fi) seen /\ es' = []).
    { rewrite !app_nil_iff. rewrite <- !existsb_in. destruct (existsb (N.eqb (f_tag fi)) res), (existsb (N.eqb (f_tag fi)) seen); intuition discriminate. }
    cbv zeta. split; [|split].
    + rewrite E. split.
      * intros (E1 & Nr & Ns & E2). destruct (P2 E1) as (fi' & [= <-] & Fo & _). apply I1 in E2. destruct E2 as (tags & F & D & Q).
        exists (f_tag fi :: tags). split; [now constructor|]. split.
        -- constructor; [|exact D]. intros X. destruct (Q _ X) as [_ Y]. apply Y. now left.
        -- intros n [<-|X]; [auto|]. destruct (Q _ X) as [Y Z]. split; [exact Y|]. intros W. apply Z. now right.
      * intros (tags & F & D & Q). inversion F as [|? n ? tags' F1 F2]; subst. inversion D as [|? ? D1 D2]; subst.
        assert (E1 : es = []) by (apply P1; now exists n). destruct (P2 E1) as (fi' & [= <-] & Fo & _).
        rewrite (field_ok_unique _ _ _ _ Fo F1). destruct (Q n (or_introl eq_refl)) as [Q1 Q2]. split; [exact E1|]. split; [exact Q1|]. split; [exact Q2|].
        apply I1. exists tags'. split; [exact F2|]. split; [exact D2|]. intros k K. rewrite (field_ok_unique _ _ _ _ Fo F1).
        destruct (Q k (or_intror K)) as [Y Z]. split; [exact Y|]. intros [<-|W]; [contradiction|contradiction].
    + intros X. apply E in X. destruct X as (E1 & Nr & Ns & E2). destruct (P2 E1) as (fi' & [= <-] & Fo & Fi). destruct (I2 E2) as (U & A & B).
      split.
      * rewrite U. assert (existsb (N.eqb (f_tag fi)) seen = false) by (destruct (existsb (N.eqb (f_tag fi)) seen) eqn:X; [apply existsb_in in X; contradiction|reflexivity]).
        now rewrite H.
      * split; [now constructor|]. cbn [map]. now constructor.
    + intros H X. apply E in X. destruct X as (E1 & Nr & Ns & E2). apply (I3); [|exact E2]. cbn [length] in H.
      destruct H as [H|H]; [left; lia|]. right. assert (X : existsb (N.eqb (f_tag fi)) seen = false).
      { destruct (existsb (N.eqb (f_tag fi)) seen) eqn:X; [apply existsb_in in X; contradiction|reflexivity]. } rewrite X in H. exact H.
  - specialize (IH seen). destruct (fields_loop se res seen fs) as [[es' r] u]. assert (Ne : es <> []) by now apply P3.
    split; [|split].
    + split; [intros X; apply app_nil_iff in X; now destruct X|]. intros (tags & F & _). inversion F as [|? n ? tags' F1 F2]; subst.
      exfalso. apply Ne, P1. now exists n.
    + intros X; apply app_nil_iff in X; now destruct X.
    + intros _ X; apply app_nil_iff in X; now destruct X.
Qed.

(** ** Structs *)

Definition fields_ok (se : setting) (ns : list nmeta) (fs : list field) (tags : list N) : Prop :=
  Forall2 (field_ok se) fs tags /\ NoDup tags /\ (forall n, In n tags -> ~ reserves ns n).
Definition struct_ok (se : setting) (ns : list nmeta) (fs : list field) (tags : list N) : Prop :=
  tidy struct_table true ns /\ fields_ok se ns fs tags.
Definition struct_is (se : setting) (ns : list nmeta) (fs : list field) (r : list finfo) (c : bool) : Prop :=
  Forall2 (field_is se) fs r /\ fields_ok se ns fs (map f_tag r) /\
  (c = true <-> st_size_cache se = true /\ ~ says ns "no_size_cache" (LBool true)).
Lemma tables_ints tab : tab = struct_table \/ tab = enum_table -> akind_of tab "reserved_tags" = Some KInts /\
  (forall p, akind_of tab p = Some KInts -> p = "reserved_tags").
Proof.
  intros [-> | ->]; (split; [reflexivity|]); intros p; cbn [akind_of struct_table enum_table];
    repeat (match goal with |- context [String.eqb ?a ?b] => destruct (String.eqb_spec a b) as [<-|] end; [try discriminate; try reflexivity|]); discriminate.
Qed.
Lemma forall2_len {A B} (R : A -> B -> Prop) a b : Forall2 R a b -> length a = length b.
Proof. induction 1; cbn; congruence. Qed.
Lemma parse_struct_spec se ns fs : let '(es, o) := parse_struct se ns fs in
  (es = [] <-> exists tags, struct_ok se ns fs tags) /\
  (es = [] -> exists r c, o = Some (r, c) /\ struct_is se ns fs r c) /\ (o = None -> es <> []).
Proof.
  unfold parse_struct, parse_fields. pose proof (parse_metas_tidy struct_table true ns) as H.
  destruct (parse_metas struct_table true no_slots ns) as [[s e] u0]. destruct H as (H1 & H2 & _).
  pose proof (fields_loop_spec se (sl_ints s) fs []) as P. destruct (fields_loop se (sl_ints s) [] fs) as [[es r] u]. destruct P as (P1 & P2 & P3).
  destruct (tables_ints struct_table (or_introl eq_refl)) as [T1 T2].
  assert (Q : e = [] -> forall n, In n (sl_ints s) <-> reserves ns n).
  { intros E n. rewrite (H2 E). cbn [sl_ints]. now apply ints_reserves. }
  split; [|split].
  - rewrite app_nil_iff. split.
    + intros [E1 E2]. apply P1 in E2. destruct E2 as (tags & F & D & R). exists tags. split; [now apply H1|]. split; [exact F|]. split; [exact D|].
      intros n I X. destruct (R n I) as [Y _]. apply Y. now apply (Q E1).
    + intros (tags & T & F & D & R). assert (E1 : e = []) by now apply H1. split; [exact E1|]. apply P1. exists tags. split; [exact F|]. split; [exact D|].
      intros n I. split; [|easy]. intros X. apply (R n I). now apply (Q E1).
  - intros X. apply app_nil_iff in X. destruct X as [E1 E2]. destruct (P2 E2) as (U & A & B). pose proof (forall2_len _ _ _ A) as L.
    rewrite U, <- L, Nat.eqb_refl. cbn [andb]. eexists r, _. split; [reflexivity|]. split; [exact A|]. split.
    + split; [exact B|]. apply P1 in E2. destruct E2 as (tags & F & D & R).
      assert (Et : tags = map f_tag r).
      { clear -F B. revert tags F. generalize (map f_tag r) B. clear B. induction fs as [|f fs IH]; intros l B tags F; inversion B; inversion F; subst; [reflexivity|].
        f_equal; [eapply field_ok_unique; eassumption|]. now apply IH. }
      subst tags. split; [exact D|]. intros n I X. destruct (R n I) as [Y _]. apply Y. now apply (Q E1).
    + rewrite Bool.andb_true_iff, (H2 E1). rewrite (negb_iff _ _ (flag_says struct_table ns "no_size_cache" _ eq_refl (or_introl (proj1 H1 E1)))). tauto.
  - intros N X. apply app_nil_iff in X. destruct X as [E1 E2]. apply P3; [|exact E2]. destruct (Nat.eqb_spec (length r) (length fs)) as [E|E]; [|now left].
    right. destruct u; [discriminate|reflexivity].
Qed.

(** ** Enums *)

Definition variant_ok (se : setting) (v : variant) (n : N) : Prop :=
  Forall clean (vr_attrs v) /\ tidy variant_table false (items (vr_attrs v)) /\
  In (NMeta (MNameValue "tag" (LInt n))) (items (vr_attrs v)) /\ n <= 2 ^ 29 - 1 /\
  exists tags, struct_ok se (filter (fun x => negb (known variant_table x)) (items (vr_attrs v))) (vr_fields v) tags.
Definition variant_is (se : setting) (v : variant) (x : (N * bool) * list finfo) : Prop :=
  In (NMeta (MNameValue "tag" (LInt (fst (fst x))))) (items (vr_attrs v)) /\
  struct_is se (filter (fun x => negb (known variant_table x)) (items (vr_attrs v))) (vr_fields v) (snd x) (snd (fst x)).
Lemma variant_ok_unique se v n n' : variant_ok se v n -> variant_ok se v n' -> n = n'.
Proof.
  intros (_ & T & A & _) (_ & _ & B & _). apply (slot_tag variant_table _ _ eq_refl (or_intror T)) in A, B. congruence.
Qed.
Lemma variants_loop_spec se res vs : forall seen, let '(es, r, u) := variants_loop se res seen vs in
  (es = [] <-> exists tags, Forall2 (variant_ok se) vs tags /\ NoDup tags /\ (forall n, In n tags -> ~ In n res /\ ~ In n seen)) /\
  (es = [] -> u = true /\ Forall2 (variant_is se) vs r /\ Forall2 (variant_ok se) vs (map (fun x => fst (fst x)) r)) /\
  (length r <> length vs \/ u = false -> es <> []).
Proof.
  induction vs as [|v vs IH]; intros seen; cbn [variants_loop].
  { split; [split; [intros _; exists []; repeat constructor; easy|reflexivity]|]. split; [cbn; auto|]. cbn. intros [H|H]; [lia|discriminate]. }
  pose proof (parse_attrs_tidy variant_table false (vr_attrs v)) as H.
  destruct (parse_attrs variant_table false no_slots (vr_attrs v)) as [[s es] u0]. destruct H as (H1 & H2 & H3). subst u0.
  set (ns := filter (fun n => negb (known variant_table n)) (items (vr_attrs v))) in *.
  assert (Tag : es = [] -> forall n, the_tag s = inl n <-> In (NMeta (MNameValue "tag" (LInt n))) (items (vr_attrs v)) /\ n <= 2 ^ 29 - 1).
  { intros E n. pose proof (proj1 H1 E) as [_ T]. rewrite (H2 E). unfold the_tag. cbn [sl_vals].
    rewrite <- (slot_tag variant_table _ n eq_refl (or_intror T)). pose proof (slot_tag_int variant_table (items (vr_attrs v))) as Q.
    destruct (slot "tag" (singles variant_table (items (vr_attrs v)))) as [l|] eqn:Es; [|split; [discriminate|intros [X _]; discriminate]].
    destruct (Q l eq_refl (or_intror T) eq_refl) as (i & -> & _). destruct (N.ltb_spec TAG_MAX i); unfold TAG_MAX in *; change (2 ^ 29) with 536870912.
    - split; [discriminate|]. intros [[= ->] X]. lia.
    - split; [intros [= ->]; split; [reflexivity|lia]|]. now intros [[= ->] _]. }
  destruct (the_tag s) as [n|e] eqn:Et.
  - pose proof (parse_struct_spec se ns (vr_fields v)) as P. destruct (parse_struct se ns (vr_fields v)) as [e3 o]. destruct P as (P1 & P2 & P3).
    specialize (IH (n :: seen)). destruct (variants_loop se res (n :: seen) vs) as [[es' r] u]. destruct IH as (I1 & I2 & I3). cbv zeta.
    assert (E : es ++ (if existsb (N.eqb n) res then [EReserved n] else []) ++ (if existsb (N.eqb n) seen then [EDupTag n] else []) ++ e3 ++ es' = [] <->
            es = [] /\ ~ In n res /\ ~ In n seen /\ e3 = [] /\ es' = []).
    { rewrite !app_nil_iff. rewrite <- !existsb_in. destruct (existsb (N.eqb n) res), (existsb (N.eqb n) seen); intuition discriminate. }
    assert (Vo : es = [] -> e3 = [] -> variant_ok se v n).
    { intros E1 E2. pose proof (proj1 H1 E1) as [A B]. pose proof (proj1 (Tag E1 n) eq_refl) as [C D]. split; [exact A|]. split; [exact B|]. split; [exact C|]. split; [exact D|]. now apply P1. }
    split; [|split].
    + rewrite E. split.
      * intros (E1 & Nr & Ns & E3 & E2). apply I1 in E2. destruct E2 as (tags & F & D & Q).
        exists (n :: tags). split; [constructor; auto|]. split.
        -- constructor; [|exact D]. intros X. destruct (Q _ X) as [_ Y]. apply Y. now left.
        -- intros k [<-|X]; [auto|]. destruct (Q _ X) as [Y Z]. split; [exact Y|]. intros W. apply Z. now right.
      * intros (tags & F & D & Q). inversion F as [|? k ? tags' F1 F2]; subst. inversion D as [|? ? D1 D2]; subst. pose proof F1 as (A & B & C & G & K).
        assert (E1 : es = []) by (apply H1; auto). assert (E3 : e3 = []) by (apply P1; exact K).
        pose proof (variant_ok_unique _ _ _ _ (Vo E1 E3) F1). subst k. destruct (Q n (or_introl eq_refl)) as [Q1 Q2].
        split; [exact E1|]. split; [exact Q1|]. split; [exact Q2|]. split; [exact E3|].
        apply I1. exists tags'. split; [exact F2|]. split; [exact D2|]. intros k Ik.
        destruct (Q k (or_intror Ik)) as [Y Z]. split; [exact Y|]. intros [<-|W]; contradiction.
    + intros X. apply E in X. destruct X as (E1 & Nr & Ns & E3 & E2). destruct (P2 E3) as (fs & c & -> & S). destruct (I2 E2) as (U & A & B).
      split.
      * rewrite U. assert (X : existsb (N.eqb n) seen = false) by (destruct (existsb (N.eqb n) seen) eqn:X; [apply existsb_in in X; contradiction|reflexivity]).
        now rewrite X.
      * split; [constructor; [|exact A]|cbn [map fst]; constructor; auto]. split; [|exact S]. apply (Tag E1 n); reflexivity.
    + intros N X. apply E in X. destruct X as (E1 & Nr & Ns & E3 & E2). destruct (P2 E3) as (fs & c & -> & S). apply I3; [|exact E2]. cbn [length] in N.
      destruct N as [N|N]; [left; lia|]. right. assert (X : existsb (N.eqb n) seen = false).
      { destruct (existsb (N.eqb n) seen) eqn:X; [apply existsb_in in X; contradiction|reflexivity]. } rewrite X in N. exact N.
  - specialize (IH seen). destruct (variants_loop se res seen vs) as [[es' r] u].
    assert (Ne : es ++ [e] ++ es' <> []) by (intros X; apply app_nil_iff in X; destruct X as [_ X]; discriminate).
    split; [|split].
    + split; [easy|]. intros (tags & F & _). exfalso. inversion F as [|? k ? tags' (A & B & C & G & K) F2]; subst.
      assert (E1 : es = []) by (apply H1; auto). assert (X : inr e = inl k) by (apply (Tag E1 k); auto). discriminate.
    + easy.
    + intros _. exact Ne.
Qed.
Definition variants_ok (se : setting) (ns : list nmeta) (vs : list variant) (tags : list N) : Prop :=
  Forall2 (variant_ok se) vs tags /\ NoDup tags /\ (forall n, In n tags -> ~ reserves ns n) /\ In 0 tags.
Definition enum_ok (se : setting) (ns : list nmeta) (vs : list variant) (tags : list N) : Prop :=
  tidy enum_table true ns /\ variants_ok se ns vs tags.
Definition enum_is (se : setting) (ns : list nmeta) (vs : list variant) (r : list ((N * bool) * list finfo)) : Prop :=
  Forall2 (variant_is se) vs r /\ variants_ok se ns vs (map (fun x => fst (fst x)) r).
Lemma parse_enum_spec se ns vs : let '(es, o) := parse_enum se ns vs in
  (es = [] <-> exists tags, enum_ok se ns vs tags) /\
  (es = [] -> exists r, o = Some r /\ enum_is se ns vs r) /\ (o = None -> es <> []).
Proof.
  unfold parse_enum. destruct vs as [|v0 vs0].
  { split; [|split; discriminate]. split; [discriminate|]. intros (tags & _ & F & _ & _ & Z). inversion F; subst. destruct Z. }
  set (vs := v0 :: vs0). clearbody vs. pose proof (parse_metas_tidy enum_table true ns) as H.
  destruct (parse_metas enum_table true no_slots ns) as [[s e] u0]. destruct H as (H1 & H2 & _).
  pose proof (variants_loop_spec se (sl_ints s) vs []) as P. destruct (variants_loop se (sl_ints s) [] vs) as [[es r] u]. destruct P as (P1 & P2 & P3).
  destruct (tables_ints enum_table (or_intror eq_refl)) as [T1 T2].
  assert (Q : e = [] -> forall n, In n (sl_ints s) <-> reserves ns n).
  { intros E n. rewrite (H2 E). cbn [sl_ints]. now apply ints_reserves. }
  assert (Z : (if existsb (fun va : N * bool * list finfo => fst (fst va) =? 0) r then [] else [ENoDefault]) = [] <-> In 0 (map (fun x => fst (fst x)) r)).
  { rewrite in_map_iff. destruct (existsb _ r) eqn:X.
    - split; [intros _|reflexivity]. apply existsb_exists in X. destruct X as (x & I & X). exists x. split; [now apply N.eqb_eq|exact I].
    - split; [discriminate|]. intros (x & A & I). assert (Y : existsb (fun va : N * bool * list finfo => fst (fst va) =? 0) r = true); [|congruence].
      apply existsb_exists. exists x. split; [exact I|now apply N.eqb_eq]. }
  assert (Uq : forall tags, Forall2 (variant_ok se) vs tags -> Forall2 (variant_ok se) vs (map (fun x => fst (fst x)) r) -> tags = map (fun x => fst (fst x)) r).
  { clear. intros tags F B. revert tags F. generalize (map (fun x : N * bool * list finfo => fst (fst x)) r) B. clear B.
    induction vs as [|v vs IH]; intros l B tags F; inversion B; inversion F; subst; [reflexivity|].
    f_equal; [eapply variant_ok_unique; eassumption|]. now apply IH. }
  split; [|split].
  - rewrite !app_nil_iff, Z. split.
    + intros (E1 & E2 & E3). destruct (P2 E2) as (_ & _ & B). apply P1 in E2. destruct E2 as (tags & F & D & R). pose proof (Uq tags F B). subst tags.
      eexists. split; [now apply H1|]. split; [exact F|]. split; [exact D|]. split; [|exact E3].
      intros n I X. destruct (R n I) as [Y _]. apply Y. now apply (Q E1).
    + intros (tags & T & F & D & R & Z0). assert (E1 : e = []) by now apply H1. assert (E2 : es = []).
      { apply P1. exists tags. split; [exact F|]. split; [exact D|]. intros n I. split; [|easy]. intros X. apply (R n I). now apply (Q E1). }
      split; [exact E1|]. split; [exact E2|]. destruct (P2 E2) as (_ & _ & B). pose proof (Uq tags F B). now subst tags.
  - intros X. apply app_nil_iff in X. destruct X as [E1 X]. apply app_nil_iff in X. destruct X as [E2 E3]. apply Z in E3. destruct (P2 E2) as (U & A & B).
    rewrite U, <- (forall2_len _ _ _ A), Nat.eqb_refl. cbn [andb]. exists r. split; [reflexivity|]. split; [exact A|]. split; [exact B|].
    apply P1 in E2. destruct E2 as (tags & F & D & R). pose proof (Uq tags F B). subst tags. split; [exact D|]. split; [|exact E3].
    intros n I X. destruct (R n I) as [Y _]. apply Y. now apply (Q E1).
  - intros N X. apply app_nil_iff in X. destruct X as [E1 X]. apply app_nil_iff in X. destruct X as [E2 E3]. apply P3; [|exact E2].
    destruct (Nat.eqb_spec (length r) (length vs)) as [E|E]; [|now left]. right. destruct u; [discriminate|reflexivity].
Qed.
