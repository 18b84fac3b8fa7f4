(** Proofs about the objects of a C# client (CsObj.v, ObjSpec.v). *)
From Verif Require Import Base Varint WireFmt Types De Log State CSharp CsObj ObjSpec SerProofs DeProofs CSharpProofs CSharpSim CSharpSafe.

(** ** Helpers *)

Lemma assoc_put tag x fs b : assoc b (o_put tag x fs) = if b =? tag then match assoc b fs with Some _ => Some x | None => None end else assoc b fs.
Proof.
  induction fs as [|[k y] fs IH]; cbn; [now destruct (b =? tag)|].
  destruct (tag =? k) eqn:E; cbn.
  - apply N.eqb_eq in E. subst k. now destruct (b =? tag).
  - destruct (b =? k) eqn:E'; [|exact IH]. apply N.eqb_eq in E'. subst k. now rewrite N.eqb_sym, E.
Qed.
Lemma nth_set {A} (l : list A) : forall i x j, nth_error (set_nth l i x) j = if Nat.eqb j i then match nth_error l j with Some _ => Some x | None => None end else nth_error l j.
Proof.
  induction l as [|y l IH]; intros [|i] x [|j]; cbn; try reflexivity.
  - now destruct (Nat.eqb j i).
  - apply IH.
Qed.
Lemma to_nat_eqb a b : Nat.eqb (N.to_nat a) (N.to_nat b) = (a =? b).
Proof. destruct (N.eqb_spec a b); [subst; apply Nat.eqb_refl|]. apply Nat.eqb_neq. lia. Qed.

Ltac okb H := match type of H with bind ?r _ = Ok _ => let E := fresh "E" in destruct r eqn:E; cbn in H; try discriminate H end.
Lemma nth_snoc {A} (l : list A) x i : nth_error (l ++ [x]) i = if Nat.eqb i (length l) then Some x else nth_error l i.
Proof.
  destruct (Nat.eqb_spec i (length l)) as [->|N]; [rewrite nth_error_app2 by lia; now rewrite Nat.sub_diag|].
  destruct (Nat.lt_ge_cases i (length l)); [now rewrite nth_error_app1|].
  rewrite nth_error_app2 by lia. destruct (i - length l)%nat eqn:D; [lia|]. cbn. rewrite (proj2 (nth_error_None l i)) by lia. now destruct n.
Qed.

(** ** Places of new objects *)

(** An object made for path [p] with identities from [n] up to [n']. *)
Definition unique_in (o : cobj) : Prop :=
  forall q q' x x' h h', here o q = Some x -> here o q' = Some x' -> o_handle_of x = Some h -> o_handle_of x' = Some h' -> fst h = fst h' -> q = q'.
Definition within (p : list N) (n n' : N) (o : cobj) : Prop :=
  forall q x h, here o q = Some x -> o_handle_of x = Some h -> snd h = p ++ q /\ n <= fst h < n'.
Definition good (p : list N) (n n' : N) (o : cobj) : Prop := within p n n' o /\ unique_in o.
(** The same of the members of an object. *)
Definition fam (p : list N) (n n' : N) (f : N -> option cobj) : Prop :=
  (forall a x, f a = Some x -> good (p ++ [a]) n n' x) /\
  (forall a b x y q r x' y' h h', f a = Some x -> f b = Some y -> here x q = Some x' -> here y r = Some y' ->
     o_handle_of x' = Some h -> o_handle_of y' = Some h' -> fst h = fst h' -> a = b).

Lemma within_weak p n n' m m' o : within p n n' o -> m <= n -> n' <= m' -> within p m m' o.
Proof. intros H A B q x h X Y. destruct (H q x h X Y). split; [assumption|lia]. Qed.
Lemma good_weak p n n' m m' o : good p n n' o -> m <= n -> n' <= m' -> good p m m' o.
Proof. intros [W U] A B. split; [now apply (within_weak p n n')|exact U]. Qed.
Lemma fam_weak p n n' m m' f : fam p n n' f -> m <= n -> n' <= m' -> fam p m m' f.
Proof. intros [W U] A B. split; [|exact U]. intros a x X. apply (good_weak _ n n'); auto. Qed.
Lemma fam_ext p n n' f g : fam p n n' f -> (forall a, g a = f a) -> fam p n n' g.
Proof.
  intros [W U] E. split; [intros a x X; apply W; now rewrite <- E|].
  intros a b x y q r x' y' h h' X Y. apply (U a b x y); now rewrite <- E.
Qed.
Lemma fam_empty p n n' : fam p n n' (fun _ => None).
Proof. now split. Qed.
Lemma fam_sub p n n' f g : fam p n n' f -> (forall a x, g a = Some x -> f a = Some x) -> fam p n n' g.
Proof.
  intros [W U] E. split; [intros a x X; apply W; now apply E|].
  intros a b x y q r x' y' h h' X Y. apply (U a b x y); now apply E.
Qed.
Lemma fam_add p n m n' f a x : fam p n m f -> good (p ++ [a]) m n' x -> n <= m -> m <= n' -> fam p n n' (fun b => if b =? a then Some x else f b).
Proof.
  intros [W U] G A B. split.
  - intros b y Y. destruct (N.eqb_spec b a) as [->|]; [injection Y as <-; now apply (good_weak _ m n')|]. apply (good_weak _ n m); [now apply W|lia|lia].
  - intros b c y z q r y' z' h h' Y Z Hq Hr Hy Hz E. destruct (N.eqb_spec b a), (N.eqb_spec c a); subst; auto.
    + injection Y as <-. destruct (proj1 G _ _ _ Hq Hy). destruct (proj1 (W c z Z) _ _ _ Hr Hz). lia.
    + injection Z as <-. destruct (proj1 G _ _ _ Hr Hz). destruct (proj1 (W b y Y) _ _ _ Hq Hy). lia.
    + now apply (U b c y z q r y' z' h h').
Qed.
(** An object with members, whose own identity is none of theirs. *)
Lemma good_node o p i n n' m m' : o_handle_of o = Some (i, p) -> fam p n n' (slot o) -> m <= n -> n' <= m' -> m <= i < m' -> i < n \/ n' <= i -> good p m m' o.
Proof.
  intros H [W U] A B C D. split.
  - intros [|a q] x h X Hx; cbn in X.
    + injection X as <-. rewrite H in Hx. injection Hx as <-. rewrite app_nil_r. split; [reflexivity|cbn; lia].
    + destruct (slot o a) as [y|] eqn:Y; [|discriminate]. destruct (proj1 (W a y Y) q x h X Hx) as [E R]. rewrite E, <- app_assoc. split; [reflexivity|lia].
  - intros [|a q] [|b r] x y h h' X Y Hx Hy E; cbn in X, Y; [reflexivity| | |].
    + injection X as <-. rewrite H in Hx. injection Hx as <-. destruct (slot o b) as [z|] eqn:Z; [|discriminate].
      destruct (proj1 (W b z Z) r y h' Y Hy). cbn in E. lia.
    + injection Y as <-. rewrite H in Hy. injection Hy as <-. destruct (slot o a) as [z|] eqn:Z; [|discriminate].
      destruct (proj1 (W a z Z) q x h X Hx). cbn in E. lia.
    + destruct (slot o a) as [z|] eqn:Z; [|discriminate]. destruct (slot o b) as [z'|] eqn:Z'; [|discriminate].
      assert (a = b) by now apply (U a b z z' q r x y h h'). subst b. rewrite Z in Z'. injection Z' as <-.
      f_equal. now apply (proj2 (W a z Z) q r x y h h').
Qed.
Lemma good_prim p n n' o : o_handle_of o = None -> good p n n' o.
Proof.
  intros H. assert (S : forall a, slot o a = None) by (destruct o; try discriminate H; reflexivity).
  split; [intros [|a q] x h X Hx|intros [|a q] q' x x' h h' X Y Hx]; cbn in X; rewrite ?S in X; try discriminate X; injection X as <-; congruence.
Qed.

(** *** Constructors *)

Definition NP (t : cty) : Prop := forall p n o n', o_new t p n = Ok (o, n') -> n <= n' /\ good p n n' o.
Lemma new_fields_good fs : Forall (fun f : N * (bool * cty) => NP (snd (snd f))) fs -> forall p n xs n', o_new_fields fs p n = Ok (xs, n') ->
  n <= n' /\ fam p n n' (fun a => assoc a xs).
Proof.
  induction 1 as [|[tag [g t]] fs Ht _ IH]; intros p n xs n' H; cbn in H.
  - injection H as <- <-. split; [lia|]. apply fam_empty.
  - okb H. destruct a as [x m]. okb H. destruct a as [ys k]. injection H as <- <-. cbn in Ht.
    destruct (g && negb (c_constructible t)); [discriminate|]. destruct (Ht _ _ _ _ E) as [L G]. destruct (IH _ _ _ _ E0) as [L' F].
    split; [lia|]. clear - L L' G F. destruct F as [W U]. split.
    + intros a y Y. cbn in Y. destruct (N.eqb_spec a tag) as [->|]; [injection Y as <-; apply (good_weak _ n m); [exact G|lia|lia]|].
      apply (good_weak _ m k); [now apply W|lia|lia].
    + intros b c y z q r y' z' h h' Y Z Hq Hr Hy Hz E. cbn in Y, Z. destruct (N.eqb_spec b tag), (N.eqb_spec c tag); subst; auto.
      * injection Y as <-. destruct (proj1 G _ _ _ Hq Hy). destruct (proj1 (W c z Z) _ _ _ Hr Hz). lia.
      * injection Z as <-. destruct (proj1 G _ _ _ Hr Hz). destruct (proj1 (W b y Y) _ _ _ Hq Hy). lia.
      * now apply (U b c y z q r y' z' h h').
Qed.
Lemma o_new_struct fs p n : o_new (CStruct fs) p n = do (xs, n') <- o_new_fields fs p (n + 1); Ok (OStruct (n, p) xs, n'). Proof. reflexivity. Qed.
Lemma o_new_enum vs p n : o_new (CEnum vs) p n =
  match assoc 0 vs with
  | Some fs => do (xs, n') <- o_new_fields fs (p ++ [0]) (n + 2); Ok (OEnum (n, p) 0 (n + 1, p ++ [0]) xs, n')
  | None => NoFuel
  end.
Proof.
  induction vs as [|[tag fs] vs IH]; [reflexivity|]. cbn [o_new assoc]. rewrite (N.eqb_sym 0 tag). destruct (N.eqb_spec tag 0) as [->|]; [reflexivity|exact IH].
Qed.
Lemma enum_good p n n' m m' i tag j xs : fam (p ++ [tag]) n n' (fun a => assoc a xs) -> m <= n -> n' <= m' -> m <= i < m' -> m <= j < m' ->
  (i < n \/ n' <= i) -> (j < n \/ n' <= j) -> i <> j -> good p m m' (OEnum (i, p) tag (j, p ++ [tag]) xs).
Proof.
  intros F L L' I J A B C.
  assert (V : good (p ++ [tag]) m m' (OStruct (j, p ++ [tag]) xs)) by (apply (good_node _ _ j n n'); [reflexivity|exact F|lia|lia|lia|exact B]).
  split.
  - intros [|a q] x h X Hx; cbn in X.
    + injection X as <-. injection Hx as <-. rewrite app_nil_r. split; [reflexivity|cbn; lia].
    + destruct (N.eqb_spec a tag) as [->|]; [|discriminate]. destruct (proj1 V q x h X Hx) as [E R]. rewrite E, <- app_assoc. split; [reflexivity|lia].
  - intros [|a q] [|b r] x y h h' X Y Hx Hy E; cbn in X, Y; [reflexivity| | |].
    + injection X as <-. injection Hx as <-. destruct (N.eqb_spec b tag) as [->|]; [|discriminate]. destruct r as [|b r].
      * injection Y as <-. injection Hy as <-. cbn in E. lia.
      * cbn in Y. destruct (assoc b xs) as [z|] eqn:Z; [|discriminate]. destruct (proj1 (proj1 F b z Z) r y h' Y Hy). cbn in E. lia.
    + injection Y as <-. injection Hy as <-. destruct (N.eqb_spec a tag) as [->|]; [|discriminate]. destruct q as [|b q].
      * injection X as <-. injection Hx as <-. cbn in E. lia.
      * cbn in X. destruct (assoc b xs) as [z|] eqn:Z; [|discriminate]. destruct (proj1 (proj1 F b z Z) q x h X Hx). cbn in E. lia.
    + destruct (N.eqb_spec a tag) as [->|]; [|discriminate]. destruct (N.eqb_spec b tag) as [->|]; [|discriminate]. f_equal. now apply (proj2 V q r x y h h').
Qed.
Lemma new_good t : NP t.
Proof.
  induction t using cty_slots; intros p n o n' E; try (cbn in E; injection E as <- <-).
  1-3: split; [lia|now apply good_prim].
  1-5: split; [lia|]; apply (good_node _ _ n (n + 1) (n + 1)); [reflexivity|now apply fam_ext with (1 := fam_empty _ _ _); (intros a; cbn; now destruct (N.to_nat a))|lia..].
  - rewrite o_new_struct in E. okb E. destruct a as [xs m]. injection E as <- <-. destruct (new_fields_good _ H _ _ _ _ E0) as [L F].
    split; [lia|]. apply (good_node _ _ n (n + 1) m); [reflexivity|exact F|lia..].
  - rewrite o_new_enum in E. destruct (assoc 0 vs) as [fs|] eqn:A; [|discriminate]. okb E. destruct a as [xs m]. injection E as <- <-.
    rewrite Forall_forall in H. destruct (new_fields_good _ (H _ (assoc_in _ _ _ A)) _ _ _ _ E0) as [L F].
    split; [lia|]. apply (enum_good p (n + 2) m); [exact F|lia..].
Qed.

(** *** Decoding *)

Lemma cloop_inv {S} (P : S -> Prop) step : (forall s bs s' rest, P s -> step s bs = Ok (s', rest) -> P s') ->
  forall fuel s bs s', P s -> cloop fuel step s bs = Ok s' -> P s'.
Proof.
  intros H. induction fuel as [|fuel IH]; intros s bs s' Ps E; destruct bs as [|b bs]; cbn [cloop] in E; try (injection E as <-; exact Ps); [discriminate|].
  okb E. destruct a as [s1 r]. apply (IH s1 r); [|exact E]. now apply (H s (b :: bs) s1 r).
Qed.
Definition DP (t : cty) : Prop := forall p n bs o rest n', o_deser t p n bs = Ok (o, rest, n') -> n <= n' /\ good p n n' o.
Lemma value_good t p n bs o rest n' : DP t -> o_value t (o_deser t p) n bs = Ok (o, rest, n') -> n <= n' /\ good p n n' o.
Proof.
  unfold o_value. intros D E. destruct (c_wty t); [now apply (D p n bs o rest)|]. okb E. destruct a as [sub r]. okb E. destruct a as [[x r'] m]. injection E as <- <- <-.
  now apply (D p n sub x r').
Qed.
Lemma items_good t p n bs l n' : DP t -> crun (o_item_step t (o_deser t) p) ([], n) bs = Ok (l, n') -> n <= n' /\ fam p n n' (fun a => nth_error l (N.to_nat a)).
Proof.
  intros D E. apply (cloop_inv (fun s => n <= snd s /\ fam p n (snd s) (fun a => nth_error (fst s) (N.to_nat a)))) in E; [exact E| |].
  - intros [l0 n0] b [l1 n1] r [L F] S. unfold o_item_step in S. cbn [fst snd] in *. okb S. destruct a as [[x r'] m]. injection S as <- <- <-.
    destruct (value_good _ _ _ _ _ _ _ D E0) as [L' G]. split; [lia|]. eapply fam_ext; [eapply fam_add; [exact F|exact G|lia|lia]|].
    intros a. cbn. rewrite nth_snoc. unfold lenN. destruct (Nat.eqb_spec (N.to_nat a) (length l0)), (N.eqb_spec a (N.of_nat (length l0))); lia || reflexivity.
  - cbn. split; [lia|]. eapply fam_ext; [apply fam_empty|]. intros a. cbn. now destruct (N.to_nat a).
Qed.
Lemma entries_good t p n bs es n' : DP t -> crun (o_map_step t (o_deser t) p) ([], n) bs = Ok (es, n') -> n <= n' /\ fam p n n' (fun a => assoc a es).
Proof.
  intros D E. apply (cloop_inv (fun s => n <= snd s /\ fam p n (snd s) (fun a => assoc a (fst s)))) in E; [exact E| |].
  - intros [l0 n0] b [l1 n1] r [L F] S. unfold o_map_step in S. cbn [fst snd] in *. okb S. destruct a as [[tag w] r0]. okb S. destruct a as [[x r'] m]. injection S as <- <- <-.
    destruct (value_good _ _ _ _ _ _ _ D E1) as [L' G]. split; [lia|]. eapply fam_ext; [eapply fam_add; [exact F|exact G|lia|lia]|].
    intros a. cbn. apply assoc_im.
  - cbn. split; [lia|]. apply fam_empty.
Qed.
Lemma assoc_o_readers p cfs tag : assoc tag (o_readers p cfs) = match assoc tag cfs with Some (g, c) => Some (c_field_wty g c, o_deser c (p ++ [tag])) | None => None end.
Proof. induction cfs as [|[k [g c]] cfs IH]; [reflexivity|]. cbn. destruct (N.eqb_spec tag k) as [->|]; [reflexivity|exact IH]. Qed.
Lemma struct_good cfs p n0 n xs bs ys n' : Forall (fun f : N * (bool * cty) => DP (snd (snd f))) cfs -> n0 <= n -> fam p n0 n (fun a => assoc a xs) ->
  crun (o_struct_step (o_readers p cfs)) (xs, n) bs = Ok (ys, n') -> n <= n' /\ fam p n0 n' (fun a => assoc a ys).
Proof.
  intros D L F E. apply (cloop_inv (fun s => n <= snd s /\ fam p n0 (snd s) (fun a => assoc a (fst s)))) in E; [exact E| |cbn; split; [lia|exact F]].
  clear E ys n' F. intros [l0 n1] b [l1 n2] r [L' F] S. unfold o_struct_step in S. cbn [fst snd] in *. okb S. destruct a as [[tag w] r0]. okb S. destruct a as [sub r1].
  assert (Skip : match w with Varint => do (_, rest) <- c_bool r1 false; Ok (l0, n1, rest) | Sized => Ok (l0, n1, r1) end = Ok (l1, n2, r) -> n <= n2 /\ fam p n0 n2 (fun a => assoc a l1)).
  { intros K. destruct w; [|injection K as <- <- <-; auto]. okb K. destruct a as [x r2]. injection K as <- <- <-. auto. }
  rewrite assoc_o_readers in S. destruct (assoc tag cfs) as [[g c]|] eqn:A; [|now apply Skip].
  destruct (wtype_eqb w (c_field_wty g c)); [|now apply Skip]. okb S. destruct a as [[x rem] m]. injection S as <- <- <-.
  rewrite Forall_forall in D. destruct (D _ (assoc_in _ _ _ A) _ _ _ _ _ _ E1) as [L2 G]. split; [lia|].
  eapply fam_sub; [apply fam_add with (m := n1) (a := tag) (x := x); [exact F|exact G|lia|lia]|].
  intros a y. cbn. rewrite assoc_put. destruct (a =? tag); [|auto]. now destruct (assoc a l0).
Qed.
Lemma o_deser_struct fs p n bs : o_deser (CStruct fs) p n bs =
  do (xs, n') <- o_new_fields fs p (n + 1); do (xs, n') <- crun (o_struct_step (o_readers p fs)) (xs, n') bs; Ok (OStruct (n, p) xs, [], n').
Proof. reflexivity. Qed.
Lemma o_deser_enum vs p n bs : o_deser (CEnum vs) p n bs =
  do (d, n') <- o_new (CEnum vs) p n; do (tag, rest) <- c_int U32 bs;
  match assoc (Z.to_N tag) vs with
  | None => Ok (d, [], n')
  | Some fs =>
      do (xs, n'') <- o_new_fields fs (p ++ [Z.to_N tag]) (n' + 1);
      do (xs, n'') <- crun (o_struct_step (o_readers (p ++ [Z.to_N tag]) fs)) (xs, n'') rest;
      Ok (OEnum (n, p) (Z.to_N tag) (n', p ++ [Z.to_N tag]) xs, [], n'')
  end.
Proof.
  cbn [o_deser]. apply bind_ext. intros [d n']. apply bind_ext. intros [tag rest]. clear.
  induction vs as [|[tag' fs] vs IH]; [reflexivity|]. cbn [assoc]. rewrite (N.eqb_sym (Z.to_N tag) tag').
  destruct (tag' =? Z.to_N tag) eqn:E; [|exact IH]. apply N.eqb_eq in E. subst. reflexivity.
Qed.
Lemma all_new fs : Forall (fun f : N * (bool * cty) => NP (snd (snd f))) fs.
Proof. apply Forall_forall. intros f _. apply new_good. Qed.
Lemma deser_good t : DP t.
Proof.
  induction t using cty_slots; intros p n bs o rest n' E.
  - cbn in E. okb E. destruct a as [z r]. injection E as <- <- <-. split; [lia|now apply good_prim].
  - cbn in E. okb E. destruct a as [z r]. injection E as <- <- <-. split; [lia|now apply good_prim].
  - cbn in E. injection E as <- <- <-. split; [lia|now apply good_prim].
  - cbn in E. injection E as <- <- <-. split; [lia|]. apply (good_node _ _ n (n + 1) (n + 1)); [reflexivity|apply fam_empty|lia..].
  - cbn [o_deser] in E. destruct bs as [|b bs].
    + injection E as <- <- <-. split; [lia|]. apply (good_node _ _ n (n + 1) (n + 1)); [reflexivity|apply fam_empty|lia..].
    + okb E. destruct a as [[x r] m]. injection E as <- <- <-. destruct (value_good _ _ _ _ _ _ _ IHt E0) as [L G]. split; [lia|].
      apply (good_node _ _ m n m); [reflexivity| |lia..]. eapply fam_ext; [apply (fam_add p n n m (fun _ => None) 0 x); [apply fam_empty|exact G|lia|lia]|]. reflexivity.
  - cbn [o_deser] in E. okb E. destruct a as [l m]. injection E as <- <- <-. destruct (items_good _ _ _ _ _ _ IHt E0) as [L F]. split; [lia|].
    apply (good_node _ _ m n m); [reflexivity|exact F|lia..].
  - cbn [o_deser] in E. okb E. destruct a as [l m]. injection E as <- <- <-. destruct (items_good _ _ _ _ _ _ IHt E0) as [L F]. split; [lia|].
    apply (good_node _ _ m n m); [reflexivity|exact F|lia..].
  - cbn [o_deser] in E. okb E. destruct a as [l m]. injection E as <- <- <-. destruct (entries_good _ _ _ _ _ _ IHt E0) as [L F]. split; [lia|].
    apply (good_node _ _ m n m); [reflexivity|exact F|lia..].
  - rewrite o_deser_struct in E. okb E. destruct a as [xs m]. okb E. destruct a as [ys k]. injection E as <- <- <-.
    destruct (new_fields_good _ (all_new fs) _ _ _ _ E0) as [L F]. destruct (struct_good _ _ _ _ _ _ _ _ H L F E1) as [L' F']. split; [lia|].
    apply (good_node _ _ n (n + 1) k); [reflexivity|exact F'|lia..].
  - rewrite o_deser_enum in E. okb E. destruct a as [d m]. okb E. destruct a as [tag r]. destruct (new_good _ _ _ _ _ E0) as [L G].
    destruct (assoc (Z.to_N tag) vs) as [fs|] eqn:A; [|injection E as <- <- <-; auto]. okb E. destruct a as [xs k]. okb E. destruct a as [ys j]. injection E as <- <- <-.
    rewrite o_new_enum in E0. destruct (assoc 0 vs); [|discriminate]. destruct (o_new_fields l (p ++ [0]) (n + 2)) as [[zs m']| | |] eqn:E4; try discriminate E0. injection E0 as <- <-. destruct (new_fields_good _ (all_new _) _ _ _ _ E4) as [L0 _].
    rewrite Forall_forall in H. destruct (new_fields_good _ (all_new fs) _ _ _ _ E2) as [L1 F]. destruct (struct_good _ _ _ _ _ _ _ _ (H _ (assoc_in _ _ _ A)) L1 F E3) as [L2 F'].
    split; [lia|]. apply (enum_good p (m' + 1) j); [exact F'|lia..].
Qed.

(** ** Events *)

(** An operation on the owner itself. *)
Definition same_kind (v v' : cobj) : Prop := o_handle_of v' = o_handle_of v /\ match v with OStruct h _ => exists fs, v' = OStruct h fs | _ => True end.
(** The new object of an event was made for its place. *)
Definition made (n n' : N) (ev : event) : Prop :=
  n <= n' /\ match ev_new ev with Some (tag, x) => good (o_path (ev_owner ev) ++ [tag]) n n' x | None => True end.
Definition op_tells (v v' : cobj) (n n' : N) (evs : list event) : Prop :=
  evs = [] /\ v' = v /\ n' = n \/
  exists ev, evs = [ev] /\ ev_owner ev = v /\ same_kind v v' /\ made n n' ev /\
    (forall tag, In tag (ev_tags ev) -> slot v tag = match ev_old ev with Some (tag', x) => if tag =? tag' then Some x else None | None => None end) /\
    (forall tag, In tag (ev_tags ev) -> slot v' tag = match ev_new ev with Some (tag', x) => if tag =? tag' then Some x else None | None => None end) /\
    (forall tag, ~ In tag (ev_tags ev) -> slot v' tag = slot v tag).

Ltac mk := first [match goal with E : o_deser _ _ _ _ = Ok _ |- _ => exact (deser_good _ _ _ _ _ _ _ E) end | split; [lia|exact I]].
Lemma replace_tells tag bs t v n v' n' evs : o_replace_at tag bs t v n = Ok (v', n', evs) -> op_tells v v' n n' evs.
Proof.
  unfold o_replace_at. intros H. destruct t, v; try discriminate H; try (injection H as <- <- <-; now left).
  - destruct (nth_error l (N.to_nat tag)) as [y|] eqn:Y; [|discriminate]. okb H. destruct a as [[x rest] m]. injection H as <- <- <-.
    right. eexists. split; [reflexivity|]. split; [reflexivity|]. split; [now split|]. split; [mk|]. cbn. repeat split.
    + intros b [<-|[<-|[]]]; now rewrite N.eqb_refl.
    + intros b [<-|[<-|[]]]; rewrite N.eqb_refl, nth_set, Nat.eqb_refl; now rewrite Y.
    + intros b Hb. rewrite nth_set, to_nat_eqb. destruct (N.eqb_spec b tag); [|reflexivity]. subst. destruct Hb. now left.
  - okb H. destruct a as [[x rest] m]. injection H as <- <- <-. right. eexists. split; [reflexivity|].
    destruct (assoc tag es) as [y|] eqn:Y; (split; [reflexivity|]); (split; [now split|]); (split; [mk|]); cbn; repeat split.
    + intros b [<-|[<-|[]]]; now rewrite N.eqb_refl.
    + intros b [<-|[<-|[]]]; rewrite assoc_im; now rewrite N.eqb_refl.
    + intros b Hb. rewrite assoc_im. destruct (N.eqb_spec b tag); [|reflexivity]. subst. destruct Hb. now left.
    + intros b [<-|[]]; exact Y.
    + intros b [<-|[]]; rewrite assoc_im; now rewrite N.eqb_refl.
    + intros b Hb. rewrite assoc_im. destruct (N.eqb_spec b tag); [|reflexivity]. subst. destruct Hb. now left.
  - destruct (assoc tag fs) as [[g t]|] eqn:F; [|injection H as <- <- <-; now left]. okb H. destruct a as [[x rest] m].
    destruct (assoc tag fs0) as [y|] eqn:Y; [|discriminate]. injection H as <- <- <-.
    right. eexists. split; [reflexivity|]. split; [reflexivity|]. split; [split; [reflexivity|now eexists]|]. split; [mk|]. cbn. repeat split.
    + intros b [<-|[<-|[]]]; now rewrite N.eqb_refl.
    + intros b [<-|[<-|[]]]; rewrite assoc_put; now rewrite N.eqb_refl, Y.
    + intros b Hb. rewrite assoc_put. destruct (N.eqb_spec b tag); [|reflexivity]. subst. destruct Hb. now left.
  - destruct (assoc tag vs) as [cfs|] eqn:F; [|injection H as <- <- <-; now left]. okb H. destruct a as [[x rest] m].
    destruct x; try discriminate H. injection H as <- <- <-.
    right. eexists. split; [reflexivity|]. split; [reflexivity|]. split; [now split|]. split; [mk|]. cbn. repeat split.
    + intros b Hb. destruct (N.eqb_spec b tag); [subst; destruct Hb; now right; left|]. destruct (N.eqb_spec b tag0); [subst; destruct Hb; now left|]. reflexivity.
Qed.
Lemma push_tells bs t v n v' n' evs : o_push bs t v n = Ok (v', n', evs) -> op_tells v v' n n' evs.
Proof.
  unfold o_push. intros H. destruct t, v; try discriminate H. okb H. destruct a as [[x rest] m]. injection H as <- <- <-.
  right. eexists. split; [reflexivity|]. split; [reflexivity|]. split; [now split|]. split; [mk|]. unfold lenN. cbn. repeat split.
  - intros b [<-|[]]. rewrite Nnat.Nat2N.id. apply nth_error_None. lia.
  - intros b [<-|[]]. rewrite Nnat.Nat2N.id, nth_snoc, Nat.eqb_refl. now rewrite N.eqb_refl.
  - intros b Hb. rewrite nth_snoc. destruct (Nat.eqb_spec (N.to_nat b) (length l)); [|reflexivity]. destruct Hb. left. lia.
Qed.
Lemma pop_tells t v n v' n' evs : o_pop t v n = Ok (v', n', evs) -> op_tells v v' n n' evs.
Proof.
  unfold o_pop. intros H. destruct t, v; try discriminate H. destruct l as [|x l]; [discriminate|].
  destruct (@exists_last _ (x :: l) ltac:(discriminate)) as (l' & y & E). rewrite E in *.
  rewrite removelast_last, last_last in H. injection H as <- <- <-. unfold lenN. rewrite app_length. cbn [length].
  right. eexists. split; [reflexivity|]. split; [reflexivity|]. split; [now split|]. split; [mk|]. cbn. repeat split.
  - intros b [<-|[]]. replace (N.to_nat _) with (length l') by lia. rewrite nth_snoc, Nat.eqb_refl. now rewrite N.eqb_refl.
  - intros b [<-|[]]. apply nth_error_None. lia.
  - intros b Hb. rewrite nth_snoc. destruct (Nat.eqb_spec (N.to_nat b) (length l')); [|reflexivity]. destruct Hb. left. lia.
Qed.
Lemma remove_tells k t v n v' n' evs : o_remove k t v n = Ok (v', n', evs) -> op_tells v v' n n' evs.
Proof.
  unfold o_remove. intros H. destruct t, v; try discriminate H. destruct (assoc k es) as [y|] eqn:Y; [|discriminate]. injection H as <- <- <-.
  right. eexists. split; [reflexivity|]. split; [reflexivity|]. split; [now split|]. split; [mk|]. cbn. repeat split.
  - intros b [<-|[]]. rewrite N.eqb_refl. exact Y.
  - intros b [<-|[]]. rewrite assoc_filter, N.eqb_refl. reflexivity.
  - intros b Hb. rewrite assoc_filter. destruct (N.eqb_spec b k); [|reflexivity]. subst. destruct Hb. now left.
Qed.

Lemma child_slot t v a t' x : o_child t v a = Ok (Some (t', x)) -> slot v a = Some x.
Proof.
  unfold o_child. intros H. destruct t, v; try discriminate H; cbn.
  - destruct (c_state t); [|discriminate]. injection H as H. destruct (nth_error l _); [now injection H as <- <-|discriminate].
  - destruct (c_state t); [|discriminate]. injection H as H. destruct (assoc a es); [now injection H as <- <-|discriminate].
  - destruct (assoc a fs) as [[g u]|]; [|discriminate]. destruct (c_state u); [|discriminate]. destruct (assoc a fs0); [now injection H as <- <-|discriminate].
  - destruct (a =? tag); [|discriminate]. destruct (assoc a vs); [now injection H as <- <-|discriminate].
Qed.
Lemma put_child_slot t v a t' x x' : o_child t v a = Ok (Some (t', x)) -> same_kind x x' ->
  same_kind v (o_put_child v a x') /\ (forall b, slot (o_put_child v a x') b = if b =? a then Some x' else slot v b).
Proof.
  intros H K. pose proof (child_slot _ _ _ _ _ H) as S. unfold o_child in H. destruct t, v; try discriminate H; cbn in *.
  - split; [split; [reflexivity|exact I]|]. intros b. rewrite nth_set, to_nat_eqb. destruct (N.eqb_spec b a); [|reflexivity]. subst. now rewrite S.
  - split; [split; [reflexivity|exact I]|]. intros b. rewrite assoc_put. destruct (N.eqb_spec b a); [|reflexivity]. subst. now rewrite S.
  - split; [split; [reflexivity|now eexists]|]. intros b. rewrite assoc_put. destruct (N.eqb_spec b a); [|reflexivity]. subst. now rewrite S.
  - destruct (a =? tag) eqn:T; [|discriminate]. apply N.eqb_eq in T. subst. injection S as <-. destruct K as [_ [fs' ->]].
    split; [split; [reflexivity|exact I]|]. intros b. cbn. now destruct (b =? tag).
Qed.

Lemma here_app o q r : here o (q ++ r) = match here o q with Some x => here x r | None => None end.
Proof. revert o. induction q as [|a q IH]; intros o; [reflexivity|]. cbn. destruct (slot o a); [apply IH|reflexivity]. Qed.

(** What [o_modify] did with an operation that tells. *)
Definition modify_tells (c : list N) (v v' : cobj) (n n' : N) (evs : list event) : Prop :=
  evs = [] /\ v' = v /\ n' = n \/ exists ev, evs = [ev] /\ tells c ev v v' /\ made n n' ev /\ same_kind v v'.
Lemma op_to_tells v v' n n' evs : op_tells v v' n n' evs -> modify_tells [] v v' n n' evs.
Proof.
  intros [H|(ev & -> & O & K & M & A & B & C)]; [now left|]. right. exists ev. split; [reflexivity|]. split; [|split; [exact M|exact K]]. unfold tells. cbn [here app].
  repeat split.
  - now rewrite O.
  - intros tag T. rewrite <- (A tag T). now destruct (slot v tag).
  - intros tag T. rewrite <- (B tag T). now destruct (slot v' tag).
  - intros q r E. destruct q; [|discriminate]. cbn. f_equal. apply K.
  - intros q N1 N2. destruct q as [|a q]; [now destruct (N1 [])|]. cbn. rewrite C; [reflexivity|]. intros I. now destruct (N2 a q I).
Qed.
Lemma put_same t v a t' x : o_child t v a = Ok (Some (t', x)) -> o_put_child v a x = v.
Proof.
  intros H. pose proof (child_slot _ _ _ _ _ H) as S. unfold o_child in H. destruct t, v; try discriminate H; cbn in *.
  - f_equal. clear H. revert S. generalize (N.to_nat a). induction l as [|y l IH]; intros [|i] S; cbn in *; try discriminate; [now injection S as <-|]. now rewrite IH.
  - f_equal. clear H. induction es as [|[k y] es IH]; cbn in *; [discriminate|]. destruct (a =? k); [now injection S as <-|now rewrite IH].
  - f_equal. clear H. induction fs0 as [|[k y] es IH]; cbn in *; [discriminate|]. destruct (a =? k); [now injection S as <-|now rewrite IH].
  - destruct (a =? tag); [|discriminate]. now injection S as <-.
Qed.
Lemma modify_spec op : (forall t v n v' n' evs, op t v n = Ok (v', n', evs) -> op_tells v v' n n' evs) ->
  forall c t v n v' n' evs, o_modify t v n c op = Ok (v', n', evs) -> modify_tells c v v' n n' evs.
Proof.
  intros Hop. induction c as [|a c IH]; intros t v n v' n' evs H; cbn in H; [apply op_to_tells, (Hop t), H|].
  okb H. destruct a0 as [[t' x]|]; [|injection H as <- <- <-; now left]. okb H. destruct a0 as [[x' m] evs']. injection H as <- <- <-.
  pose proof (child_slot _ _ _ _ _ E) as S. destruct (IH _ _ _ _ _ _ E0) as [(-> & -> & ->)|(ev & -> & (O & A & B & C & D) & M & K)].
  - left. rewrite (put_same _ _ _ _ _ E). auto.
  - right. exists ev. split; [reflexivity|]. destruct (put_child_slot _ _ _ _ _ _ E K) as [K' Sl]. split; [|split; [exact M|exact K']]. unfold tells.
    assert (S' : slot (o_put_child v a x') a = Some x') by (rewrite Sl, N.eqb_refl; reflexivity).
    repeat split.
    + cbn. now rewrite S.
    + intros tag T. cbn. rewrite S. now apply A.
    + intros tag T. cbn. rewrite S'. now apply B.
    + intros [|b q] r Q; cbn; [f_equal; apply K'|]. cbn in Q. injection Q as <- Q. rewrite S, S'. now apply (C q r).
    + intros [|b q] N1 N2; [now destruct (N1 (a :: c))|]. cbn. rewrite Sl. destruct (N.eqb_spec b a) as [->|]; [|reflexivity]. rewrite S.
      apply D; [intros r R; apply (N1 r); now rewrite R|]. intros tag r T R. apply (N2 tag r T). now rewrite R.
Qed.

Lemma handle_tells t e v n v' n' evs : (forall bs, e <> EUpdate [] bs) -> o_handle t e v n = Ok (v', n', evs) -> modify_tells (container e) v v' n n' evs.
Proof.
  intros R H. destruct e as [[|a p] bs|p bs|p|p k]; cbn [container]; [now destruct (R bs)| | | |]; unfold o_handle in H.
  - eapply modify_spec; [|exact H]. intros *. apply replace_tells.
  - eapply modify_spec; [|exact H]. intros *. apply push_tells.
  - eapply modify_spec; [|exact H]. intros *. apply pop_tells.
  - eapply modify_spec; [|exact H]. intros *. apply remove_tells.
Qed.


(** ** Identity and places through replay *)

Lemma prefix_dec (q c : list N) : (exists r, c = q ++ r) \/ (forall r, c <> q ++ r).
Proof.
  revert c. induction q as [|a q IH]; intros c; [left; now exists c|]. destruct c as [|b c]; [right; intros r; discriminate|].
  destruct (N.eq_dec a b) as [->|Ne]; [|right; intros r [= E]; congruence]. destruct (IH c) as [[r ->]|F]; [left; now exists r|].
  right. intros r [= E]. now apply (F r).
Qed.
Lemma slot_handle o a x : slot o a = Some x -> exists h, o_handle_of o = Some h.
Proof. destruct o; try discriminate; intros _; now eexists. Qed.
(** An object of the new tree is one of the old tree in the same place, or part of what is new. *)
Lemma tells_places c ev v v' q x h : tells c ev v v' -> here v' q = Some x -> o_handle_of x = Some h ->
  (exists y, here v q = Some y /\ o_handle_of y = Some h) \/
  (exists tag y r, ev_new ev = Some (tag, y) /\ q = c ++ tag :: r /\ here y r = Some x /\ exists h, here v c = Some (ev_owner ev) /\ o_handle_of (ev_owner ev) = Some h).
Proof.
  intros (O & A & B & C & D) X Hx. destruct (prefix_dec q c) as [[r ->]|NP].
  - left. specialize (C q r eq_refl). rewrite X in C. destruct (here v q) as [y|]; [|discriminate]. exists y. split; [reflexivity|]. cbn in C. congruence.
  - destruct (prefix_dec c q) as [[r ->]|NP'].
    + destruct r as [|tag r]; [now destruct (NP []); rewrite !app_nil_r|]. destruct (in_dec N.eq_dec tag (ev_tags ev)) as [I|NI].
      * right. specialize (B tag I). replace (c ++ tag :: r) with ((c ++ [tag]) ++ r) in X by (now rewrite <- app_assoc). rewrite here_app, B in X.
        destruct (ev_new ev) as [[tag' y]|]; [|discriminate]. destruct (N.eqb_spec tag tag') as [<-|]; [|discriminate].
        exists tag, y, r. repeat (split; [assumption || reflexivity|]). specialize (C c [] ltac:(now rewrite app_nil_r)). rewrite O in C.
        rewrite here_app in B. destruct (here v' c) as [z|] eqn:Z; [|discriminate]. cbn in B. destruct (slot z tag) eqn:S; [|discriminate].
        destruct (slot_handle _ _ _ S) as [k K]. exists k. split; [exact O|]. cbn in C. congruence.
      * left. exists x. rewrite <- D; [auto|exact NP|]. intros t r' T E. apply app_inv_head in E. injection E as -> ->. contradiction.
    + left. exists x. rewrite <- D; [auto|exact NP|]. intros t r' T ->. now destruct (NP' (t :: r')).
Qed.
Lemma tells_home c ev v v' n n' p : tells c ev v v' -> made n n' ev -> at_home p v -> own_place n v -> at_home p v' /\ own_place n' v'.
Proof.
  intros T [L M] H [I U]. split; [|split].
  - intros q x h X Hx. destruct (tells_places _ _ _ _ _ _ _ T X Hx) as [(y & Y & Hy)|(tag & y & r & E & -> & R & k & O & K)]; [now apply (H q y h)|].
    rewrite E in M. destruct (proj1 M r x h R Hx) as [P _]. unfold o_path in P. rewrite K in P. destruct k as [i pk]. pose proof (H c _ _ O K) as Pk. cbn in Pk.
    rewrite P, Pk, <- !app_assoc. reflexivity.
  - intros q x h X Hx. destruct (tells_places _ _ _ _ _ _ _ T X Hx) as [(y & Y & Hy)|(tag & y & r & E & -> & R & k & O & K)]; [specialize (I q y h Y Hy); lia|].
    rewrite E in M. destruct (proj1 M r x h R Hx). lia.
  - intros q q' x x' h h' X X' Hx Hx' E.
    destruct (tells_places _ _ _ _ _ _ _ T X Hx) as [(y & Y & Hy)|(tag & y & r & En & -> & R & k & O & K)], (tells_places _ _ _ _ _ _ _ T X' Hx') as [(y' & Y' & Hy')|(tag' & y' & r' & En' & -> & R' & k' & O' & K')].
    + now apply (U q q' y y' h h').
    + rewrite En' in M. destruct (proj1 M r' x' h' R' Hx'). specialize (I q y h Y Hy). lia.
    + rewrite En in M. destruct (proj1 M r x h R Hx). specialize (I q' y' h' Y' Hy'). lia.
    + rewrite En in En'. injection En' as <- <-. rewrite En in M. f_equal. f_equal. now apply (proj2 M r r' x x' h h').
Qed.
Lemma deser_handle t p n bs o rest n' : c_state t = true -> o_deser t p n bs = Ok (o, rest, n') -> exists h, o_handle_of o = Some h.
Proof.
  intros S E. destruct t; try discriminate S.
  - cbn in E. injection E as <- <- <-. now eexists.
  - cbn [o_deser] in E. destruct bs; [injection E as <- <- <-; now eexists|]. okb E. destruct a as [[x r] m]. injection E as <- <- <-. now eexists.
  - cbn [o_deser] in E. okb E. destruct a as [l m]. injection E as <- <- <-. now eexists.
  - cbn [o_deser] in E. okb E. destruct a as [l m]. injection E as <- <- <-. now eexists.
  - cbn [o_deser] in E. okb E. destruct a as [l m]. injection E as <- <- <-. now eexists.
  - rewrite o_deser_struct in E. okb E. destruct a as [xs m]. okb E. destruct a as [ys k]. injection E as <- <- <-. now eexists.
  - rewrite o_deser_enum in E. rewrite o_new_enum in E. destruct (assoc 0 vs) as [fs|]; [|discriminate]. okb E. destruct a as [d m].
    destruct (o_new_fields fs (p ++ [0]) (n + 2)) as [[zs m']| | |] eqn:E4; try discriminate E0. injection E0 as <- <-.
    okb E. destruct a as [tag r]. destruct (assoc (Z.to_N tag) vs) as [fs'|]; [|injection E as <- <- <-; now eexists].
    okb E. destruct a as [xs k]. okb E. destruct a as [ys j]. injection E as <- <- <-. now eexists.
Qed.
Lemma good_home p n n' o : good p n n' o -> at_home p o /\ own_place n' o.
Proof.
  intros [W U]. split; [|split; [|exact U]]; intros q x h X Hx; destruct (W q x h X Hx); [assumption|lia].
Qed.
Definition rooted (p : list N) (v : cobj) : Prop := exists i, o_handle_of v = Some (i, p).
Lemma handle_home t e v n v' n' evs p : c_state t = true -> rooted p v -> at_home p v -> own_place n v -> o_handle t e v n = Ok (v', n', evs) ->
  n <= n' /\ rooted p v' /\ at_home p v' /\ own_place n' v'.
Proof.
  intros S [i R] H O E. assert (D : (exists bs, e = EUpdate [] bs) \/ (forall bs, e <> EUpdate [] bs)).
  { destruct e as [[|a q] bs|q bs|q|q k]; [left; now exists bs|right; intros; discriminate..]. }
  destruct D as [[bs ->]|D].
  - cbn in E. okb E. destruct a as [[x rest] m]. injection E as <- <- <-. unfold o_path in E0. rewrite R in E0. destruct (deser_good _ _ _ _ _ _ _ E0) as [L G].
    destruct (good_home _ _ _ _ G) as [H' O']. split; [exact L|]. split; [|split; assumption]. destruct (deser_handle _ _ _ _ _ _ _ S E0) as [[j q] J]. exists j.
    pose proof (H' [] x _ eq_refl J) as Q. rewrite app_nil_r in Q. cbn in Q. now subst q.
  - destruct (handle_tells _ _ _ _ _ _ _ D E) as [(-> & -> & ->)|(ev & -> & T & M & K & _)]; [split; [lia|]; split; [now exists i|now split]|].
    split; [apply M|]. split; [exists i; congruence|]. now apply (tells_home (container e) ev v v' n n').
Qed.

(** ** The objects of CSharp.v *)

Definition rmap {A B} (f : A -> B) (r : res A) : res B := match r with Ok a => Ok (f a) | Err e => Err e | Panic => Panic | NoFuel => NoFuel end.
Lemma rmap_bind {A B C} (f : B -> C) (r : res A) (k : A -> res B) : rmap f (bind r k) = bind r (fun a => rmap f (k a)).
Proof. now destruct r. Qed.
Lemma bind_rmap {A B C} (f : A -> B) (r : res A) (k : B -> res C) : bind (rmap f r) k = bind r (fun a => k (f a)).
Proof. now destruct r. Qed.
(** Two computations that agree after [f]. *)
Lemma rmap_step {A B A' B'} (f : A -> A') (g : B -> B') r r' (k : A -> res B) (k' : A' -> res B') :
  rmap f r = r' -> (forall a, r = Ok a -> rmap g (k a) = k' (f a)) -> rmap g (bind r k) = bind r' k'.
Proof. intros <- H. destruct r; cbn; auto. Qed.
Lemma rmap_same {A B B'} (g : B -> B') (r : res A) (k : A -> res B) (k' : A -> res B') :
  (forall a, rmap g (k a) = k' a) -> rmap g (bind r k) = bind r k'.
Proof. intros H. destruct r; cbn; auto. Qed.
Definition efields (fs : list (N * cobj)) : list (N * cval) := map (fun e : N * cobj => let '(k, x) := e in (k, erase x)) fs.

Definition EN (t : cty) : Prop := forall p n, rmap (fun s : cobj * N => erase (fst s)) (o_new t p n) = c_new t.
Lemma new_fields_erase fs : Forall (fun f : N * (bool * cty) => EN (snd (snd f))) fs -> forall p n, rmap (fun s : list (N * cobj) * N => efields (fst s)) (o_new_fields fs p n) = c_new_fields fs.
Proof.
  induction 1 as [|[tag [g t]] fs Ht _ IH]; intros p n; [reflexivity|]. cbn [o_new_fields c_new_fields].
  eapply rmap_step with (f := fun s : cobj * N => erase (fst s)); [destruct (g && _); [reflexivity|apply Ht]|]. intros [x m] _.
  eapply rmap_step; [apply IH|]. intros [xs k] _. reflexivity.
Qed.
Lemma new_erase t : EN t.
Proof.
  induction t using cty_slots; intros p n; try reflexivity.
  - rewrite o_new_struct, c_new_struct. eapply rmap_step; [now apply new_fields_erase|]. now intros [xs m] _.
  - rewrite o_new_enum, c_new_enum. destruct (assoc 0 vs) as [fs|] eqn:A; [|reflexivity]. rewrite Forall_forall in H.
    eapply rmap_step; [apply new_fields_erase, (H _ (assoc_in _ _ _ A))|]. now intros [xs m] _.
Qed.
Lemma all_new_erase fs : Forall (fun f : N * (bool * cty) => EN (snd (snd f))) fs.
Proof. apply Forall_forall. intros f _. apply new_erase. Qed.

Lemma cloop_erase {S S'} (f : S -> S') step step' : (forall s bs, rmap (fun p : S * bytes => (f (fst p), snd p)) (step s bs) = step' (f s) bs) ->
  forall fuel s bs, rmap f (cloop fuel step s bs) = cloop fuel step' (f s) bs.
Proof.
  intros H. induction fuel as [|fuel IH]; intros s [|b bs]; try reflexivity. cbn [cloop].
  eapply rmap_step; [apply H|]. intros [s' r] _. apply IH.
Qed.
Definition eread (p : cobj * bytes * N) : cval * bytes := (erase (fst (fst p)), snd (fst p)).
Definition ED (t : cty) : Prop := forall p n bs, rmap eread (o_deser t p n bs) = c_deser t bs.
Lemma value_erase t p n bs : ED t -> rmap eread (o_value t (o_deser t p) n bs) = c_value t (c_deser t) bs.
Proof.
  unfold o_value, c_value. intros D. destruct (c_wty t); [apply D|]. apply rmap_same. intros [sub rest].
  eapply rmap_step; [apply D|]. now intros [[x r] m] _.
Qed.
Lemma put_erase tag x fs : efields (o_put tag x fs) = c_put tag (erase x) (efields fs).
Proof. induction fs as [|[k y] fs IH]; [reflexivity|]. cbn. destruct (tag =? k); [reflexivity|]. cbn. f_equal. exact IH. Qed.
Lemma im_erase tag x fs : efields (im_insert tag x fs) = im_insert tag (erase x) (efields fs).
Proof. induction fs as [|[k y] fs IH]; [reflexivity|]. cbn. destruct (_ =? _); [reflexivity|]. cbn. f_equal. exact IH. Qed.
Lemma items_erase t p n bs : ED t -> rmap (fun s : list cobj * N => map erase (fst s)) (crun (o_item_step t (o_deser t) p) ([], n) bs) = crun (c_item_step t (c_deser t)) [] bs.
Proof.
  intros D. apply (cloop_erase (fun s : list cobj * N => map erase (fst s))). intros [l m] b. unfold o_item_step, c_item_step.
  eapply rmap_step; [now apply value_erase|]. intros [[x r] k] _. cbn. now rewrite map_app.
Qed.
Lemma entries_erase t p n bs : ED t -> rmap (fun s : list (N * cobj) * N => efields (fst s)) (crun (o_map_step t (o_deser t) p) ([], n) bs) = crun (c_map_step t (c_deser t)) [] bs.
Proof.
  intros D. apply (cloop_erase (fun s : list (N * cobj) * N => efields (fst s))). intros [l m] b. unfold o_map_step, c_map_step.
  apply rmap_same. intros [[tag w] r0]. eapply rmap_step; [now apply value_erase|]. intros [[x r] k] _. cbn [rmap fst snd]. now rewrite im_erase.
Qed.
Lemma struct_erase cfs p xs n bs : Forall (fun f : N * (bool * cty) => ED (snd (snd f))) cfs ->
  rmap (fun s : list (N * cobj) * N => efields (fst s)) (crun (o_struct_step (o_readers p cfs)) (xs, n) bs) = crun (c_struct_step (c_readers cfs)) (efields xs) bs.
Proof.
  intros D. change (efields xs) with ((fun s : list (N * cobj) * N => efields (fst s)) (xs, n)). apply cloop_erase. intros [l m] b. unfold o_struct_step, c_struct_step.
  apply rmap_same. intros [[tag w] r0]. apply rmap_same. intros [sub r1]. rewrite assoc_o_readers, assoc_readers.
  assert (Skip : rmap (fun p0 : list (N * cobj) * N * bytes => (efields (fst (fst p0)), snd p0)) match w with Varint => do (_, rest) <- c_bool r1 false; Ok (l, m, rest) | Sized => Ok (l, m, r1) end =
    match w with Varint => do (_, rest) <- c_bool r1 false; Ok (efields l, rest) | Sized => Ok (efields l, r1) end).
  { destruct w; [|reflexivity]. apply rmap_same. now intros [x r]. }
  destruct (assoc tag cfs) as [[g c]|] eqn:A; [|exact Skip]. destruct (wtype_eqb w (c_field_wty g c)); [|exact Skip].
  rewrite Forall_forall in D. eapply rmap_step; [apply (D _ (assoc_in _ _ _ A))|]. intros [[x r] k] _. cbn [rmap fst snd eread]. now rewrite put_erase.
Qed.
Lemma deser_erase t : ED t.
Proof.
  induction t using cty_slots; intros p n bs; try reflexivity.
  - cbn [o_deser c_deser]. apply rmap_same. now intros [z r].
  - cbn [o_deser c_deser]. apply rmap_same. now intros [z r].
  - cbn [o_deser c_deser]. destruct bs as [|b bs]; [reflexivity|]. eapply rmap_step; [now apply value_erase|]. now intros [[x r] m] _.
  - cbn [o_deser c_deser]. eapply rmap_step; [now apply items_erase|]. now intros [l m] _.
  - cbn [o_deser c_deser]. eapply rmap_step; [now apply items_erase|]. now intros [l m] _.
  - cbn [o_deser c_deser]. eapply rmap_step; [now apply entries_erase|]. now intros [l m] _.
  - rewrite o_deser_struct, c_deser_struct. eapply rmap_step; [apply new_fields_erase, all_new_erase|]. intros [xs m] _.
    eapply rmap_step; [now apply struct_erase|]. now intros [ys k] _.
  - rewrite o_deser_enum, c_deser_enum. eapply rmap_step; [apply new_erase|]. intros [d m] _. apply rmap_same. intros [tag r].
    destruct (assoc (Z.to_N tag) vs) as [fs|] eqn:A; [|reflexivity]. eapply rmap_step; [apply new_fields_erase, all_new_erase|]. intros [xs k] _.
    rewrite Forall_forall in H. eapply rmap_step; [apply struct_erase, (H _ (assoc_in _ _ _ A))|]. now intros [ys j] _.
Qed.

(** ** Replay, forgetting identities and paths *)

Lemma assoc_erase tag fs : assoc tag (efields fs) = option_map erase (assoc tag fs).
Proof. induction fs as [|[k x] fs IH]; [reflexivity|]. cbn. destruct (tag =? k); [reflexivity|]. exact IH. Qed.
Lemma set_erase l : forall i x, map erase (set_nth l i x) = set_nth (map erase l) i (erase x).
Proof. induction l as [|y l IH]; intros [|i] x; cbn; try reflexivity. now rewrite IH. Qed.
Lemma removelast_erase l : map erase (removelast l) = removelast (map erase l).
Proof. induction l as [|y l IH]; [reflexivity|]. destruct l; [reflexivity|]. change (erase y :: map erase (removelast (c :: l)) = erase y :: removelast (map erase (c :: l))). now rewrite IH. Qed.
Lemma filter_erase k fs : efields (filter (fun e : N * cobj => negb (fst e =? k)) fs) = filter (fun e : N * cval => negb (fst e =? k)) (efields fs).
Proof. induction fs as [|[j x] fs IH]; [reflexivity|]. cbn. destruct (j =? k); cbn; [exact IH|f_equal; exact IH]. Qed.
Lemma efields_eq fs : map (fun e : N * cobj => let '(k, x) := e in (k, erase x)) fs = efields fs. Proof. reflexivity. Qed.

Ltac noopt := match goal with |- context [OOpt _ ?o] => now destruct o end.
Definition echild (o : option (cty * cobj)) : option (cty * cval) := option_map (fun p : cty * cobj => (fst p, erase (snd p))) o.
Lemma child_erase t v tag : rmap echild (o_child t v tag) = c_child t (erase v) tag.
Proof.
  destruct t, v; try reflexivity; try noopt; cbn [o_child c_child erase].
  - destruct (c_state t); [|reflexivity]. rewrite nth_error_map. cbn. now destruct (nth_error l (N.to_nat tag)).
  - destruct (c_state t); [|reflexivity]. rewrite efields_eq, assoc_erase. cbn. now destruct (assoc tag es).
  - destruct (assoc tag fs) as [[g c]|]; [|reflexivity]. destruct (c_state c); [|reflexivity]. rewrite efields_eq, assoc_erase. now destruct (assoc tag fs0).
  - destruct (tag =? tag0); [|reflexivity]. now destruct (assoc tag vs).
Qed.
Lemma put_child_erase v tag x : erase (o_put_child v tag x) = c_put_child (erase v) tag (erase x).
Proof.
  destruct v; try reflexivity; try noopt; cbn [o_put_child c_put_child erase].
  - now rewrite set_erase.
  - rewrite !efields_eq. now rewrite put_erase.
  - rewrite !efields_eq. now rewrite put_erase.
  - destruct x; try reflexivity; now destruct o.
Qed.
Definition eres (s : changed) : cval := erase (fst (fst s)).
Definition op_erases (op : oop) (op' : cty -> cval -> res cval) : Prop := forall t v n, cwt t (erase v) = true -> rmap eres (op t v n) = op' t (erase v).
Lemma replace_erase tag bs : op_erases (o_replace_at tag bs) (c_replace_at tag bs).
Proof.
  intros t v n W. destruct t, v; try reflexivity; try noopt; cbn [o_replace_at c_replace_at erase].
  - unfold lenN. rewrite map_length. destruct (nth_error l (N.to_nat tag)) as [y|] eqn:Y.
    + assert (L : (N.to_nat tag < length l)%nat) by (apply nth_error_Some; congruence). destruct (N.leb_spec (N.of_nat (length l)) tag); [lia|].
      eapply rmap_step; [apply deser_erase|]. intros [[x r] m] _. cbn. now rewrite set_erase.
    + apply nth_error_None in Y. destruct (N.leb_spec (N.of_nat (length l)) tag); [reflexivity|lia].
  - eapply rmap_step; [apply deser_erase|]. intros [[x r] m] _. cbn [rmap eres eread fst snd erase]. now rewrite !efields_eq, im_erase.
  - destruct (assoc tag fs) as [[g c]|] eqn:A; [|reflexivity]. eapply rmap_step; [apply deser_erase|]. intros [[x r] m] _.
    destruct (cwt_assoc fs (efields fs0) tag g c W A) as (y & Y & _). rewrite assoc_erase in Y. destruct (assoc tag fs0) as [z|]; [|discriminate].
    cbn [rmap eres eread fst snd erase]. now rewrite !efields_eq, put_erase.
  - destruct (assoc tag vs) as [fs'|] eqn:A; [|reflexivity]. eapply rmap_step; [apply deser_erase|]. intros [[x r] m] _. destruct x; try reflexivity; now destruct o.
Qed.
Lemma push_erase bs : op_erases (o_push bs) (c_push bs).
Proof.
  intros t v n _. destruct t; try reflexivity. destruct v; try reflexivity; try noopt. cbn [o_push c_push erase]. eapply rmap_step; [apply deser_erase|]. intros [[x r] m] _.
  cbn. now rewrite map_app.
Qed.
Lemma pop_erase : op_erases o_pop c_pop.
Proof.
  intros t v n _. destruct t; try reflexivity. destruct v; try reflexivity; try noopt. cbn [o_pop c_pop erase]. destruct l as [|x l]; [reflexivity|].
  exact (f_equal (fun l => Ok (CVList l)) (removelast_erase (x :: l))).
Qed.
Lemma remove_erase k : op_erases (o_remove k) (c_remove k).
Proof.
  intros t v n _. destruct t; try reflexivity. destruct v; try reflexivity; try noopt. cbn [o_remove c_remove erase]. rewrite efields_eq, assoc_erase. destruct (assoc k es); [|reflexivity].
  cbn [rmap eres fst erase option_map]. now rewrite efields_eq, filter_erase.
Qed.
Lemma modify_erase op op' : op_erases op op' -> forall path t v n, cgen t = true -> c_state t = true -> cwt t (erase v) = true ->
  rmap eres (o_modify t v n path op) = c_modify t (erase v) path op'.
Proof.
  intros Op. induction path as [|tag path IH]; intros t v n G S W; [now apply Op|]. cbn [o_modify c_modify].
  pose proof (c_child_oks t (erase v) tag G S W) as K. rewrite <- child_erase in *. eapply rmap_step; [reflexivity|]. intros c C. rewrite C in K. cbn [rmap oks] in K.
  destruct c as [[t' x]|]; [|reflexivity]. cbn in K. destruct K as (G' & S' & W' & _). cbn [echild option_map fst snd].
  eapply rmap_step; [now apply IH|]. intros [[x' m] evs] _. cbn. f_equal. apply put_child_erase.
Qed.
Lemma handle_erase t e v n : cgen t = true -> c_state t = true -> cwt t (erase v) = true -> rmap eres (o_handle t e v n) = c_handle t e (erase v).
Proof.
  intros G S W. destruct e as [p bs|p bs|p|p k]; cbn [o_handle c_handle].
  - destruct p as [|a p]; [eapply rmap_step; [apply deser_erase|]; now intros [[x r] m] _|]. apply modify_erase; try assumption. apply replace_erase.
  - apply modify_erase; try assumption. apply push_erase.
  - apply modify_erase; try assumption. apply pop_erase.
  - apply modify_erase; try assumption. apply remove_erase.
Qed.

(** ** Whole streams *)

Lemma o_step_next t v n evs bs : o_replay_step t (v, n, evs) bs =
  try (v, n, evs) (do (e, rest) <- c_next bs; do (v', n', evs') <- o_handle t e v n; Ok ((v', n', evs ++ evs'), rest)) (fun '(s', rest) => (s', Ok rest)).
Proof.
  unfold o_replay_step, c_next. destruct (c_nested bs) as [[sub rest]| | |]; cbn [bind]; try reflexivity. destruct (c_deser cEntry sub) as [[x r]| | |]; cbn [bind]; try reflexivity.
  destruct (c_entry x); reflexivity.
Qed.
Lemma modify_events op : forall path t v n v' n' evs, o_modify t v n path op = Ok (v', n', evs) -> evs = [] \/ exists t' x m r, op t' x m = Ok r /\ snd r = evs.
Proof.
  induction path as [|a path IH]; intros t v n v' n' evs H; cbn in H; [right; now exists t, v, n, (v', n', evs)|].
  okb H. destruct a0 as [[t' x]|]; [|injection H as <- <- <-; now left]. okb H. destruct a0 as [[x' m] evs']. injection H as <- <- <-. eapply IH, E0.
Qed.
Lemma handle_fits t e v n v' n' ev : (forall bs, e <> EUpdate [] bs) -> o_handle t e v n = Ok (v', n', [ev]) -> fits e ev.
Proof.
  intros R H. destruct e as [[|a p] bs|p bs|p|p k]; [now destruct (R bs)| | | |]; unfold o_handle in H; apply modify_events in H; destruct H as [H|(t' & x & m & [[x' m'] evs] & H & Es)];
    try discriminate H; cbn [snd] in Es; subst evs; cbn [fits]; [generalize dependent (last (a :: p) 0); intros tag H| | |].
  - destruct t', x; try discriminate H; cbn [o_replace_at] in H.
    + destruct (nth_error _ _); [|discriminate]. okb H. destruct a0 as [[y r] j]. injection H as _ _ <-. reflexivity.
    + okb H. destruct a0 as [[y r] j]. injection H as _ _ <-. now destruct (assoc tag es).
    + destruct (assoc tag fs) as [[g c]|]; [|discriminate]. okb H. destruct a0 as [[y r] j]. destruct (assoc tag fs0); [|discriminate]. injection H as _ _ <-. reflexivity.
    + destruct (assoc tag vs); [|discriminate]. okb H. destruct a0 as [[y r] j]. destruct y; try discriminate. injection H as _ _ <-. reflexivity.
  - destruct t', x; try discriminate H; cbn [o_push] in H. okb H. destruct a as [[y r] j]. injection H as _ _ <-. reflexivity.
  - destruct t', x; try discriminate H; cbn [o_pop] in H. destruct l as [|y l]; [discriminate|]. injection H as _ _ <-. unfold lenN. cbn [length]. lia.
  - destruct t', x; try discriminate H; cbn [o_remove] in H. destruct (assoc k es); [|discriminate]. injection H as _ _ <-. reflexivity.
Qed.
Lemma replace_nothing tag bs : forall path t v n v' n', o_modify t v n path (o_replace_at tag bs) = Ok (v', n', []) ->
  forall bs', o_modify t v n path (o_replace_at tag bs') = Ok (v, n, []).
Proof.
  induction path as [|a path IH]; intros t v n v' n' H bs'; cbn [o_modify] in *.
  - destruct t, v; try discriminate H; try reflexivity; cbn [o_replace_at] in *.
    + destruct (nth_error _ _); [|discriminate]. okb H. destruct a as [[y r] j]. discriminate.
    + okb H. destruct a as [[y r] j]. discriminate.
    + destruct (assoc tag fs) as [[g c]|]; [|reflexivity]. okb H. destruct a as [[y r] j]. destruct (assoc tag fs0); discriminate.
    + destruct (assoc tag vs); [|reflexivity]. okb H. destruct a as [[y r] j]. destruct y; discriminate.
  - okb H. destruct a0 as [[t' x]|]; cbn [bind]; [|reflexivity]. okb H. destruct a0 as [[x' m] evs']. injection H as <- <- ->.
    rewrite (IH _ _ _ _ _ E0 bs'). cbn. now rewrite (put_same _ _ _ _ _ E).
Qed.
Lemma handle_nothing t e v n v' n' : cgen t = true -> c_state t = true -> cwt t (erase v) = true ->
  (forall bs, e <> EUpdate [] bs) -> o_handle t e v n = Ok (v', n', []) -> v' = v -> names_nothing t e v.
Proof.
  intros G S W R H ->. destruct e as [[|a p] bs|p bs|p|p k]; [now destruct (R bs)| | | |]; unfold names_nothing.
  - intros bs'. rewrite <- (handle_erase t _ v n G S W). unfold o_handle in *. now rewrite (replace_nothing _ _ _ _ _ _ _ _ H bs').
  - now rewrite <- (handle_erase t _ v n G S W), H.
  - now rewrite <- (handle_erase t _ v n G S W), H.
  - now rewrite <- (handle_erase t _ v n G S W), H.
Qed.

(** Where and how a replay ends. *)
Definition ends (t : cty) (v : cobj) (n : N) (rest : bytes) {A} (o : res A) : Prop :=
  match o with
  | Ok _ => rest = []
  | _ => o = Panic /\ rest <> [] /\ forall e rest', c_next rest = Ok (e, rest') -> o_handle t e v n = Panic
  end.
Definition rule := list entry -> cobj -> N -> list event -> cobj -> N -> Prop.
Definition step_rule (t : cty) (P : rule) : Prop := forall e es v n evs1 v1 n1 evs v' n', seg32 (epath e) -> cwt t (erase v) = true ->
  o_handle t e v n = Ok (v1, n1, evs1) -> P es v1 n1 evs v' n' -> P (e :: es) v n (evs1 ++ evs) v' n'.
Lemma o_loop_inv (P : rule) t : cgen t = true -> c_state t = true -> (forall v n, P [] v n [] v n) -> step_rule t P ->
  forall fuel v n evs0 bs v' n' evs o, cwt t (erase v) = true -> (length bs <= fuel)%nat -> loop fuel (o_replay_step t) (v, n, evs0) bs = ((v', n', evs), o) ->
  exists es rest evs1, c_decodes bs es rest /\ evs = evs0 ++ evs1 /\ P es v n evs1 v' n' /\ ends t v' n' rest o.
Proof.
  intros G S P0 P1. induction fuel as [|fuel IH]; intros v n evs0 bs v' n' evs o W L H.
  - exists [], bs, []. destruct bs; [|cbn in L; lia]. cbn in H; injection H as <- <- <- <-; (split; [constructor|]; split; [now rewrite app_nil_r|]; split; [apply P0|reflexivity]).
  - destruct bs as [|b bs']; [exists [], [], []; injection H as <- <- <- <-; (split; [constructor|]; split; [now rewrite app_nil_r|split; [apply P0|reflexivity]])|].
    set (bs := b :: bs') in *. change (loop (Datatypes.S fuel) (o_replay_step t) (v, n, evs0) bs) with
      (let '(s', r) := o_replay_step t (v, n, evs0) bs in try s' r (fun rest => loop fuel (o_replay_step t) s' rest)) in H.
    rewrite o_step_next in H. pose proof (c_next_oks bs) as Nx. destruct (c_next bs) as [[e rest]| | |] eqn:En; cbn [oks] in Nx; try contradiction; cbn [bind try] in H.
    2:{ injection H as <- <- <- <-. exists [], bs, []. split; [constructor|]; split; [now rewrite app_nil_r|]. split; [apply P0|]. split; [reflexivity|]. split; [discriminate|].
        intros e rest' F. congruence. }
    destruct Nx as [Sg Sh]. cbn [fst snd] in Sg, Sh. pose proof (c_handle_oks t e _ G S W Sg) as K. rewrite <- (handle_erase t e v n G S W) in K.
    destruct (o_handle t e v n) as [[[v1 n1] evs1]| | |] eqn:Eh; cbn [rmap oks] in K; try contradiction; cbn [bind try] in H.
    2:{ injection H as <- <- <- <-. exists [], bs, []. split; [constructor|]; split; [now rewrite app_nil_r|]. split; [apply P0|]. split; [reflexivity|]. split; [discriminate|].
        intros e' rest' F. congruence. }
    unfold shorter in Sh. destruct (IH v1 n1 _ rest _ _ _ _ K ltac:(lia) H) as (es & tail & evs2 & D & -> & Q & Z). exists (e :: es), tail, (evs1 ++ evs2).
    split; [econstructor; eassumption|]. split; [now rewrite app_assoc|]. split; [|exact Z]. eapply P1; eassumption.
Qed.
Lemma o_replay_inv (P : rule) t : cgen t = true -> c_state t = true -> (forall v n, P [] v n [] v n) -> step_rule t P ->
  forall v n bs v' n' evs o, cwt t (erase v) = true -> o_replay t v n bs = ((v', n', evs), o) -> exists es rest, c_decodes bs es rest /\ P es v n evs v' n' /\ ends t v' n' rest o.
Proof.
  intros G S P0 P1 v n bs v' n' evs o W. unfold o_replay, run. destruct (loop _ _ _ _) as [[[w m] evs1] r] eqn:E. intros H. injection H as -> -> -> <-.
  destruct (o_loop_inv P t G S P0 P1 _ _ _ _ _ _ _ _ _ W (le_n _) E) as (es & rest & evs2 & D & -> & Q & Z). exists es, rest. split; [exact D|]. split; [exact Q|].
  destruct r; cbn in *; [exact Z| | |]; destruct Z as [Z Z']; try discriminate Z. split; [reflexivity|exact Z'].
Qed.

Lemma root_dec e : (exists bs, e = EUpdate [] bs) \/ (forall bs, e <> EUpdate [] bs).
Proof. destruct e as [[|a q] b|q b|q|q k]; [left; now exists b|right; intros; discriminate..]. Qed.
Definition homely (p : list N) : rule := fun _ v n _ v' n' => rooted p v -> at_home p v -> own_place n v -> n <= n' /\ rooted p v' /\ at_home p v' /\ own_place n' v'.
Lemma homely_step t p : c_state t = true -> step_rule t (homely p).
Proof.
  intros S e es w m evs1 w1 m1 evs2 w' m' _ _ Eh IH R1 H1 O1. destruct (handle_home _ _ _ _ _ _ _ _ S R1 H1 O1 Eh) as (L & R2 & H2 & O2).
  destruct (IH R2 H2 O2) as (L2 & Q). split; [lia|exact Q].
Qed.
Lemma told_step t : cgen t = true -> c_state t = true -> step_rule t (fun es v _ evs v' _ => told t es v evs v').
Proof.
  intros G S e es w m evs1 w1 m1 evs2 w' m' _ W Eh T. destruct (root_dec e) as [[b ->]|D].
  - cbn in Eh. okb Eh. destruct a as [[x rest] k]. injection Eh as <- <- <-. cbn. eapply told_root with (v1 := x); [|exact T].
    rewrite <- (deser_erase t (o_path w) m b), E. reflexivity.
  - destruct (handle_tells _ _ _ _ _ _ _ D Eh) as [(-> & -> & ->)|(ev & -> & Te & _)].
    + apply told_nothing; [|exact T]. eapply handle_nothing; try eassumption. reflexivity.
    + apply told_event with (v1 := w1); try assumption. eapply handle_fits; eassumption.
Qed.
(** What no event is about is still the same object. *)
Definition untouched (q : list N) (evs : list event) : Prop := forall ev tag r, In ev evs -> In tag (ev_tags ev) -> q <> o_path (ev_owner ev) ++ tag :: r.
Definition same_object (p : list N) : rule := fun es v n evs v' n' => rooted p v -> at_home p v -> own_place n v -> (forall bs, ~ In (EUpdate [] bs) es) ->
  forall q, untouched (p ++ q) evs -> option_map o_handle_of (here v' q) = option_map o_handle_of (here v q).
Lemma same_step t p : c_state t = true -> step_rule t (same_object p).
Proof.
  intros S e es w m evs1 w1 m1 evs2 w' m' _ _ Eh IH R H O NR q U.
  assert (D : forall bs, e <> EUpdate [] bs) by (intros bs ->; now apply (NR bs); left).
  destruct (handle_home _ _ _ _ _ _ _ _ S R H O Eh) as (L & R2 & H2 & O2).
  rewrite (IH R2 H2 O2); [|intros bs I; now apply (NR bs); right|intros ev tag r I; apply U, in_or_app; now right].
  destruct (handle_tells _ _ _ _ _ _ _ D Eh) as [(-> & -> & ->)|(ev & -> & (Ow & A & B & C & Dd) & Md & K)]; [reflexivity|].
  destruct (prefix_dec q (container e)) as [[r E]|NP]; [now apply (C q r)|]. f_equal. apply Dd; [exact NP|]. intros tag r T ->.
  (* the owner is at its container, and has its path *)
  assert (X : exists h, o_handle_of (ev_owner ev) = Some h).
  { pose proof (A tag T) as A'. pose proof (B tag T) as B'. rewrite here_app, Ow in A'. rewrite here_app in B'. specialize (C (container e) [] ltac:(now rewrite app_nil_r)). rewrite Ow in C.
    destruct (here w1 (container e)) as [z|]; [|discriminate]. cbn in A', B', C. injection C as C. rewrite <- C.
    unfold ev_tags in T. apply in_map_iff in T. destruct T as ([tag0 y] & T1 & T). cbn in T1. subst tag0. apply in_app_or in T. destruct T as [T|T].
    - destruct (ev_old ev) as [[tag1 y1]|]; [|contradiction]. destruct T as [[= -> ->]|[]]. rewrite N.eqb_refl in A'. destruct (slot (ev_owner ev) tag) eqn:Sl; [|discriminate].
      destruct (slot_handle _ _ _ Sl) as [h Hh]. exists h. congruence.
    - destruct (ev_new ev) as [[tag1 y1]|]; [|contradiction]. destruct T as [[= -> ->]|[]]. rewrite N.eqb_refl in B'. destruct (slot z tag) eqn:Sl; [|discriminate].
      destruct (slot_handle _ _ _ Sl) as [h Hh]. now exists h. }
  destruct X as [[i ph] X]. pose proof (H _ _ _ Ow X) as Ph. cbn in Ph. apply (U ev tag r (or_introl eq_refl) T). unfold o_path. rewrite X, Ph. now rewrite app_assoc.
Qed.
Lemma loop_erase t : cgen t = true -> c_state t = true -> forall fuel v n evs bs, cwt t (erase v) = true -> (length bs <= fuel)%nat ->
  loop fuel (c_replay_step t) (erase v) bs = (let '(s, o) := loop fuel (o_replay_step t) (v, n, evs) bs in (eres s, o)).
Proof.
  intros G S. induction fuel as [|fuel IH]; intros v n evs bs W L.
  - destruct bs; [reflexivity|cbn in L; lia].
  - destruct bs as [|b bs']; [reflexivity|]. set (bs := b :: bs') in *.
    change (loop (Datatypes.S fuel) (c_replay_step t) (erase v) bs) with (let '(s', r) := c_replay_step t (erase v) bs in try s' r (fun rest => loop fuel (c_replay_step t) s' rest)).
    change (loop (Datatypes.S fuel) (o_replay_step t) (v, n, evs) bs) with (let '(s', r) := o_replay_step t (v, n, evs) bs in try s' r (fun rest => loop fuel (o_replay_step t) s' rest)).
    rewrite c_step_next, o_step_next. pose proof (c_next_oks bs) as Nx. destruct (c_next bs) as [[e rest]| | |]; cbn [oks] in Nx; try contradiction; [|reflexivity].
    destruct Nx as [P Sh]. cbn [fst snd] in P, Sh. cbn [bind]. pose proof (c_handle_oks t e _ G S W P) as H. rewrite <- (handle_erase t e v n G S W) in *.
    destruct (o_handle t e v n) as [[[v1 n1] evs1]| | |]; cbn [rmap oks] in H; try contradiction; [|reflexivity].
    cbn [rmap bind try]. unfold shorter in Sh. apply IH; [exact H|lia].
Qed.
Lemma replay_erase t v n bs : cgen t = true -> c_state t = true -> cwt t (erase v) = true ->
  c_replay t (erase v) bs = (let '(s, o) := o_replay t v n bs in (eres s, o)).
Proof.
  intros G S W. unfold c_replay, o_replay, run. rewrite (loop_erase t G S (length bs) v n [] bs W (le_n _)). destruct (loop _ (o_replay_step t) _ _) as [[[w m] evs] r]. reflexivity.
Qed.
