(** What [handle] does: it descends along the path, or acts on the node itself. *)
From Verif Require Import Base Varint WireFmt Utf8 Types Ser Spec De Log State StateSpec ValInd VarintProofs WireProofs SerProofs
  TypeProofs EqProofs DeProofs RoundTrip NormProofs LogProofs TreeProofs CohProofs.

(** Induction over the types of nodes. *)
Lemma child_ind (P : ty -> Prop) :
  (forall t, (forall v s t' x, child t v s = Some (t', x) -> P t') -> P t) -> forall t, P t.
Proof.
  intros H t. induction t as [k| | | |t IH|t IH|n t IH|ts IH|k t IHk IHt|t IH|si fs IH|st vs IH|t IH|k t IH] using ty_ind';
    apply H; intros v s t' x E; destruct s as [fn|i|kk|]; try discriminate E; destruct v; try discriminate E; cbn [child] in E.
  - inversion E; subst. exact IH.
  - unfold field_child in E. destruct (find_field fn fs) as [[fi t1]|] eqn:F; [|discriminate E].
    destruct (find_field fn fs0) as [[fj y]|]; [|discriminate E]. inversion E; subst.
    rewrite Forall_forall in IH. exact (IH _ (find_field_in _ _ _ F)).
  - destruct (find_variant vs tag) as [va|] eqn:V; [|discriminate E]. apply find_variant_in in V. destruct V as [V _].
    unfold field_child in E. destruct (find_field fn (snd va)) as [[fi t1]|] eqn:F; [|discriminate E].
    destruct (find_field fn fs) as [[fj y]|]; [|discriminate E]. inversion E; subst.
    rewrite Forall_forall in IH. specialize (IH _ V). rewrite Forall_forall in IH. exact (IH _ (find_field_in _ _ _ F)).
  - destruct (nth_error l _); [|discriminate E]. inversion E; subst. exact IH.
  - destruct (assoc kk es); [|discriminate E]. inversion E; subst. exact IH.
Qed.

(** An entry addressed to the node itself. *)
Definition handle_here (m : mode) (t : ty) (kind : ekind) (key : option N) (bs : bytes) (v : val) : val * res unit :=
  match kind, t, v with
  | KUpdate, _, _ => handle_update m t bs v
  | KListPush, TList t', VList r l =>
      match merge m t' (dflt t' (nested r (lenN l))) bs with
      | (x, Ok _) => (VList r (l ++ [x]), Ok tt)
      | (_, Err e) => (v, Err e) | (_, Panic) => (v, Panic) | (_, NoFuel) => (v, NoFuel)
      end
  | KListPop, TList t', VList r l =>
      match l with [] => (v, Err InvalidData) | _ => (VList r (removelast l), Ok tt) end
  | KMapRemove, TMap _ t', VMap r es =>
      match key with
      | Some k => match assoc k es with
                  | Some _ => (VMap r (im_remove k es), Ok tt)
                  | None => (v, Err InvalidData)
                  end
      | None => (v, Err InvalidData)
      end
  | _, _, _ => (v, Err InvalidData)
  end.

Lemma find_hfields m fn fts : find_field fn (hfields m fts) =
  match find_field fn fts with Some (fi, t) => Some (fi, handle m t) | None => None end.
Proof. induction fts as [|[fi t] fts IH]; [reflexivity|]. cbn. destruct (fn =? f_tag fi); [reflexivity|exact IH]. Qed.

Lemma assoc_variants {A} (f : list (finfo * ty) -> A) vs tag :
  assoc tag (map (fun va : (N * bool) * list (finfo * ty) => (fst (fst va), f (snd va))) vs) =
  match find_variant vs tag with Some va => Some (f (snd va)) | None => None end.
Proof.
  unfold find_variant. induction vs as [|[[tg c] ts] vs IH]; [reflexivity|]. cbn [map assoc find fst snd].
  rewrite (N.eqb_sym tg tag). destruct (tag =? tg); [reflexivity|exact IH].
Qed.

Lemma handle_struct m si fts c r fs fn path kind key bs :
  handle m (TStruct si fts) (fn :: path) kind key bs (VStruct c (Some r) fs) =
  let '(fs', o) := handle_field (hfields m fts) fs fn path kind key bs in (VStruct c (Some r) fs', o).
Proof. destruct kind; reflexivity. Qed.

Lemma handle_enum m st vs tag c r fs tag' path kind key bs :
  handle m (TEnum st vs) (tag' :: path) kind key bs (VEnum tag c (Some r) fs) =
  match find_variant vs tag' with
  | None => (VEnum tag c (Some r) fs, Err InvalidData)
  | Some va =>
      if tag =? tag' then
        match path with
        | fn :: path' =>
            let '(fs', o) := handle_field (hfields m (snd va)) fs fn path' kind key bs in (VEnum tag c (Some r) fs', o)
        | [] => (VEnum tag c (Some r) fs, Err InvalidData)
        end
      else (VEnum tag c (Some r) fs, Err InvalidData)
  end.
Proof.
  transitivity (match assoc tag' (map (fun va : (N * bool) * list (finfo * ty) => (fst (fst va), hfields m (snd va))) vs) with
    | None => (VEnum tag c (Some r) fs, Err InvalidData)
    | Some hs =>
      if tag =? tag' then
        match path with
        | fn :: path' =>
            let '(fs', o) := handle_field hs fs fn path' kind key bs in (VEnum tag c (Some r) fs', o)
        | [] => (VEnum tag c (Some r) fs, Err InvalidData)
        end
      else (VEnum tag c (Some r) fs, Err InvalidData) end).
  - destruct kind; reflexivity.
  - rewrite assoc_variants. destruct (find_variant vs tag'); reflexivity.
Qed.

Definition is_box (t : ty) : bool := match t with TBox _ => true | _ => false end.

(** The five things an entry can do. *)
Inductive hcase (m : mode) (t : ty) (path : list N) (kind : ekind) (key : option N) (bs : bytes) (v : val) : Prop :=
| HDown s p t' x : child t v s = Some (t', x) -> state_step v s = true -> path = seg v s ++ p ->
    handle m t path kind key bs v = (let '(x', o) := handle m t' p kind key bs x in (put_child v s x', o)) ->
    hcase m t path kind key bs v
| HHere : is_box t = false -> path = [] -> handle m t path kind key bs v = handle_here m t kind key bs v ->
    hcase m t path kind key bs v
| HErr : handle m t path kind key bs v = (v, Err InvalidData) -> hcase m t path kind key bs v
| HSkip : handle m t path kind key bs v = (v, Ok tt) -> hcase m t path kind key bs v
| HNew kk t' r es k : t = TMap kk t' -> v = VMap r es -> path = [k] -> kind = KUpdate -> assoc k es = None ->
    handle m t path kind key bs v =
    match merge m t' (dflt t' (nested r k)) bs with
    | (x, Ok _) => (VMap r (im_insert k x es), Ok tt)
    | (_, Err e) => (v, Err e) | (_, Panic) => (v, Panic) | (_, NoFuel) => (v, NoFuel)
    end -> hcase m t path kind key bs v.

Lemma handle_cases m t path kind key bs v : ty_ok t = true -> state_ty t = true -> wt t v = true ->
  hcase m t path kind key bs v.
Proof.
  intros O S W. destruct t as [k| | | |t|t|n t|ts|kt vt|t|si fts|st vs|t|k t]; try discriminate S;
    destruct v as [k' z|b| | | | | | | |y|c r fs|tag c r fs|r l|r es]; try discriminate W.
  - destruct path; [destruct kind; (apply HHere; reflexivity)|apply HErr; destruct kind; reflexivity].
  - destruct path; [destruct kind; (apply HHere; reflexivity)|apply HErr; destruct kind; reflexivity].
  - apply (HDown _ _ _ _ _ _ _ SBox path t y); reflexivity.
  - rewrite wt_struct_eq in W. bprop. cbn [state_ty] in S. rewrite S in H1. destruct r as [r|]; [|discriminate].
    destruct path as [|fn path]; [destruct kind; apply HHere; reflexivity|].
    pose proof (handle_struct m si fts c r fs fn path kind key bs) as E.
    unfold handle_field in E. rewrite find_hfields in E. pose proof (find_field_wt fn fts fs ltac:(assumption)) as F.
    destruct (find_field fn fts) as [[fi t]|] eqn:Ft; [|now apply HErr].
    destruct F as (x & F & Wx). rewrite F in E. destruct (f_state fi) eqn:Fs; [|now apply HSkip].
    apply (HDown _ _ _ _ _ _ _ (SField fn) path t x).
    + cbn. unfold field_child. now rewrite Ft, F.
    + cbn. now rewrite F.
    + reflexivity.
    + rewrite E. destruct (handle m t path kind key bs x). reflexivity.
  - destruct (wt_enum_inv _ _ _ _ _ _ W) as (c' & fts & V & -> & Wf & Hst & Hb). cbn [state_ty] in S. subst st.
    destruct r as [r|]; [|discriminate].
    destruct path as [|tag' path]; [destruct kind; apply HHere; reflexivity|].
    pose proof (handle_enum m true vs tag c r fs tag' path kind key bs) as E.
    destruct (find_variant vs tag') as [va|] eqn:V'; [|now apply HErr].
    destruct (tag =? tag') eqn:T; [|now apply HErr]. apply N.eqb_eq in T. subst tag'. rewrite V in V'. inversion V'; subst va. cbn [snd] in *.
    destruct path as [|fn path]; [now apply HErr|].
    unfold handle_field in E. rewrite find_hfields in E. pose proof (find_field_wt fn fts fs ltac:(assumption)) as F.
    destruct (find_field fn fts) as [[fi t]|] eqn:Ft; [|now apply HErr].
    destruct F as (x & F & Wx). rewrite F in E. destruct (f_state fi) eqn:Fs; [|now apply HSkip].
    apply (HDown _ _ _ _ _ _ _ (SField fn) path t x).
    + cbn. rewrite V. cbn. unfold field_child. now rewrite Ft, F.
    + cbn. now rewrite F.
    + reflexivity.
    + rewrite E. destruct (handle m t path kind key bs x). reflexivity.
  - destruct path as [|i path]; [destruct kind; apply HHere; reflexivity|].
    destruct (nth_error l (N.to_nat i)) as [x|] eqn:F.
    + apply (HDown _ _ _ _ _ _ _ (SItem i) path t x); cbn -[handle].
      * now rewrite F.
      * reflexivity.
      * reflexivity.
      * destruct kind; cbn [handle]; rewrite F; reflexivity.
    + apply HErr. destruct kind; cbn [handle]; rewrite F; reflexivity.
  - destruct path as [|i path]; [destruct kind; apply HHere; reflexivity|].
    destruct (assoc i es) as [x|] eqn:F.
    + apply (HDown _ _ _ _ _ _ _ (SKey i) path t x); cbn -[handle].
      * now rewrite F.
      * reflexivity.
      * reflexivity.
      * destruct kind; cbn [handle]; rewrite F; reflexivity.
    + destruct kind; try (apply HErr; cbn [handle]; rewrite F; reflexivity).
      destruct path; [|apply HErr; cbn [handle]; rewrite F; reflexivity].
      apply (HNew _ _ _ _ _ _ _ k t r es i); try reflexivity; try assumption. cbn [handle]. rewrite F. reflexivity.
Qed.

(** Descending from the outside. *)
Lemma handle_child m t v s t' x p kind key bs : ty_ok t = true -> state_ty t = true -> wt t v = true ->
  child t v s = Some (t', x) -> state_step v s = true ->
  handle m t (seg v s ++ p) kind key bs v = (let '(x', o) := handle m t' p kind key bs x in (put_child v s x', o)).
Proof.
  intros O St W E S. destruct s as [fn|i|k|]; destruct t as [kk| | | |t|t|n t|ts|kt vt|t|si fts|st vs|t|kt t]; try discriminate E;
    destruct v as [| | | | | | | | |y|c r0 fs|tag c r0 fs|r0 l|r0 es]; try discriminate E; cbn [child seg app] in *.
  - rewrite wt_struct_eq in W. bprop. destruct (field_child_wt _ _ _ _ _ ltac:(eassumption) E) as (fi & F1 & F2 & Wx).
    cbn [state_ty] in St. rewrite St in *. destruct r0 as [r0|]; [|discriminate].
    rewrite handle_struct. unfold handle_field. rewrite find_hfields, F1, F2. cbn [state_step] in S. rewrite F2 in S. rewrite S.
    destruct (handle m t' p kind key bs x). reflexivity.
  - destruct (wt_enum_inv _ _ _ _ _ _ W) as (c' & fts & V & -> & Wf & Hst & Hb). rewrite V in E. cbn [snd] in E.
    destruct (field_child_wt _ _ _ _ _ Wf E) as (fi & F1 & F2 & Wx). cbn [state_ty] in St. subst st.
    destruct r0 as [r0|]; [|discriminate].
    rewrite handle_enum, V, N.eqb_refl. unfold handle_field. cbn [snd]. rewrite find_hfields, F1, F2. cbn [state_step] in S. rewrite F2 in S. rewrite S.
    destruct (handle m t' p kind key bs x). reflexivity.
  - destruct (nth_error l (N.to_nat i)) as [y|] eqn:F; [|discriminate E]. inversion E; subst. destruct kind; cbn [handle]; rewrite F; reflexivity.
  - destruct (assoc k es) as [y|] eqn:F; [|discriminate E]. inversion E; subst. destruct kind; cbn [handle]; rewrite F; reflexivity.
  - inversion E; subst. reflexivity.
Qed.

(** ** Where a node hangs *)

Lemma below_parent r : rt_below (Some r) = true -> exists p, rt_parent r = Ok p.
Proof. destruct r as [lg [|p n]]; [discriminate|]. intros _. exists (mkRt lg p). reflexivity. Qed.

Lemma base_ok t v : state_ty t = true -> prim_under t = false -> wt t v = true -> exists r, base v = Ok r.
Proof.
  revert v. induction t as [k| | | |t IH|t IH|n t IH|ts IH|k t IHk IHt|t IH|si fs IH|st vs IH|t IH|k t IH] using ty_ind';
    intros v S P W; try discriminate S; try discriminate P; destruct v; try discriminate W; try (eexists; reflexivity).
  - cbn in W, S, P |- *. now apply IH.
  - rewrite wt_struct_eq in W. bprop. cbn [state_ty] in S. rewrite S in *. destruct r; [eexists; reflexivity|discriminate].
  - destruct (wt_enum_inv _ _ _ _ _ _ W) as (c' & fts & V & -> & Wf & Hst & Hb). cbn [state_ty] in S. subst st.
    destruct r; [|discriminate]. now apply below_parent.
Qed.

Lemma coh_base t v r : state_ty t = true -> prim_under t = false -> wt t v = true -> coh r v -> base v = Ok r.
Proof.
  revert v. induction t as [k| | | |t IH|t IH|n t IH|ts IH|k t IHk IHt|t IH|si fs IH|st vs IH|t IH|k t IH] using ty_ind';
    intros v S P W C; try discriminate S; try discriminate P; destruct v; try discriminate W; cbn [base val_rt].
  - cbn in W, S, P. apply (proj1 (coh_box _ _)) in C. now apply IH.
  - rewrite wt_struct_eq in W. bprop. cbn [state_ty] in S. rewrite S in *. destruct r0; [|discriminate]. apply coh_struct in C. now destruct C as [-> _].
  - destruct (wt_enum_inv _ _ _ _ _ _ W) as (c' & fts & V & -> & Wf & Hst & Hb). cbn [state_ty] in S. subst st.
    destruct r0; [|discriminate]. apply coh_enum in C. destruct C as [-> _]. now destruct r.
  - apply coh_list in C. now destruct C as [-> _].
  - apply coh_map in C. now destruct C as [-> _].
Qed.

Lemma base_dflt t r : ty_ok t = true -> state_ty t = true -> prim_under t = false -> base (dflt t r) = Ok r.
Proof. intros O S P. apply (coh_base t); auto using wt_dflt. now apply set_dflt. Qed.

Lemma base_merge m t v bs : ty_ok t = true -> state_ty t = true -> prim_under t = false -> wt t v = true ->
  base (fst (merge m t v bs)) = base v.
Proof.
  revert v. induction t as [k| | | |t IH|t IH|n t IH|ts IH|k t IHk IHt|t IH|si fs IH|st vs IH|t IH|k t IH] using ty_ind';
    intros v O S P W; try discriminate S; try discriminate P; destruct v; try discriminate W.
  - cbn in O, W, S, P. specialize (IH v O S P W). cbn [merge]. destruct (merge m t v bs). exact IH.
  - rewrite merge_struct. destruct (run _ fs0 bs). destruct r; reflexivity.
  - destruct (wt_enum_inv _ _ _ _ _ _ W) as (c' & fts & V & -> & Wf & Hst & Hb). cbn [state_ty] in S. subst st.
    destruct r as [[lg [|p n]]|]; try discriminate.
    rewrite merge_enum. destruct (uv_deserialize m 32 bs) as [[tag' rest]|e| |]; cbn [try]; try reflexivity.
    destruct (find_variant vs tag') as [va|] eqn:V'; [|reflexivity].
    destruct (tag =? tag'); cbn [try].
    + destruct (run _ fs rest). reflexivity.
    + cbn [enum_parent bind try]. destruct va as [[tg cc] ts]. cbn [variant_ctor snd]. destruct (run _ _ rest). reflexivity.
  - cbn [merge]. destruct (run _ l bs). reflexivity.
  - cbn [merge]. destruct (run _ es bs). reflexivity.
Qed.

Lemma handle_update_eq m t bs v : state_ty t = true -> is_box t = false -> wt t v = true ->
  handle_update m t bs v =
  if prim t then match deserialize m t bs with
                 | Ok (x, _) => (x, Ok tt)
                 | Err e => (v, Err e) | Panic => (v, Panic) | NoFuel => (v, NoFuel)
                 end
  else match base v with
       | Ok r => ok_unit (merge m t (dflt t r) bs)
       | Err e => (v, Err e) | Panic => (v, Panic) | NoFuel => (v, NoFuel)
       end.
Proof.
  intros S B W. destruct t as [k| | | |t|t|n t|ts|kt vt|t|si fts|st vs|t|k t]; try discriminate S; try discriminate B;
    destruct v as [k' z|b| | | | | | | |y|c r fs|tag c r fs|r l|r es]; try discriminate W; try reflexivity.
  cbn [state_ty] in S. subst st. destruct (wt_enum_inv _ _ _ _ _ _ W) as (c' & fts & V & -> & Wf & Hst & Hb).
  destruct r; [reflexivity|discriminate].
Qed.

Lemma base_put v s x : s <> SBox -> base (put_child v s x) = base v.
Proof. destruct s, v; try reflexivity; congruence. Qed.

(** ** Replay keeps values well formed *)

Definition oh (m : mode) (bs : bytes) (o : res unit) : Prop :=
  match o with Ok _ | Err _ => True | Panic => cause m bs | NoFuel => False end.

Lemma ow_oh m tw bs r : ow m tw bs r -> oh m bs (do _ <- r; Ok tt).
Proof. destruct tw, r; cbn; auto. Qed.

Lemma removelast_forallb {A} (f : A -> bool) l : forallb f l = true -> forallb f (removelast l) = true.
Proof.
  intros H. destruct l as [|a l _] using rev_ind; [reflexivity|]. rewrite removelast_last. rewrite forallb_app in H. now bprop.
Qed.

Lemma in_removelast {A} (x : A) l : In x (removelast l) -> In x l.
Proof. destruct l as [|a l _] using rev_ind; [auto|]. rewrite removelast_last. intros H. apply in_or_app. now left. Qed.

Lemma swap_remove_in {A} (l : list A) i x : In x (swap_remove_at l i) -> In x l.
Proof.
  unfold swap_remove_at. destruct l as [|z l _] using rev_ind; [auto|]. rewrite rev_app_distr. cbn [rev app].
  destruct (Nat.eqb _ _); [apply in_removelast|]. intros H. apply in_app_or in H. destruct H as [H|[<-|H]].
  - rewrite <- (firstn_skipn i (l ++ [z])). apply in_or_app. now left.
  - apply in_or_app. right. now left.
  - apply in_removelast. rewrite <- (firstn_skipn (S i) (removelast (l ++ [z]))). apply in_or_app. now right.
Qed.

Lemma wt_map_in k t r es : wt (TMap k t) (VMap r es) = true <->
  (forall i x, In (i, x) es -> i < 2 ^ 32 /\ wt t x = true) /\ NoDup (map fst es).
Proof.
  cbn [wt]. rewrite andb_true_iff, forallb_forall. split.
  - intros [H D]. split; [|].
    + intros i x I. specialize (H _ I). cbn in H. bprop. split; [lia|assumption].
    + clear H. revert D. induction (map fst es) as [|a l IH]; intros D; [constructor|]. cbn in D. bprop. constructor; [|now apply IH].
      intros I. apply negb_true_iff in H. assert (X : existsb (N.eqb a) l = true) by (apply existsb_exists; exists a; split; [exact I|apply N.eqb_refl]). congruence.
  - intros [H D]. split.
    + intros [i x] I. destruct (H _ _ I) as [L Wx]. cbn [fst snd]. rewrite Wx. apply andb_true_iff. split; [lia|reflexivity].
    + clear H. induction D as [|a l Na D IH]; [reflexivity|]. cbn. fold (nodupb l). rewrite IH, andb_true_r. apply negb_true_iff.
      destruct (existsb (N.eqb a) l) eqn:X; [|reflexivity]. apply existsb_exists in X. destruct X as (b & I & E). apply N.eqb_eq in E. now subst.
Qed.

Lemma map_removelast {A B} (f : A -> B) l : map f (removelast l) = removelast (map f l).
Proof. destruct l as [|a l _] using rev_ind; [reflexivity|]. rewrite map_app. cbn. now rewrite !removelast_last. Qed.
Lemma map_swap_remove {A B} (f : A -> B) l i : map f (swap_remove_at l i) = swap_remove_at (map f l) i.
Proof.
  unfold swap_remove_at. rewrite <- map_rev. destruct (rev l) as [|z r]; [reflexivity|]. cbn [map]. rewrite map_length.
  destruct (Nat.eqb _ _); [apply map_removelast|]. rewrite map_app. cbn [map]. rewrite <- map_removelast, firstn_map, skipn_map. reflexivity.
Qed.

(** [swap_remove] as a permutation. *)
Lemma swap_remove_spec {A} (l : list A) i a : nth_error l i = Some a -> Permutation.Permutation l (a :: swap_remove_at l i).
Proof.
  intros E. unfold swap_remove_at. destruct l as [|z l _] using rev_ind; [destruct i; discriminate E|].
  rewrite rev_app_distr. cbn [rev app]. rewrite app_length. cbn [length]. rewrite removelast_last.
  destruct (Nat.eqb (S i) (length l + 1)) eqn:L.
  - apply Nat.eqb_eq in L. rewrite nth_error_app2 in E by lia. replace (i - length l)%nat with 0%nat in E by lia. cbn in E.
    inversion E; subst. symmetry. apply Permutation.Permutation_cons_append.
  - apply Nat.eqb_neq in L. assert (Hi : (i < length l)%nat).
    { assert (nth_error (l ++ [z]) i <> None) by congruence. apply nth_error_Some in H. rewrite app_length in H. cbn in H. lia. }
    rewrite nth_error_app1 in E by lia. rewrite firstn_app. replace (i - length l)%nat with 0%nat by lia. cbn [firstn]. rewrite app_nil_r.
    destruct (nth_error_split _ _ E) as (l1 & l2 & -> & <-).
    rewrite firstn_app, Nat.sub_diag, firstn_all. cbn [firstn]. rewrite app_nil_r.
    replace (skipn (S (length l1)) (l1 ++ a :: l2)) with l2.
    2: { rewrite skipn_app. rewrite skipn_all2 by lia. replace (S (length l1) - length l1)%nat with 1%nat by lia. reflexivity. }
    rewrite <- app_assoc. cbn [app]. symmetry.
    etransitivity; [|apply Permutation.Permutation_middle]. constructor.
    apply Permutation.Permutation_app_head. apply Permutation.Permutation_cons_append.
Qed.

Lemma key_pos_assoc {A} k (es : list (N * A)) :
  match key_pos k es with
  | Some i => exists x, nth_error es i = Some (k, x) /\ assoc k es = Some x
  | None => assoc k es = None
  end.
Proof.
  induction es as [|[k' x] es IH]; [reflexivity|]. cbn [key_pos assoc]. destruct (k =? k') eqn:E.
  - apply N.eqb_eq in E. subst. exists x. split; reflexivity.
  - destruct (key_pos k es); exact IH.
Qed.

Lemma im_remove_wt kk t r es k : wt (TMap kk t) (VMap r es) = true -> wt (TMap kk t) (VMap r (im_remove k es)) = true.
Proof.
  rewrite !wt_map_in. intros [H D]. unfold im_remove. pose proof (key_pos_assoc k es) as K. destruct (key_pos k es) as [i|]; [|split; assumption].
  destruct K as (x & K & _). apply swap_remove_spec in K. split.
  - intros j y I. apply H. eapply Permutation.Permutation_in; [symmetry; exact K|]. now right.
  - eapply Permutation.Permutation_NoDup in D; [|apply Permutation.Permutation_map, K]. cbn in D. now inversion D.
Qed.

Lemma set_items_prefix r a b i : set_items r i (a ++ b) = a ++ b -> set_items r i a = a.
Proof.
  intros H. rewrite set_items_app in H. apply (f_equal (firstn (length a))) in H.
  assert (L : length (set_items r i a) = length a).
  { clear. revert i. induction a; intros; cbn; [reflexivity|now f_equal]. }
  rewrite firstn_app, L, Nat.sub_diag in H. cbn [firstn] in H. rewrite app_nil_r in H.
  rewrite <- L in H at 1. rewrite firstn_all in H. rewrite H. rewrite firstn_app, Nat.sub_diag. cbn [firstn]. rewrite app_nil_r. apply firstn_all.
Qed.
Lemma set_items_removelast r l : set_items r 0 l = l -> set_items r 0 (removelast l) = removelast l.
Proof. destruct l as [|a l _] using rev_ind; [auto|]. rewrite removelast_last. apply set_items_prefix. Qed.

Lemma set_entries_forall r es : set_entries r es = es <-> Forall (fun e => coh (nested r (fst e)) (snd e)) es.
Proof.
  induction es as [|[k x] es IH]; [split; [constructor|reflexivity]|]. cbn. split.
  - intros H. injection H as X Y. constructor; [exact X|now apply IH].
  - intros H. inversion H; subst. cbn in *. unfold coh in H2. rewrite H2. f_equal. now apply IH.
Qed.
Lemma set_entries_remove r es k : set_entries r es = es -> set_entries r (im_remove k es) = im_remove k es.
Proof.
  rewrite !set_entries_forall. intros H. unfold im_remove. destruct (key_pos k es); [|exact H].
  apply Forall_forall. intros e I. apply swap_remove_in in I. rewrite Forall_forall in H. now apply H.
Qed.

(** One entry: stays well-typed, never gets stuck, panics only because of its payload. *)
Lemma handle_here_good m t kind key bs v : ty_ok t = true -> state_ty t = true -> is_box t = false -> wt t v = true -> bytes_ok bs ->
  let '(v', o) := handle_here m t kind key bs v in wt t v' = true /\ oh m bs o.
Proof.
  intros O S B W Hb.
  assert (U : let '(v', o) := handle_update m t bs v in wt t v' = true /\ oh m bs o).
  { rewrite (handle_update_eq m t bs v S B W). destruct (prim t) eqn:P.
    - unfold deserialize. pose proof (merge_good m t O (dflt t rt_default) bs (wt_dflt t O _) Hb) as G.
      destruct (merge m t (dflt t rt_default) bs) as [x [rest|e| |]]; cbn [bind]; destruct G as [G1 G2]; split; auto; try exact I;
        destruct (wty t); exact G2.
    - destruct (base_ok t v S) as (r & E); [now destruct t|assumption|]. rewrite E.
      pose proof (merge_good m t O (dflt t r) bs (wt_dflt t O _) Hb) as G.
      destruct (merge m t (dflt t r) bs) as [x o]. destruct G as [G1 G2]. cbn [ok_unit]. split; [exact G1|]. now apply (ow_oh m (wty t)). }
  assert (E : wt t v = true /\ oh m bs (Err InvalidData)) by (split; [exact W|exact I]).
  destruct kind; cbn [handle_here]; [exact U| | |]; destruct t as [k| | | |t|t|n t|ts|kt vt|t|si fts|st vs|t|k t]; try exact E;
    destruct v as [k' z|b| | | | | | | |y|c r fs|tag c r fs|r l|r es]; try exact E.
  - cbn [ty_ok] in O. bprop. pose proof (merge_good m t ltac:(assumption) (dflt t (nested r (lenN l))) bs (wt_dflt t ltac:(assumption) _) Hb) as G.
    destruct (merge m t _ bs) as [x o]. destruct G as [G1 G2]. destruct o; (split; [|try exact I; try (destruct (wty t); exact G2)]); try exact W.
    cbn [wt] in *. rewrite forallb_app, W. cbn. now rewrite G1.
  - destruct l as [|a l]; [exact E|]. split; [|exact I]. cbn [wt] in *. now apply removelast_forallb.
  - destruct key as [i|]; [|exact E]. destruct (assoc i es); [|exact E]. split; [|exact I]. now apply im_remove_wt.
Qed.

Lemma seg_bound v s p q : p = seg v s ++ q -> Forall (fun n => n < 2 ^ 32) p -> Forall (fun n => n < 2 ^ 32) q.
Proof. intros -> H. apply Forall_app in H. now destruct H. Qed.

Lemma handle_good m t : ty_ok t = true -> state_ty t = true -> forall path kind key bs v,
  wt t v = true -> bytes_ok bs -> Forall (fun n => n < 2 ^ 32) path ->
  let '(v', o) := handle m t path kind key bs v in wt t v' = true /\ oh m bs o.
Proof.
  induction t as [t IH] using child_ind. intros O S path kind key bs v W Hb Hp.
  destruct (handle_cases m t path kind key bs v O S W) as [s p t' x C Ss -> E|B -> E|E|E|kk t' r es k -> -> -> -> A E]; rewrite E.
  - destruct (child_wt t v s t' x O W C) as (O' & W' & S'). specialize (S' S Ss).
    pose proof (IH _ _ _ _ C O' S' p kind key bs x W' Hb (seg_bound _ _ _ _ eq_refl Hp)) as G.
    destruct (handle m t' p kind key bs x) as [x' o]. destruct G as [G1 G2]. split; [|exact G2]. now apply (put_child_wt t v s t' x).
  - now apply handle_here_good.
  - split; [exact W|exact I].
  - split; [exact W|exact I].
  - cbn [ty_ok] in O. bprop. pose proof (merge_good m t' ltac:(assumption) (dflt t' (nested r k)) bs (wt_dflt t' ltac:(assumption) _) Hb) as G.
    destruct (merge m t' _ bs) as [x o]. destruct G as [G1 G2]. destruct o; (split; [|try exact I; try (destruct (wty t'); exact G2)]); try exact W.
    inversion Hp; subst. now apply (im_insert_wt kk t' r).
Qed.

Lemma handle_here_coh m t kind key bs v r : ty_ok t = true -> state_ty t = true -> is_box t = false -> wt t v = true -> bytes_ok bs ->
  coh r v -> coh r (fst (handle_here m t kind key bs v)).
Proof.
  intros O S B W Hb C.
  assert (U : coh r (fst (handle_update m t bs v))).
  { rewrite (handle_update_eq m t bs v S B W). destruct (prim t) eqn:P.
    - unfold deserialize. pose proof (merge_coh m t O S r (dflt t rt_default) bs (wt_dflt t O _) Hb) as G.
      destruct (merge m t (dflt t rt_default) bs) as [x [rest|e| |]]; cbn [bind]; try exact C. apply G. destruct t; try discriminate P; reflexivity.
    - rewrite (coh_base t v r S) by (try assumption; now destruct t).
      pose proof (merge_coh m t O S r (dflt t r) bs (wt_dflt t O _) Hb (set_dflt t O S r)) as G.
      destruct (merge m t (dflt t r) bs) as [x o]. exact G. }
  destruct kind; cbn [handle_here]; [exact U| | |]; destruct t as [k| | | |t|t|n t|ts|kt vt|t|si fts|st vs|t|k t]; try exact C;
    destruct v as [k' z|b| | | | | | | |y|c r0 fs|tag c r0 fs|r0 l|r0 es]; try exact C.
  - cbn [ty_ok] in O. bprop. apply coh_list in C. destruct C as [-> C].
    pose proof (merge_coh m t ltac:(assumption) ltac:(assumption) (nested r (lenN l)) (dflt t (nested r (lenN l))) bs (wt_dflt t ltac:(assumption) _) Hb (set_dflt t ltac:(assumption) ltac:(assumption) _)) as G.
    destruct (merge m t _ bs) as [x o]. destruct o; cbn [fst]; apply coh_list; (split; [reflexivity|]); try exact C. now apply set_items_snoc.
  - destruct l as [|a l]; [exact C|]. apply coh_list in C. destruct C as [-> C]. apply coh_list. split; [reflexivity|]. now apply set_items_removelast.
  - destruct key as [i|]; [|exact C]. destruct (assoc i es); [|exact C]. apply coh_map in C. destruct C as [-> C]. apply coh_map. split; [reflexivity|].
    now apply set_entries_remove.
Qed.

Lemma handle_coh m t : ty_ok t = true -> state_ty t = true -> forall path kind key bs v r,
  wt t v = true -> bytes_ok bs -> coh r v -> coh r (fst (handle m t path kind key bs v)).
Proof.
  induction t as [t IH] using child_ind. intros O S path kind key bs v r W Hb Hc.
  destruct (handle_cases m t path kind key bs v O S W) as [s p t' x C Ss -> E|B -> E|E|E|kk t' r0 es k -> -> -> -> A E]; rewrite E.
  - destruct (child_wt t v s t' x O W C) as (O' & W' & S'). specialize (S' S Ss).
    pose proof (IH _ _ _ _ C O' S' p kind key bs x _ W' Hb (coh_child _ _ _ _ _ _ O W C Ss Hc)) as G.
    destruct (handle m t' p kind key bs x) as [x' o]. cbn [fst] in *. now apply (coh_put t v s t' x).
  - now apply handle_here_coh.
  - exact Hc.
  - exact Hc.
  - cbn [ty_ok] in O. bprop. apply coh_map in Hc. destruct Hc as [-> Hc].
    pose proof (merge_coh m t' ltac:(assumption) ltac:(assumption) (nested r k) (dflt t' (nested r k)) bs (wt_dflt t' ltac:(assumption) _) Hb (set_dflt t' ltac:(assumption) ltac:(assumption) _)) as G.
    destruct (merge m t' _ bs) as [x o]. destruct o; cbn [fst]; apply coh_map; (split; [reflexivity|]); try exact Hc. now apply set_entries_im.
Qed.

(** Where the node hangs does not change. *)
Lemma handle_base m t : ty_ok t = true -> state_ty t = true -> prim_under t = false -> forall path kind key bs v,
  wt t v = true -> base (fst (handle m t path kind key bs v)) = base v.
Proof.
  induction t as [t IH] using child_ind. intros O S P path kind key bs v W.
  destruct (handle_cases m t path kind key bs v O S W) as [s p t' x C Ss -> E|B -> E|E|E|kk t' r0 es k -> -> -> -> A E]; rewrite E.
  - destruct (child_wt t v s t' x O W C) as (O' & W' & S'). specialize (S' S Ss).
    destruct s as [fn|i|k|].
    1-3: destruct (handle m t' p kind key bs x); apply base_put; discriminate.
    destruct t; try discriminate C. destruct v; try discriminate C. cbn in C. inversion C; subst.
    pose proof (IH (VBox x) SBox t' x eq_refl O' S' P p kind key bs x W') as G. destruct (handle m t' p kind key bs x). exact G.
  - assert (P' : prim t = false) by now destruct t.
    assert (U : base (fst (handle_update m t bs v)) = base v).
    { rewrite (handle_update_eq m t bs v S B W), P'. destruct (base_ok t v S P W) as (r & Er). rewrite Er.
      pose proof (base_merge m t (dflt t r) bs O S P (wt_dflt t O r)) as G. destruct (merge m t (dflt t r) bs) as [x o]. cbn [ok_unit fst] in *.
      rewrite G. now apply base_dflt. }
    destruct kind; cbn [handle_here]; [exact U| | |]; destruct t as [k| | | |t|t|n t|ts|kt vt|t|si fts|st vs|t|k t]; try reflexivity;
      destruct v as [k' z|b| | | | | | | |y|c r0 fs|tag c r0 fs|r0 l|r0 es]; try reflexivity.
    + destruct (merge m t _ bs) as [x [rest|e| |]]; reflexivity.
    + destruct l; reflexivity.
    + destruct key as [i|]; [|reflexivity]. destruct (assoc i es); reflexivity.
  - reflexivity.
  - reflexivity.
  - destruct (merge m t' _ bs) as [x [rest|e| |]]; reflexivity.
Qed.

(** ** Entries one after another *)

Lemma handle_all_app m t a b v : handle_all m t (a ++ b) v =
  match handle_all m t a v with (v', Ok _) => handle_all m t b v' | failed => failed end.
Proof.
  revert v. induction a as [|e a IH]; intros v; [reflexivity|]. cbn [app handle_all].
  destruct (handle_entry m t e v) as [v' [u|x| |]]; auto.
Qed.

Lemma tEntry_suf m : msuf (wty tEntry) (merge m tEntry).
Proof. apply merge_suf. Qed.

Lemma read_entry_consuming m bs e rest : read_entry m bs = Ok (e, rest) -> (length rest < length bs)%nat.
Proof.
  unfold read_entry. destruct (de_nested _ _ _ _ bs) as [[v r]|x| |] eqn:E; cbn [bind]; try discriminate.
  destruct (entry_of_val v); [|discriminate]. intros H. inversion H; subst. exact (de_nested_consuming _ _ _ _ _ _ _ (tEntry_suf m) E).
Qed.
Lemma replay_step_consuming m t : consuming (replay_step m t).
Proof.
  intros v bs v' rest E. unfold replay_step in E. apply try_ok in E. destruct E as ([e r] & E1 & E2).
  destruct (handle_entry m t e v) as [v1 [u|x| |]]; cbn [bind] in E2; try congruence. inversion E2; subst. now apply read_entry_consuming in E1.
Qed.

Lemma entry_wire_nonempty e : entry_wire e <> [].
Proof. unfold entry_wire. intros H. apply app_eq_nil' in H. destruct H as [H _]. now apply leb128_nonempty in H. Qed.

(** A stream of written entries, followed by something. *)
Lemma replay_run m t es : Forall (fun e => entry_ok e /\ lenN (enc (entry_val e)) < 2 ^ 64) es -> forall rest v,
  run (replay_step m t) v (concat (map entry_wire es) ++ rest) =
  match handle_all m t es v with
  | (v', Ok _) => run (replay_step m t) v' rest
  | (v', Err x) => (v', Err x) | (v', Panic) => (v', Panic) | (v', NoFuel) => (v', NoFuel)
  end.
Proof.
  induction 1 as [|e es [O L] _ IH]; intros rest v; [reflexivity|]. cbn [map concat handle_all]. rewrite <- app_assoc.
  rewrite run_step; [|apply replay_step_consuming|pose proof (entry_wire_nonempty e) as N; destruct (entry_wire e); [congruence|discriminate]].
  unfold replay_step at 1. rewrite (read_entry_wire m e _ O L). cbn [try].
  destruct (handle_entry m t e v) as [v' [u|x| |]]; cbn [bind try]; try reflexivity. apply IH.
Qed.
