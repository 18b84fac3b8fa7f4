(** C90: JSON output. *)
From Verif Require Import Base Varint WireFmt Utf8 Types Ser Spec De Log State ValInd VarintProofs WireProofs SerProofs TypeProofs DeProofs RoundTrip LogProofs TreeProofs Examples Json.

(** The loops of [json_of]. *)
Section Loops.
  Context (a : addr) (h : store).
  Fixpoint json_items (i : nat) (l : list val) : option (list json) :=
    match l with
    | [] => Some []
    | x :: l' => match json_of (i :: a) h x, json_items (S i) l' with Some j, Some js => Some (j :: js) | _, _ => None end
    end.
  Fixpoint json_fields (i : nat) (l : list (finfo * val)) : option (list (jname * json)) :=
    match l with
    | [] => Some []
    | (fi, x) :: l' => match json_of (i :: a) h x, json_fields (S i) l' with Some j, Some js => Some ((JField (f_tag fi), j) :: js) | _, _ => None end
    end.
  Fixpoint json_hash (i : nat) (l : list (val * val)) : option (list (jname * json)) :=
    match l with
    | [] => Some []
    | (k, x) :: l' =>
        match json_key k, json_of (S i :: a) h x, json_hash (S (S i)) l' with
        | Some n, Some j, Some js => Some ((n, j) :: js)
        | _, _, _ => None
        end
    end.
End Loops.
Definition bfields (fs : list (finfo * val)) : list (finfo * val) := map (fun p : finfo * val => let '(fi, x) := p in (fi, bare x)) fs.

Lemma js_vec a h l : json_of a h (VVec l) = match json_items a h 0 l with Some js => Some (JArr js) | None => None end. Proof. reflexivity. Qed.
Lemma js_struct a h c r fs : json_of a h (VStruct c r fs) = match json_fields a h 0 fs with Some js => Some (JObj (js ++ json_own c (h a) r)) | None => None end.
Proof. reflexivity. Qed.
Lemma js_enum a h tag c r fs : json_of a h (VEnum tag c r fs) =
  match fs, c, r with
  | [], false, None => Some (JVar tag)
  | _, _, _ => match json_fields a h 0 fs with Some js => Some (JObj [(JVariantName tag, JObj (js ++ json_own c (h a) r))]) | None => None end
  end.
Proof. reflexivity. Qed.
Lemma js_hash a h l : json_of a h (VHash l) = match json_hash a h 0 l with Some js => Some (JObj js) | None => None end. Proof. reflexivity. Qed.
Lemma js_list a h r l : json_of a h (VList r l) = match json_items a h 0 l with Some js => Some (JObj [(JItems, JArr js); json_cache (h a); json_rt]) | None => None end.
Proof. reflexivity. Qed.

(** ** Runtimes do not show *)

Lemma key_bare v : json_key (bare v) = json_key v.
Proof. induction v using val_slots_ind; [destruct v; try discriminate; reflexivity|exact IHv|]. destruct v as [| | | |[x|]|l|l|l|l| |c r fs|tag c r fs|r l|r es]; try reflexivity; try discriminate.
  cbn [bare json_key]. destruct c, r, fs; reflexivity. Qed.
Definition JB (v : val) : Prop := forall a h, json_of a h (bare v) = json_of a h v.
Lemma items_bare l : Forall (fun s => JB (snd s)) (map islot l) -> forall a h i, json_items a h i (map bare l) = json_items a h i l.
Proof. induction l as [|x l IH]; intros F a h i; [reflexivity|]. inversion F as [|? ? Hx F' E1]; subst. cbn [map json_items]. specialize (Hx (i :: a) h). cbn [snd islot fslot] in Hx. rewrite Hx, IH by exact F'. reflexivity. Qed.
Lemma fields_bare l : Forall (fun s => JB (snd s)) (map fslot l) -> forall a h i, json_fields a h i (bfields l) = json_fields a h i l.
Proof. induction l as [|[fi x] l IH]; intros F a h i; [reflexivity|]. inversion F as [|? ? Hx F' E1]; subst. cbn [map json_fields bfields]. specialize (Hx (i :: a) h). cbn [snd islot fslot] in Hx. rewrite Hx. fold (bfields l). rewrite IH by exact F'. reflexivity. Qed.
Lemma hash_bare l : Forall (fun s => JB (snd s)) (flat_map hslots l) -> forall a h i,
  json_hash a h i (map (fun e : val * val => let '(k, x) := e in (bare k, bare x)) l) = json_hash a h i l.
Proof.
  induction l as [|[k x] l IH]; intros F a h i; [reflexivity|]. cbn [flat_map hslots app] in F. inversion F as [|? ? Hk F1 E1]; subst. inversion F1 as [|? ? Hx F2 E2]; subst.
  cbn [map json_hash]. specialize (Hx (S i :: a) h). cbn [snd islot fslot] in Hx. rewrite key_bare, Hx, IH by exact F2. reflexivity.
Qed.
Lemma own_bare c n r : json_own c n (bare_rt r) = json_own c n r. Proof. now destruct r. Qed.
Lemma json_bare v : JB v.
Proof.
  induction v using val_slots_ind; [intros a h; destruct v; try discriminate; reflexivity|exact IHv|]. intros a h.
  destruct v as [| | | |[x|]|l|l|l|l| |c r fs|tag c r fs|r l|r es]; try discriminate; cbn [bare slots] in *; try reflexivity.
  - inversion H0 as [|? ? Hx _ E]; subst. apply Hx.
  - change (json_of a h (VVec (map bare l)) = json_of a h (VVec l)). rewrite !js_vec, items_bare by exact H0. reflexivity.
  - change (json_of a h (VVec (map bare l)) = json_of a h (VVec l)). rewrite !js_vec, items_bare by exact H0. reflexivity.
  - change (json_of a h (VVec (map bare l)) = json_of a h (VVec l)). rewrite !js_vec, items_bare by exact H0. reflexivity.
  - rewrite !js_hash, hash_bare by exact H0. reflexivity.
  - fold (bfields fs). rewrite !js_struct, fields_bare, own_bare by exact H0. reflexivity.
  - fold (bfields fs). rewrite !js_enum, fields_bare, own_bare by exact H0. destruct fs as [|[fi x] fs]; [|reflexivity]. destruct c, r; reflexivity.
  - rewrite !js_list, items_bare by exact H0. reflexivity.
Qed.

(** ** What JSON tells *)

Lemma key_tells k : keyable k = true -> forall v v' n, wt k v = true -> wt k v' = true -> json_key v = Some n -> json_key v' = Some n -> bare v = bare v'.
Proof.
  induction k using ty_ind'; intros Kb v v' nm W W' E E'; try discriminate Kb; destruct v; try discriminate W; destruct v'; try discriminate W'; cbn [json_key] in *.
  - cbn [wt] in W, W'. apply andb_prop in W. apply andb_prop in W'. destruct W as [W _], W' as [W' _]. apply ikind_eqb_eq in W. apply ikind_eqb_eq in W'. congruence.
  - congruence.
  - cbn [bare]. f_equal. apply (IHk Kb v v' nm); assumption.
  - destruct c; [discriminate|]. destruct r; [discriminate|]. destruct fs; [|discriminate]. destruct c0; [discriminate|]. destruct r0; [discriminate|]. destruct fs0; [|discriminate].
    congruence.
Qed.

Definition JT (t : ty) : Prop := legible t = true -> forall v v' a h a' h' j, wt t v = true -> wt t v' = true ->
  json_of a h v = Some j -> json_of a' h' v' = Some j -> bare v = bare v'.
Lemma not_null t : nullable t = false -> forall v a h, wt t v = true -> json_of a h v <> Some JNull.
Proof.
  induction t using ty_ind'; intros Nb v a h W E; try discriminate Nb; destruct v; try discriminate W; cbn [json_of] in E; try discriminate E.
  - change (json_of a h (VVec l) = Some JNull) in E. rewrite js_vec in E. destruct (json_items _ _ _ _); discriminate E.
  - change (json_of a h (VVec l) = Some JNull) in E. rewrite js_vec in E. destruct (json_items _ _ _ _); discriminate E.
  - change (json_of a h (VVec l) = Some JNull) in E. rewrite js_vec in E. destruct (json_items _ _ _ _); discriminate E.
  - change (json_of a h (VHash l) = Some JNull) in E. rewrite js_hash in E. destruct (json_hash _ _ _ _); discriminate E.
  - now apply (IHt Nb v a h).
  - change (json_of a h (VStruct c r fs0) = Some JNull) in E. rewrite js_struct in E. destruct (json_fields _ _ _ _); discriminate E.
  - change (json_of a h (VEnum tag c r fs) = Some JNull) in E. rewrite js_enum in E. destruct fs as [|f fs], c, r; try discriminate E; destruct (json_fields _ _ _ _); discriminate E.
  - change (json_of a h (VList r l) = Some JNull) in E. rewrite js_list in E. destruct (json_items _ _ _ _); discriminate E.
Qed.
Lemma items_tell t : JT t -> legible t = true -> forall l l' a h a' h' i i' js, forallb (wt t) l = true -> forallb (wt t) l' = true ->
  json_items a h i l = Some js -> json_items a' h' i' l' = Some js -> map bare l = map bare l'.
Proof.
  intros T L. induction l as [|x l IH]; intros [|x' l'] a h a' h' i i' js W W' E E'; cbn [json_items forallb] in *.
  - reflexivity.
  - injection E as <-. destruct (json_of _ _ x'); [destruct (json_items _ _ _ l')|]; discriminate E'.
  - injection E' as <-. destruct (json_of _ _ x); [destruct (json_items _ _ _ l)|]; discriminate E.
  - apply andb_prop in W. destruct W as [Wx W]. apply andb_prop in W'. destruct W' as [Wx' W'].
    destruct (json_of (i :: a) h x) as [j|] eqn:J; [|discriminate E]. destruct (json_items a h (S i) l) as [k|] eqn:I; [|discriminate E]. injection E as <-.
    destruct (json_of (i' :: a') h' x') as [j'|] eqn:J'; [|discriminate E']. destruct (json_items a' h' (S i') l') as [k'|] eqn:I'; [|discriminate E']. injection E' as -> ->.
    cbn [map]. f_equal; [exact (T L _ _ _ _ _ _ _ Wx Wx' J J')|exact (IH _ _ _ _ _ _ _ _ W W' I I')].
Qed.
Lemma tuple_tells ts : Forall JT ts -> forallb legible ts = true -> forall l l' a h a' h' i i' js, wt_list ts l = true -> wt_list ts l' = true ->
  json_items a h i l = Some js -> json_items a' h' i' l' = Some js -> map bare l = map bare l'.
Proof.
  induction 1 as [|t ts T _ IH]; intros L [|x l] [|x' l'] a h a' h' i i' js W W' E E'; try discriminate W; try discriminate W'; [reflexivity|].
  cbn [json_items forallb wt_list] in *. apply andb_prop in L. destruct L as [Lt L].
  apply andb_prop in W. destruct W as [Wx W]. apply andb_prop in W'. destruct W' as [Wx' W'].
  destruct (json_of (i :: a) h x) as [j|] eqn:J; [|discriminate E]. destruct (json_items a h (S i) l) as [k|] eqn:I; [|discriminate E]. injection E as <-.
  destruct (json_of (i' :: a') h' x') as [j'|] eqn:J'; [|discriminate E']. destruct (json_items a' h' (S i') l') as [k'|] eqn:I'; [|discriminate E']. injection E' as -> ->.
  cbn [map]. f_equal; [exact (T Lt _ _ _ _ _ _ _ Wx Wx' J J')|exact (IH L _ _ _ _ _ _ _ _ _ W W' I I')].
Qed.
Definition lfields (fs : list (finfo * ty)) : bool := forallb (fun p : finfo * ty => let '(_, t) := p in legible t) fs.
Lemma fields_tell ts : Forall (fun p => JT (snd p)) ts -> lfields ts = true -> forall l l' a h a' h' i i' js, wt_fields ts l = true -> wt_fields ts l' = true ->
  json_fields a h i l = Some js -> json_fields a' h' i' l' = Some js -> bfields l = bfields l'.
Proof.
  induction 1 as [|[fi t] ts T _ IH]; intros L [|[f1 x] l] [|[f2 x'] l'] a h a' h' i i' js W W' E E'; try discriminate W; try discriminate W'; [reflexivity|].
  unfold lfields in *. cbn [json_fields forallb wt_fields snd] in *. apply andb_prop in L. destruct L as [Lt L].
  apply andb_prop in W. destruct W as [W0 W]. apply andb_prop in W0. destruct W0 as [F1 Wx]. apply andb_prop in W'. destruct W' as [W0 W']. apply andb_prop in W0. destruct W0 as [F2 Wx'].
  apply finfo_eqb_eq in F1. apply finfo_eqb_eq in F2. subst f1 f2.
  destruct (json_of (i :: a) h x) as [j|] eqn:J; [|discriminate E]. destruct (json_fields a h (S i) l) as [k|] eqn:I; [|discriminate E]. injection E as <-.
  destruct (json_of (i' :: a') h' x') as [j'|] eqn:J'; [|discriminate E']. destruct (json_fields a' h' (S i') l') as [k'|] eqn:I'; [|discriminate E']. injection E' as -> ->.
  cbn [map bfields]. f_equal; [f_equal; exact (T Lt _ _ _ _ _ _ _ Wx Wx' J J')|exact (IH L _ _ _ _ _ _ _ _ _ W W' I I')].
Qed.
Lemma fields_length a h l : forall i js, json_fields a h i l = Some js -> length js = length l.
Proof.
  induction l as [|[fi x] l IH]; intros i js E; cbn [json_fields] in E; [now injection E as <-|].
  destruct (json_of (i :: a) h x); [|discriminate E]. destruct (json_fields a h (S i) l) as [k|] eqn:I; [|discriminate E]. injection E as <-. cbn. now rewrite (IH _ _ I).
Qed.
Lemma wt_fields_length ts : forall fs, wt_fields ts fs = true -> length fs = length ts.
Proof. induction ts as [|[fi t] ts IH]; intros [|[fj x] fs] W; try discriminate W; [reflexivity|]. cbn [wt_fields] in W. apply andb_prop in W. cbn. now rewrite (IH fs). Qed.
Lemma app_inj_len {A} (x y : list A) : forall x' y', length x = length x' -> x ++ y = x' ++ y' -> x = x' /\ y = y'.
Proof. induction x as [|z x IH]; intros [|z' x'] y' L E; try discriminate L; [now split|]. injection E as -> E. injection L as L. destruct (IH x' y' L E) as [-> ->]. now split. Qed.
(** Two objects of the same fields. *)
Lemma body_tells ts : Forall (fun p => JT (snd p)) ts -> lfields ts = true -> forall l l' a h a' h' js js' o o', wt_fields ts l = true -> wt_fields ts l' = true ->
  json_fields a h 0 l = Some js -> json_fields a' h' 0 l' = Some js' -> js ++ o = js' ++ o' -> bfields l = bfields l'.
Proof.
  intros F L l l' a h a' h' js js' o o' W W' E E' X. apply app_inj_len in X.
  - destruct X as [<- _]. exact (fields_tell ts F L _ _ _ _ _ _ _ _ _ W W' E E').
  - rewrite (fields_length _ _ _ _ _ E), (fields_length _ _ _ _ _ E'), (wt_fields_length _ _ W), (wt_fields_length _ _ W'). reflexivity.
Qed.
Lemma hash_tells k t : JT t -> keyable k = true -> legible t = true -> forall l l' a h a' h' i i' js,
  forallb (fun e : val * val => wt k (fst e) && wt t (snd e)) l = true -> forallb (fun e : val * val => wt k (fst e) && wt t (snd e)) l' = true ->
  json_hash a h i l = Some js -> json_hash a' h' i' l' = Some js ->
  map (fun e : val * val => let '(k, x) := e in (bare k, bare x)) l = map (fun e : val * val => let '(k, x) := e in (bare k, bare x)) l'.
Proof.
  intros T Kb L. induction l as [|[y x] l IH]; intros [|[y' x'] l'] a h a' h' i i' js W W' E E'; cbn [json_hash forallb fst snd] in *.
  - reflexivity.
  - injection E as <-. destruct (json_key y'); [destruct (json_of _ _ x'); [destruct (json_hash _ _ _ l')|]|]; discriminate E'.
  - injection E' as <-. destruct (json_key y); [destruct (json_of _ _ x); [destruct (json_hash _ _ _ l)|]|]; discriminate E.
  - apply andb_prop in W. destruct W as [W0 W]. apply andb_prop in W0. destruct W0 as [Wy Wx]. apply andb_prop in W'. destruct W' as [W0 W']. apply andb_prop in W0. destruct W0 as [Wy' Wx'].
    destruct (json_key y) as [n|] eqn:N; [|discriminate E]. destruct (json_of (S i :: a) h x) as [j|] eqn:J; [|discriminate E].
    destruct (json_hash a h (S (S i)) l) as [q|] eqn:I; [|discriminate E]. injection E as <-.
    destruct (json_key y') as [n'|] eqn:N'; [|discriminate E']. destruct (json_of (S i' :: a') h' x') as [j'|] eqn:J'; [|discriminate E'].
    destruct (json_hash a' h' (S (S i')) l') as [q'|] eqn:I'; [|discriminate E']. injection E' as -> -> ->.
    cbn [map]. f_equal; [f_equal; [exact (key_tells k Kb _ _ _ Wy Wy' N N')|exact (T L _ _ _ _ _ _ _ Wx Wx' J J')]|exact (IH _ _ _ _ _ _ _ _ W W' I I')].
Qed.
Lemma json_tells t : JT t.
Proof.
  induction t using ty_ind'; intros L v v' a h a' h' j W W' E E'; destruct v; try discriminate W; destruct v'; try discriminate W'.
  - cbn [wt json_of] in *. apply andb_prop in W. apply andb_prop in W'. destruct W as [W _], W' as [W' _]. apply ikind_eqb_eq in W. apply ikind_eqb_eq in W'. congruence.
  - cbn in *. congruence.
  - cbn in *. congruence.
  - cbn in *. injection E as <-. injection E' as E'. f_equal. revert s0 W' E'. clear W. induction s as [|b s IH]; intros [|b' s'] W' E'; try discriminate E'; [reflexivity|].
    cbn [map] in E'. injection E' as B E'. cbn [forallb] in W'. apply andb_prop in W'. f_equal; [lia|now apply IH].
  - cbn [legible] in L. apply andb_prop in L. destruct L as [Nb L]. apply negb_true_iff in Nb. destruct o as [x|], o0 as [x'|]; cbn [json_of bare] in *.
    + f_equal. f_equal. exact (IHt L x x' _ _ _ _ _ W W' E E').
    + injection E' as <-. destruct (not_null t Nb x _ _ W E).
    + injection E as <-. destruct (not_null t Nb x' _ _ W' E').
    + reflexivity.
  - rewrite js_vec in *. destruct (json_items a h 0 l) as [js|] eqn:I; [|discriminate E]. destruct (json_items a' h' 0 l0) as [js'|] eqn:I'; [|discriminate E'].
    injection E as <-. injection E' as ->. cbn [bare]. f_equal. exact (items_tell t IHt L _ _ _ _ _ _ _ _ _ W W' I I').
  - change (json_of a h (VVec l) = Some j) in E. change (json_of a' h' (VVec l0) = Some j) in E'.
    rewrite js_vec in *. destruct (json_items a h 0 l) as [js|] eqn:I; [|discriminate E]. destruct (json_items a' h' 0 l0) as [js'|] eqn:I'; [|discriminate E'].
    injection E as <-. injection E' as ->. cbn [bare wt] in *. apply andb_prop in W. apply andb_prop in W'. f_equal. exact (items_tell t IHt L _ _ _ _ _ _ _ _ _ (proj2 W) (proj2 W') I I').
  - change (json_of a h (VVec l) = Some j) in E. change (json_of a' h' (VVec l0) = Some j) in E'.
    rewrite js_vec in *. destruct (json_items a h 0 l) as [js|] eqn:I; [|discriminate E]. destruct (json_items a' h' 0 l0) as [js'|] eqn:I'; [|discriminate E'].
    injection E as <-. injection E' as ->. cbn [bare]. f_equal. rewrite wt_tup_eq in *. exact (tuple_tells ts H L _ _ _ _ _ _ _ _ _ W W' I I').
  - rewrite js_hash in *. destruct (json_hash a h 0 l) as [js|] eqn:I; [|discriminate E]. destruct (json_hash a' h' 0 l0) as [js'|] eqn:I'; [|discriminate E'].
    injection E as <-. injection E' as ->. cbn [bare wt legible] in *. apply andb_prop in W. apply andb_prop in W'. apply andb_prop in L. f_equal.
    exact (hash_tells _ _ IHt2 (proj1 L) (proj2 L) _ _ _ _ _ _ _ _ _ (proj1 W) (proj1 W') I I').
  - cbn [bare]. f_equal. exact (IHt L v v' _ _ _ _ _ W W' E E').
  - rewrite js_struct in *. destruct (json_fields a h 0 fs0) as [js|] eqn:I; [|discriminate E]. destruct (json_fields a' h' 0 fs1) as [js'|] eqn:I'; [|discriminate E'].
    injection E as <-. injection E' as E'. rewrite wt_struct_eq in *. apply andb_prop in W. destruct W as [W0 W]. apply andb_prop in W0. destruct W0 as [C R].
    apply andb_prop in W'. destruct W' as [W0 W']. apply andb_prop in W0. destruct W0 as [C' R']. apply eqb_prop in C. apply eqb_prop in R. apply eqb_prop in C'. apply eqb_prop in R'.
    cbn [bare]. f_equal; [congruence|destruct r, r0; cbn in *; congruence|]. symmetry. exact (body_tells fs H L _ _ _ _ _ _ _ _ _ _ W' W I' I E').
  - rewrite js_enum in *. rewrite wt_enum_eq in *. apply andb_prop in W. destruct W as [W0 W]. apply andb_prop in W0. destruct W0 as [R _].
    apply andb_prop in W'. destruct W' as [W0 W']. apply andb_prop in W0. destruct W0 as [R' _]. apply eqb_prop in R. apply eqb_prop in R'.
    destruct (find_variant vs tag) as [[[n1 c1] ts]|] eqn:V; [|discriminate W]. destruct (find_variant vs tag0) as [[[n2 c2] ts2]|] eqn:V'; [|discriminate W'].
    apply andb_prop in W. destruct W as [C W]. apply andb_prop in W'. destruct W' as [C' W']. apply eqb_prop in C. apply eqb_prop in C'. subst c c0.
    assert (TG : forall tg (c : bool) (r : option rt) fs a h, match fs, c, r with
      | [], false, None => Some (JVar tg)
      | _, _, _ => match json_fields a h 0 fs with Some js => Some (JObj [(JVariantName tg, JObj (js ++ json_own c (h a) r))]) | None => None end
      end = Some j -> (fs = [] /\ c = false /\ r = None /\ j = JVar tg) \/ exists js, json_fields a h 0 fs = Some js /\ j = JObj [(JVariantName tg, JObj (js ++ json_own c (h a) r))]).
    { clear. intros tg c r fs a h E. destruct fs, c, r; try (destruct (json_fields a h 0 _) as [js|]; [injection E as <-; right; eauto|discriminate E]). injection E as <-. left. auto. }
    apply TG in E. apply TG in E'. clear TG. destruct E as [(-> & -> & -> & ->)|(js & I & ->)].
    + destruct E' as [(-> & -> & -> & E')|(js' & I' & E')]; [|discriminate E']. injection E' as ->. reflexivity.
    + destruct E' as [(-> & -> & -> & E')|(js' & I' & E')]; [discriminate E'|]. injection E' as -> E'.
      rewrite V in V'. injection V' as <- <- <-. cbn [bare]. f_equal; [destruct r, r0; cbn in *; congruence|].
      assert (Vi : In (n1, c1, ts) vs) by (unfold find_variant in V; now apply find_some in V).
      rewrite Forall_forall in H. cbn [legible] in L. rewrite forallb_forall in L. symmetry.
      symmetry. exact (body_tells ts (H _ Vi) (L _ Vi) _ _ _ _ _ _ _ _ _ _ W W' I I' E').
  - rewrite js_list in *. destruct (json_items a h 0 l) as [js|] eqn:I; [|discriminate E]. destruct (json_items a' h' 0 l0) as [js'|] eqn:I'; [|discriminate E'].
    injection E as <-. injection E' as -> _. cbn [bare]. f_equal. exact (items_tell t IHt L _ _ _ _ _ _ _ _ _ W W' I I').
  - discriminate L.
Qed.

(** ** There is JSON *)

Lemma key_there k : keyable k = true -> forall v, wt k v = true -> exists n, json_key v = Some n.
Proof.
  induction k using ty_ind'; intros Kb v W; try discriminate Kb; destruct v; try discriminate W; cbn [json_key]; try (eexists; reflexivity).
  - now apply IHk.
  - rewrite wt_enum_eq in W. cbn [keyable] in Kb. apply andb_prop in Kb. destruct Kb as [St Kb]. apply negb_true_iff in St. subst st.
    apply andb_prop in W. destruct W as [W0 W]. apply andb_prop in W0. destruct W0 as [R _]. destruct r; [discriminate R|].
    destruct (find_variant vs tag) as [[[n c'] ts]|] eqn:V; [|discriminate W]. unfold find_variant in V. apply find_some in V. rewrite forallb_forall in Kb.
    specialize (Kb _ (proj1 V)). cbn [fst snd] in Kb. apply andb_prop in Kb. destruct Kb as [Kc Kt]. apply negb_true_iff in Kc. subst c'. apply andb_prop in W. destruct W as [C W].
    apply eqb_prop in C. subst c. destruct ts; [|discriminate Kt]. destruct fs; [eexists; reflexivity|discriminate W].
Qed.
Definition JE (t : ty) : Prop := jsonable t = true -> forall v a h, wt t v = true -> exists j, json_of a h v = Some j.
Lemma items_there t : JE t -> jsonable t = true -> forall l a h i, forallb (wt t) l = true -> exists js, json_items a h i l = Some js.
Proof.
  intros T L. induction l as [|x l IH]; intros a h i W; [eexists; reflexivity|]. cbn [forallb json_items] in *. apply andb_prop in W. destruct W as [Wx W].
  destruct (T L x (i :: a) h Wx) as [j ->]. destruct (IH a h (S i) W) as [js ->]. eexists. reflexivity.
Qed.
Lemma tuple_there ts : Forall JE ts -> forallb jsonable ts = true -> forall l a h i, wt_list ts l = true -> exists js, json_items a h i l = Some js.
Proof.
  induction 1 as [|t ts T _ IH]; intros L [|x l] a h i W; try discriminate W; [eexists; reflexivity|]. cbn [forallb json_items wt_list] in *.
  apply andb_prop in W. destruct W as [Wx W]. apply andb_prop in L. destruct L as [Lt L].
  destruct (T Lt x (i :: a) h Wx) as [j ->]. destruct (IH L l a h (S i) W) as [js ->]. eexists. reflexivity.
Qed.
Lemma fields_there ts : Forall (fun p => JE (snd p)) ts -> forallb (fun p : finfo * ty => let '(_, t) := p in jsonable t) ts = true ->
  forall l a h i, wt_fields ts l = true -> exists js, json_fields a h i l = Some js.
Proof.
  induction 1 as [|[fi t] ts T _ IH]; intros L [|[f1 x] l] a h i W; try discriminate W; [eexists; reflexivity|]. cbn [forallb json_fields wt_fields snd] in *.
  apply andb_prop in W. destruct W as [W0 W]. apply andb_prop in W0. destruct W0 as [_ Wx]. apply andb_prop in L. destruct L as [Lt L].
  destruct (T Lt x (i :: a) h Wx) as [j ->]. destruct (IH L l a h (S i) W) as [js ->]. eexists. reflexivity.
Qed.
Lemma hash_there k t : JE t -> keyable k = true -> jsonable t = true -> forall l a h i, forallb (fun e : val * val => wt k (fst e) && wt t (snd e)) l = true ->
  exists js, json_hash a h i l = Some js.
Proof.
  intros T Kb L. induction l as [|[y x] l IH]; intros a h i W; [eexists; reflexivity|]. cbn [forallb json_hash fst snd] in *.
  apply andb_prop in W. destruct W as [W0 W]. apply andb_prop in W0. destruct W0 as [Wy Wx]. destruct (key_there k Kb y Wy) as [n ->].
  destruct (T L x (S i :: a) h Wx) as [j ->]. destruct (IH a h (S (S i)) W) as [js ->]. eexists. reflexivity.
Qed.
Lemma json_there t : JE t.
Proof.
  induction t using ty_ind'; intros L v a h W; destruct v; try discriminate W; try (eexists; reflexivity).
  - destruct o as [x|]; [|eexists; reflexivity]. exact (IHt L x (0%nat :: a) h W).
  - rewrite js_vec. destruct (items_there t IHt L l a h 0 W) as [js ->]. eexists. reflexivity.
  - change (json_of a h (VArr l)) with (json_of a h (VVec l)). rewrite js_vec. cbn [wt] in W. apply andb_prop in W.
    destruct (items_there t IHt L l a h 0 (proj2 W)) as [js ->]. eexists. reflexivity.
  - change (json_of a h (VTup l)) with (json_of a h (VVec l)). rewrite js_vec. rewrite wt_tup_eq in W.
    destruct (tuple_there ts H L l a h 0 W) as [js ->]. eexists. reflexivity.
  - rewrite js_hash. cbn [wt jsonable] in W, L. apply andb_prop in W. apply andb_prop in L.
    destruct (hash_there _ _ IHt2 (proj1 L) (proj2 L) l a h 0 (proj1 W)) as [js ->]. eexists. reflexivity.
  - exact (IHt L v a h W).
  - rewrite js_struct. rewrite wt_struct_eq in W. apply andb_prop in W. destruct (fields_there fs H L fs0 a h 0 (proj2 W)) as [js ->]. eexists. reflexivity.
  - rewrite js_enum. rewrite wt_enum_eq in W. apply andb_prop in W. destruct W as [_ W]. destruct (find_variant vs tag) as [[[n1 c1] ts]|] eqn:V; [|discriminate W].
    apply andb_prop in W. destruct W as [_ W]. assert (Vi : In (n1, c1, ts) vs) by (unfold find_variant in V; now apply find_some in V).
    rewrite Forall_forall in H. cbn [jsonable] in L. rewrite forallb_forall in L. destruct (fields_there ts (H _ Vi) (L _ Vi) fs a h 0 W) as [js ->].
    destruct fs, c, r; eexists; reflexivity.
  - rewrite js_list. destruct (items_there t IHt L l a h 0 W) as [js ->]. eexists. reflexivity.
Qed.

(** ** Size caches *)

Definition agree (a : addr) (v : val) (h h' : store) : Prop := forall b y, at_addr a v b y -> has_cache y = true -> h b = h' b.
Definition JA (v : val) : Prop := forall a h h', agree a v h h' -> json_of a h v = json_of a h' v.
Definition slots_agree (a : addr) (i : nat) (sl : list slot) (h h' : store) : Prop := forall k s, nth_error sl k = Some s -> agree ((i + k)%nat :: a) (snd s) h h'.
Lemma agree_slots a v h h' : agree a v h h' -> slots_agree a 0 (slots v) h h'.
Proof. intros A k s E b y At C. cbn [Nat.add] in At. exact (A b y (at_slot a v k s b y E At) C). Qed.
Lemma slots_agree_cons a i s sl h h' : slots_agree a i (s :: sl) h h' -> agree (i :: a) (snd s) h h' /\ slots_agree a (S i) sl h h'.
Proof.
  intros A. split.
  - specialize (A 0%nat s eq_refl). now rewrite Nat.add_0_r in A.
  - intros k s' E. specialize (A (S k) s' E). now rewrite Nat.add_succ_r in A.
Qed.
Lemma items_agree l : Forall (fun s => JA (snd s)) (map islot l) -> forall a h h' i, slots_agree a i (map islot l) h h' -> json_items a h i l = json_items a h' i l.
Proof.
  induction l as [|x l IH]; intros F a h h' i A; [reflexivity|]. inversion F as [|? ? Hx F' E1]; subst. cbn [map] in A. apply slots_agree_cons in A. destruct A as [Ax A].
  cbn [json_items]. specialize (Hx _ _ _ Ax). cbn [snd islot] in Hx. rewrite Hx, (IH F' _ _ _ _ A). reflexivity.
Qed.
Lemma fields_agree l : Forall (fun s => JA (snd s)) (map fslot l) -> forall a h h' i, slots_agree a i (map fslot l) h h' -> json_fields a h i l = json_fields a h' i l.
Proof.
  induction l as [|[fi x] l IH]; intros F a h h' i A; [reflexivity|]. inversion F as [|? ? Hx F' E1]; subst. cbn [map] in A. apply slots_agree_cons in A. destruct A as [Ax A].
  cbn [json_fields]. specialize (Hx _ _ _ Ax). cbn [snd fslot] in Hx. rewrite Hx, (IH F' _ _ _ _ A). reflexivity.
Qed.
Lemma hash_agree l : Forall (fun s => JA (snd s)) (flat_map hslots l) -> forall a h h' i, slots_agree a i (flat_map hslots l) h h' -> json_hash a h i l = json_hash a h' i l.
Proof.
  induction l as [|[k x] l IH]; intros F a h h' i A; [reflexivity|]. cbn [flat_map hslots app fst snd] in *. inversion F as [|? ? Hk F1 E1]; subst. inversion F1 as [|? ? Hx F2 E2]; subst.
  apply slots_agree_cons in A. destruct A as [_ A]. apply slots_agree_cons in A. destruct A as [Ax A].
  cbn [json_hash]. specialize (Hx _ _ _ Ax). cbn [snd islot] in Hx. rewrite Hx, (IH F2 _ _ _ _ A). reflexivity.
Qed.
Lemma own_agree a v h h' (c : bool) r : agree a v h h' -> has_cache v = c -> json_own c (h a) r = json_own c (h' a) r.
Proof. intros A C. destruct c; [|reflexivity]. now rewrite (A a v (at_here a v) C). Qed.
Lemma json_agree v : JA v.
Proof.
  induction v using val_slots_ind; intros a h h' A.
  - destruct v; try discriminate; reflexivity.
  - apply IHv. intros b y At. apply A. now constructor.
  - pose proof (agree_slots _ _ _ _ A) as As.
    destruct v as [| | | |[x|]|l|l|l|l| |c r fs|tag c r fs|r l|r es]; try discriminate; cbn [slots] in *; try reflexivity.
    + inversion H0 as [|? ? Hx _ E]; subst. apply slots_agree_cons in As. exact (Hx _ _ _ (proj1 As)).
    + rewrite !js_vec, (items_agree l H0 _ _ _ _ As). reflexivity.
    + change (json_of a h (VVec l) = json_of a h' (VVec l)). rewrite !js_vec, (items_agree l H0 _ _ _ _ As). reflexivity.
    + change (json_of a h (VVec l) = json_of a h' (VVec l)). rewrite !js_vec, (items_agree l H0 _ _ _ _ As). reflexivity.
    + rewrite !js_hash, (hash_agree l H0 _ _ _ _ As). reflexivity.
    + rewrite !js_struct, (fields_agree fs H0 _ _ _ _ As), (own_agree a _ h h' c r A eq_refl). reflexivity.
    + rewrite !js_enum, (fields_agree fs H0 _ _ _ _ As), (own_agree a _ h h' c r A eq_refl). reflexivity.
    + rewrite !js_list, (items_agree l H0 _ _ _ _ As), (A a _ (at_here a _) eq_refl). reflexivity.
    + cbn [json_of]. rewrite (A a _ (at_here a _) eq_refl). reflexivity.
Qed.
Lemma own_cache_tells v : has_cache v = true -> forall a h h' j, json_of a h v = Some j -> json_of a h' v = Some j -> h a = h' a.
Proof.
  assert (Ow : forall n n' r r' js js', length js = length js' -> js ++ json_own true n r = js' ++ json_own true n' r' -> n = n').
  { intros n n' r r' js js' L E. apply app_inj_len in E; [|exact L]. destruct E as [_ E]. unfold json_own in E. cbn [app] in E. injection E as E _. lia. }
  induction v using val_slots_ind; intros C a h h' j E E'.
  - destruct v; discriminate.
  - exact (IHv C a h h' j E E').
  - destruct v as [| | | |[x|]|l|l|l|l| |c r fs|tag c r fs|r l|r es]; try discriminate; cbn [has_cache] in C; try subst c.
    + rewrite js_struct in *. destruct (json_fields a h 0 fs) as [js|] eqn:I; [|discriminate E]. destruct (json_fields a h' 0 fs) as [js'|] eqn:I'; [|discriminate E'].
      injection E as <-. injection E' as E'. symmetry. apply Ow in E'; [exact E'|]. now rewrite (fields_length _ _ _ _ _ I), (fields_length _ _ _ _ _ I').
    + rewrite js_enum in *. assert (X : forall g, match fs with [] => match json_fields a g 0 fs with Some js => Some (JObj [(JVariantName tag, JObj (js ++ json_own true (g a) r))]) | None => None end
        | _ => match json_fields a g 0 fs with Some js => Some (JObj [(JVariantName tag, JObj (js ++ json_own true (g a) r))]) | None => None end end
        = match json_fields a g 0 fs with Some js => Some (JObj [(JVariantName tag, JObj (js ++ json_own true (g a) r))]) | None => None end) by (intros g; now destruct fs).
      assert (Y : forall g, match json_fields a g 0 fs with Some js => Some (JObj [(JVariantName tag, JObj (js ++ json_own true (g a) r))]) | None => None end = Some j ->
        exists js, json_fields a g 0 fs = Some js /\ j = JObj [(JVariantName tag, JObj (js ++ json_own true (g a) r))]).
      { intros g Z. destruct (json_fields a g 0 fs) as [js|]; [|discriminate Z]. injection Z as <-. eauto. }
      destruct (Y h) as (js & I & ->); [destruct fs; exact E|]. destruct (Y h') as (js' & I' & E''); [destruct fs; exact E'|]. injection E'' as E''.
      apply Ow in E''; [exact E''|]. now rewrite (fields_length _ _ _ _ _ I), (fields_length _ _ _ _ _ I').
    + rewrite js_list in *. destruct (json_items a h 0 l) as [js|]; [|discriminate E]. destruct (json_items a h' 0 l) as [js'|]; [|discriminate E'].
      injection E as <-. injection E' as _ E'. lia.
    + cbn [json_of] in *. injection E as <-. injection E' as E'. lia.
Qed.

(** ** Runtimes are not in the bytes *)

Lemma vwty_bare v : vwty (bare v) = vwty v. Proof. induction v; try reflexivity; [now destruct o|exact IHv]. Qed.
Lemma left_bare v b : left_out (bare v) b = left_out v b. Proof. destruct v; try reflexivity. now destruct o. Qed.
Lemma slots_bare v : slots (bare v) = map (fun s : slot => (fst s, bare (snd s))) (slots v).
Proof.
  destruct v as [| | | |[x|]|l|l|l|l| |c r fs|tag c r fs|r l|r es]; cbn [bare slots]; try reflexivity; rewrite ?map_map; try reflexivity.
  - induction l as [|[k x] l IH]; [reflexivity|]. cbn [map flat_map hslots app]. now rewrite IH.
  - apply map_ext. now intros [fi x].
  - apply map_ext. now intros [fi x].
  - apply map_ext. now intros [k x].
Qed.
Lemma enc_bare v : enc (bare v) = enc v.
Proof.
  induction v using val_slots_ind; [destruct v; try discriminate; reflexivity|exact IHv|].
  rewrite !enc_slots by (destruct v as [| | | |[?|]| | | | | | | | |]; try discriminate; reflexivity). rewrite slots_bare, flat_map_map.
  replace (hdr (bare v)) with (hdr v) by (destruct v as [| | | |[?|]| | | | | | | | |]; reflexivity). f_equal.
  induction H0 as [|[[fn om] x] l Hx _ IH]; [reflexivity|]. cbn [flat_map fst snd]. rewrite IH. f_equal. cbn [snd] in Hx. unfold slot_enc, enc_tagged, delimited.
  now rewrite left_bare, vwty_bare, Hx.
Qed.

(** ** C90 *)

(** JSON of a value whose hash maps have keys that can be names; other keys make an error, for instance [false]. *)
Theorem c90_there : forall t v a h, jsonable t = true -> wt t v = true -> exists j, json_of a h v = Some j.
Proof. intros t v a h L. now apply json_there. Qed.
Print Assumptions c90_there.
Theorem c90_keys_refuted : ~ (forall t v h, ty_ok t = true -> wt t v = true -> exists j, json_of [] h v = Some j).
Proof. intros F. destruct (F (THash TBool TBool) (VHash [(VBool false, VBool true)]) fresh_store eq_refl eq_refl) as [j E]. discriminate E. Qed.
Print Assumptions c90_keys_refuted.

(** Where a value is in a tree, and whom it tells of changes, does not show. *)
Theorem c90_place : forall v v' a h, bare v = bare v' -> json_of a h v = json_of a h v'.
Proof. intros v v' a h E. now rewrite <- json_bare, E, json_bare. Qed.
Print Assumptions c90_place.

(** Without maps and options of options, JSON tells everything else, so also the bytes. *)
Theorem c90_tells : forall t v v' a h a' h' j, legible t = true -> wt t v = true -> wt t v' = true ->
  json_of a h v = Some j -> json_of a' h' v' = Some j -> bare v = bare v' /\ enc v = enc v'.
Proof. intros t v v' a h a' h' j L W W' E E'. pose proof (json_tells t L v v' a h a' h' j W W' E E') as B. split; [exact B|]. now rewrite <- enc_bare, B, enc_bare. Qed.
Print Assumptions c90_tells.

(** Log entries are such values. *)
Theorem c90_entry : forall e e' a h a' h', entry_ok e -> entry_ok e' -> (exists j, json_of a h (entry_val e) = Some j) /\
  (json_of a h (entry_val e) = json_of a' h' (entry_val e') -> e = e').
Proof.
  intros e e' a h a' h' O O'. destruct (c90_there tEntry (entry_val e) a h eq_refl (wt_entry e O)) as [j E]. split; [eauto|]. intros J. rewrite E in J. symmetry in J.
  destruct (c90_tells tEntry _ _ _ _ _ _ j eq_refl (wt_entry e O) (wt_entry e' O') E J) as [B _].
  assert (Z : forall x, entry_of_val (bare (entry_val x)) = Some x).
  { intros x. rewrite <- (entry_of_entry_val x). destruct x; cbn [entry_val bare bare_rt map vpath]; f_equal; cbn [entry_of_val]; unfold path_of; rewrite ?map_map; reflexivity. }
  pose proof (Z e) as Ze. rewrite B, Z in Ze. now injection Ze.
Qed.
Print Assumptions c90_entry.

(** The content of a [Map] is not in JSON. *)
Theorem c90_map_refuted : forall a h r r' es es', json_of a h (VMap r es) = json_of a h (VMap r' es').
Proof. reflexivity. Qed.
Print Assumptions c90_map_refuted.

(** An option of an option loses its outer half. *)
Theorem c90_option_refuted : forall a h, json_of a h (VOpt (Some (VOpt None))) = json_of a h (VOpt None).
Proof. reflexivity. Qed.
Print Assumptions c90_option_refuted.

(** Size caches are in JSON: two copies of one value show the same only if their caches do. *)
Theorem c90_caches : forall v a h h' j, json_of a h v = Some j ->
  ((forall b y, at_addr a v b y -> has_cache y = true -> h b = h' b) -> json_of a h' v = Some j) /\
  (has_cache v = true -> h a <> h' a -> json_of a h' v <> Some j).
Proof.
  intros v a h h' j E. split.
  - intros A. now rewrite <- (json_agree v a h h' A).
  - intros C N E'. exact (N (own_cache_tells v C a h h' j E E')).
Qed.
Print Assumptions c90_caches.

(** Once bytes were asked for, they are the sizes of that value: whatever they were, the same JSON comes out. *)
Theorem c90_fresh : forall t v m h m' h', ty_ok t = true -> wt t v = true -> writable v = true -> lenN (enc v) < 2 ^ 32 ->
  exists bs g g', steit_serialize m v h = Ok (bs, g) /\ steit_serialize m' v h' = Ok (bs, g') /\ json_of [] g v = json_of [] g' v.
Proof.
  intros t v m h m' h' O W R L. pose proof (wt_ser_ok t v O W R) as S.
  destruct (steit_serialize_spec v S L m h) as (g & E & A & _). destruct (steit_serialize_spec v S L m' h') as (g' & E' & A' & _).
  exists (enc v), g, g'. split; [exact E|]. split; [exact E'|]. apply json_agree. intros b y At C. now rewrite (A b y At C), (A' b y At C).
Qed.
Print Assumptions c90_fresh.

(** So asking for bytes changes what a value shows, although it takes the value by a shared reference and changes nothing else. *)
Theorem c90_asking_refuted : forall t v m, ty_ok t = true -> jsonable t = true -> wt t v = true -> writable v = true -> lenN (enc v) < 2 ^ 32 ->
  has_cache v = true -> enc v <> [] ->
  exists bs g j j', steit_serialize m v fresh_store = Ok (bs, g) /\ json_of [] fresh_store v = Some j /\ json_of [] g v = Some j' /\ j <> j'.
Proof.
  intros t v m O J W R L C N. pose proof (wt_ser_ok t v O W R) as S. destruct (steit_serialize_spec v S L m fresh_store) as (g & E & A & _).
  destruct (c90_there t v [] fresh_store J W) as [j Ej]. destruct (c90_there t v [] g J W) as [j' Ej'].
  exists (enc v), g, j, j'. repeat (split; [assumption|]). intros <-. pose proof (own_cache_tells v C _ _ _ _ Ej Ej') as X. rewrite (A [] v (at_here [] v) C) in X.
  destruct (enc v); [congruence|]. unfold fresh_store, lenN in X. cbn [length] in X. lia.
Qed.
Print Assumptions c90_asking_refuted.

Example c90_case : jsonable tAll = true /\ legible tAll = false /\ legible (TList tPoint) = true /\
  json_of [] (fun a => N.of_nat (length a)) (VStruct true (Some ex_rt) [(fst_ 0, VList (nested ex_rt 0) [VInt U8 7]); (fst_ 1, VMap (nested ex_rt 1) [(3, VBool true)]);
    (fns 2, VOpt (Some (VHash [(VInt I8 (-1), VBytes [0; 255])]))); (fst_ 3, vNone (nested ex_rt 3)); (fns 4, VEnum 5 false None [])])
  = Some (JObj [(JField 0, JObj [(JItems, JArr [JNum 7]); (JCache, JObj [(JSize, JNum 1)]); (JRuntime, JObj [])]);
      (JField 1, JObj [(JCache, JObj [(JSize, JNum 1)]); (JRuntime, JObj []); (JMarker, JNull)]);
      (JField 2, JObj [(JInt (-1), JArr [JNum 0; JNum 255])]);
      (JField 3, JObj [(JVariantName 0, JObj [(JCache, JObj [(JSize, JNum 1)]); (JRuntime, JObj [])])]);
      (JField 4, JVar 5); (JCache, JObj [(JSize, JNum 0)]); (JRuntime, JObj [])]).
Proof. vm_compute. repeat split. Qed.
