(** C99: entries that arrive more than once at programs that go on after errors. *)
From Verif Require Import Base Varint WireFmt Utf8 Types Ser Spec De Log State StateSpec Coll Pos CsPos ValInd VarintProofs WireProofs SerProofs
  TypeProofs EqProofs DeProofs RoundTrip MergeProofs NormProofs LogProofs TreeProofs CohProofs HandleProofs OpProofs SimProofs ExecProofs Examples ThreadProofs Commute PropReplay PropCommute PropColl PropState PropHist PropCompact
  CSharp CSharpProofs CSharpSim CSharpSafe CSharpEvo ObjProofs PropCSharp PosProofs PropTwice PropPos PropCsPos.

(** A log in which updates and removals are sent any number of times, one after the other; [k] counts the additional removals. *)
Inductive again : nat -> list entry -> list entry -> Prop :=
| ANil : again 0 [] []
| ANext k e l l' : again k l l' -> again k (e :: l) (e :: l')
| AUpdate k p bs l l' : again k (EUpdate p bs :: l) (EUpdate p bs :: l') -> again k (EUpdate p bs :: l) (EUpdate p bs :: EUpdate p bs :: l')
| ARemove k p n l l' : again k (EMapRemove p n :: l) (EMapRemove p n :: l') -> again (S k) (EMapRemove p n :: l) (EMapRemove p n :: EMapRemove p n :: l').

Lemma again_in k l l' : again k l l' -> forall P : entry -> Prop, Forall P l -> Forall P l'.
Proof. induction 1; intros P F; [constructor| | |]; inversion F; subst; constructor; auto. Qed.

(** ** Rust *)

Lemma remove_twice m t : ty_ok t = true -> state_ty t = true -> forall p k v, wt t v = true -> k < 2 ^ 32 -> Forall (fun n => n < 2 ^ 32) p ->
  let '(w, o) := handle m t p KMapRemove (Some k) [] v in
  match o with
  | Ok _ | Err _ => let '(w', o') := handle m t p KMapRemove (Some k) [] w in w' = w /\ (o' = o \/ o' = Err InvalidData)
  | _ => True
  end.
Proof.
  induction t as [t IH] using child_ind. intros O S p k v W Hk Hp.
  pose proof (handle_good m t O S p KMapRemove (Some k) [] v W (Forall_nil _) Hp) as G.
  destruct (handle_cases m t p KMapRemove (Some k) [] v O S W) as [s q t' x C Ss -> E|B -> E|E|E|kk t' r es j _ _ _ Z _ _]; [| | | |discriminate Z].
  - rewrite E in *. destruct (child_wt t v s t' x O W C) as (O' & W' & S'). specialize (S' S Ss). apply Forall_app in Hp.
    pose proof (IH v s t' x C O' S' q k x W' Hk (proj2 Hp)) as K. destruct (handle m t' q KMapRemove (Some k) [] x) as [x' o]. destruct G as [G _].
    rewrite <- (seg_put v s x'). rewrite (handle_child m t (put_child v s x') s t' x' q) by (first [assumption|exact (child_put _ _ _ _ _ _ C)|rewrite state_step_put; exact Ss]).
    destruct (handle m t' q KMapRemove (Some k) [] x') as [x2 o2]. destruct o; try exact I; destruct K as [-> K]; (split; [apply put_child_put|exact K]).
  - rewrite E. assert (N : handle_here m t KMapRemove (Some k) [] v = (v, Err InvalidData) \/ exists kk t' r es, t = TMap kk t' /\ v = VMap r es).
    { destruct t; try discriminate S; try (left; reflexivity). destruct v; try discriminate W. right. eauto 8. }
    destruct N as [N|(kk & t' & r & es & -> & ->)]; [rewrite N in *; rewrite E; auto|]. clear E G IH. cbn [handle_here handle].
    destruct (assoc k es) eqn:A.
    + apply wt_map_in in W. rewrite (assoc_remove es k k (proj2 W)), N.eqb_refl. auto.
    + rewrite A. auto.
  - rewrite E. rewrite E. auto.
  - rewrite E. rewrite E. auto.
Qed.

Lemma all_tried_again m t k l l' : again k l l' -> ty_ok t = true -> state_ty t = true -> Forall entry_ok l -> forall v w j, wt t v = true ->
  all_tried m t l v = Some (w, j) -> exists j', all_tried m t l' v = Some (w, j') /\ (j = 0%nat -> (j' <= k)%nat).
Proof.
  intros A O S. induction A as [|k e l l' A IH|k p bs l l' A IH|k p n l l' A IH]; intros F v w j W H.
  - injection H as <- <-. exists 0%nat. split; [reflexivity|lia].
  - inversion F as [|? ? Fe Fl]; subst. cbn [all_tried] in *. pose proof (handle_entry_good m t e v O S W Fe) as G.
    destruct (handle_entry m t e v) as [v1 [u|x| |]]; try discriminate H; destruct G as [W1 _].
    + exact (IH Fl v1 w j W1 H).
    + destruct (all_tried m t l v1) as [[w0 j0]|] eqn:E; [|discriminate H]. injection H as <- <-. destruct (IH Fl v1 w0 j0 W1 E) as (j' & -> & _).
      exists (Datatypes.S j'). split; [reflexivity|lia].
  - destruct (IH F v w j W H) as (j' & E & L). inversion F as [|? ? Fe Fl]; subst. pose proof (c96_update m t p bs v O S W Fe) as Tw.
    cbn [all_tried] in E, H |- *. destruct (handle_entry m t (EUpdate p bs) v) as [v1 [u|x| |]]; try discriminate H.
    + cbn [all_tried]. rewrite Tw. exists j'. split; [exact E|exact L].
    + rewrite Tw. destruct (all_tried m t l' v1) as [[w0 j0]|]; [|discriminate E]. injection E as -> <-. eexists. split; [reflexivity|].
      intros ->. destruct (all_tried m t l v1) as [[? ?]|]; discriminate H.
  - destruct (IH F v w j W H) as (j' & E & L). inversion F as [|? ? Fe Fl]; subst. destruct Fe as (Fp & Fk & _).
    pose proof (remove_twice m t O S p n v W (Fk n eq_refl) Fp) as Tw. unfold handle_entry in *. 
    change (all_tried m t (EMapRemove p n :: l) v) with (match handle m t p KMapRemove (Some n) [] v with
      | (v', Ok _) => all_tried m t l v' | (v', Err _) => match all_tried m t l v' with Some (w, n) => Some (w, Datatypes.S n) | None => None end | _ => None end) in H.
    change (all_tried m t (EMapRemove p n :: l') v) with (match handle m t p KMapRemove (Some n) [] v with
      | (v', Ok _) => all_tried m t l' v' | (v', Err _) => match all_tried m t l' v' with Some (w, n) => Some (w, Datatypes.S n) | None => None end | _ => None end) in E.
    change (all_tried m t (EMapRemove p n :: EMapRemove p n :: l') v) with (match handle m t p KMapRemove (Some n) [] v with
      | (v', Ok _) => all_tried m t (EMapRemove p n :: l') v' | (v', Err _) => match all_tried m t (EMapRemove p n :: l') v' with Some (w, n) => Some (w, Datatypes.S n) | None => None end | _ => None end).
    destruct (handle m t p KMapRemove (Some n) [] v) as [v1 o].
    assert (Q : all_tried m t (EMapRemove p n :: l') v1 = match handle m t p KMapRemove (Some n) [] v1 with
      | (v', Ok _) => all_tried m t l' v' | (v', Err _) => match all_tried m t l' v' with Some (w, n) => Some (w, Datatypes.S n) | None => None end | _ => None end) by reflexivity.
    rewrite Q. clear Q. destruct o as [u|x| |]; try discriminate H; destruct (handle m t p KMapRemove (Some n) [] v1) as [v2 o2]; destruct Tw as [-> [->| ->]].
    + exists j'. split; [exact E|intros Z; specialize (L Z); lia].
    + rewrite E. eexists. split; [reflexivity|intros Z; specialize (L Z); lia].
    + rewrite E. eexists. split; [reflexivity|]. intros ->. destruct (all_tried m t l v1) as [[? ?]|]; discriminate H.
    + rewrite E. eexists. split; [reflexivity|]. intros ->. destruct (all_tried m t l v1) as [[? ?]|]; discriminate H.
Qed.

(** A program that goes on after errors ends with what it would have without the repetitions; if nothing failed without them, there is
    at most one error for each additional removal. *)
Theorem c99_replica : forall m t lg k l l' n n' v w j, ty_ok t = true -> state_ty t = true -> root_ty t = true -> wt t v = true -> placed (mkRt lg Root) t v ->
  Forall sent l -> again k l l' -> (length l < n)%nat -> (length l' < n')%nat ->
  keep_on n m t v (concat (map entry_wire l)) = Some (w, j) ->
  exists j', keep_on n' m t v (concat (map entry_wire l')) = Some (w, j') /\ (j = 0%nat -> (j' <= k)%nat).
Proof.
  intros m t lg k l l' n n' v w j O S P W Pl F A Ln Ln' H. pose proof (again_in k l l' A _ F) as F'.
  rewrite (c97_keep_on m t lg l n v) in H by assumption. rewrite (c97_keep_on m t lg l' n' v) by assumption.
  apply (all_tried_again m t k l l' A O S) with (j := j); try assumption. clear - F. induction F as [|? ? [Oe _] _ IH]; constructor; assumption.
Qed.
Print Assumptions c99_replica.

(** ** C# *)

Lemma c_put_put tag x y xs : c_put tag x (c_put tag y xs) = c_put tag x xs.
Proof. induction xs as [|[k z] xs IH]; [reflexivity|]. cbn [c_put]. destruct (tag =? k) eqn:E; cbn [c_put]; rewrite E; [reflexivity|now rewrite IH]. Qed.

(** The object that was put is there, and putting it again changes nothing. *)
Lemma child_again c w tag c' x x' : cgen c = true -> c_state c = true -> cwt c w = true -> c_child c w tag = Ok (Some (c', x)) -> cwt c' x' = true ->
  c_child c (c_put_child w tag x') tag = Ok (Some (c', x')) /\ c_put_child (c_put_child w tag x') tag x' = c_put_child w tag x'.
Proof.
  intros G S W E X. destruct c; try discriminate S; destruct w; try discriminate W; try discriminate E; cbn [c_child] in E.
  - destruct (c_state c) eqn:Sc; [|discriminate E]. destruct (nth_error l (N.to_nat tag)) as [y|] eqn:Nx; [|discriminate E]. injection E as <- <-.
    cbn [c_put_child c_child]. rewrite Sc, nth_set, Nat.eqb_refl, Nx, set_set. split; reflexivity.
  - destruct (c_state c) eqn:Sc; [|discriminate E]. destruct (assoc tag es) as [y|] eqn:Nx; [|discriminate E]. injection E as <- <-.
    cbn [c_put_child c_child]. rewrite Sc, assoc_c_put, N.eqb_refl, Nx, c_put_put. split; reflexivity.
  - destruct (assoc tag fs) as [[g d]|] eqn:A; [|discriminate E]. destruct (c_state d) eqn:Sd; [|discriminate E]. destruct (assoc tag fs0) as [y|] eqn:Nx; [|discriminate E]. injection E as <- <-.
    cbn [c_put_child c_child]. rewrite A, Sd, assoc_c_put, N.eqb_refl, Nx, c_put_put. split; reflexivity.
  - destruct (tag =? tag0) eqn:T; [|discriminate E]. destruct (assoc tag vs) as [fs'|] eqn:A; [|discriminate E]. injection E as <- <-.
    destruct x'; try discriminate X. cbn [c_put_child c_child]. rewrite T, A. split; reflexivity.
Qed.

Lemma modify_again (b : bool) op : op_oks op ->
  (forall c w w', cgen c = true -> c_state c = true -> cwt c w = true -> op c w = Ok w' -> op c w' = Ok w' \/ (b = true /\ op c w' = Panic)) ->
  forall path c w w', cgen c = true -> c_state c = true -> cwt c w = true -> c_modify c w path op = Ok w' ->
  c_modify c w' path op = Ok w' \/ (b = true /\ c_modify c w' path op = Panic).
Proof.
  intros Op H. induction path as [|tag path IH]; intros c w w' G S W E; cbn [c_modify] in *; [now apply (H c w)|].
  pose proof (c_child_oks c w tag G S W) as K. destruct (c_child c w tag) as [[[c' x]|]| | |] eqn:C; cbn [bind oks] in *; try discriminate E.
  - destruct K as (G' & S' & W' & _). pose proof (c_modify_oks op Op path c' x G' S' W') as M.
    destruct (c_modify c' x path op) as [x'| | |] eqn:Ex; cbn [bind oks] in *; try discriminate E. injection E as <-.
    destruct (child_again c w tag c' x x' G S W C M) as [-> Z]. cbn [bind]. destruct (IH c' x x' G' S' W' Ex) as [->|[-> ->]]; cbn [bind]; [left; now rewrite Z|now right].
  - injection E as <-. rewrite C. now left.
Qed.

Lemma c_update_again c p bs w w' : cgen c = true -> c_state c = true -> cwt c w = true -> Forall (fun n => n < 2 ^ 32) p ->
  c_handle c (EUpdate p bs) w = Ok w' -> c_handle c (EUpdate p bs) w' = Ok w'.
Proof.
  intros G S W Fp H. destruct p as [|n p]; [exact H|]. cbn [c_handle] in *.
  assert (La : last (n :: p) 0 < 2 ^ 32) by (rewrite Forall_forall in Fp; apply Fp, last_in; discriminate).
  destruct (modify_again false (c_replace_at (last (n :: p) 0) bs)) with (path := removelast (n :: p)) (c := c) (w := w) (w' := w') as [E|[Z _]]; try assumption; try discriminate Z.
  - now apply c_replace_oks.
  - clear - La. set (tag := last (n :: p) 0) in *. intros c w w' G S W E. left. destruct c; try discriminate S; destruct w; try discriminate W; cbn [c_replace_at] in E;
      try (injection E as <-; reflexivity).
    + destruct (lenN l <=? tag) eqn:L; [discriminate E|]. destruct (c_deser c bs) as [[x r]| | |] eqn:D; cbn [bind] in E; try discriminate E. injection E as <-. cbn [c_replace_at].
      assert (Ls : lenN (set_nth l (N.to_nat tag) x) = lenN l) by (unfold lenN; now rewrite set_nth_len). rewrite Ls, L. rewrite D. cbn [bind]. now rewrite set_set.
    + destruct (c_deser c bs) as [[x r]| | |] eqn:D; cbn [bind] in E; try discriminate E. injection E as <-. cbn [c_replace_at]. rewrite D. cbn [bind]. now rewrite ins_ins.
    + destruct (assoc tag fs) as [[g d]|] eqn:A; [|injection E as <-; cbn [c_replace_at]; now rewrite A].
      destruct (c_deser d bs) as [[x r]| | |] eqn:D; cbn [bind] in E; try discriminate E. injection E as <-. cbn [c_replace_at]. rewrite A, D. cbn [bind]. now rewrite c_put_put.
    + destruct (assoc tag vs) as [fs'|] eqn:A; [|injection E as <-; cbn [c_replace_at]; now rewrite A].
      destruct (c_deser (CStruct fs') bs) as [[x r]| | |] eqn:D; cbn [bind] in E; try discriminate E. destruct x; try discriminate E. injection E as <-. cbn [c_replace_at]. rewrite A, D. reflexivity.
Qed.

Lemma c_remove_again c p k w w' : cgen c = true -> c_state c = true -> cwt c w = true ->
  c_handle c (EMapRemove p k) w = Ok w' -> c_handle c (EMapRemove p k) w' = Ok w' \/ c_handle c (EMapRemove p k) w' = Panic.
Proof.
  intros G S W H. cbn [c_handle] in *. destruct (modify_again true (c_remove k) (c_remove_oks k)) with (path := p) (c := c) (w := w) (w' := w') as [E|[_ E]]; auto.
  clear. intros c w w' _ _ _ E. right. split; [reflexivity|]. destruct c; try discriminate E; destruct w; try discriminate E. cbn [c_remove] in E.
  destruct (assoc k es); [|discriminate E]. injection E as <-. cbn [c_remove]. enough (Z : assoc k (filter (fun e : N * cval => negb (fst e =? k)) es) = None) by now rewrite Z.
  induction es as [|[j y] es IH]; [reflexivity|]. cbn [filter fst]. destruct (N.eqb_spec j k) as [->|Ne]; cbn [negb]; [exact IH|]. cbn [assoc].
  destruct (N.eqb_spec k j); [congruence|exact IH].
Qed.

(** An update twice is that update once, in a client too; a second removal throws or does nothing. *)
Theorem c99_client_once : forall t c w w', ty_ok t = true -> state_ty t = true -> prim_under t = false -> cls t c = true -> cwt c w = true ->
  (forall p bs, Forall (fun n => n < 2 ^ 32) p -> c_handle c (EUpdate p bs) w = Ok w' -> c_handle c (EUpdate p bs) w' = Ok w') /\
  (forall p k, c_handle c (EMapRemove p k) w = Ok w' -> c_handle c (EMapRemove p k) w' = Ok w' \/ c_handle c (EMapRemove p k) w' = Panic).
Proof.
  intros t c w w' O S P C W. pose proof (cls_cgen t c O C) as G. pose proof (cls_state t c S C P) as St.
  split; intros; [now apply (c_update_again c p bs w)|now apply (c_remove_again c p k w)].
Qed.
Print Assumptions c99_client_once.

Lemma c_tried_again c k l l' : again k l l' -> cgen c = true -> c_state c = true -> Forall entry_ok l -> forall v w j, cwt c v = true ->
  c_all_tried c l v = Some (w, j) -> exists j', c_all_tried c l' v = Some (w, j') /\ (j = 0%nat -> (j' <= k)%nat).
Proof.
  intros A G S. assert (Sg : forall e, entry_ok e -> seg32 (epath e)) by (intros [p b|p b|p|p n] (Q & _); exact Q).
  induction A as [|k e l l' A IH|k p bs l l' A IH|k p n l l' A IH]; intros F v w j W H.
  - injection H as <- <-. exists 0%nat. split; [reflexivity|lia].
  - inversion F as [|? ? Fe Fl]; subst. cbn [c_all_tried] in *. pose proof (c_handle_oks c e v G S W (Sg e Fe)) as Q.
    destruct (c_handle c e v) as [v1|x| |]; cbn [oks] in Q; try discriminate H.
    + exact (IH Fl v1 w j Q H).
    + destruct (c_all_tried c l v) as [[w0 j0]|] eqn:E; [|discriminate H]. injection H as <- <-. destruct (IH Fl v w0 j0 W E) as (j' & -> & _).
      exists (Datatypes.S j'). split; [reflexivity|lia].
  - destruct (IH F v w j W H) as (j' & E & L). inversion F as [|? ? Fe Fl]; subst. pose proof (proj1 Fe) as Fp. cbn [entry_path] in Fp.
    cbn [c_all_tried] in E, H |- *. destruct (c_handle c (EUpdate p bs) v) as [v1|x| |] eqn:Hv; try discriminate H.
    + rewrite (c_update_again c p bs v v1 G S W Fp Hv). eauto.
    + destruct (c_all_tried c l' v) as [[w0 j0]|]; [|discriminate E]. injection E as -> <-. eexists. split; [reflexivity|].
      intros ->. destruct (c_all_tried c l v) as [[? ?]|]; discriminate H.
  - destruct (IH F v w j W H) as (j' & E & L). inversion F as [|? ? Fe Fl]; subst.
    cbn [c_all_tried] in E, H |- *. destruct (c_handle c (EMapRemove p n) v) as [v1|x| |] eqn:Hv; try discriminate H.
    + destruct (c_remove_again c p n v v1 G S W Hv) as [->| ->].
      * exists j'. split; [exact E|intros Z; specialize (L Z); lia].
      * rewrite E. eexists. split; [reflexivity|intros Z; specialize (L Z); lia].
    + destruct (c_all_tried c l' v) as [[w0 j0]|]; [|discriminate E]. injection E as -> <-. eexists. split; [reflexivity|].
      intros ->. destruct (c_all_tried c l v) as [[? ?]|]; discriminate H.
Qed.

Theorem c99_client : forall t c k l l' n n' w w' j, ty_ok t = true -> state_ty t = true -> prim_under t = false -> cls t c = true -> cwt c w = true ->
  Forall (fun e => entry_ok e /\ lenN (enc (entry_val e)) < 2 ^ 31) l -> again k l l' -> (length l < n)%nat -> (length l' < n')%nat ->
  c_keep_on n c w (concat (map entry_wire l)) = Some (w', j) ->
  exists j', c_keep_on n' c w (concat (map entry_wire l')) = Some (w', j') /\ (j = 0%nat -> (j' <= k)%nat).
Proof.
  intros t c k l l' n n' w w' j O S P C W F A Ln Ln' H. pose proof (again_in k l l' A _ F) as F'. rewrite c98_log in H by assumption. rewrite c98_log by assumption.
  apply (c_tried_again c k l l' A (cls_cgen t c O C) (cls_state t c S C P)) with (j := j); try assumption. clear - F. induction F as [|? ? [Oe _] _ IH]; constructor; assumption.
Qed.
Print Assumptions c99_client.

(** Pushes and pops are not like that, and a removal sent again later is not either. *)
Theorem c99_again_refuted :
  ~ (forall m t v w e n j, ty_ok t = true -> wt t v = true -> keep_on n m t v (entry_wire e) = Some (w, j) ->
     exists j', keep_on n m t v (entry_wire e ++ entry_wire e) = Some (w, j')) /\
  ~ (forall m t v w e e' n j, ty_ok t = true -> wt t v = true -> (exists p k, e = EMapRemove p k) -> keep_on n m t v (entry_wire e ++ entry_wire e') = Some (w, j) ->
     exists j', keep_on n m t v (entry_wire e ++ entry_wire e' ++ entry_wire e) = Some (w, j')).
Proof.
  split.
  - intros H. destruct (H Release (TList (TInt U8)) (VList ex_rt []) (VList ex_rt [VInt U8 7]) (EListPush [] [7]) 3%nat 0%nat eq_refl eq_refl eq_refl) as (j' & E).
    vm_compute in E. discriminate E.
  - intros H. destruct (H Release (TMap K8 (TInt U8)) (VMap ex_rt [(1, VInt U8 2)]) (VMap ex_rt [(1, VInt U8 3)]) (EMapRemove [] 1) (EUpdate [1] [3]) 3%nat 0%nat eq_refl eq_refl ltac:(eauto) eq_refl) as (j' & E).
    vm_compute in E. discriminate E.
Qed.
Print Assumptions c99_again_refuted.

Example c99_case :
  let u := EUpdate [3] [9] in let r := EMapRemove [] 1 in
  again 2 [u; r; EUpdate [1] [5]] [u; u; r; r; r; EUpdate [1] [5]] /\
  keep_on 9 Debug (TMap K8 (TInt U8)) (VMap ex_rt [(1, VInt U8 4)]) (concat (map entry_wire [u; u; r; r; r; EUpdate [1] [5]])) =
    Some (VMap ex_rt [(3, VInt U8 9); (1, VInt U8 5)], 2%nat) /\
  keep_on 9 Debug (TMap K8 (TInt U8)) (VMap ex_rt [(1, VInt U8 4)]) (concat (map entry_wire [u; r; EUpdate [1] [5]])) = Some (VMap ex_rt [(3, VInt U8 9); (1, VInt U8 5)], 0%nat) /\
  c_keep_on 9 (CMap (CInt U8)) (CVMap [(1, CVInt 4)]) (concat (map entry_wire [u; u; r; r; r; EUpdate [1] [5]])) = Some (CVMap [(3, CVInt 9); (1, CVInt 5)], 2%nat).
Proof. split; [apply AUpdate, ANext, ARemove, ARemove, ANext, ANext, ANil|]. vm_compute. repeat split. Qed.
