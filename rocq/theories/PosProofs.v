(** Lemmas for Pos.v. *)
From Verif Require Import Base Varint WireFmt Utf8 Types Ser Spec De Log State Pos ValInd VarintProofs WireProofs SerProofs
  TypeProofs EqProofs DeProofs RoundTrip MergeProofs LogProofs TreeProofs HandleProofs.

Definition with_rest (r : res bytes) (cs : bytes) : res bytes := match r with Ok _ => Ok cs | Err e => Err e | Panic => Panic | NoFuel => NoFuel end.
Definition ends {A} (r : res A) : Prop := match r with Ok _ | Err _ => True | _ => False end.

(** [lf] is what [f] leaves, and [f] does not look at it: other bytes in its place make no difference. *)
Definition stops {S} (f : S -> bytes -> S * res bytes) (lf : S -> bytes -> bytes) : Prop := forall s bs s' r, f s bs = (s', r) -> ends r ->
  (forall rest, r = Ok rest -> lf s bs = rest) /\
  exists p, bs = p ++ lf s bs /\ (lf s bs <> [] -> forall cs, cs <> [] -> f s (p ++ cs) = (s', with_rest r cs)).

Lemma uv_loop_change m bits : forall bs value off x rest, uv_de_loop m bits value off bs = Ok (x, rest) ->
  exists p, bs = p ++ rest /\ forall cs, uv_de_loop m bits value off (p ++ cs) = Ok (x, cs).
Proof.
  induction bs as [|b bs IH]; intros value off x rest H; [discriminate H|]. cbn [uv_de_loop] in H.
  assert (D : forall sh, (if N.land b 128 =? 0 then Ok (N.lor value (N.shiftl (N.land b 127) sh mod 2 ^ bits), bs)
      else uv_de_loop m bits (N.lor value (N.shiftl (N.land b 127) sh mod 2 ^ bits)) (off + 7) bs) = Ok (x, rest) ->
    exists p, b :: bs = (b :: p) ++ rest /\ forall cs, (if N.land b 128 =? 0 then Ok (N.lor value (N.shiftl (N.land b 127) sh mod 2 ^ bits), p ++ cs)
      else uv_de_loop m bits (N.lor value (N.shiftl (N.land b 127) sh mod 2 ^ bits)) (off + 7) (p ++ cs)) = Ok (x, cs)).
  { intros sh E. destruct (N.land b 128 =? 0); [inversion E; subst; exists []; split; reflexivity|].
    apply IH in E. destruct E as (p & -> & K). exists p. split; [reflexivity|exact K]. }
  destruct (off <? bits) eqn:L.
  - apply D in H. destruct H as (p & E & K). exists (b :: p). split; [exact E|]. intros cs. cbn [app uv_de_loop]. rewrite L. apply K.
  - destruct m; [discriminate H|]. apply D in H. destruct H as (p & E & K). exists (b :: p). split; [exact E|]. intros cs. cbn [app uv_de_loop]. rewrite L. apply K.
Qed.
Lemma uv_change m bits bs x rest : uv_deserialize m bits bs = Ok (x, rest) ->
  exists p, bs = p ++ rest /\ forall cs, uv_deserialize m bits (p ++ cs) = Ok (x, cs).
Proof. apply uv_loop_change. Qed.
Lemma bool_change : forall bs v x rest, bool_de_loop v bs = Ok (x, rest) ->
  exists p, bs = p ++ rest /\ forall cs, bool_de_loop v (p ++ cs) = Ok (x, cs).
Proof.
  induction bs as [|b bs IH]; intros v x rest H; [discriminate H|]. cbn [bool_de_loop] in H. destruct (N.land b 128 =? 0) eqn:L.
  - inversion H; subst. exists [b]. split; [reflexivity|]. intros cs. cbn [app bool_de_loop]. rewrite L. reflexivity.
  - apply IH in H. destruct H as (p & -> & K). exists (b :: p). split; [reflexivity|]. intros cs. cbn [app bool_de_loop]. rewrite L. apply K.
Qed.

Lemma nil_nil {A} (l : list A) : l = l ++ [].
Proof. symmetry. apply app_nil_r. Qed.
(** At the end there is nothing to say. *)
Ltac at_end := split; [intros; congruence|eexists; split; [apply nil_nil|intros ?; congruence]].

Lemma split_front {A} (q x cs : list A) n a b : splitN n (q ++ x) = (q ++ a, b) -> a <> [] -> cs <> [] ->
  exists a' b', splitN n (q ++ cs) = (q ++ a', b') /\ a' <> [] /\ cs = a' ++ b'.
Proof.
  revert n. induction q as [|y q IH]; intros n H Na Nc.
  - cbn [app] in *. destruct (splitN n cs) as [a' b'] eqn:E. exists a', b'. split; [reflexivity|]. split; [|now apply splitN_concat in E].
    destruct cs as [|c cs]; [congruence|]. intros ->. cbn [splitN] in E. destruct x as [|x0 x]; [cbn in H; inversion H; congruence|]. cbn [splitN] in H.
    destruct (n =? 0); [inversion H; congruence|]. destruct (splitN (n - 1) cs). discriminate E.
  - cbn [app splitN] in *. destruct (n =? 0); [discriminate H|].
    destruct (splitN (n - 1) (q ++ x)) as [u w] eqn:E. inversion H; subst. destruct (IH (n - 1) E Na Nc) as (a' & b' & E' & N' & C'). rewrite E'. exists a', b'. auto.
Qed.
Lemma split_back {A} (l : list A) n a b : splitN n l = (a, b) -> b <> [] -> forall cs, splitN n (a ++ cs) = (a, cs).
Proof.
  revert n a b. induction l as [|x l IH]; intros n a b H Nb cs; cbn [splitN] in H; [inversion H; congruence|].
  destruct (n =? 0) eqn:Z; [inversion H; subst; apply N.eqb_eq in Z; subst; destruct cs; reflexivity|].
  destruct (splitN (n - 1) l) as [u w] eqn:E. inversion H; subst. cbn [app splitN]. rewrite Z, (IH _ _ _ E Nb cs). reflexivity.
Qed.

Lemma skip_stops m w : stops (fun (v : unit) bs => (v, rd_skip_field m w bs)) (fun _ bs => skipL m w bs).
Proof.
  intros s bs s' r E R. inversion E; subst. unfold skipL. split; [intros rest ->; reflexivity|].
  destruct (rd_skip_field m w bs) as [rest|e| |] eqn:K; try (exists bs; split; [apply nil_nil|congruence]); try contradiction R.
  unfold rd_skip_field in *. destruct w.
  - destruct (uv_deserialize m 8 bs) as [[x r]|e| |] eqn:U; try discriminate K. inversion K; subst. apply uv_change in U. destruct U as (p & -> & U).
    exists p. split; [reflexivity|]. intros _ cs _. rewrite U. reflexivity.
  - destruct (uv_deserialize m 64 bs) as [[x r]|e| |] eqn:U; try discriminate K. cbn [bind] in K. destruct (x <? 2 ^ 63) eqn:Z; try discriminate K.
    apply uv_change in U. destruct U as (p & -> & U). destruct (splitN x r) as [a b] eqn:Sp. cbn [snd] in *. inversion K; subst.
    pose proof (splitN_concat _ _ _ _ Sp) as ->. exists (p ++ a). split; [apply app_assoc|]. intros Nb cs Nc. rewrite <- app_assoc, U. cbn [bind]. rewrite Z.
    rewrite (split_back _ _ _ _ Sp Nb cs). reflexivity.
Qed.

Lemma nested_stops m tw mg lf w : stops mg lf -> stops (merge_nested m tw mg w) (merge_nestedL m tw lf w).
Proof.
  intros H v bs v' r E R. unfold merge_nested, merge_nestedL in *. destruct (negb (wtype_eqb w tw)).
  - destruct (skip_stops m w tt bs tt r) as [A (p & B & C)]; [inversion E; reflexivity|exact R|]. inversion E; subst. split; [exact A|]. exists p. split; [exact B|].
    intros N cs Nc. specialize (C N cs Nc). congruence.
  - destruct w; [exact (H v bs v' r E R)|]. unfold rd_nested in *.
    destruct (uv_deserialize m 64 bs) as [[n x]|e| |] eqn:U; cbn [bind try] in *; try (inversion E; subst; at_end); try (inversion E; subst; contradiction R).
    apply uv_change in U. destruct U as (h & -> & U). destruct (splitN n x) as [sub rest] eqn:Sp. cbn [try] in *.
    destruct (mg v sub) as [v1 r1] eqn:M. inversion E; subst. clear E. assert (R1 : ends r1) by (destruct r1; exact R).
    destruct (H v sub v' r1 M R1) as [A (q & B & C)]. split.
    { intros rest' E. destruct r1 as [r1|e| |]; try discriminate E. inversion E; subst. rewrite (A r1 eq_refl). reflexivity. }
    pose proof (splitN_concat _ _ _ _ Sp) as Ex.
    exists (h ++ q). split; [rewrite Ex, B at 1; rewrite !app_assoc; reflexivity|]. intros N cs Nc. rewrite <- app_assoc, U. cbn [bind try].
    destruct (lf v sub) as [|b l] eqn:L.
    + cbn [app] in N. rewrite app_nil_r in B. subst q. rewrite (split_back _ _ _ _ Sp N cs). cbn [try]. rewrite M.
      destruct r1 as [r1|e| |]; try reflexivity. cbn [bind with_rest]. rewrite <- (A r1 eq_refl). reflexivity.
    + assert (Nl : b :: l <> []) by discriminate. rewrite B in Ex, Sp. rewrite Ex in Sp. rewrite <- !app_assoc in Sp.
      destruct (split_front q _ cs n (b :: l) rest Sp Nl Nc) as (a' & b' & S2 & Na & Ec). rewrite S2. cbn [try]. rewrite (C Nl a' Na).
      destruct r1 as [r1|e| |]; try reflexivity. cbn [bind with_rest]. rewrite Ec. reflexivity.
Qed.

(** The same for functions that return what they read. *)
Definition reads {A} (f : bytes -> res (A * bytes)) (lf : bytes -> bytes) : Prop := forall bs, ends (f bs) ->
  (forall x rest, f bs = Ok (x, rest) -> lf bs = rest) /\
  exists p, bs = p ++ lf bs /\ (lf bs <> [] -> forall cs, cs <> [] -> f (p ++ cs) = match f bs with Ok (x, _) => Ok (x, cs) | r => r end).

Lemma de_nested_reads m tw mg lf d : stops mg lf -> reads (de_nested m tw mg d) (merge_nestedL m tw lf tw d).
Proof.
  intros H bs R. unfold de_nested in *. destruct (merge_nested m tw mg tw d bs) as [v r] eqn:E.
  destruct (nested_stops m tw mg lf tw H d bs v r E) as [A (p & B & C)]; [destruct r; exact R|]. split.
  - intros x rest K. destruct r; try discriminate K. inversion K; subst. apply A. reflexivity.
  - exists p. split; [exact B|]. intros N cs Nc. rewrite (C N cs Nc). destruct r; reflexivity.
Qed.

(** Loops. *)
Lemma loopL_fuel {S} (step : S -> bytes -> S * res bytes) lf : consuming step -> forall n k s bs, (length bs <= n)%nat -> (length bs <= k)%nat ->
  loopL n step lf s bs = loopL k step lf s bs.
Proof.
  intros C. induction n as [|n IH]; intros k s bs Ln Lk; destruct bs as [|b bs]; try (destruct k; reflexivity); [cbn in Ln; lia|].
  destruct k as [|k]; [cbn in Lk; lia|]. cbn [loopL]. destruct (step s (b :: bs)) as [s' [rest|e| |]] eqn:E; try reflexivity.
  apply C in E. cbn [length] in *. apply IH; lia.
Qed.
Lemma runL_step {S} (step : S -> bytes -> S * res bytes) lf s bs : consuming step -> bs <> [] ->
  runL step lf s bs = match step s bs with (s', Ok rest) => runL step lf s' rest | _ => lf s bs end.
Proof.
  intros C H. unfold runL. destruct bs as [|b bs]; [congruence|]. cbn [length loopL]. destruct (step s (b :: bs)) as [s' [rest|e| |]] eqn:E; try reflexivity.
  apply C in E. cbn [length] in E. apply loopL_fuel; [exact C|lia|lia].
Qed.
Lemma run_stops {S} (step : S -> bytes -> S * res bytes) lf : consuming step -> stops step lf -> stops (run step) (runL step lf).
Proof.
  intros C H s bs. remember (length bs) as n eqn:L. assert (B : (length bs <= n)%nat) by lia. clear L. revert s bs B.
  induction n as [|n IH]; intros s bs Ln s' r E R.
  - destruct bs; [|cbn in Ln; lia]. inversion E; subst. change (runL step lf s' []) with (@nil N). at_end.
  - destruct bs as [|b bs]; [inversion E; subst; change (runL step lf s' []) with (@nil N); at_end|]. set (w := b :: bs) in *.
    assert (Nw : w <> []) by discriminate. rewrite (run_step step s w C Nw) in E. rewrite (runL_step step lf s w C Nw).
    destruct (step s w) as [s1 r1] eqn:K. destruct r1 as [rest|e| |]; cbn [try] in E; try (inversion E; subst; contradiction R).
    + pose proof (C _ _ _ _ K) as Lr. destruct (H s w s1 (Ok rest) K I) as [A (p & Ew & X)]. specialize (A rest eq_refl). rewrite A in *.
      destruct (IH s1 rest ltac:(lia) s' r E R) as [A' (p' & Er & X')]. split; [exact A'|]. exists (p ++ p'). split; [rewrite <- app_assoc, <- Er; exact Ew|].
      intros N cs Nc. assert (Nr : rest <> []) by (rewrite Er; intros Z; apply app_eq_nil in Z; tauto).
      assert (Np : p' ++ cs <> []) by (intros Z; apply app_eq_nil in Z; tauto).
      rewrite <- app_assoc. rewrite run_step; [|exact C|intros Z; apply app_eq_nil in Z; tauto]. rewrite (X Nr _ Np). cbn [with_rest try]. apply X'; assumption.
    + inversion E; subst. destruct (H s w s' (Err e) K I) as [A (p & Ew & X)]. split; [congruence|]. exists p. split; [exact Ew|]. intros N cs Nc.
      rewrite run_step; [|exact C|intros Z; apply app_eq_nil in Z; tauto]. rewrite (X N cs Nc). reflexivity.
Qed.

(** ** The steps *)

Lemma opt_stops m tw mg lf d : stops mg lf -> stops (opt_step m tw mg d) (opt_stepL m tw lf d).
Proof.
  intros H o bs o' r E R. unfold opt_step, opt_stepL in *. destruct (merge_nested m tw mg tw _ bs) as [x r1] eqn:M. inversion E; subst.
  destruct (nested_stops m tw mg lf tw H _ bs x r M R) as [A (p & B & C)]. split; [exact A|]. exists p. split; [exact B|]. intros N cs Nc. rewrite (C N cs Nc). reflexivity.
Qed.
Lemma vec_stops m tw mg lf d : stops mg lf -> stops (vec_step m tw mg d) (vec_stepL m tw lf d).
Proof.
  intros H l bs l' r E R. unfold vec_step, vec_stepL in *. pose proof (de_nested_reads m tw mg lf d H bs) as K.
  destruct (de_nested m tw mg d bs) as [[x rest]|e| |]; cbn [try] in E; inversion E; subst; try contradiction R; destruct (K I) as [A (p & B & C)].
  - split; [intros rest' Q; inversion Q; subst; exact (A x rest' eq_refl)|]. exists p. split; [exact B|]. intros N cs Nc. rewrite (C N cs Nc). reflexivity.
  - split; [congruence|]. exists p. split; [exact B|]. intros N cs Nc. rewrite (C N cs Nc). reflexivity.
Qed.
Lemma hash_stops m kw kmg klf kd vw vmg vlf vd : stops kmg klf -> stops vmg vlf -> stops (hash_step m kw kmg kd vw vmg vd) (hash_stepL m kw kmg klf kd vw vlf vd).
Proof.
  intros Hk Hv l bs l' r E R. unfold hash_step, hash_stepL in *. pose proof (de_nested_reads m kw kmg klf kd Hk bs) as K.
  destruct (de_nested m kw kmg kd bs) as [[x rest]|e| |]; cbn [try] in E; try (inversion E; subst; contradiction R).
  2:{ inversion E; subst. destruct (K I) as [A (p & B & C)]. split; [congruence|]. exists p. split; [exact B|]. intros N cs Nc. rewrite (C N cs Nc). reflexivity. }
  destruct (K I) as [A (p & B & C)]. clear K. specialize (A x rest eq_refl). rewrite A in *.
  pose proof (de_nested_reads m vw vmg vlf vd Hv rest) as K. destruct (de_nested m vw vmg vd rest) as [[y rest2]|e| |] eqn:V; cbn [try] in E; inversion E; subst l' r; try contradiction R;
    destruct (K I) as [A2 (p2 & B2 & C2)]; (split; [first [congruence|intros rest' Q; inversion Q; subst; exact (A2 y rest' eq_refl)]|]); exists (p ++ p2);
    (split; [rewrite <- app_assoc, <- B2; exact B|]); intros N cs Nc;
    (assert (Nr : rest <> []) by (rewrite B2; intros Z; apply app_eq_nil in Z; tauto));
    (assert (Np : p2 ++ cs <> []) by (intros Z; apply app_eq_nil in Z; tauto)); rewrite <- app_assoc, (C Nr _ Np); cbn [try]; rewrite (C2 N cs Nc); reflexivity.
Qed.
Lemma list_stops m tw mg lf fr : stops mg lf -> stops (list_step m tw mg fr) (list_stepL m tw lf fr).
Proof.
  intros H l bs l' r E R. unfold list_step, list_stepL in *. destruct (merge_nested m tw mg tw _ bs) as [x r1] eqn:M.
  assert (R1 : ends r1) by (destruct r1; cbn [try] in E; inversion E; subst; exact R).
  destruct (nested_stops m tw mg lf tw H _ bs x r1 M R1) as [A (p & B & C)]. split.
  - intros rest Q. subst r. destruct r1; cbn [try] in E; inversion E; subst. apply A. reflexivity.
  - exists p. split; [exact B|]. intros N cs Nc. rewrite (C N cs Nc). destruct r1; cbn [try with_rest] in *; inversion E; subst; reflexivity.
Qed.
Lemma map_stops m k tw mg lf fr : stops mg lf -> stops (map_step m k tw mg fr) (map_stepL m k tw lf fr).
Proof.
  intros H es bs es' r E R. unfold map_step, map_stepL in *. destruct (uv_deserialize m 32 bs) as [[n x]|e| |] eqn:U; cbn [try] in E; try (inversion E; subst; first [contradiction R|at_end]).
  apply uv_change in U. destruct U as (h & -> & U).
  assert (Bad : forall e, (es, Err e) = (es', r) -> (forall cs, try es (parse_tag n) (fun '(fn, _) => try es (validate_field_number fn) (fun _ => try es (key_of_fn k fn) (fun _ =>
      match assoc fn es with Some y => let '(x', c) := merge_nested m tw mg tw y cs in (im_insert fn x' es, c)
      | None => let '(y, c) := merge_nested m tw mg tw (fr fn) cs in try es c (fun rest => (im_insert fn y es, Ok rest)) end))) = (es, Err e)) ->
    (forall rest, r = Ok rest -> x = rest) /\ exists p, h ++ x = p ++ x /\ (x <> [] -> forall cs, cs <> [] ->
      try es (uv_deserialize m 32 (p ++ cs)) (fun '(n, rest) => try es (parse_tag n) (fun '(fn, _) => try es (validate_field_number fn) (fun _ => try es (key_of_fn k fn) (fun _ =>
      match assoc fn es with Some y => let '(x', c) := merge_nested m tw mg tw y rest in (im_insert fn x' es, c)
      | None => let '(y, c) := merge_nested m tw mg tw (fr fn) rest in try es c (fun rest => (im_insert fn y es, Ok rest)) end)))) = (es', with_rest r cs))).
  { intros e Q K. inversion Q; subst. split; [congruence|]. exists h. split; [reflexivity|]. intros _ cs _. rewrite U. cbn [try]. apply K. }
  destruct (parse_tag n) as [[fn w]|e| |] eqn:P; cbn [try bind] in *; try (inversion E; subst; contradiction R); [|apply (Bad e E); reflexivity].
  destruct (validate_field_number fn) as [u|e| |] eqn:V; cbn [try bind] in *; try (inversion E; subst; contradiction R); [|apply (Bad e E); reflexivity].
  destruct (key_of_fn k fn) as [u'|e| |] eqn:Kf; cbn [try bind] in *; try (inversion E; subst; contradiction R); [|apply (Bad e E); reflexivity].
  clear Bad.
  destruct (assoc fn es) as [y|] eqn:As.
  - destruct (merge_nested m tw mg tw y x) as [x' r1] eqn:M. inversion E; subst. destruct (nested_stops m tw mg lf tw H y x x' r M R) as [A (p & B & C)].
    split; [exact A|]. exists (h ++ p). split; [rewrite <- app_assoc, <- B; reflexivity|]. intros N cs Nc. rewrite <- app_assoc, U. cbn [try]. rewrite P. cbn [try]. rewrite V. cbn [try]. rewrite Kf. cbn [try].
    rewrite As, (C N cs Nc). reflexivity.
  - destruct (merge_nested m tw mg tw (fr fn) x) as [x' r1] eqn:M. assert (R1 : ends r1) by (destruct r1; cbn [try] in E; inversion E; subst; exact R).
    destruct (nested_stops m tw mg lf tw H _ x x' r1 M R1) as [A (p & B & C)]. split.
    + intros rest Q. subst r. destruct r1; cbn [try] in E; inversion E; subst. apply A. reflexivity.
    + exists (h ++ p). split; [rewrite <- app_assoc, <- B; reflexivity|]. intros N cs Nc. rewrite <- app_assoc, U. cbn [try]. rewrite P. cbn [try]. rewrite V. cbn [try]. rewrite Kf. cbn [try].
      rewrite As, (C N cs Nc). destruct r1; cbn [try with_rest] in *; inversion E; subst; reflexivity.
Qed.

Definition field_stops (a : N * (wtype * merger)) (b : N * (wtype * lefter)) : Prop :=
  fst a = fst b /\ fst (snd a) = fst (snd b) /\ stops (snd (snd a)) (snd (snd b)).
Lemma field_stop m ms ls : Forall2 field_stops ms ls -> forall fn w, stops (fun fs bs => merge_field m ms fs fn w bs) (fun fs bs => merge_fieldL m ls fs fn w bs).
Proof.
  induction 1 as [|[tag [tw mg]] [tag' [tw' lf]] ms ls (E1 & E2 & H) F IH]; intros fn w fs bs fs' r E R; destruct fs as [|[fi x] fs]; cbn [merge_field merge_fieldL] in *;
    try (inversion E; subst; contradiction R).
  - inversion E; subst. destruct (skip_stops m w tt bs tt _ eq_refl R) as [A (p & B & C)]. split; [exact A|]. exists p. split; [exact B|]. intros N cs Nc. specialize (C N cs Nc). congruence.
  - cbn [fst snd] in *. subst tag' tw'. destruct (fn =? tag) eqn:Q.
    + destruct (merge_nested m tw mg w x bs) as [x' r1] eqn:M. inversion E; subst. destruct (nested_stops m tw mg lf w H x bs x' r M R) as [A (p & B & C)].
      split; [exact A|]. exists p. split; [exact B|]. intros N cs Nc. cbn [merge_field]. rewrite (C N cs Nc). reflexivity.
    + destruct (merge_field m ms fs fn w bs) as [fs2 r1] eqn:M. inversion E; subst. destruct (IH fn w fs bs fs2 r M R) as [A (p & B & C)].
      split; [exact A|]. exists p. split; [exact B|]. intros N cs Nc. cbn [merge_field]. rewrite (C N cs Nc). reflexivity.
Qed.
Lemma struct_stops m ms ls : Forall2 field_stops ms ls -> stops (struct_step m ms) (struct_stepL m ls).
Proof.
  intros F fs bs fs' r E R. unfold struct_step, struct_stepL, rd_tag in *. destruct (uv_deserialize m 32 bs) as [[n x]|e| |] eqn:U; cbn [bind try] in *;
    try (inversion E; subst; first [contradiction R|at_end]).
  apply uv_change in U. destruct U as (h & -> & U). destruct (parse_tag n) as [[fn w]|e| |] eqn:P; cbn [try bind] in *; try (inversion E; subst; contradiction R).
  - destruct (field_stop m ms ls F fn w fs x fs' r E R) as [A (p & B & C)]. split; [exact A|]. exists (h ++ p). split; [rewrite <- app_assoc, <- B; reflexivity|].
    intros N cs Nc. rewrite <- app_assoc, U. cbn [bind try]. rewrite P. cbn [bind try]. apply C; assumption.
  - inversion E; subst. split; [congruence|]. exists h. split; [reflexivity|]. intros _ cs _. rewrite U. cbn [bind]. rewrite P. reflexivity.
Qed.

(** Arrays and tuples. *)
Lemma arr_stops m tw mg lf d : stops mg lf -> stops (arr_loop m tw mg d) (arr_loopL m tw mg lf d).
Proof.
  intros H l. induction l as [|x l IH]; intros bs l' r E R; [cbn in *; inversion E; subst; split; [congruence|]; exists []; split; [reflexivity|]; intros; reflexivity|].
  destruct bs as [|b bs]; [cbn in *; inversion E; subst; at_end|]. set (w := b :: bs) in *.
  assert (Un : forall w : bytes, w <> [] -> arr_loop m tw mg d (x :: l) w = try (x :: l) (de_nested m tw mg d w) (fun '(y, rest) => let '(l2, c) := arr_loop m tw mg d l rest in (y :: l2, c)))
    by (intros [|c0 w0] Nw; [congruence|reflexivity]).
  rewrite Un in E by discriminate.
  change (arr_loopL m tw mg lf d (x :: l) w) with (match de_nested m tw mg d w with Ok (_, rest) => arr_loopL m tw mg lf d l rest | _ => merge_nestedL m tw lf tw d w end).
  pose proof (de_nested_reads m tw mg lf d H w) as K. destruct (de_nested m tw mg d w) as [[y rest]|e| |]; cbn [try] in E; try (inversion E; subst; contradiction R).
  - destruct (K I) as [A (p & B & C)]. specialize (A y rest eq_refl). rewrite A in *. destruct (arr_loop m tw mg d l rest) as [l2 r1] eqn:L. injection E as <- ->.
    destruct (IH rest l2 r L R) as [A2 (p2 & B2 & C2)]. split; [exact A2|]. exists (p ++ p2). split; [rewrite <- app_assoc, <- B2; exact B|]. intros N cs Nc.
    assert (Nr : rest <> []) by (rewrite B2; intros Z; apply app_eq_nil in Z; tauto). assert (Np : p2 ++ cs <> []) by (intros Z; apply app_eq_nil in Z; tauto).
    rewrite <- app_assoc, Un by (intros Z; apply app_eq_nil in Z; tauto). rewrite (C Nr _ Np). cbn [try]. rewrite (C2 N cs Nc). reflexivity.
  - inversion E; subst. destruct (K I) as [A (p & B & C)]. split; [congruence|]. exists p. split; [exact B|]. intros N cs Nc.
    rewrite Un by (intros Z; apply app_eq_nil in Z; tauto). rewrite (C N cs Nc). reflexivity.
Qed.
Lemma tup_reads m ts : Forall (fun t => stops (merge m t) (mergeL m t)) ts ->
  reads (tup_read m (map (fun t => ((wty t, merge m t), dflt t rt_default)) ts)) (tup_readL m (map (fun t => ((wty t, (merge m t, mergeL m t)), dflt t rt_default)) ts)).
Proof.
  induction 1 as [|t ts H F IH]; intros bs R.
  - cbn in *. split; [congruence|]. exists []. split; [reflexivity|]. intros; reflexivity.
  - cbn [map tup_read tup_readL] in *. pose proof (de_nested_reads m (wty t) (merge m t) (mergeL m t) (dflt t rt_default) H bs) as K.
    destruct (de_nested m (wty t) (merge m t) (dflt t rt_default) bs) as [[x rest]|e| |] eqn:D; cbn [bind] in *; try contradiction R.
    + destruct (K I) as [A (p & B & C)]. specialize (A x rest eq_refl). rewrite A in *. specialize (IH rest).
      destruct (tup_read m _ rest) as [[l rest2]|e| |] eqn:L; cbn [bind] in *; try contradiction R; destruct (IH I) as [A2 (p2 & B2 & C2)];
        (split; [first [congruence|intros x2 r2 Q; inversion Q; subst; exact (A2 l r2 eq_refl)]|]); exists (p ++ p2);
        (split; [rewrite <- app_assoc, <- B2; exact B|]); intros N cs Nc;
        (assert (Nr : rest <> []) by (rewrite B2; intros Z; apply app_eq_nil in Z; tauto));
        (assert (Np : p2 ++ cs <> []) by (intros Z; apply app_eq_nil in Z; tauto)); rewrite <- app_assoc, (C Nr _ Np); cbn [bind]; rewrite (C2 N cs Nc); reflexivity.
    + destruct (K I) as [A (p & B & C)]. split; [congruence|]. exists p. split; [exact B|]. intros N cs Nc. rewrite (C N cs Nc). reflexivity.
Qed.

(** ** All types *)

Lemma flefters_stops m fts : Forall (fun p : finfo * ty => stops (merge m (snd p)) (mergeL m (snd p))) fts -> Forall2 field_stops (fmergers m fts) (flefters m fts).
Proof. unfold fmergers, flefters. induction 1 as [|[fi t] fts H F IH]; [constructor|]. cbn [map]. constructor; [|exact IH]. split; [reflexivity|]. split; [reflexivity|exact H]. Qed.

Lemma wrap_stops {S} (f : S -> bytes -> S * res bytes) lf (g : S -> val) : stops f lf -> forall s bs v' r,
  (let '(x, c) := f s bs in (g x, c)) = (v', r) -> ends r ->
  (forall rest, r = Ok rest -> lf s bs = rest) /\
  exists p, bs = p ++ lf s bs /\ (lf s bs <> [] -> forall cs, cs <> [] -> (let '(x, c) := f s (p ++ cs) in (g x, c)) = (v', with_rest r cs)).
Proof.
  intros H s bs v' r E R. destruct (f s bs) as [x c] eqn:F. inversion E; subst. destruct (H s bs x r F R) as [A (p & B & C)].
  split; [exact A|]. exists p. split; [exact B|]. intros N cs Nc. rewrite (C N cs Nc). reflexivity.
Qed.

Lemma mergeL_enum m st vs tag c r fs bs :
  mergeL m (TEnum st vs) (VEnum tag c r fs) bs =
  match uv_deserialize m 32 bs with
  | Ok (tag', rest) =>
      match find_variant vs tag' with
      | None => rest
      | Some va =>
          match (if tag =? tag' then Ok (VEnum tag c r fs) else do p <- enum_parent r; Ok (variant_ctor st va p)) with
          | Ok (VEnum _ _ _ fs1) => runL (struct_step m (fmergers m (snd va))) (struct_stepL m (flefters m (snd va))) fs1 rest
          | _ => rest
          end
      end
  | _ => []
  end.
Proof.
  cbn [mergeL]. destruct (uv_deserialize m 32 bs) as [[tag' rest]| | |]; try reflexivity.
  induction vs as [|[[vt vc] fts] vs IH]; [reflexivity|]. unfold find_variant in *. cbn [find fst snd]. rewrite (N.eqb_sym vt tag').
  destruct (tag' =? vt); [reflexivity|]. exact IH.
Qed.

Lemma merge_stops m t : stops (merge m t) (mergeL m t).
Proof.
  induction t as [k| | | |t IH|t IH|n t IH|ts IH|kt t IHk IHt|t IH|si fs IH|st vs IH|t IH|k t IH] using ty_ind'; intros v bs v' r E R;
    destruct v as [k' z|b|s|s|o|l|l|l|l|y|c r0 l|tag c r0 l|r0 l|r0 es]; try (cbn in E; inversion E; subst; contradiction R).
  - cbn [merge mergeL] in *. destruct (ikind_eqb k k'); [|inversion E; subst; contradiction R]. unfold int_deserialize in *.
    destruct (uv_deserialize m (ibits k) bs) as [[u rest]|e| |] eqn:U; cbn [bind try after] in *; inversion E; subst; try contradiction R; [|at_end].
    apply uv_change in U. destruct U as (p & -> & U). split; [congruence|]. exists p. split; [reflexivity|]. intros _ cs _. rewrite U. reflexivity.
  - cbn [merge mergeL] in *. unfold bool_deserialize in *.
    destruct (bool_de_loop false bs) as [[u rest]|e| |] eqn:U; cbn [bind try after] in *; inversion E; subst; try contradiction R; [|at_end].
    apply bool_change in U. destruct U as (p & -> & U). split; [congruence|]. exists p. split; [reflexivity|]. intros _ cs _. rewrite U. reflexivity.
  - cbn [merge mergeL] in *. destruct (utf8_valid bs); inversion E; subst; at_end.
  - cbn [merge mergeL] in *. inversion E; subst; at_end.
  - cbn [merge mergeL] in *. apply (wrap_stops _ _ VOpt (run_stops _ _ (opt_step_consuming m _ _ _ (merge_suf m t)) (opt_stops m _ _ _ _ IH)) o bs v' r E R).
  - cbn [merge mergeL] in *. apply (wrap_stops _ _ VVec (run_stops _ _ (vec_step_consuming m _ _ _ (merge_suf m t)) (vec_stops m _ _ _ _ IH)) l bs v' r E R).
  - cbn [merge mergeL] in *. destruct (arr_loop m (wty t) (merge m t) (dflt t rt_default) l bs) as [l2 r1] eqn:L.
    assert (R1 : ends r1) by (destruct r1; inversion E; subst; exact R).
    destruct (arr_stops m (wty t) (merge m t) (mergeL m t) (dflt t rt_default) IH l bs l2 r1 L R1) as [A (p & B & C)].
    destruct r1 as [rest|e| |]; inversion E; subst; try contradiction R; [at_end|].
    split; [congruence|]. exists p. split; [exact B|]. intros N cs Nc. rewrite (C N cs Nc). reflexivity.
  - cbn [merge mergeL] in *. pose proof (tup_reads m ts IH bs) as K.
    destruct (tup_read m (map (fun t => ((wty t, merge m t), dflt t rt_default)) ts) bs) as [[l2 rest]|e| |]; cbn [try] in E; inversion E; subst; try contradiction R; [at_end|].
    destruct (K I) as [A (p & B & C)]. split; [congruence|]. exists p. split; [exact B|]. intros N cs Nc. rewrite (C N cs Nc). reflexivity.
  - cbn [merge mergeL] in *. apply (wrap_stops _ _ VHash (run_stops _ _ (hash_step_consuming m _ _ _ _ _ _ (merge_suf m kt) (merge_suf m t)) (hash_stops m _ _ _ _ _ _ _ _ IHk IHt)) l bs v' r E R).
  - cbn [merge mergeL] in *. apply (wrap_stops _ _ VBox IH y bs v' r E R).
  - cbn [merge mergeL] in *. apply (wrap_stops _ _ (VStruct c r0) (run_stops _ _ (struct_consuming m fs) (struct_stops m _ _ (flefters_stops m fs IH))) l bs v' r E R).
  - rewrite merge_enum in E. rewrite mergeL_enum.
    destruct (uv_deserialize m 32 bs) as [[n x]|e| |] eqn:U; cbn [try] in *; try (inversion E; subst; first [contradiction R|at_end]).
    apply uv_change in U. destruct U as (h & -> & U).
    destruct (find_variant vs n) as [va|] eqn:V.
    2:{ inversion E; subst. split; [congruence|]. exists h. split; [reflexivity|]. intros _ cs _. rewrite merge_enum, U. cbn [try]. rewrite V. reflexivity. }
    assert (IHv : Forall (fun p : finfo * ty => stops (merge m (snd p)) (mergeL m (snd p))) (snd va)) by (apply find_variant_in in V; rewrite Forall_forall in IH; exact (IH _ (proj1 V))).
    destruct (if tag =? n then Ok (VEnum tag c r0 l) else do p <- enum_parent r0; Ok (variant_ctor st va p)) as [v1|e| |] eqn:K; cbn [try] in *; try (inversion E; subst; contradiction R).
    + destruct v1 as [| | | | | | | | | | |tag1 c1 r1 fs1| |]; try (inversion E; subst; contradiction R).
      destruct (wrap_stops _ _ (VEnum tag1 c1 r1) (run_stops _ _ (struct_consuming m (snd va)) (struct_stops m _ _ (flefters_stops m _ IHv))) fs1 x v' r E R) as [A (p & B & C)].
      split; [exact A|]. exists (h ++ p). split; [rewrite <- app_assoc, <- B; reflexivity|]. intros N cs Nc. rewrite merge_enum, <- app_assoc, U. cbn [try]. rewrite V, K. cbn [try]. apply C; assumption.
    + inversion E; subst. split; [congruence|]. exists h. split; [reflexivity|]. intros _ cs _. rewrite merge_enum, U. cbn [try]. rewrite V, K. reflexivity.
  - cbn [merge mergeL] in *. apply (wrap_stops _ _ (VList r0) (run_stops _ _ (list_step_consuming m _ _ _ (merge_suf m t)) (list_stops m _ _ _ _ IH)) l bs v' r E R).
  - cbn [merge mergeL] in *. apply (wrap_stops _ _ (VMap r0) (run_stops _ _ (map_step_consuming m _ _ _ _ (merge_suf m t)) (map_stops m _ _ _ _ _ IH)) es bs v' r E R).
Qed.
