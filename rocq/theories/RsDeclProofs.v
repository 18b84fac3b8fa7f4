(** Lemmas for the code generated for a declaration. *)
From Verif Require Import Base Varint WireFmt Types Ser Spec De Hash Log State StateSpec ValInd TypeProofs SerProofs DeProofs RoundTrip MergeProofs NormProofs LogProofs HandleProofs ReplayProofs
  Meta Gen RsGen RsRun RsSpec RsProofs PropDe Derive DeriveProofs RsDecl.
From Coq Require Import String.
Import String.StringSyntax.
Local Open Scope string_scope.
Local Open Scope list_scope.
Local Open Scope N_scope.

(** ** Shapes *)

Lemma number_snd l : forall i, map snd (number i l) = map snd l.
Proof. induction l as [|[n fi] l IH]; intros i; [reflexivity|]. cbn. now rewrite IH. Qed.
Lemma combine_snd {A B} (a : list A) : forall (b : list B), List.length a = List.length b -> map snd (combine a b) = b.
Proof. induction a as [|x a IH]; intros [|y b] H; try easy. cbn. f_equal. apply IH. now injection H. Qed.
Lemma combine_fst {A B} (a : list A) : forall (b : list B), List.length a = List.length b -> map fst (combine a b) = a.
Proof. induction a as [|x a IH]; intros [|y b] H; try easy. cbn. f_equal. apply IH. now injection H. Qed.
Lemma attach_snd fs r : List.length r = List.length (bare fs) -> map snd (dfields (attach fs r)) = r.
Proof.
  intros L. unfold dfields. rewrite number_snd. destruct fs as [l|l|]; cbn [attach bare] in *.
  - rewrite map_map. cbn [snd]. rewrite map_length in L. apply combine_snd. now rewrite map_length.
  - rewrite map_map. cbn [snd]. apply map_id.
  - now destruct r.
Qed.
Lemma parse_fields_length st res fs : match snd (parse_fields st res fs) with Some r => List.length r = List.length fs | None => True end.
Proof.
  unfold parse_fields. destruct (fields_loop st res [] fs) as [[es r] u]. cbn [snd].
  destruct (Nat.eqb (List.length r) (List.length fs)) eqn:E; [|exact I]. destruct u; [|exact I]. cbn. now apply Nat.eqb_eq.
Qed.

Definition struct_shape (d : dstruct) : list finfo * bool := (map snd (ds_fields d), is_some (ds_cache d)).
Lemma struct_code_shape st se ns v fs : rs_size_cache se = st_size_cache st ->
  option_map struct_shape (struct_code st se ns v fs) = snd (Derive.parse_struct st ns (bare fs)).
Proof.
  intros E. unfold struct_code, Derive.parse_struct. destruct (parse_metas struct_table true no_slots ns) as [[s es] u].
  pose proof (parse_fields_length st (sl_ints s) (bare fs)) as L. destruct (parse_fields st (sl_ints s) (bare fs)) as [e o]. cbn [snd] in *.
  destruct o as [r|]; [|reflexivity]. cbn [option_map]. do 2 f_equal. unfold struct_shape, RsGen.parse_struct, struct_attrs. cbn [ds_fields ds_cache sa_no_size_cache].
  rewrite (attach_snd fs r L), E. now destruct (st_size_cache st && negb (flag "no_size_cache" s)).
Qed.
Lemma struct_code_variant st se ns v fs d : struct_code st se ns v fs = Some d -> ds_variant d = v.
Proof.
  unfold struct_code. destruct (parse_metas struct_table true no_slots ns) as [[s es] u]. destruct (snd (parse_fields st (sl_ints s) (bare fs))); [|discriminate].
  now intros [= <-].
Qed.

Definition variant_shape (d : dstruct) : (N * bool) * list finfo := ((v_tag d, is_some (ds_cache d)), map snd (ds_fields d)).
Lemma variants_code_shape st se res vs : rs_size_cache se = st_size_cache st -> forall seen,
  map variant_shape (variants_code st se vs) = snd (fst (variants_loop st res seen (map bare_variant vs))).
Proof.
  intros E. induction vs as [|v vs IH]; intros seen; [reflexivity|]. cbn [map variants_loop variants_code bare_variant vr_attrs vr_fields].
  destruct (parse_attrs variant_table false no_slots (nv_attrs v)) as [[s es] u]. destruct (the_tag s) as [n|e].
  - pose proof (struct_code_shape st se u (Some (nv_name v, n)) (nv_fields v) E) as Sh. pose proof (struct_code_variant st se u (Some (nv_name v, n)) (nv_fields v)) as Va.
    destruct (Derive.parse_struct st u (bare (nv_fields v))) as [e3 o]. cbn [snd] in Sh. specialize (IH (n :: seen)).
    destruct (variants_loop st res (n :: seen) (map bare_variant vs)) as [[es' r] u']. cbn [fst snd] in *. rewrite map_app, IH.
    destruct (struct_code st se u (Some (nv_name v, n)) (nv_fields v)) as [d|]; cbn [option_map] in Sh; subst o; [|reflexivity].
    unfold struct_shape. cbn [map app]. unfold variant_shape at 1. unfold v_tag. now rewrite (Va d eq_refl).
  - specialize (IH seen). destruct (variants_loop st res seen (map bare_variant vs)) as [[es' r] u']. cbn [app]. exact IH.
Qed.

Lemma full_setting_st args ats : let '(st, _, _) := parse_setting args ats in
  rs_state (full_setting args ats) = st_state st /\ rs_size_cache (full_setting args ats) = st_size_cache st.
Proof.
  unfold parse_setting, full_setting. destruct (parse_metas args_table false no_slots args) as [[a e1] u1].
  destruct (parse_attrs setting_table false no_slots ats) as [[s e2] u2]. split; reflexivity.
Qed.

(** ** Running *)

Section Runs.
  Variables (p : prog) (se : rsetting) (t : ty) (ob : val -> obj).
  Notation on v s := (set_self (Some (ob v)) s).

  Lemma to_bytes_runs m hl v s : size_spec m hl p se t ob -> ser_spec m hl p se t ob -> cache_spec m hl p se t ob ->
    rs_serialize se = true -> wt t v = true ->
    run_to_bytes m hl p (ob v) s = (s, match to_bytes m v hl with Ok b => Go b | Panic => Boom | Err _ | NoFuel => Stuck end).
  Proof.
    intros Sz Sr Ch E Wv. unfold run_to_bytes, own_bytes. set (s0 := St None [] hl (s_in s) (s_path s) [] (s_hash s) (s_log s) []).
    change (St (Some (ob v)) [] hl (s_in s) (s_path s) [] (s_hash s) (s_log s) []) with (on v s0).
    change (call_method (RsRun.call m hl p depth) (trait_method p "compute_size") []) with (invoke m hl p "compute_size" []).
    change (call_method (RsRun.call m hl p depth) (trait_method p "size_cache") []) with (invoke m hl p "size_cache" []).
    change (call_method (RsRun.call m hl p depth) (trait_method p "serialize_cached") [RWriter]) with (invoke m hl p "serialize_cached" [RWriter]).
    specialize (Sz E v s0 Wv). cbn [s_at s_heap s0] in Sz. unfold to_bytes, steit_serialize, cache_size.
    destruct (compute_oop v m [] hl) as [[[z h] Ez]|Ez]; rewrite Ez in *; cbn [returns fst snd bind unwrap] in *.
    2:{ destruct Sz as [_ Sz]. unfold rbind at 1. destruct (invoke m hl p "compute_size" [] (on v s0)) as [s' c]. cbn in Sz. subst c. reflexivity. }
    unfold rbind at 1. rewrite Sz. change (set_heap h (on v s0)) with (on v (set_heap h s0)).
    pose proof (Ch E v (set_heap h s0) Wv) as Hc.
    assert (Fin : forall h', (let '(s1, c) := invoke m hl p "serialize_cached" [RWriter] (on v (set_heap h' s0)) in
       (s, match c with Go (ROk _) => Go (s_out s1) | Go (RErr _) | Boom => Boom | _ => Stuck end))
       = (s, match (do (b, _) <- unwrap (ser_cached m [] v h'); Ok b) with Ok b => Go b | Panic => Boom | Err _ | NoFuel => Stuck end)).
    { intros h'. pose proof (Sr E v (set_heap h' s0) Wv) as Hs. change (s_at (set_heap h' s0)) with (@nil nat) in Hs. change (s_heap (set_heap h' s0)) with h' in Hs.
      destruct (ser_cached m [] v h') as [[b h2]|er| |]; cbn [answers unwrap bind] in *.
      - rewrite Hs. reflexivity.
      - destruct Hs as [_ Hs]. destruct (invoke m hl p "serialize_cached" _ _) as [s1 c]. cbn in Hs. now subst c.
      - destruct Hs as [_ Hs]. destruct (invoke m hl p "serialize_cached" _ _) as [s1 c]. cbn in Hs. now subst c.
      - destruct (invoke m hl p "serialize_cached" _ _) as [s1 c]. cbn in Hs. now subst c. }
    destruct (has_cache v) eqn:Hh.
    - destruct Hc as (x & Hc & Lx). unfold rbind at 1. rewrite Hc. unfold rbind at 1. unfold self_cell. cbn [s_self set_self]. rewrite Lx.
      change (s_at (on v (set_heap h s0))) with (@nil nat). change (s_heap (on v (set_heap h s0))) with h.
      change (set_heap (upd h [] z) (on v (set_heap h s0))) with (on v (set_heap (upd h [] z) s0)). apply Fin.
    - unfold rbind at 1. rewrite Hc. unfold rbind at 1. apply Fin.
  Qed.

  Lemma deserialize_runs m hl bs s : makes_spec m hl p se t ob -> merge_spec m hl p se t ob -> rs_default se = true -> rs_ctors se = true ->
    rs_deserialize se = true -> ty_ok t = true ->
    match deserialize m t bs with
    | Ok (v, rest) => run_deserialize m hl p bs s = (set_in rest (set_self (Some (ob v)) s), Go (ob v))
    | Err e => snd (run_deserialize m hl p bs s) = Ret (RErr e)
    | Panic => snd (run_deserialize m hl p bs s) = Boom
    | NoFuel => snd (run_deserialize m hl p bs s) = Stuck
    end.
  Proof.
    intros Mk Mg Ed Ec E O. unfold run_deserialize. rewrite (proj1 (proj2 Mk) Ed Ec s).
    specialize (Mg E (dflt t rt_default) (set_in bs s) (wt_dflt t O rt_default)). change (s_in (set_in bs s)) with bs in Mg. unfold deserialize.
    change (set_in bs (on (dflt t rt_default) s)) with (on (dflt t rt_default) (set_in bs s)).
    destruct (merge m t (dflt t rt_default) bs) as [v' r]. destruct r as [rest|e| |]; cbn [answers bind] in *.
    - rewrite Mg. cbn. reflexivity.
    - destruct Mg as [_ Mg]. destruct (invoke m hl p "merge" _ _) as [s2 c]. cbn in Mg. now subst c.
    - destruct Mg as [_ Mg]. destruct (invoke m hl p "merge" _ _) as [s2 c]. cbn in Mg. now subst c.
    - destruct (invoke m hl p "merge" _ _) as [s2 c]. cbn in Mg. now subst c.
  Qed.

  Lemma rounds_run m hl : handle_spec m hl p se t ob -> rs_state se = true -> ty_ok t = true -> state_ty t = true ->
    forall fuel bs v s, bytes_ok bs -> wt t v = true ->
    let '(v', r) := ok_unit (loop fuel (replay_step m t) v bs) in handled s (ob v') r (replay_rounds m hl p fuel bs (on v s)).
  Proof.
    intros H E O St. assert (Z : forall v s r, (exists i q, on v s = set_in i (set_path q (on v s))) /\ @Go rv r = Go r).
    { intros v s r. split; [|reflexivity]. exists (s_in s), (s_path s). now destruct s. }
    assert (Z' : forall v s, exists i q, on v s = set_in i (set_path q (on v s))).
    { intros v s. exists (s_in s), (s_path s). now destruct s. }
    induction fuel as [|fuel IH]; intros bs v s B W.
    - destruct bs as [|b bs]; cbn; [split; [apply Z'|reflexivity]|reflexivity].
    - destruct bs as [|b bs]; [cbn; split; [apply Z'|reflexivity]|]. cbn [loop replay_rounds]. unfold replay_step at 1. pose proof (read_entry_good m (b :: bs) B) as G.
      destruct (read_entry m (b :: bs)) as [[e rest]|e| |]; cbn [try]; [|cbn; split; [apply Z'|reflexivity]|cbn; split; [apply Z'|reflexivity]|contradiction].
      destruct G as (Oe & Br & _). pose proof Oe as (Pe & _ & Be).
      specialize (H E v (entry_path e) (entry_kind e) (entry_key e) (set_in (entry_bytes e) s) W). change (s_in (set_in (entry_bytes e) s)) with (entry_bytes e) in H.
      unfold handle_entry. pose proof (handle_good m t O St (entry_path e) (entry_kind e) (entry_key e) (entry_bytes e) v W Be Pe) as G.
      destruct (handle m t (entry_path e) (entry_kind e) (entry_key e) (entry_bytes e) v) as [v' r]. destruct G as [W' _].
      change (set_path (entry_path e) (set_in (entry_bytes e) (on v s))) with (set_path (entry_path e) (on v (set_in (entry_bytes e) s))).
      destruct (invoke m hl p "handle" _ _) as [s' c]. destruct r as [[]|er| |]; cbn [bind try handled fst snd] in *.
      + destruct H as [(i & q & ->) ->]. specialize (IH rest v' (set_in i (set_path q s)) Br W').
        change (set_in i (set_path q (on v' (set_in (entry_bytes e) s)))) with (on v' (set_in i (set_path q s))).
        destruct (loop fuel (replay_step m t) v' rest) as [v3 r3]. cbn [ok_unit] in IH |- *. unfold ok_unit in *. generalize (do _ <- r3; Ok tt), IH. clear IH. intros r' IH.
        unfold handled in *. destruct r'; try exact IH; destruct IH as [(i' & q' & ->) ->]; (split; [exists i', q'|]; reflexivity).
      + destruct H as [(i & q & ->) ->]. cbn. split; [exists i, q|]; reflexivity.
      + destruct H as [(i & q & ->) ->]. cbn. split; [exists i, q|]; reflexivity.
      + subst c. reflexivity.
  Qed.
  Lemma replay_runs m hl bs v b s : handle_spec m hl p se t ob -> runtime_spec m hl p se t ob -> rs_state se = true -> ty_ok t = true -> state_ty t = true ->
    bytes_ok bs -> wt t v = true -> is_root v = Ok b ->
    let '(v', r) := replay m t v bs in handled s (ob v') r (run_replay m hl p bs (on v s)).
  Proof.
    intros H R E O St B W Rt. unfold run_replay, replay. rewrite Rt. unfold rbind. rewrite (proj2 (R E v s W) b Rt). destruct b.
    - unfold run. apply rounds_run; assumption.
    - cbn. split; [exists (s_in s), (s_path s); now destruct s|reflexivity].
  Qed.
End Runs.
