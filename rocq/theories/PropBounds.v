(** C82: the generated impls of a generic type are given the traits they need. *)
From Verif Require Import Base Varint WireFmt Types Meta Gen RsGen RsBounds.
From Coq Require Import String.
Local Open Scope list_scope.
Local Open Scope nat_scope.

(** ** Statements *)

(** A trait with all its supertraits. *)
Inductive above : tr -> tr -> Prop :=
| above_refl t : above t t
| above_step t s u : In s (supers t) -> above s u -> above t u.

(** [#[steit_derive(..)]] asks the trait [u] of the type [ty] in a field. *)
Inductive asks (d : gdecl) (f : gfield) : rty -> tr -> Prop :=
| asks_ser : rs_state (g_args d) || rs_serialize (g_args d) = true -> asks d f (gf_ty f) TSer
| asks_de : rs_state (g_args d) || rs_deserialize (g_args d) = true -> asks d f (gf_ty f) TDe
| asks_state : rs_state (g_args d) = true -> gf_no_state f = false -> asks d f (gf_ty f) TState
| asks_default : derives d TCtor = true -> is_state d f = false -> asks d f (gf_ty f) TDefault
| asks_eq : rs_partial_eq (g_args d) = true -> gf_no_eq_hash f = false -> asks d f (gf_ty f) TEq
| asks_hash : rs_hash (g_args d) = true -> gf_no_hash f = false -> gf_no_eq_hash f = false -> asks d f (gf_ty f) THash
| asks_meta ty : derives d TMeta = true -> ty = gf_ty f \/ In ty (metas (gf_ty f)) -> asks d f ty TMeta.
(** A scope where the type parameters have the bounds they are declared with, and the trait [u]. *)
Definition scope (d : gdecl) (u : tr) (i : nat) : list tr :=
  match nth_error (g_bounds d) i with Some b => b ++ [u] | None => [] end.
(** The types of the fields have what is asked of them as soon as the type parameters have it. *)
Definition carries (p : list gdecl) (d : gdecl) : Prop :=
  forall f ty u, In f (all_fields d) -> asks d f ty u -> has p (scope d u) ty u = true.
(** Every declaration of a program is accepted. *)
Definition accepted (p : list gdecl) : Prop := forall n d, nth_error p n = Some d -> accepts p n d.

(** ** Proofs *)

Lemma implies_trans a b c : implies a b = true -> implies b c = true -> implies a c = true.
Proof. destruct a, b; try discriminate; destruct c; (discriminate || reflexivity). Qed.
Lemma implies_refl a : implies a a = true.
Proof. now destruct a. Qed.
Lemma implies_supers t u : implies t u = true -> t = u \/ In u (supers t) \/ exists s, In s (supers t) /\ In u (supers s).
Proof.
  destruct t, u; intros [=]; auto; try (right; left; cbn; tauto);
    right; right; first [exists TSer; split; cbn; tauto | exists TDe; split; cbn; tauto].
Qed.
Lemma supers_implies t u : In u (supers t) -> implies t u = true.
Proof. destruct t; cbn; intuition (subst; reflexivity). Qed.
Lemma above_implies t u : above t u -> implies t u = true.
Proof. induction 1 as [|t s u I _ IH]; [apply implies_refl|]. eapply implies_trans; [apply supers_implies, I|exact IH]. Qed.

Section TyInd.
  Variable P : rty -> Prop.
  Hypothesis HV : forall i, P (TVar i).
  Hypothesis HC : forall c args, (forall a, In a args -> P a) -> P (TCon c args).
  Fixpoint rty_ind' (ty : rty) : P ty :=
    match ty with
    | TVar i => HV i
    | TCon c args => HC c args
        ((fix go (l : list rty) : forall a, In a l -> P a :=
           match l with
           | [] => fun a (H : In a []) => match H with end
           | x :: l => fun a (H : In a (x :: l)) => match H with or_introl E => eq_ind x P (rty_ind' x) a E | or_intror H => go l a H end
           end) args)
    end.
End TyInd.

Section Has.
  Variable p : list gdecl.

  Lemma has_con g c args t :
    has p g (TCon c args) t = true <->
    exists cs, impl_of p c t = Some cs /\ forall i b, In (i, b) cs -> exists a, nth_error args i = Some a /\ has p g a b = true.
  Proof.
    cbn [has]. destruct (impl_of p c t) as [cs|]; [|split; [discriminate|intros (cs & [=] & _)]].
    rewrite forallb_forall. split.
    - intros H. exists cs. split; [reflexivity|]. intros i b I. specialize (H _ I). cbn [fst snd] in H.
      rewrite nth_error_map in H. destruct (nth_error args i) as [a|]; [|discriminate]. cbn in H. eauto.
    - intros (cs' & [= <-] & H) [i b] I. destruct (H _ _ I) as (a & Ea & Ha). cbn [fst snd]. rewrite nth_error_map, Ea. exact Ha.
  Qed.
  Lemma has_var g i t : has p g (TVar i) t = true <-> exists b, In b (g i) /\ implies b t = true.
  Proof. cbn [has]. rewrite existsb_exists. reflexivity. Qed.

  Lemma has_mono g g' ty : (forall i b, In b (g i) -> exists b', In b' (g' i) /\ implies b' b = true) ->
    forall t, has p g ty t = true -> has p g' ty t = true.
  Proof.
    intros M. induction ty as [i|c args IH] using rty_ind'; intros t.
    - rewrite !has_var. intros (b & I & Hb). destruct (M _ _ I) as (b' & I' & Hb'). exists b'. split; [exact I'|]. eauto using implies_trans.
    - rewrite !has_con. intros (cs & E & H). exists cs. split; [exact E|]. intros i b I. destruct (H _ _ I) as (a & Ea & Ha).
      exists a. split; [exact Ea|]. apply IH; [eapply nth_error_In; eauto|exact Ha].
  Qed.

  Lemma in_conds d t i b : In (i, b) (impl_conds d t) <-> In b (env d t i).
  Proof.
    unfold impl_conds. rewrite in_flat_map. split.
    - intros (j & _ & I). apply in_map_iff in I. destruct I as (b' & [= -> ->] & I). exact I.
    - intros I. exists i. split.
      + apply in_seq. unfold env in I. destruct (nth_error (g_bounds d) i) as [x|] eqn:E; [|destruct I].
        assert (nth_error (g_bounds d) i <> None) as L by congruence. apply nth_error_Some in L. lia.
      + apply in_map_iff. eauto.
  Qed.
  Lemma self_arg (d : gdecl) i : nth_error (map TVar (seq 0 (List.length (g_bounds d)))) i = option_map (fun _ => TVar i) (nth_error (g_bounds d) i).
  Proof.
    rewrite nth_error_map. destruct (nth_error (g_bounds d) i) as [x|] eqn:E.
    - assert (nth_error (g_bounds d) i <> None) as L by congruence. apply nth_error_Some in L. 
      rewrite (nth_error_nth' _ 0) by now rewrite seq_length. rewrite seq_nth by exact L. reflexivity.
    - apply nth_error_None in E. cbn. assert (nth_error (seq 0 (List.length (g_bounds d))) i = None) as -> by (apply nth_error_None; now rewrite seq_length). reflexivity.
  Qed.

  Lemma has_self n d g u : nth_error p n = Some d ->
    (has p g (self_ty n d) u = true <->
     derives d u = true /\ forall i b, In b (env d u i) -> exists b', In b' (g i) /\ implies b' b = true).
  Proof.
    intros N. unfold self_ty. rewrite has_con. cbn [impl_of]. rewrite N. split.
    - intros (cs & E & H). destruct (derives d u); [|discriminate]. injection E as <-. split; [reflexivity|]. intros i b I.
      destruct (H i b) as (a & Ea & Ha); [now apply in_conds|]. rewrite self_arg in Ea.
      destruct (nth_error (g_bounds d) i); [|discriminate]. injection Ea as <-. now apply has_var in Ha.
    - intros [-> H]. exists (impl_conds d u). split; [reflexivity|]. intros i b I. apply in_conds in I. specialize (H _ _ I).
      exists (TVar i). split; [|now apply has_var]. rewrite self_arg. unfold env in I. destruct (nth_error (g_bounds d) i); [reflexivity|destruct I].
  Qed.
  Lemma self_ok n d t u : nth_error p n = Some d -> derives d u = true ->
    (forall b, In b (added d u) -> exists b', In b' (added d t) /\ implies b' b = true) -> has p (env d t) (self_ty n d) u = true.
  Proof.
    intros N D A. apply (has_self n d _ u N). split; [exact D|]. intros i b. unfold env. destruct (nth_error (g_bounds d) i) as [x|]; [|intros []].
    intros I. apply in_app_or in I. destruct I as [I|I].
    - exists b. split; [apply in_or_app; now left|apply implies_refl].
    - destruct (A _ I) as (b' & I' & Hb). exists b'. split; [apply in_or_app; now right|exact Hb].
  Qed.

  (** *** Supertraits *)

  Lemma lib_supers c t u cs : (forall n, c <> KUser n) -> lib_impl c t = Some cs -> In u (supers t) ->
    exists cs', lib_impl c u = Some cs' /\ forall i b, In (i, b) cs' -> exists b', In (i, b') cs /\ implies b' b = true.
  Proof.
    intros NU E I.
    assert (forall n (x y : tr), implies x y = true -> forall i b, In (i, b) (map (fun i => (i, y)) (seq 0 n)) ->
            exists b', In (i, b') (map (fun i => (i, x)) (seq 0 n)) /\ implies b' b = true) as EA.
    { intros n x y Hxy i b J. apply in_map_iff in J. destruct J as (j & [= -> <-] & J). exists x. split; [|exact Hxy].
      apply in_map_iff. eauto. }
    destruct t; cbn [supers In] in I;
      repeat match goal with H : _ \/ _ |- _ => destruct H as [<-|H] end; try contradiction;
      destruct c as [k| | | | | |len| |m| | | |n]; try (now destruct (NU n)); cbn [lib_impl each] in E |- *;
      try discriminate E;
      repeat match type of E with context [if ?b then _ else _] => destruct b eqn:? end; try discriminate E;
      try (injection E as <-);
      try (eexists; split; [reflexivity|]; first [now intros i b [] | apply EA; reflexivity]);
      try (eexists; split; [reflexivity|]; intros i b J; cbn [In map seq] in J;
           repeat destruct J as [[= <- <-]|J]; try contradiction; 
           first [eexists; split; [left; reflexivity|reflexivity]
                 |eexists; split; [right; left; reflexivity|reflexivity]
                 |eexists; split; [right; right; left; reflexivity|reflexivity]
                 |eexists; split; [right; right; right; left; reflexivity|reflexivity]
                 |eexists; split; [right; right; right; right; left; reflexivity|reflexivity]]).
    all: idtac.
    - (* arrays *) apply andb_prop in Heqb. destruct Heqb as [A B]. apply Nat.leb_le in A, B.
      destruct (Nat.eqb_spec len 0); [lia|]. destruct (Nat.leb_spec len 32); [|lia]. eexists; split; [reflexivity|]. now apply (EA 1).
    - (* tuples *) apply andb_prop in Heqb. destruct Heqb as [A B]. apply Nat.leb_le in A, B.
      destruct (Nat.leb_spec m 12); [|lia]. eexists; split; [reflexivity|]. now apply EA.
  Qed.

  Lemma needs_super d self t u : derives d t = true -> In u (supers t) -> In (self, u) (needs d self t).
  Proof.
    intros D I. destruct t; cbn [supers In] in I; repeat (destruct I as [<-|I]); try contradiction; cbn [needs]; try discriminate D; cbn; tauto.
  Qed.

  Lemma has_super ty : accepted p -> forall g t u, implies t u = true -> has p g ty t = true -> has p g ty u = true.
  Proof.
    intros A. induction ty as [i|c args IH] using rty_ind'; intros g t u.
    - intros Hi. rewrite !has_var. intros (b & I & Hb). exists b. split; [exact I|]. eauto using implies_trans.
    - assert (forall t u, In u (supers t) -> has p g (TCon c args) t = true -> has p g (TCon c args) u = true) as Step.
      { clear t u. intros t u Iu H. apply has_con in H. destruct H as (cs & E & H). apply has_con.
        assert (forall cs', (forall i b, In (i, b) cs' -> exists b', In (i, b') cs /\ implies b' b = true) ->
                forall i b, In (i, b) cs' -> exists a, nth_error args i = Some a /\ has p g a b = true) as Up.
        { intros cs' S i b I. destruct (S _ _ I) as (b' & I' & Hb). destruct (H _ _ I') as (a & Ea & Ha). exists a. split; [exact Ea|].
          eapply IH; [eapply nth_error_In; eauto|exact Hb|exact Ha]. }
        assert ((exists n, c = KUser n) \/ forall n, c <> KUser n) as [[n ->]|NU]
          by (destruct c; first [left; eexists; reflexivity | right; intros ? [=]]).
        - cbn [impl_of] in E |- *. destruct (nth_error p n) as [d|] eqn:N; [|discriminate]. destruct (derives d t) eqn:D; [|discriminate].
          injection E as <-. pose proof (A _ _ N t D _ _ (needs_super d (self_ty n d) t u D Iu)) as S.
          apply has_self in S; [|exact N]. destruct S as [-> S]. eexists. split; [reflexivity|]. apply Up. intros i b I.
          apply in_conds in I. destruct (S _ _ I) as (b' & I' & Hb). exists b'. split; [now apply in_conds|exact Hb].
        - assert (forall t, impl_of p c t = lib_impl c t) as L by (intros ?; destruct c; try reflexivity; now destruct (NU n)).
          rewrite L in E. destruct (lib_supers c t u cs NU E Iu) as (cs' & E' & S). exists cs'. rewrite L. split; [exact E'|]. now apply Up. }
      intros Hi H. destruct (implies_supers _ _ Hi) as [<-|[I|(s & I & J)]]; [exact H|now apply (Step t)|].
      apply (Step s); [exact J|]. now apply (Step t).
  Qed.

  (** *** Instances *)

  Lemma has_inst ty : accepted p -> forall g g' s t,
    (forall i b, In b (g' i) -> exists a, nth_error s i = Some a /\ has p g a b = true) ->
    has p g' ty t = true -> has p g (inst s ty) t = true.
  Proof.
    intros A. induction ty as [i|c args IH] using rty_ind'; intros g g' s t S.
    - rewrite has_var. intros (b & I & Hb). destruct (S _ _ I) as (a & Ea & Ha). cbn [inst]. rewrite Ea. now apply (has_super a A g b).
    - rewrite has_con. intros (cs & E & H). cbn [inst]. apply has_con. exists cs. split; [exact E|]. intros i b I.
      destruct (H _ _ I) as (a & Ea & Ha). exists (inst s a). rewrite nth_error_map, Ea. split; [reflexivity|].
      eapply IH; [eapply nth_error_In; eauto|exact S|exact Ha].
  Qed.

  (** *** What is given *)

  Lemma state_bound b : implies b TState = true -> b = TState.
  Proof. destruct b; (reflexivity || discriminate). Qed.

  Lemma carries_iff n d : nth_error p n = Some d -> carries p d ->
    (accepts p n d <->
     (rs_state (g_args d) = true -> is_enum d = false -> Forall (In TState) (g_bounds d)) /\
     (derives d TDefault = true \/ derives d TSetters = true /\ is_enum d = true /\ all_fields d <> [] -> derives d TCtor = true)).
  Proof.
    intros N C.
    assert (forall t i b, nth_error (g_bounds d) i = Some b -> env d t i = b ++ added d t) as Env by (intros t i b E; unfold env; now rewrite E).
    split.
    - intros A. split.
      + intros St En. apply Forall_forall. intros b I. apply In_nth_error in I. destruct I as [i E].
        assert (derives d TDe = true) as De by (cbn; now rewrite St).
        pose proof (A TDe De (self_ty n d) TDefault ltac:(now left)) as H. apply has_self in H; [|exact N]. destruct H as [_ H].
        destruct (H i TState) as (b' & I' & Hb).
        { rewrite (Env _ _ _ E). apply in_or_app. right. cbn [added]. unfold trait_bounds, g_set, settle; cbn [rs_state]. rewrite St. now left. }
        apply state_bound in Hb. subst b'. rewrite (Env _ _ _ E) in I'. apply in_app_or in I'. destruct I' as [I'|I']; [exact I'|].
        cbn [added] in I'. rewrite En in I'. destruct I' as [[=]|[]].
      + intros [D|(D & En & F)].
        * pose proof (A TDefault D (self_ty n d) TCtor ltac:(now left)) as H. apply has_self in H; [|exact N]. apply H.
        * destruct (all_fields d) as [|f fs] eqn:Ef; [easy|].
          assert (has p (env d TSetters) (self_ty n d) TCtor = true) as H.
          { apply A; [exact D|]. cbn [needs]. rewrite Ef, En. cbn [flat_map]. now left. }
          apply has_self in H; [|exact N]. apply H.
    - intros [CS CC] t D ty u I.
      assert (rs_state (g_set d) = rs_state (g_args d)) as ES by reflexivity.
      assert (derives d TState = true -> derives d TSer = true /\ derives d TDe = true /\ derives d TSetters = true) as SD.
      { cbn. intros ->. auto. }
      assert (derives d TDe = true -> derives d TDefault = true /\ derives d TCtor = true /\ derives d TWire = true) as DD.
      { unfold derives, g_set, settle; cbn. intros E. rewrite E. cbn. now rewrite orb_true_r. }
      assert (derives d TSer = true -> derives d TWire = true) as DW by (unfold derives; intros ->; reflexivity).
      assert (forall f ty u, In f (all_fields d) -> asks d f ty u -> In u (added d t) \/ In TState (added d t) /\ (u = TSer \/ u = TDefault) -> has p (env d t) ty u = true) as Fld.
      { intros f ty' u' If As Ad. apply (has_mono (scope d u')); [|now apply (C f)]. intros i b. unfold scope, env.
        destruct (nth_error (g_bounds d) i) as [x|]; [|intros []]. intros Ib. apply in_app_or in Ib. destruct Ib as [Ib|[<-|[]]].
        - exists b. split; [apply in_or_app; now left|apply implies_refl].
        - destruct Ad as [Ad|[Ad [-> | ->]]].
          + exists u'. split; [apply in_or_app; now right|apply implies_refl].
          + exists TState. split; [apply in_or_app; now right|reflexivity].
          + exists TState. split; [apply in_or_app; now right|reflexivity]. }
      assert (forall f, is_state d f = true <-> rs_state (g_args d) = true /\ gf_no_state f = false) as Isf.
      { intros f. unfold is_state. rewrite ES. destruct (gf_no_state f), (rs_state (g_args d)); cbn; intuition congruence. }
      destruct t; cbn [needs] in I; try discriminate D.
      + (* HasWireType *) destruct I.
      + (* Serialize *) destruct I as [[= <- <-]|I].
        * apply self_ok; [exact N|auto|intros b []].
        * apply in_map_iff in I. destruct I as (f & [= <- <-] & If). apply (Fld f); [exact If| |left; now left].
          apply asks_ser. exact D.
      + (* Deserialize *) destruct (DD D) as (D1 & D2 & D3). destruct I as [[= <- <-]|[[= <- <-]|I]].
        * destruct (is_enum d) eqn:En; [|destruct (rs_state (g_args d)) eqn:St].
          -- apply self_ok; [exact N|exact D1|]. cbn [added]. rewrite En. unfold trait_bounds. destruct (rs_state (g_set d)).
             ++ intros b Ib. exists b. split; [exact Ib|apply implies_refl].
             ++ intros b [<-|[]]. exists TDe. split; [now left|reflexivity].
          -- specialize (CS eq_refl eq_refl). apply has_self; [exact N|]. split; [exact D1|]. intros i b Ib. unfold env in Ib |- *.
             destruct (nth_error (g_bounds d) i) as [x|] eqn:Ex; [|destruct Ib]. apply in_app_or in Ib. destruct Ib as [Ib|Ib].
             ++ exists b. split; [apply in_or_app; now left|apply implies_refl].
             ++ exists b. split; [|apply implies_refl]. apply in_or_app. left. cbn [added] in Ib. unfold trait_bounds in Ib. rewrite ES in Ib; try rewrite St in Ib.
                destruct Ib as [<-|[]]. rewrite Forall_forall in CS. apply CS. eapply nth_error_In; eauto.
          -- apply self_ok; [exact N|exact D1|]. cbn [added]. rewrite En. unfold trait_bounds. rewrite ES; try rewrite St.
             intros b [<-|[]]. exists TDe. split; [now left|reflexivity].
        * apply self_ok; [exact N|exact D3|intros b []].
        * apply in_app_or in I. destruct I as [I|I].
          -- apply in_map_iff in I. destruct I as (f & [= <- <-] & If). specialize (Fld f (gf_ty f)).
             assert (asks d f (gf_ty f) TDe) as As by (apply asks_de; exact D). destruct (is_enum d) eqn:En.
             ++ destruct (rs_state (g_args d)) eqn:St.
                ** (* under [State] *)
                   apply (has_mono (scope d TDe)); [|now apply (C f)]. intros i b. unfold scope, env.
                   destruct (nth_error (g_bounds d) i) as [x|]; [|intros []]. intros Ib. apply in_app_or in Ib. destruct Ib as [Ib|[<-|[]]].
                   --- exists b. split; [apply in_or_app; now left|apply implies_refl].
                   --- exists TState. split; [|reflexivity]. apply in_or_app; right. cbn [added]. rewrite En. unfold trait_bounds. rewrite ES; try rewrite St. now left.
                ** apply Fld; [exact If|exact As|]. left. cbn [added]. rewrite En. unfold trait_bounds. rewrite ES; try rewrite St. now left.
             ++ apply Fld; [exact If|exact As|]. left. cbn [added]. rewrite En. now left.
          -- destruct (g_data d) as [fs|vs] eqn:Ed; [destruct I|]. assert (is_enum d = true) as En by (unfold is_enum; now rewrite Ed).
             apply in_flat_map in I. destruct I as (v & _ & I). destruct I as [[= <- <-]|I].
             ++ apply self_ok; [exact N|exact D2|]. cbn [added]. rewrite En. unfold trait_bounds. destruct (rs_state (g_set d)).
                ** intros b Ib. exists b. split; [exact Ib|apply implies_refl].
                ** intros b [<-|[]]. exists TDe. split; [now left|reflexivity].
             ++ destruct (rs_state (g_set d)) eqn:St; [|destruct I]. destruct I as [[= <- <-]|[]].
                apply self_ok; [exact N|exact St|]. cbn [added]. rewrite En. unfold trait_bounds. rewrite St.
                intros b Ib. exists b. split; [exact Ib|apply implies_refl].
      + (* State *) destruct (SD D) as (D1 & D2 & D3). destruct (DD D2) as (D4 & D5 & D6).
        assert (forall u, derives d u = true -> (forall b, In b (added d u) -> implies TState b = true) -> has p (env d TState) (self_ty n d) u = true) as S.
        { intros u' Du Ad. apply self_ok; [exact N|exact Du|]. intros b Ib. exists TState. split; [now left|auto]. }
        cbn [app] in I. assert (rs_state (g_set d) = true) as St by exact D.
        repeat (destruct I as [[= <- <-]|I]).
        * apply S; [exact D1|]. now intros b [<-|[]].
        * apply S; [exact D2|]. cbn [added]. unfold trait_bounds. rewrite St. destruct (is_enum d); now intros b [<-|[]].
        * apply S; [exact D5|]. cbn [added]. unfold trait_bounds. rewrite St. now intros b [<-|[]].
        * apply S; [exact D|]. now intros b [<-|[]].
        * apply in_map_iff in I. destruct I as (f & [= <- <-] & If). apply filter_In in If. destruct If as [If Is]. apply Isf in Is.
          apply (Fld f); [exact If|now apply asks_state|left; now left].
      + (* HasMeta *) apply in_app_or in I. destruct I as [I|I].
        * apply in_map_iff in I. destruct I as (i & [= <- <-] & Ii). apply in_seq in Ii. apply has_var. exists TMeta. split; [|reflexivity].
          unfold env. destruct (nth_error (g_bounds d) i) as [x|] eqn:E; [apply in_or_app; right; now left|].
          apply nth_error_None in E. lia.
        * apply in_app_or in I. destruct I as [I|I].
          -- apply in_map_iff in I. destruct I as (f & [= <- <-] & If). apply (Fld f); [exact If| |left; now left]. apply asks_meta; auto.
          -- apply in_flat_map in I. destruct I as (f & If & I). apply in_map_iff in I. destruct I as (ty' & [= <- <-] & I).
             apply (Fld f); [exact If| |left; now left]. apply asks_meta; auto.
      + (* Default *) destruct I as [[= <- <-]|[]]. apply self_ok; [exact N|apply CC; now left|].
        intros b Ib. exists b. split; [exact Ib|apply implies_refl].
      + (* PartialEq *) apply in_map_iff in I. destruct I as (f & [= <- <-] & If). apply filter_In in If. destruct If as [If E].
        apply (Fld f); [exact If| |left; now left]. apply asks_eq; [exact D|now destruct (gf_no_eq_hash f)].
      + (* Hash *) apply in_map_iff in I. destruct I as (f & [= <- <-] & If). apply filter_In in If. destruct If as [If E].
        apply andb_prop in E. destruct E as [E1 E2].
        apply (Fld f); [exact If| |left; now left]. apply asks_hash; [exact D|now destruct (gf_no_hash f)|now destruct (gf_no_eq_hash f)].
      + (* constructors *) apply in_map_iff in I. destruct I as (f & [= <- <-] & If). destruct (is_state d f) eqn:Is.
        * apply Isf in Is. destruct Is as [St Ns]. apply (Fld f); [exact If|now apply asks_state|]. left. cbn [added]. unfold trait_bounds. rewrite ES; try rewrite St. now left.
        * apply (Fld f); [exact If|now apply asks_default|]. cbn [added]. unfold trait_bounds. destruct (rs_state (g_set d)); cbn; tauto.
      + (* setters *) apply in_flat_map in I. destruct I as (f & If & I). apply in_app_or in I. destruct I as [I|I].
        * destruct (is_enum d) eqn:En; [|destruct I]. destruct I as [[= <- <-]|I].
          -- apply self_ok; [exact N| |]. { apply CC. right. repeat split; [exact D|]. intros Z. rewrite Z in If. destruct If. }
             intros b Ib. exists b. split; [|apply implies_refl]. cbn [added] in *. now rewrite En.
          -- destruct (rs_state (g_set d)) eqn:St; [|destruct I]. destruct (SD St) as (D1 & D2 & _).
             assert (added d TSetters = [TState]) as Ad by (cbn [added]; unfold trait_bounds; now rewrite St).
             repeat (destruct I as [[= <- <-]|I]); [| |destruct I]; apply self_ok; try assumption; rewrite Ad; intros b [<-|[]]; exists TState; split; (now left || reflexivity).
        * destruct (is_state d f) eqn:Is; [|destruct I]. apply Isf in Is. destruct Is as [St Ns].
          assert (derives d TState = true) as DS by exact St. destruct (SD DS) as (D1 & D2 & _).
          assert (added d TSetters = [TState]) as Ad by (cbn [added]; unfold trait_bounds; rewrite ES; now rewrite ?St).
          repeat (destruct I as [[= <- <-]|I]); [| | |destruct I].
          -- apply self_ok; [exact N|exact DS|]. rewrite Ad. intros b [<-|[]]; exists TState; split; (now left || reflexivity).
          -- apply (Fld f); [exact If|now apply asks_state|]. rewrite Ad. left. now left.
          -- apply (Fld f); [exact If|apply asks_ser; now rewrite St|]. rewrite Ad. right. split; [now left|now left].
  Qed.
End Has.

(** ** Theorems *)

(** C82: say the types of the fields of a declaration have what is asked of them as soon as its type
    parameters have it.  Then rustc finds everything the impls of an enum need.  For a struct that derives
    [State] it does so only if every type parameter is declared to be [State].  (Either needs its constructors
    where they are called: by [Default], by the setters of an enum.) *)
Theorem c82_accepts p n d : nth_error p n = Some d -> carries p d ->
  (accepts p n d <->
   (rs_state (g_args d) = true -> is_enum d = false -> Forall (In TState) (g_bounds d)) /\
   (derives d TDefault = true \/ derives d TSetters = true /\ is_enum d = true /\ all_fields d <> [] -> derives d TCtor = true)).
Proof. apply carries_iff. Qed.
(** In short: with [Serialize] and [Deserialize] anything goes, with [State] any enum. *)
Corollary c82_derives p n d : nth_error p n = Some d -> carries p d ->
  rs_deserialize (g_args d) = true /\ rs_state (g_args d) = false \/ rs_state (g_args d) = true /\ is_enum d = true ->
  accepts p n d.
Proof.
  intros N C H. apply c82_accepts; [exact N|exact C|]. split; [intuition congruence|].
  intros _. unfold derives, g_set, settle; cbn. destruct H as [[-> _]|[-> _]]; [now rewrite orb_true_r|reflexivity].
Qed.

(** A type has the supertraits of a trait it has, in a program that is accepted: in particular the impls of
    the library go together. *)
Theorem c82_supertraits p : accepted p -> forall g ty t u, above t u -> has p g ty t = true -> has p g ty u = true.
Proof. intros A g ty t u Ab. apply has_super; [exact A|now apply above_implies]. Qed.
(** Wherever a generated impl applies, everything its functions call is there. *)
Theorem c82_instances p n d : accepted p -> nth_error p n = Some d -> forall g args t,
  has p g (TCon (KUser n) args) t = true -> forall ty u, In (ty, u) (needs d (self_ty n d) t) -> has p g (inst args ty) u = true.
Proof.
  intros A N g args t H ty u I. apply has_con in H. destruct H as (cs & E & H). cbn [impl_of] in E. rewrite N in E.
  destruct (derives d t) eqn:D; [|discriminate]. injection E as <-. apply (has_inst p ty A g (env d t)); [|now apply (A _ _ N)].
  intros i b Ib. apply H. now apply in_conds.
Qed.

(** The claim that any type whose fields would do can derive [State] is false: [struct Sure<T>(T)] cannot
    (its [Deserialize] is for [T: Deserialize], its [Default] for [T: State]), nor can [Default] be derived
    alone. *)
Definition no_args : rsetting := RS false false false false false false false false false "new" None None.
Definition with_state : rsetting := RS false false true false false false false false false "new" None None.
Definition with_ser_de : rsetting := RS true true false false false false false false false "new" None None.
Definition with_default : rsetting := RS false false false false true false false false false "new" None None.
Definition fld (ty : rty) : gfield := GF ty false false false.
Definition sure (bs : list tr) (se : rsetting) : gdecl := GD [bs] se false (GStruct [fld (TVar 0)]).
Lemma sure_carries p bs se : carries p (sure bs se).
Proof.
  intros f ty u [<-|[]] As. assert (ty = TVar 0) as -> by (inversion As; auto; destruct H0 as [->|[]]; reflexivity).
  apply has_var. exists u. split; [|apply implies_refl]. cbn. apply in_or_app. right. now left.
Qed.
Theorem c82_refuted :
  carries [sure [] with_state] (sure [] with_state) /\ ~ accepts [sure [] with_state] 0 (sure [] with_state) /\
  carries [sure [] with_default] (sure [] with_default) /\ ~ accepts [sure [] with_default] 0 (sure [] with_default).
Proof.
  repeat split; try apply sure_carries; intros A; apply c82_accepts in A; try reflexivity; try apply sure_carries; destruct A as [H1 H2].
  - specialize (H1 eq_refl eq_refl). apply Forall_inv in H1. destruct H1.
  - discriminate (H2 (or_introl eq_refl)).
Qed.

(** The generic types of the repository: [Maybe] of the library (types/maybe.rs 9-20), and those of
    steit-derive/test-crate/src/lib.rs 50-171 with the types they use; [Sure] with [State] and a bound; a
    struct of everything. *)
Definition all_tr : list tr := [TWire; TSer; TDe; TState; TMeta; TDefault; TEq; TFullEq; THash; TKey; TCtor; TSetters].
Definition check (p : list gdecl) (n : nat) : bool :=
  match nth_error p n with
  | Some d => forallb (fun t => implb (derives d t) (forallb (fun x : rty * tr => has p (env d t) (fst x) (snd x)) (needs d (self_ty n d) t))) all_tr
  | None => false
  end.
Lemma check_accepts p n d : nth_error p n = Some d -> (check p n = true <-> accepts p n d).
Proof.
  intros N. unfold check, accepts. rewrite N, forallb_forall. split.
  - intros H t D ty u I. assert (In t all_tr) as It by (destruct t; cbn; tauto). specialize (H t It). rewrite D in H. cbn [implb] in H.
    rewrite forallb_forall in H. exact (H _ I).
  - intros H t _. destruct (derives d t) eqn:D; [|reflexivity]. cbn [implb]. apply forallb_forall. intros [ty u] I. now apply H.
Qed.
Definition num (key : bool) : rty := TCon (KPrim key) [].
Definition all_state : rsetting := RS false false true true false true false false false "new" None None.
Definition eq_state : rsetting := RS false false true true false false false false false "new" None None.
Definition user (n : nat) (args : list rty) : rty := TCon (KUser n) args.
Definition acts : list gfield := [fld (num true); fld (TCon KVec [user 5 []])].
Definition nest (k : nat) : rty := user 4 [TCon KVec [user 4 [user k []]]].
Definition repo_types : list gdecl := [
  (* 0 *) GD [[TState]] all_state false (GEnum [[]; [fld (TVar 0)]]);                                  (* Maybe, of the library *)
  (* 1 *) GD [[]] with_state false (GEnum [[]; [fld (TVar 0)]]);                                       (* Maybe *)
  (* 2 *) GD [[]; []; []] with_state false                                                            (* Animal *)
            (GEnum [[fld (user 1 [TVar 0])]; [fld (num false); fld (TVar 1)]; [fld (num false); fld (user 1 [user 1 [TVar 2]])];
                    [fld (user 1 [num true])]; []]);
  (* 3 *) sure [] with_ser_de;                                                                        (* Sure *)
  (* 4 *) GD [[]] with_ser_de false (GEnum [[fld (TCon KVec [user 5 []])]; [fld (TVar 0)]]);            (* ActionsOr *)
  (* 5 *) GD [] with_ser_de false (GEnum [[]; acts; []; fld (nest 6) :: acts]);                         (* Action *)
  (* 6 *) GD [] with_ser_de false (GStruct (fld (nest 7) :: acts));                                     (* Attack *)
  (* 7 *) GD [] with_ser_de false (GStruct (fld (num false) :: acts));                                  (* Hit *)
  (* 8 *) GD [] with_state false (GEnum [[fld (TCon KList [num true])]; [fld (num true); fld (TCon KList [user 9 []])]]);   (* OldAction *)
  (* 9 *) GD [] with_state false (GStruct [fld (TCon KBox [user 8 []]); fld (num false)]);              (* OldHit *)
  (* 10 *) sure [TState] with_state;
  (* 11 *) GD [[TState]; [TState; TKey; TFullEq; THash; TMeta]] eq_state false
             (GStruct [fld (TCon KList [TVar 0]); fld (TCon KMap [TVar 1; TVar 0]); fld (user 0 [TVar 0]);
                       GF (TCon KOption [TCon (KTuple 2) [num true; TCon KString []]]) true true false; GF (TCon KString []) true true true])].

(** They are all accepted, but for the last, whose [Option<(u8, String)>] has no meta; it would be with
    [no_meta].  [Map] having no [Hash], nor would it be with [Hash].  [Animal<u8, List<u8>, Maybe<i32>>] is a
    [State] and has the supertraits; with a [String] it is none. *)
Example c82_case :
  map (check repo_types) (seq 0 12) = repeat true 11 ++ [false] /\
  (let last := nth 11 repo_types (sure [] no_args) in
   let again se m := check (firstn 11 repo_types ++ [GD (g_bounds last) se m (g_data last)]) 11 in
   again eq_state true = true /\ again all_state true = false) /\
  (let g := fun _ : nat => [] : list tr in let ty a := user 2 [a; TCon KList [num true]; user 0 [num false]] in
   map (has repo_types g (ty (num true))) [TState; TSer; TDe; TDefault; TWire; TMeta; TEq] = [true; true; true; true; true; true; false] /\
   map (has repo_types g (ty (TCon KString []))) [TState; TSer; TDe; TDefault; TWire; TMeta; TEq] = [false; true; false; false; true; true; false]).
Proof. repeat split; vm_compute; reflexivity. Qed.

Print Assumptions c82_accepts.
Print Assumptions c82_derives.
Print Assumptions c82_supertraits.
Print Assumptions c82_instances.
Print Assumptions c82_refuted.
