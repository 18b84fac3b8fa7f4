(** Loggers replaced while they are in use (C101), loggers that ignore entries or panic (C102); indexing (C24, C25);
    settings of the generator (C81). *)
From Verif Require Import Base Varint WireFmt Types Ser De Log State Coll Meta Gen GenDir SerProofs PropLog.
From Coq Require Import Lia.
From Coq Require String.
Import String.StringSyntax.
Local Open Scope string_scope.
Local Open Scope N_scope.

(** ** C101 *)

(** Calls on a [RuntimeLogger] through its handle, [replace] among them (rt/logger.rs 25-53). *)
Inductive rcall (I : Type) := RCall (c : pcall) | RReplace (i : I).
Arguments RCall {I} c.
Arguments RReplace {I} i.
Fixpoint rcalls {I} (m : mode) (f : logfn I) (l : rlogger I) (cs : list (rcall I)) : res (rlogger I) :=
  match cs with
  | [] => Ok l
  | RCall c :: cs => do l' <- pcalls m f l [c]; rcalls m f l' cs
  | RReplace i :: cs => rcalls m f (rl_replace l i) cs
  end.
(** All but the replacements. *)
Definition others {I} (cs : list (rcall I)) : list pcall := flat_map (fun c => match c with RCall c => [c] | RReplace _ => [] end) cs.
(** What the logger in use has become: it is the one of the last replacement (or the first one), and has since
    been given the entries for which there was no unmatched pause, with those before the replacement. *)
Inductive in_use {I} (f : logfn I) (i : I) : list (rcall I) -> I -> Prop :=
| u_first : in_use f i [] i
| u_replaced cs j k : in_use f i cs j -> in_use f i (cs ++ [RReplace k]) k
| u_log cs j e : in_use f i cs j -> unmatched (others cs) 0 -> in_use f i (cs ++ [RCall (PLog e)]) (fst (f j e))
| u_silent cs j e d : in_use f i cs j -> unmatched (others cs) d -> (0 < d)%Z -> in_use f i (cs ++ [RCall (PLog e)]) j
| u_pause cs j : in_use f i cs j -> in_use f i (cs ++ [RCall PPause]) j
| u_unpause cs j : in_use f i cs j -> in_use f i (cs ++ [RCall PUnpause]) j.

Lemma rcalls_app {I} m (f : logfn I) a b : forall l, rcalls m f l (a ++ b) = do l' <- rcalls m f l a; rcalls m f l' b.
Proof.
  induction a as [|c a IH]; intros l; [reflexivity|]. destruct c as [c|k]; cbn [app rcalls]; auto.
  destruct (pcalls m f l [c]); cbn [bind]; auto.
Qed.
Lemma others_app {I} (a b : list (rcall I)) : others (a ++ b) = others a ++ others b.
Proof. unfold others. apply flat_map_app. Qed.
(** The number of pauses does not depend on the loggers. *)
Lemma pcalls_paused {I J} m (f : logfn I) (g : logfn J) c l k : rl_paused l = rl_paused k ->
  match pcalls m f l [c], pcalls m g k [c] with
  | Ok l', Ok k' => rl_paused l' = rl_paused k'
  | x, y => match x, y with Ok _, _ | _, Ok _ => False | _, _ => True end
  end.
Proof.
  intros E. destruct c as [e| |]; cbn [pcalls].
  - unfold rl_log. rewrite E. destruct (rl_paused k =? 0); [|exact E]. destruct (f _ e), (g _ e). reflexivity.
  - unfold rl_pause. rewrite E. destruct (add32 m (rl_paused k) 1); cbn; auto.
  - unfold rl_unpause. rewrite E. reflexivity.
Qed.
Lemma rcalls_spec {I} m (f : logfn I) i cs : pauses (others cs) < 2 ^ 32 ->
  exists l k, rcalls m f (rl_new i) cs = Ok l /\ in_use f i cs (rl_inner l) /\
    pcalls m noop_log (rl_new tt) (others cs) = Ok k /\ rl_paused k = rl_paused l.
Proof.
  induction cs as [|c cs IH] using rev_ind; intros P; [exists (rl_new i), (rl_new tt); repeat split; constructor|].
  assert (P' : pauses (others cs) < 2 ^ 32).
  { rewrite others_app in P. unfold pauses in *. rewrite filter_app, lenN_app in P. lia. }
  destruct (IH P') as (l & k & E & U & K & Q). rewrite rcalls_app, E. cbn [bind]. rewrite others_app in *. destruct c as [c|j]; cbn [rcalls others flat_map] in *.
  - destruct (pcalls_spec m noop_log tt (others cs ++ [c]) P) as (k' & K' & _ & _). pose proof K' as K2. rewrite pcalls_app, K in K2. cbn [bind] in K2.
    destruct (pcalls_spec m noop_log tt (others cs) P') as (k0 & K0 & M & _). rewrite K in K0. injection K0 as <-.
    pose proof (pcalls_paused m f noop_log c l k (eq_sym Q)) as X. rewrite K2 in X. destruct (pcalls m f l [c]) as [l'| | |] eqn:L; try contradiction.
    cbn [bind]. exists l', k'. split; [reflexivity|]. split; [|split; [exact K'|now symmetry]].
    destruct c as [e| |]; cbn [pcalls] in L.
    + injection L as <-. unfold rl_log. rewrite Q in M. destruct (rl_paused l =? 0) eqn:Z.
      * replace (Z.of_N (rl_paused l)) with 0%Z in M by lia. destruct (f (rl_inner l) e) as [i' r] eqn:F. cbn [fst rl_inner].
        change i' with (fst (i', r)). rewrite <- F. now apply u_log.
      * cbn [fst]. apply (u_silent f i cs _ e _ U M). lia.
    + destruct (rl_pause m l) as [[n l2]| | |] eqn:R; try discriminate. cbn [bind] in L. injection L as <-. unfold rl_pause in R.
      destruct (add32 m (rl_paused l) 1); try discriminate. cbn [bind] in R. injection R as _ <-. cbn [rl_inner]. now apply u_pause.
    + injection L as <-. unfold rl_unpause. cbn [snd rl_inner]. now apply u_unpause.
  - exists (rl_replace l j), k. split; [reflexivity|]. split; [exact (u_replaced f i cs _ j U)|]. rewrite app_nil_r. split; [exact K|exact Q].
Qed.

(** Replacing the logger keeps the pauses; each logger gets what is logged while it is in use and nothing is
    paused. *)
Theorem c101_replaced : forall I m (f : logfn I) i cs, pauses (others cs) < 2 ^ 32 ->
  exists l d, rcalls m f (rl_new i) cs = Ok l /\ in_use f i cs (rl_inner l) /\ unmatched (others cs) d /\
    forall e, rl_log f l e = if (d =? 0)%Z then (let '(i', r) := f (rl_inner l) e in (mkRL i' (rl_paused l), r)) else (l, Ok tt).
Proof.
  intros I m f i cs P. destruct (rcalls_spec m f i cs P) as (l & k & E & U & K & Q).
  destruct (pcalls_spec m noop_log tt (others cs) P) as (k' & K' & M & _). rewrite K in K'. injection K' as <-.
  exists l, (Z.of_N (rl_paused k)). repeat (split; [assumption|]). intros e. unfold rl_log. rewrite Q.
  destruct (rl_paused l =? 0) eqn:B; destruct (Z.of_N (rl_paused l) =? 0)%Z eqn:B'; try lia; reflexivity.
Qed.
Print Assumptions c101_replaced.
(** It is one logger. *)
Theorem c101_in_use_is_one : forall I (f : logfn I) i cs a b, in_use f i cs a -> in_use f i cs b -> a = b.
Proof.
  intros I f i cs a b A. revert b. induction A as [|cs j k A IH|cs j e A IH U|cs j e d A IH U D|cs j A IH|cs j A IH]; intros b B;
    inversion B as [X|? ? ? ? X|? ? ? ? ? X|? ? ? ? ? ? ? X|? ? ? X|? ? ? X]; try (destruct cs; discriminate X); try reflexivity;
    apply app_inj_tail in X as [-> X]; try discriminate X; try (injection X as ->); auto.
  all: try (erewrite IH by eassumption; reflexivity).
  all: match goal with A : unmatched ?c _, B : unmatched ?c _ |- _ => pose proof (unmatched_unique _ _ _ A B); lia end.
Qed.
Print Assumptions c101_in_use_is_one.
(** A paused logger stays paused when it is replaced by one in which nothing was paused. *)
Example c101_case :
  (do l <- rcalls Debug buf_log (rl_new []) [RCall (PLog (EListPop [1])); RCall PPause; RReplace []; RCall (PLog (EListPop [2]));
     RCall PUnpause; RCall (PLog (EListPop [3]))]; Ok (rl_paused l, map fst (rl_inner l))) = Ok (0, [EListPop [3]]).
Proof. vm_compute. reflexivity. Qed.

(** ** Indexing *)

(** [list[i]] is item [i]; it panics exactly if there is none. *)
Theorem c24_index : forall r l i,
  (i < lenN l -> exists x, list_index (VList r l) i = Ok x /\ nth_error l (N.to_nat i) = Some x) /\
  (lenN l <= i -> list_index (VList r l) i = Panic).
Proof.
  intros r l i. unfold list_index, list_get, lenN. destruct (nth_error l (N.to_nat i)) as [x|] eqn:E.
  - assert (N.to_nat i < length l)%nat by (apply nth_error_Some; congruence). split; [eauto|lia].
  - apply nth_error_None in E. split; [lia|reflexivity].
Qed.
Print Assumptions c24_index.
(** [map[k]] is the value of an entry with this key; it panics exactly if there is none. *)
Theorem c25_index : forall r es k,
  (In k (map fst es) -> exists x, map_index (VMap r es) k = Ok x /\ In (k, x) es) /\
  (~ In k (map fst es) -> map_index (VMap r es) k = Panic).
Proof.
  intros r es k. unfold map_index, map_get. induction es as [|[j y] es [IH1 IH2]]; cbn [assoc map fst In]; [split; [tauto|reflexivity]|].
  destruct (k =? j) eqn:E.
  - apply N.eqb_eq in E as ->. split; [|tauto]. intros _. exists y. auto.
  - apply N.eqb_neq in E. split.
    + intros [->|H]; [congruence|]. destruct (IH1 H) as (x & A & B). eauto.
    + intros H. apply IH2. tauto.
Qed.
Print Assumptions c25_index.
Example c24_c25_index_case : list_index (VList rt_default [VBool true; VBool false]) 1 = Ok (VBool false) /\ list_index (VList rt_default []) 0 = Panic /\
  map_index (VMap rt_default [(7, VBool true)]) 7 = Ok (VBool true) /\ map_index (VMap rt_default [(7, VBool true)]) 8 = Panic.
Proof. repeat split. Qed.

(** ** Settings *)

(** The calls that build a [Setting] (setting.rs 35-56). *)
Inductive scall := NamesRust | NamesCsharp | Builtins (b : bool) | Names (l : list string).
Definition set_by (s : gsetting) (c : scall) : gsetting :=
  match c with NamesRust => get_name_rust s | NamesCsharp => get_name_csharp s | Builtins b => skip_builtins b s | Names l => skip_names l s end.
(** The last element that [f] picks, or a default. *)
Definition last_of {A} (f : scall -> option A) (a : A) (cs : list scall) : A :=
  fold_left (fun a c => match f c with Some b => b | None => a end) cs a.
(** Each part of the setting is what the last call for it says, whatever else is called in between; names
    to be skipped do not add up. *)
Theorem c81_settings : forall cs,
  let s := fold_left set_by cs setting_new in
  (forall m, g_name s m = if last_of (fun c => match c with NamesRust => Some true | NamesCsharp => Some false | _ => None end) false cs
                          then n_rust (m_name m) else cs_name (m_name m)) /\
  g_skip_builtins s = last_of (fun c => match c with Builtins b => Some b | _ => None end) true cs /\
  g_skip s = last_of (fun c => match c with Names l => Some l | _ => None end) [] cs.
Proof.
  intros cs. cbv zeta.
  assert (H : forall cs s r b l, (forall m, g_name s m = if r : bool then n_rust (m_name m) else cs_name (m_name m)) -> g_skip_builtins s = b -> g_skip s = l ->
    let s' := fold_left set_by cs s in
    (forall m, g_name s' m = if last_of (fun c => match c with NamesRust => Some true | NamesCsharp => Some false | _ => None end) r cs
                          then n_rust (m_name m) else cs_name (m_name m)) /\
    g_skip_builtins s' = last_of (fun c => match c with Builtins b => Some b | _ => None end) b cs /\
    g_skip s' = last_of (fun c => match c with Names l => Some l | _ => None end) l cs).
  { clear. induction cs as [|c cs IH]; intros s r b l A B C; [auto|]. cbn [fold_left last_of]. unfold last_of in *. cbn [fold_left].
    destruct c; apply IH; cbn; auto. }
  apply (H cs setting_new false true []); reflexivity.
Qed.
Print Assumptions c81_settings.
Example c81_settings_case : let s := fold_left set_by [Names ["A"]; NamesRust; Builtins false; Names ["B"]] setting_new in
  g_skip s = ["B"] /\ g_skip_builtins s = false /\ g_name s (MStruct (SM (NM "Rust" (Some "Sharp")) [] [] false)) = "Rust".
Proof. repeat split. Qed.

(** ** C102.  The logger that ignores entries and the one that panics *)

(** The calls in turn, up to the first that does not succeed (the caller of [log] passes errors on with [?]). *)
Fixpoint until_fails {I} (m : mode) (f : logfn I) (l : rlogger I) (cs : list pcall) : res (rlogger I) :=
  match cs with
  | [] => Ok l
  | PLog e :: cs => let '(l, r) := rl_log f l e in do _ <- r; until_fails m f l cs
  | PPause :: cs => do (_, l) <- rl_pause m l; until_fails m f l cs
  | PUnpause :: cs => until_fails m f (snd (rl_unpause l)) cs
  end.
(** An entry is logged while nothing is paused. *)
Definition gets_entry (cs : list pcall) : Prop := exists a e b, cs = a ++ PLog e :: b /\ unmatched a 0.

Lemma until_app {I} m (f : logfn I) a b : forall l, until_fails m f l (a ++ b) = do l <- until_fails m f l a; until_fails m f l b.
Proof.
  induction a as [|c a IH]; intros l; [reflexivity|]. destruct c as [e| |]; cbn [app until_fails]; auto.
  - destruct (rl_log f l e) as [k [[]| | |]]; cbn [bind]; auto.
  - destruct (rl_pause m l) as [[n k]| | |]; cbn [bind]; auto.
Qed.
(** As long as nothing fails, this is [pcalls]. *)
Lemma until_pcalls {I} m (f : logfn I) cs : forall l k, until_fails m f l cs = Ok k -> pcalls m f l cs = Ok k.
Proof.
  induction cs as [|c cs IH]; intros l k; [auto|]. destruct c as [e| |]; cbn [until_fails pcalls]; auto.
  - destruct (rl_log f l e) as [l' [[]| | |]]; cbn [bind fst]; try discriminate. apply IH.
  - destruct (rl_pause m l) as [[n l']| | |]; cbn [bind]; try discriminate. apply IH.
Qed.
Lemma gets_snoc cs c : gets_entry (cs ++ [c]) <-> gets_entry cs \/ (exists e, c = PLog e) /\ unmatched cs 0.
Proof.
  split.
  - intros (a & e & b & E & U). destruct b as [|x b _] using rev_ind.
    + apply app_inj_tail in E as [-> ->]. right. eauto.
    + change (a ++ PLog e :: b ++ [x]) with (a ++ (PLog e :: b) ++ [x]) in E. rewrite app_assoc in E. apply app_inj_tail in E as [-> _].
      left. exists a, e, b. auto.
  - intros [(a & e & b & -> & U)|[[e ->] U]].
    + exists a, e, (b ++ [c]). split; [|exact U]. now rewrite <- app_assoc.
    + exists cs, e, []. auto.
Qed.

(** With the logger that ignores entries no call fails, and the logger stays what it is. *)
Theorem c102_noop : forall m cs, pauses cs < 2 ^ 32 ->
  exists d, unmatched cs (Z.of_N d) /\ until_fails m noop_log (rl_new tt) cs = Ok (mkRL tt d).
Proof.
  intros m cs P. destruct (pcalls_spec m noop_log tt cs P) as (l & E & U & _). exists (rl_paused l). split; [exact U|].
  assert (H : forall cs k, until_fails m noop_log k cs = pcalls m noop_log k cs).
  { clear. induction cs as [|c cs IH]; intros k; [reflexivity|]. destruct c as [e| |]; cbn [until_fails pcalls]; auto.
    - unfold rl_log, noop_log at 1. destruct (rl_paused k =? 0) eqn:B; cbn; rewrite IH; unfold rl_log, noop_log; now rewrite ?B.
    - destruct (rl_pause m k) as [[n k']| | |]; cbn [bind]; auto. }
  rewrite H, E. now destruct l as [[] d].
Qed.
Print Assumptions c102_noop.
(** The other one panics exactly if an entry is logged while nothing is paused. *)
Theorem c102_panic : forall m cs, pauses cs < 2 ^ 32 ->
  (gets_entry cs -> until_fails m panic_log (rl_new tt) cs = Panic) /\
  (~ gets_entry cs -> exists d, unmatched cs (Z.of_N d) /\ until_fails m panic_log (rl_new tt) cs = Ok (mkRL tt d)).
Proof.
  intros m cs P.
  assert (H : (gets_entry cs /\ until_fails m panic_log (rl_new tt) cs = Panic) \/
              (~ gets_entry cs /\ exists l, until_fails m panic_log (rl_new tt) cs = Ok l)).
  { induction cs as [|c cs IH] using rev_ind.
    - right. split; [|eexists; reflexivity]. intros (a & e & b & E & _). now destruct a.
    - assert (P' : pauses cs < 2 ^ 32). { unfold pauses in *. rewrite filter_app, lenN_app in P. lia. }
      rewrite until_app, gets_snoc. destruct (IH P') as [[G E]|[G [l E]]]; rewrite E; cbn [bind]; [left; auto|].
      destruct (pcalls_spec m panic_log tt cs P') as (k & K & U & L). rewrite (until_pcalls _ _ _ _ _ E) in K. injection K as <-.
      destruct c as [e| |]; cbn [until_fails].
      + unfold rl_log, panic_log. destruct (rl_paused l =? 0) eqn:B; cbn [bind].
        * left. split; [|reflexivity]. right. split; [eauto|]. apply N.eqb_eq in B. now rewrite B in U.
        * right. split; [|eauto]. intros [X|[_ X]]; [auto|]. pose proof (unmatched_unique _ _ _ U X). lia.
      + right. split; [intros [X|[[e X] _]]; [auto|discriminate]|]. unfold rl_pause, add32.
        destruct (rl_paused l + 1 <? 2 ^ 32) eqn:B; [cbn [bind]; eauto|].
        unfold pauses in P, L. rewrite filter_app, lenN_app in P. change (lenN (filter _ [PPause])) with 1 in P. lia.
      + right. split; [intros [X|[[e X] _]]; [auto|discriminate]|]. eauto. }
  destruct H as [[G E]|[G [l E]]]; (split; [intros X|intros X]); try contradiction; [exact E|].
  destruct (pcalls_spec m panic_log tt cs P) as (k & K & U & _). rewrite (until_pcalls _ _ _ _ _ E) in K. injection K as <-.
  exists (rl_paused l). split; [exact U|]. rewrite E. now destruct l as [[] d].
Qed.
Print Assumptions c102_panic.
(** A surplus unpause does not count for later pauses. *)
Example c102_case :
  until_fails Debug panic_log (rl_new tt) [PUnpause; PPause; PLog (EListPop [1]); PPause; PUnpause; PLog (EListPop [2])] = Ok (mkRL tt 1) /\
  until_fails Debug panic_log (rl_new tt) [PPause; PUnpause; PLog (EListPop [2]); PPause] = Panic /\
  until_fails Debug noop_log (rl_new tt) [PPause; PUnpause; PLog (EListPop [2]); PPause] = Ok (mkRL tt 1).
Proof. repeat split. Qed.
