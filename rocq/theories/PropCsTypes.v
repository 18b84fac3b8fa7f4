(** C86: the tables of StateFactory. *)
From Verif Require Import Base Varint WireFmt Types Ser Spec De Log State CSharp CsTypes.
From Coq Require Import Ascii String.
Local Open Scope list_scope.

Definition narrow (s : list N) : Prop := Forall (fun c => c < 256) s.
Fixpoint starts (p s : list N) : bool :=
  match p, s with
  | [], _ => true
  | c :: p, d :: s => (c =? d) && starts p s
  | _, _ => false
  end.
(** What was last set under a name. *)
Definition last_set {T} (d : T) (sets : list (list N * T)) (s : list N) : T :=
  fold_left (fun v e => if list_eqb N.eqb s (fst e) then snd e else v) sets d.

(** The value of the node at the end of a path, if there is one. *)
Fixpoint walk {T} (t : tnode T) (p : list N) : option T :=
  let '(TNode v ch) := t in
  match p with [] => Some v | c :: p => match ch c with None => None | Some n => walk n p end end.
Lemma walk_new {T} (d : T) p : walk (new_node d) p = match p with [] => Some d | _ => None end.
Proof. now destruct p. Qed.
Lemma walk_set {T} (d v : T) i : narrow i -> forall t, exists t', trie_set d t i v = Ok t' /\
  forall p, walk t' p = if list_eqb N.eqb p i then Some v else match walk t p with Some x => Some x | None => if starts p i then Some d else None end.
Proof.
  induction 1 as [|c i Hc _ IH]; intros [v0 ch].
  - eexists. split; [reflexivity|]. intros [|c p]; cbn; [reflexivity|]. destruct (ch c) as [n|]; [|reflexivity]. now destruct (walk n p).
  - destruct (IH (match ch c with None => new_node d | Some n => n end)) as (n & E & W). cbn [trie_set].
    replace (c <? 256) with true by lia. rewrite E. cbn [bind]. eexists. split; [reflexivity|]. intros [|c' p]; [reflexivity|].
    cbn [walk list_eqb starts]. destruct (c' =? c) eqn:Q; [|destruct (ch c') as [k|]; [|reflexivity]; now destruct (walk k p)].
    apply N.eqb_eq in Q. subst c'. cbn [andb]. rewrite W. destruct (list_eqb N.eqb p i) eqn:L; [reflexivity|].
    destruct (ch c) as [k|]; [reflexivity|]. rewrite walk_new. destruct p; [|reflexivity]. destruct i; [discriminate L|reflexivity].
Qed.
Lemma eqb_starts p : forall i, list_eqb N.eqb p i = true -> starts p i = true.
Proof. induction p as [|c p IH]; intros [|e i]; cbn; try congruence. rewrite !andb_true_iff. intros [A B]. auto. Qed.
Lemma last_none {T} (sets : list (list N * T)) p : existsb (fun e => starts p (fst e)) sets = false -> forall v, last_set v sets p = v.
Proof.
  unfold last_set. induction sets as [|[j w] sets IH]; intros X v; [reflexivity|]. cbn in *. apply orb_false_iff in X. destruct X as [X1 X2].
  destruct (list_eqb N.eqb p j) eqn:Q; [|now apply IH]. apply eqb_starts in Q. congruence.
Qed.
Lemma walk_sets {T} (d : T) sets : Forall (fun e => narrow (fst e)) sets -> forall t, exists t', trie_sets d t sets = Ok t' /\
  forall p, walk t' p = if existsb (fun e => starts p (fst e)) sets then Some (last_set (match walk t p with Some x => x | None => d end) sets p) else walk t p.
Proof.
  induction 1 as [|[i v] sets Hi _ IH]; intros t; [eexists; split; [reflexivity|reflexivity]|].
  destruct (walk_set d v i Hi t) as (t1 & E & W). destruct (IH t1) as (t2 & E2 & W2). cbn [trie_sets]. rewrite E. cbn [bind].
  exists t2. split; [exact E2|]. intros p. rewrite W2, W. cbn [existsb fst]. unfold last_set. cbn [fold_left fst snd].
  pose proof (eqb_starts p i) as S. pose proof (last_none sets p) as F. unfold last_set in F.
  destruct (list_eqb N.eqb p i); [rewrite S by reflexivity|destruct (starts p i)]; cbn [orb]; destruct (existsb _ sets);
    try rewrite F by reflexivity; now destruct (walk t p).
Qed.
Lemma get_narrow {T} (d : T) s : narrow s -> forall t, trie_get d t s = Ok (match walk t s with Some v => v | None => d end).
Proof.
  induction 1 as [|c s Hc _ IH]; intros [v ch]; [reflexivity|]. cbn. replace (c <? 256) with true by lia. destruct (ch c); [apply IH|reflexivity].
Qed.
Lemma get_wide {T} (d : T) p c q : narrow p -> 256 <= c -> forall t, trie_get d t (p ++ c :: q) = match walk t p with Some _ => Panic | None => Ok d end.
Proof.
  intros Hp Hc. induction Hp as [|e p He _ IH]; intros [v ch]; cbn.
  - now replace (c <? 256) with false by lia.
  - replace (e <? 256) with true by lia. destruct (ch e); [apply IH|reflexivity].
Qed.

(** A table is a finite map: a name has the value that was last set under it, else [default].  A name with a code unit from 256
    on makes the look-up throw if what comes before it begins a name that was set, and is not found otherwise. *)
Theorem c86_trie : forall T (d : T) sets, Forall (fun e => narrow (fst e)) sets -> exists t, trie_sets d (new_node d) sets = Ok t /\
  (forall s, narrow s -> trie_get d t s = Ok (last_set d sets s)) /\
  (forall p c q, narrow p -> 256 <= c -> trie_get d t (p ++ c :: q) = if starts p [] || existsb (fun e => starts p (fst e)) sets then Panic else Ok d).
Proof.
  intros T d sets H. destruct (walk_sets d sets H (new_node d)) as (t & E & W). exists t. split; [exact E|].
  assert (N1 : forall s, match walk (new_node d) s with Some x => x | None => d end = d) by (intros []; reflexivity). split.
  - intros s Hs. rewrite get_narrow by exact Hs. rewrite W, N1. destruct (existsb _ sets) eqn:X; [reflexivity|]. f_equal. rewrite N1.
    now rewrite last_none.
  - intros p c q Hp Hc. rewrite get_wide by assumption. rewrite W. destruct (existsb _ sets); [rewrite orb_true_r; reflexivity|].
    rewrite orb_false_r, walk_new. now destruct p.
Qed.
Print Assumptions c86_trie.

Lemma narrow_or s : narrow s \/ exists p c q, s = p ++ c :: q /\ narrow p /\ 256 <= c.
Proof.
  induction s as [|c s IH]; [left; constructor|]. destruct (N.ltb_spec c 256) as [L|L].
  - destruct IH as [IH|(p & e & q & -> & Hp & He)]; [left; now constructor|right]. exists (c :: p), e, q. split; [reflexivity|]. split; [now constructor|exact He].
  - right. exists [], c, s. split; [reflexivity|]. split; [constructor|exact L].
Qed.
Lemma last_set_in {T} (sets : list (list N * T)) s : forall d, last_set d sets s = d \/ exists v, In (s, v) sets /\ last_set d sets s = v.
Proof.
  unfold last_set. induction sets as [|[i w] sets IH]; intros d; [now left|]. cbn [fold_left fst snd].
  destruct (list_eqb N.eqb s i) eqn:Q.
  - assert (s = i) by (revert i Q; clear; induction s as [|c s IH]; intros [|e i]; cbn; try congruence; rewrite andb_true_iff; intros [A B];
      apply N.eqb_eq in A; subst; f_equal; auto). subst i.
    destruct (IH w) as [->|(v & I & E)]; right; [exists w; split; [now left|reflexivity]|exists v; split; [now right|exact E]].
  - destruct (IH d) as [->|(v & I & E)]; [now left|right]. exists v. split; [now right|exact E].
Qed.
Definition narrowb (s : list N) : bool := forallb (fun c => c <? 256) s.
Lemma narrowb_ok s : narrowb s = true -> narrow s.
Proof. unfold narrowb, narrow. rewrite forallb_forall, Forall_forall. intros H c I. specialize (H c I). lia. Qed.
Lemma sets_narrow : Forall (fun e : list N * option boxed => narrow (fst e)) deserializer_sets.
Proof. unfold deserializer_sets. repeat (apply Forall_cons; [apply narrowb_ok; reflexivity|]). constructor. Qed.
Lemma name_in s v : In (s, v) deserializer_sets -> exists p, s = prim_name p.
Proof.
  unfold deserializer_sets. cbn [In]. intros H.
  repeat match type of H with _ \/ _ => destruct H as [H|H] | False => destruct H end; injection H as <- _;
  [exists (PInt U8)|exists (PInt U16)|exists (PInt U32)|exists (PInt U64)|exists (PInt I8)|exists (PInt I16)|exists (PInt I32)|exists (PInt I64)|exists PBool|exists PStr];
  reflexivity.
Qed.

(** [ValidateType] accepts the states and, of the other types, exactly the ten that have a deserializer. *)
Theorem c86_validate : forall t, validate_type t = Ok tt <-> (is_state t = true \/ exists p, full_name t = prim_name p).
Proof.
  intros [s st]. unfold validate_type, is_primitive_type. cbn [full_name is_state]. destruct st; [intuition|].
  destruct (c86_trie _ None deserializer_sets sets_narrow) as (d & E & G & W). unfold deserializers. rewrite E. cbn [bind]. split.
  - intros H. right. destruct (narrow_or s) as [Hs|(p & c & q & -> & Hp & Hc)].
    + rewrite (G s Hs) in H. cbn [bind] in H. destruct (last_set_in deserializer_sets s None) as [X|(v & I & _)]; [now rewrite X in H|].
      exact (name_in _ _ I).
    + rewrite (W p c q Hp Hc) in H. destruct (_ || _); discriminate H.
  - intros [H|(p & ->)]; [discriminate H|]. rewrite G by (apply narrowb_ok; destruct p as [[]| |]; reflexivity). destruct p as [[]| |]; reflexivity.
Qed.
Print Assumptions c86_validate.

Definition reader_of (p : prim) : boxed := match p with PInt k => read_int k | PBool => read_bool | PStr => read_string end.
Lemma found p : exists d, deserializers = Ok d /\ trie_get None d (prim_name p) = Ok (Some (reader_of p)).
Proof.
  destruct (c86_trie _ None deserializer_sets sets_narrow) as (d & E & G & W). exists d. split; [exact E|].
  rewrite G by (apply narrowb_ok; destruct p as [[]| |]; reflexivity). destruct p as [[]| |]; reflexivity.
Qed.
Lemma sized p : exists s, is_sized = Ok s /\ trie_get false s (prim_name p) = Ok (prim_eqb p PStr).
Proof.
  destruct (c86_trie _ false [(units "System.String", true)]) as (d & E & G & W); [apply Forall_cons; [apply narrowb_ok; reflexivity|constructor]|].
  exists d. split; [exact E|]. rewrite G by (apply narrowb_ok; destruct p as [[]| |]; reflexivity). destruct p as [[]| |]; reflexivity.
Qed.
Lemma read_prim p bs : deserialize_primitive (mkCT (prim_name p) false) p bs =
  c_deser (match p with PInt k => CInt k | PBool => CBool | PStr => CStr end) bs.
Proof.
  unfold deserialize_primitive. destruct (found p) as (d & -> & E). cbn [bind full_name]. rewrite E. cbn [bind].
  destruct p as [k| |]; cbn [reader_of c_deser].
  - unfold read_int. destruct (c_int k bs) as [[z rest]|e| |]; cbn [bind]; try reflexivity. now destruct k.
  - unfold read_bool. destruct (c_bool bs false) as [[z rest]|e| |]; reflexivity.
  - reflexivity.
Qed.

(** Values of every class are read as [CSharp.v] says, whatever the names of the state classes are: by themselves, and nested. *)
Theorem c86_reads : forall t bs,
  let T := match prim_of t with Some p => mkCT (prim_name p) false | None => mkCT (units "any name") true end in
  forall T', is_state T' = is_state T -> (is_state T = false -> full_name T' = full_name T) ->
  forall p, prim_of t = Some p \/ prim_of t = None ->
  deserialize_any (c_deser t) T' p bs = c_deser t bs /\ deserialize_nested_any (c_deser t) T' p bs = c_value t (c_deser t) bs.
Proof.
  intros t bs T [s st] Hst Hs p Hp. subst T.
  destruct t as [k| | | | | | | | |]; cbn [prim_of is_state full_name] in *; subst st; unfold deserialize_any, deserialize_nested_any, c_value;
    cbn [is_state full_name c_wty].
  4-10: split; reflexivity.
  all: rewrite Hs by reflexivity; clear Hs; destruct Hp as [Hp|Hp]; [injection Hp as <-|discriminate Hp].
  - rewrite read_prim. split; [reflexivity|]. destruct (sized (PInt k)) as (d & -> & E). cbn [bind]. now rewrite E.
  - rewrite read_prim. split; [reflexivity|]. destruct (sized PBool) as (d & -> & E). cbn [bind]. now rewrite E.
  - rewrite read_prim. split; [reflexivity|]. destruct (sized PStr) as (d & -> & E). cbn [bind]. rewrite E. cbn [bind prim_eqb].
    destruct (c_nested bs) as [[sub rest]|e| |]; reflexivity.
Qed.
Print Assumptions c86_reads.

(** [IsPrimitiveType] does not always answer: a class whose name begins with a letter outside Latin-1. *)
Theorem c86_name_refuted : ~ (forall t, exists b, is_primitive_type t = Ok b).
Proof. intros H. destruct (H (mkCT [1046] false)) as (b & E). vm_compute in E. discriminate E. Qed.
Print Assumptions c86_name_refuted.

Example c86_case :
  is_primitive_type (mkCT (units "System.UInt32") false) = Ok true /\ is_primitive_type (mkCT (units "System.UInt") false) = Ok false /\
  is_primitive_type (mkCT (units "System.UInt128") false) = Ok false /\ validate_type (mkCT (units "System.Char") false) = Panic /\
  validate_type (mkCT (units "Game.Unit") true) = Ok tt /\ is_primitive_type (mkCT (units "Gam" ++ [1046]) false) = Ok false /\
  is_primitive_type (mkCT (units "Sys" ++ [1046]) false) = Panic /\
  deserialize_nested_any (fun _ => Panic) (mkCT (units "System.String") false) PStr [2; 65; 66; 7] = Ok (CVStr (Some [65; 66]), [7]) /\
  deserialize_any (fun _ => Panic) (mkCT (units "System.SByte") false) (PInt I8) [3; 7] = Ok (CVInt (-2), [7]) /\
  deserialize_any (fun _ => Panic) (mkCT (units "System.SByte") false) (PInt U8) [3; 7] = Panic.
Proof. vm_compute. repeat split. Qed.
