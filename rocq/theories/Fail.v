(** Operations with loggers that refuse entries or panic: the lock around a logger
    (rt/runtime.rs 22-23 and 105-125: [Arc<Mutex<dyn PausableLogger>>]), the [unwrap] of what
    logging returns, and what is left of an operation that stops there.  The operations are
    those of State.v, which are about loggers that take everything; here each call on a logger
    happens, and may fail, before the next step is taken.

    [std::sync::Mutex] by its documentation: if a thread panics while it holds the lock, the
    mutex is poisoned, and [lock()] returns [Err] from then on.  [log] returning [Err] does not
    panic, so it does not poison.  Panics are taken to be caught by the caller
    ([catch_unwind]) or to end one thread of several. *)
From Verif Require Import Base Varint WireFmt Utf8 Types Ser Spec De Log State StateSpec.

Section Loggers.
  (** What a logger remembers, and what it does with an entry. *)
  Context {I : Type} (f : logfn I).

  (** ** The lock *)

  Record cell := mkCell { c_logger : rlogger I; c_poisoned : bool }.
  (** The loggers, by their numbers (Types.v, [rt_log]). *)
  Definition world := list cell.

  Definition LM (A : Type) := world -> world * res A.
  Definition lret {A} (a : A) : LM A := fun w => (w, Ok a).
  Definition llift {A} (r : res A) : LM A := fun w => (w, r).
  Definition lbind {A B} (x : LM A) (k : A -> LM B) : LM B := fun w =>
    match x w with
    | (w', Ok a) => k a w'
    | (w', Err e) => (w', Err e) | (w', Panic) => (w', Panic) | (w', NoFuel) => (w', NoFuel)
    end.
  Definition is_panic {A} (r : res A) : bool := match r with Panic => true | _ => false end.

  (** [self.logger.lock().unwrap()] and a method called on it.  Every runtime has a logger. *)
  Definition with_lock {A} (lg : N) (body : rlogger I -> rlogger I * res A) : LM A := fun w =>
    match nth_error w (N.to_nat lg) with
    | Some c =>
        if c_poisoned c then (w, Panic)
        else let '(L, r) := body (c_logger c) in (set_nth w (N.to_nat lg) (mkCell L (is_panic r)), r)
    | None => (w, NoFuel)
    end.

  (** runtime.rs 121-123 and 125-127, with the [unwrap] of every caller: list.rs 67, 75, 100,
      map.rs 63, 77, field.rs 268 and 295 (generated setters). *)
  Definition lm_log (r : rt) (e : entry) : LM unit := fun w =>
    let '(w', o) := with_lock (rt_log r) (fun L => rl_log f L e) w in (w', unwrap o).
  Definition lm_log_multi (r : rt) (es : list entry) : LM unit := fun w =>
    let '(w', o) := with_lock (rt_log r) (fun L => log_multi (rl_log f) L es) w in (w', unwrap o).

  (** runtime.rs 113-119. *)
  Definition lm_pause (m : mode) (lg : N) : LM unit :=
    with_lock lg (fun L => match rl_pause m L with Ok (_, L') => (L', Ok tt) | _ => (L, Panic) end).
  Definition lm_unpause (lg : N) : LM unit :=
    with_lock lg (fun L => (snd (rl_unpause L), Ok tt)).

  (** A callback calls loggers as State.v says, one call after another, and stops where one of
      them panics. *)
  Definition lm_call (m : mode) (ev : lev) : LM unit :=
    match ev with
    | LLog lg e => lm_log (mkRt lg Root) e
    | LPause lg => lm_pause m lg
    | LUnpause lg => lm_unpause lg
    end.
  Fixpoint lm_calls (m : mode) (evs : list lev) : LM unit :=
    match evs with
    | [] => lret tt
    | ev :: evs' => lbind (lm_call m ev) (fun _ => lm_calls m evs')
    end.
  Definition play {A} (m : mode) (x : M A) : LM A := lbind (lm_calls m (fst x)) (fun _ => llift (snd x)).

  (** ** Operations *)

  (** A method on [&mut self]: the value it leaves, the loggers, the outcome. *)
  Definition VM (A : Type) := world -> val * (world * res A).
  Definition vret {A} (v : val) (r : res A) : VM A := fun w => (v, (w, r)).
  Definition ltry {A B} (v : val) (x : LM A) (k : A -> VM B) : VM B := fun w =>
    match x w with
    | (w', Ok a) => k a w'
    | (w', Err e) => (v, (w', Err e)) | (w', Panic) => (v, (w', Panic)) | (w', NoFuel) => (v, (w', NoFuel))
    end.

  (** runtime.rs 121-123, the entry built first (impl_log, runtime.rs 36-42). *)
  Definition lm_log_entry (r : rt) (e : res entry) : LM unit := lbind (llift e) (lm_log r).

  (** field.rs 312-314, list.rs 63-65, map.rs 69-71. *)
  Definition call_pausedF (m : mode) (r : rt) (fn : N) (cb : callback) : LM val :=
    lbind (lm_pause m (rt_log r)) (fun _ =>
    lbind (play m (cb (nested r fn))) (fun x =>
    lbind (lm_unpause (rt_log r)) (fun _ => lret x))).

  (** field.rs 293-332, as [set_field] in State.v. *)
  Definition set_fieldF (m : mode) (h : store) (r : rt) (fs : list (finfo * val)) (rb : list (finfo * val) -> val)
      (fn : N) (get : LM val) : VM oret :=
    match find_field fn fs with
    | Some (fi, _) =>
        ltry (rb fs) get (fun x =>
          if f_state fi then
            ltry (rb fs) (lm_log_entry r (entry_update_child m r fn x h)) (fun _ =>
              vret (rb (put_field fn x fs)) (Ok RSelf))
          else vret (rb (put_field fn x fs)) (Ok RSelf))
    | None => vret (rb fs) NoFuel
    end.

  (** field.rs 302 and 324; field.rs 312-314. *)
  Definition set_valueF (r : rt) (fs : list (finfo * val)) (fn : N) (x : val) : LM val :=
    match find_field fn fs with
    | Some (fi, _) => lret (if f_state fi then set_rt (nested r fn) x else x)
    | None => llift NoFuel
    end.
  Definition set_value_withF (m : mode) (r : rt) (fs : list (finfo * val)) (fn : N) (cb : callback) : LM val :=
    match find_field fn fs with
    | Some (fi, _) => if f_state fi then call_pausedF m r fn cb else llift NoFuel
    | None => llift NoFuel
    end.

  (** field.rs 258-291: the switch is logged, then made. *)
  Definition reset_variantF (m : mode) (h : store) (t : ty) (tag' : N) (v : val) : VM unit :=
    match t, v with
    | TEnum st vs, VEnum tag c (Some r) fs =>
        if tag =? tag' then vret v (Ok tt)
        else match find_variant vs tag' with
             | Some va =>
                 ltry v (llift (rt_parent r)) (fun p =>
                 let v' := variant_ctor st va p in
                 ltry v (lm_log_entry p (entry_update m p v' h)) (fun _ => vret v' (Ok tt)))
             | None => vret v NoFuel
             end
    | _, _ => vret v NoFuel
    end.
  Definition vthen {B} (x : VM unit) (k : val -> VM B) : VM B := fun w =>
    let '(v, (w', o)) := x w in ltry v (fun w => (w, o)) (fun _ => k v) w'.

  (** list.rs 60-71. *)
  Definition list_push_withF (m : mode) (h : store) (r : rt) (l : list val) (cb : callback) : VM oret :=
    let v := VList r l in
    ltry v (call_pausedF m r (lenN l) cb) (fun x =>
    ltry v (lm_log_entry r (entry_list_push m r x h)) (fun _ =>
    vret (VList r (l ++ [x])) (Ok (RIndex (lenN l))))).

  (** list.rs 73-80. *)
  Definition list_popF (r : rt) (l : list val) : VM oret :=
    match rev l with
    | [] => vret (VList r l) (Ok (ROpt None))
    | z :: _ =>
        ltry (VList r l) (lm_log_entry r (Ok (entry_list_pop r))) (fun _ =>
        vret (VList r (removelast l)) (Ok (ROpt (Some z))))
    end.

  (** list.rs 82-111: both entries under one lock (list.rs 95-100). *)
  Definition list_swap_removeF (m : mode) (h : store) (r : rt) (l : list val) (i : N) : VM oret :=
    let v := VList r l in
    if lenN l <=? i then vret v (Ok (ROpt None))
    else if i =? lenN l - 1 then list_popF r l
    else match nth_error l (N.to_nat i), rev l with
         | Some removed, z :: _ =>
             ltry v (lbind (llift (entry_update_child m r i z h)) (fun e2 =>
                     lm_log_multi r [entry_list_pop r; e2])) (fun _ =>
             let l' := swap_remove_at l (N.to_nat i) in
             match vwty z with
             | Varint => vret (VList r l') (Ok (ROpt (Some removed)))
             | Sized =>
                 ltry (VList r l') (llift (do rr <- val_rt removed; rt_sibling rr i)) (fun rt' =>
                 vret (VList r (set_nth l' (N.to_nat i) (set_rt rt' z))) (Ok (ROpt (Some removed))))
             end)
         | _, _ => vret v NoFuel
         end.

  (** map.rs 61-65, 67-73, 75-79. *)
  Definition map_insertF (m : mode) (h : store) (r : rt) (es : list (N * val)) (k : N) (x : val) : VM oret :=
    ltry (VMap r es) (lm_log_entry r (entry_update_child m r k x h)) (fun _ =>
    vret (VMap r (im_insert k x es)) (Ok (ROpt (assoc k es)))).
  Definition map_insert_withF (m : mode) (h : store) (r : rt) (es : list (N * val)) (k : N) (cb : callback) : VM oret :=
    ltry (VMap r es) (call_pausedF m r k cb) (fun x => map_insertF m h r es k x).
  Definition map_removeF (r : rt) (es : list (N * val)) (k : N) : VM oret :=
    ltry (VMap r es) (lm_log_entry r (Ok (entry_map_remove r k))) (fun _ =>
    vret (VMap r (im_remove k es)) (Ok (ROpt (assoc k es)))).

  Definition apply_opF (m : mode) (h : store) (t : ty) (o : op) (v : val) : VM oret :=
    match o, v with
    | OSet fn x, VStruct c (Some r) fs =>
        set_fieldF m h r fs (VStruct c (Some r)) fn (set_valueF r fs fn x)
    | OSetWith fn cb, VStruct c (Some r) fs =>
        set_fieldF m h r fs (VStruct c (Some r)) fn (set_value_withF m r fs fn cb)
    | OVSet tag fn x, VEnum _ _ (Some _) _ =>
        vthen (reset_variantF m h t tag v) (fun v' =>
          match v' with
          | VEnum tag' c' (Some r') fs' =>
              set_fieldF m h r' fs' (VEnum tag' c' (Some r')) fn (set_valueF r' fs' fn x)
          | _ => vret v' NoFuel
          end)
    | OVSetWith tag fn cb, VEnum _ _ (Some _) _ =>
        vthen (reset_variantF m h t tag v) (fun v' =>
          match v' with
          | VEnum tag' c' (Some r') fs' =>
              set_fieldF m h r' fs' (VEnum tag' c' (Some r')) fn (set_value_withF m r' fs' fn cb)
          | _ => vret v' NoFuel
          end)
    | OPush x, VList r l => list_push_withF m h r l (fun r => mret (set_rt r x))   (* list.rs 53-58 *)
    | OPushWith cb, VList r l => list_push_withF m h r l cb
    | OPop, VList r l => list_popF r l
    | OSwapRemove i, VList r l => list_swap_removeF m h r l i
    | OInsert k x, VMap r es => map_insertF m h r es k x
    | OInsertWith k cb, VMap r es => map_insert_withF m h r es k cb
    | ORemove k, VMap r es => map_removeF r es k
    | _, _ => vret v NoFuel
    end.

  (** Calls on one tree, each attempted whatever became of those before. *)
  Fixpoint attempt (m : mode) (t : ty) (v : val) (cs : list call) (w : world) : val * (world * list (res oret)) :=
    match cs with
    | [] => (v, (w, []))
    | c :: cs' =>
        match at_node (c_at c) (fun t x => apply_opF m (c_caches c) t (c_op c) x w) t v with
        | Some (v', (w', o)) => let '(v'', (w'', os)) := attempt m t v' cs' w' in (v'', (w'', o :: os))
        | None => (v, (w, [NoFuel]))
        end
    end.
End Loggers.
Arguments cell : clear implicits.
Arguments world : clear implicits.
Arguments LM : clear implicits.
Arguments VM : clear implicits.

(** ** What the properties are stated with *)

(** A logger that takes an entry or refuses it: [taken] are the entries it has taken; one it does
    not take leaves no trace there. *)
Definition keeps_count {I} (f : logfn I) (taken : I -> list entry) : Prop :=
  forall i e, match f i e with
              | (i', Ok _) => taken i' = taken i ++ [e]
              | (i', NoFuel) => False
              | (i', _) => taken i' = taken i
              end.
(** An entry was not taken; how the logger and its lock are left. *)
Definition failed {I} (f : logfn I) (i' : I) (p' : bool) : Prop :=
  exists i e o, f i e = (i', o) /\ (forall x, o <> Ok x) /\ p' = is_panic o.
(** The state of a logger that is not paused, and of its lock. *)
Definition logger_at {I} (lg : N) (w : world I) (i : I) (p : bool) : Prop :=
  nth_error w (N.to_nat lg) = Some (mkCell (mkRL i 0) p).

(** The logger of a node. *)
Definition log_of (v : val) : option N :=
  match v with VStruct _ (Some r) _ | VEnum _ _ (Some r) _ | VList r _ | VMap r _ => Some (rt_log r) | _ => None end.
(** Callbacks call no other logger than the one of the tree. *)
Definition on (lg : N) (ev : lev) : Prop := match ev with LLog l _ | LPause l | LUnpause l => l = lg end.
Definition cb_on (lg : N) (cb : callback) : Prop := forall r, Forall (on lg) (fst (cb r)).
Definition op_on (lg : N) (o : op) : Prop :=
  match o with OSetWith _ cb | OVSetWith _ _ cb | OPushWith cb | OInsertWith _ cb => cb_on lg cb | _ => True end.

Definition swaps (o : op) : bool := match o with OSwapRemove _ => true | _ => false end.
Definition switches (o : op) : bool := match o with OVSet _ _ _ | OVSetWith _ _ _ => true | _ => false end.

(** Calls as in C23 (StateSpec.v, [legal]), each on what the calls before it have left. *)
Fixpoint legalF {I} (f : logfn I) (m : mode) (lg : N) (t : ty) (v : val) (cs : list call) (w : world I) : Prop :=
  match cs with
  | [] => True
  | c :: cs' =>
      (exists t' x p, walk t v (c_at c) = Some (t', x, p) /\ op_ok m t' x (c_op c) /\ op_on lg (c_op c)) /\
      (forall v' w' o, at_node (c_at c) (fun t x => apply_opF f m (c_caches c) t (c_op c) x w) t v = Some (v', (w', o)) -> legalF f m lg t v' cs' w')
  end.
