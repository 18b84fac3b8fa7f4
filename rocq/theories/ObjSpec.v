(** What the objects of a C# client (CsObj.v) are expected to be: where they are, and what events say. *)
From Verif Require Import Base Varint WireFmt Types De Log State CSharp CsObj.

(** The object without identities and paths, as in CSharp.v. *)
Fixpoint erase (o : cobj) : cval :=
  match o with
  | OInt z => CVInt z
  | OBool b => CVBool b
  | OStr s => CVStr s
  | OBytes _ s => CVBytes s
  | OOpt _ None => CVOpt None
  | OOpt _ (Some x) => CVOpt (Some (erase x))
  | OVec _ l => CVVec (map erase l)
  | OList _ l => CVList (map erase l)
  | OMap _ es => CVMap (map (fun e : N * cobj => let '(k, x) := e in (k, erase x)) es)
  | OStruct _ fs => CVStruct (map (fun e : N * cobj => let '(k, x) := e in (k, erase x)) fs)
  | OEnum _ tag _ fs => CVEnum tag (map (fun e : N * cobj => let '(k, x) := e in (k, erase x)) fs)
  end.

(** What is at a place: fields by tag, items by index, entries by key; the variant of an enum is at its
    tag, the value of an option at 0. *)
Definition slot (o : cobj) (a : N) : option cobj :=
  match o with
  | OStruct _ fs => assoc a fs
  | OEnum _ tag hv fs => if a =? tag then Some (OStruct hv fs) else None
  | OList _ l | OVec _ l => nth_error l (N.to_nat a)
  | OMap _ es => assoc a es
  | OOpt _ (Some x) => if a =? 0 then Some x else None
  | _ => None
  end.
Fixpoint here (o : cobj) (q : list N) : option cobj :=
  match q with
  | [] => Some o
  | a :: q => match slot o a with Some x => here x q | None => None end
  end.

(** Every object in the tree has the path of its place. *)
Definition at_home (p : list N) (o : cobj) : Prop :=
  forall q x h, here o q = Some x -> o_handle_of x = Some h -> snd h = p ++ q.
(** No object is in two places; identities from [n] on are unused. *)
Definition own_place (n : N) (o : cobj) : Prop :=
  (forall q x h, here o q = Some x -> o_handle_of x = Some h -> fst h < n) /\
  (forall q q' x x' h h', here o q = Some x -> here o q' = Some x' -> o_handle_of x = Some h -> o_handle_of x' = Some h' ->
     fst h = fst h' -> q = q').

(** Which object an event is about, what it says was there and what it says is to be there, by tag. *)
Definition ev_owner (ev : event) : cobj :=
  match ev with
  | EvField o _ _ _ | EvVariant o _ _ _ _ | EvPush o _ _ | EvPop o _ _ | EvInsert o _ _ | EvRemove o _ _ => o
  end.
Definition ev_old (ev : event) : option (N * cobj) :=
  match ev with
  | EvField _ tag _ old => Some (tag, old)
  | EvVariant _ _ _ tag old => Some (tag, old)
  | EvPop _ tag x | EvRemove _ tag x => Some (tag, x)
  | EvPush _ _ _ | EvInsert _ _ _ => None
  end.
Definition ev_new (ev : event) : option (N * cobj) :=
  match ev with
  | EvField _ tag new _ => Some (tag, new)
  | EvVariant _ tag new _ _ => Some (tag, new)
  | EvPush _ tag x | EvInsert _ tag x => Some (tag, x)
  | EvPop _ _ _ | EvRemove _ _ _ => None
  end.
Definition ev_tags (ev : event) : list N :=
  map fst (match ev_old ev with Some p => [p] | None => [] end ++ match ev_new ev with Some p => [p] | None => [] end).

(** The event says how [v] became [v']: its owner was at [c]; what it says was there was there, and
    nothing if it says nothing; what it says is to be there is there, and nothing if it says nothing; the
    owner and the objects around it are still the same objects; all else is as it was. *)
Definition tells (c : list N) (ev : event) (v v' : cobj) : Prop :=
  here v c = Some (ev_owner ev) /\
  (forall tag, In tag (ev_tags ev) -> here v (c ++ [tag]) = match ev_old ev with Some (tag', x) => if tag =? tag' then Some x else None | None => None end) /\
  (forall tag, In tag (ev_tags ev) -> here v' (c ++ [tag]) = match ev_new ev with Some (tag', x) => if tag =? tag' then Some x else None | None => None end) /\
  (forall q r, c = q ++ r -> option_map o_handle_of (here v' q) = option_map o_handle_of (here v q)) /\
  (forall q, (forall r, c <> q ++ r) -> (forall tag r, In tag (ev_tags ev) -> q <> c ++ tag :: r) -> here v' q = here v q).

(** The container an entry changes. *)
Definition container (e : entry) : list N := match e with EUpdate p _ => removelast p | EListPush p _ | EListPop p | EMapRemove p _ => p end.
(** The kind of event an entry calls for, and the tag it is to name. *)
Definition fits (e : entry) (ev : event) : Prop :=
  match e, ev with
  | EUpdate p _, EvField (OStruct _ _ | OList _ _ | OMap _ _) tag _ _ => tag = last p 0
  | EUpdate p _, EvVariant (OEnum _ _ _ _) tag _ _ _ => tag = last p 0
  | EUpdate p _, EvInsert (OMap _ _) tag _ => tag = last p 0
  | EListPush _ _, EvPush (OList _ l) tag _ => tag = lenN l
  | EListPop _, EvPop (OList _ l) tag _ => tag + 1 = lenN l
  | EMapRemove _ k, EvRemove (OMap _ _) tag _ => tag = k
  | _, _ => False
  end.
(** An update whose path names nothing: it does nothing whatever its bytes. *)
Definition names_nothing (t : cty) (e : entry) (v : cobj) : Prop :=
  match e with
  | EUpdate p _ => forall bs, c_handle t (EUpdate p bs) (erase v) = Ok (erase v)
  | _ => c_handle t e (erase v) = Ok (erase v)
  end.
(** The events raised while entries are applied: one for each entry, in order, except for entries that
    name nothing, and those that replace the root. *)
Inductive told (t : cty) : list entry -> cobj -> list event -> cobj -> Prop :=
| told_end v : told t [] v [] v
| told_event e es v ev v1 evs v' : fits e ev -> tells (container e) ev v v1 -> told t es v1 evs v' -> told t (e :: es) v (ev :: evs) v'
| told_nothing e es v evs v' : names_nothing t e v -> told t es v evs v' -> told t (e :: es) v evs v'
| told_root bs rest es v v1 evs v' : c_deser t bs = Ok (erase v1, rest) -> told t es v1 evs v' -> told t (EUpdate [] bs :: es) v evs v'.
