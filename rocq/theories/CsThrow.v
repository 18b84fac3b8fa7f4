(** Model of event handlers that throw while a C# client replays (the client of CsObj.v): StateReplayer.cs
    9-69, State/Event, the [ReplaceAt], [ReplayListPush], [ReplayListPop] and [ReplayMapRemove] of generated
    classes, StateList.cs and StateMap.cs; and of where the reader then is (Reader.cs, ByteReader.cs).

    Handlers may have a state of their own ([H]) and may throw.  They do not change the objects.  Every
    handler is asked about every event; one that is not subscribed to the event of the object or class
    concerned does nothing. *)
From Verif Require Import Base Varint WireFmt Types De Log State CSharp CsObj.

Section Handlers.
  Context {H : Type}.
  (** What a handler does when told: its state afterwards, and whether it throws. *)
  Definition handler : Type := H -> event -> H * bool.

  (** [Invoke] of a delegate calls those who subscribed one after the other; an exception goes to the
      caller and the others are not called. *)
  Fixpoint raise (subs : list handler) (s : H) (ev : event) : H * bool :=
    match subs with
    | [] => (s, false)
    | f :: subs => let '(s, threw) := f s ev in if threw then (s, true) else raise subs s ev
    end.

  (** The object, the next identity, the handlers; whether an exception came. *)
  Definition left_by : Type := (cobj * N * H) * res unit.
  Definition top : Type := cty -> cobj -> N -> H -> left_by.
  Context (subs : list handler).

  (** First the handlers are told, then the object is changed. *)
  Definition tell (v : cobj) (n : N) (s : H) (ev : event) (v' : cobj) : left_by :=
    let '(s, threw) := raise subs s ev in if threw then ((v, n, s), Panic) else ((v', n, s), Ok tt).
  (** An exception before anybody is told. *)
  Definition making {A} (v : cobj) (n : N) (s : H) (x : res A) (k : A -> left_by) : left_by :=
    match x with
    | Ok a => k a
    | Err e => ((v, n, s), Err e)
    | Panic => ((v, n, s), Panic)
    | NoFuel => ((v, n, s), NoFuel)
    end.

  (** csharp.rs 302-331 with 345-366, 525-558; StateList.cs 54-68; StateMap.cs 55-70. *)
  Definition t_replace_at (tag : N) (bs : bytes) : top := fun t v n s =>
    match t, v with
    | CStruct fs, OStruct h xs =>
        match assoc tag fs with
        | None => ((v, n, s), Ok tt)
        | Some (_, t) =>
            making v n s (o_deser t (o_path v ++ [tag]) n bs) (fun '(x, _, n') =>
              match assoc tag xs with
              | Some y => tell v n' s (EvField v tag x y) (OStruct h (o_put tag x xs))
              | None => ((v, n, s), NoFuel)
              end)
        end
    | CEnum vs, OEnum h tag' hv xs' =>
        match assoc tag vs with
        | None => ((v, n, s), Ok tt)
        | Some fs =>
            making v n s (o_deser (CStruct fs) (o_path v ++ [tag]) n bs) (fun '(x, _, n') =>
              match x with
              | OStruct hx xs => tell v n' s (EvVariant v tag x tag' (OStruct hv xs')) (OEnum h tag hx xs)
              | _ => ((v, n, s), NoFuel)
              end)
        end
    | CList t, OList h l =>
        match nth_error l (N.to_nat tag) with
        | None => ((v, n, s), Panic)                         (* IndexOutOfRangeException *)
        | Some y =>
            making v n s (o_deser t (o_path v ++ [tag]) n bs) (fun '(x, _, n') =>
              tell v n' s (EvField v tag x y) (OList h (set_nth l (N.to_nat tag) x)))
        end
    | CMap t, OMap h es =>
        making v n s (o_deser t (o_path v ++ [tag]) n bs) (fun '(x, _, n') =>
          tell v n' s (match assoc tag es with Some y => EvField v tag x y | None => EvInsert v tag x end)
            (OMap h (im_insert tag x es)))
    | CBytes, OBytes _ _ | COpt _, OOpt _ _ | CVec _, OVec _ _ => ((v, n, s), Ok tt)
    | _, _ => ((v, n, s), NoFuel)
    end.
  (** StateList.cs 70-78, 80-91; StateMap.cs 75-84. *)
  Definition t_push (bs : bytes) : top := fun t v n s =>
    match t, v with
    | CList t, OList h l =>
        making v n s (o_deser t (o_path v ++ [lenN l]) n bs) (fun '(x, _, n') =>
          tell v n' s (EvPush v (lenN l) x) (OList h (l ++ [x])))
    | _, _ => ((v, n, s), Panic)
    end.
  Definition t_pop : top := fun t v n s =>
    match t, v with
    | CList _, OList h l =>
        match l with
        | [] => ((v, n, s), Panic)
        | x :: _ => tell v n s (EvPop v (lenN l - 1) (last l x)) (OList h (removelast l))
        end
    | _, _ => ((v, n, s), Panic)
    end.
  Definition t_remove (k : N) : top := fun t v n s =>
    match t, v with
    | CMap _, OMap h es =>
        match assoc k es with
        | None => ((v, n, s), Panic)
        | Some y => tell v n s (EvRemove v k y) (OMap h (filter (fun e => negb (fst e =? k)) es))
        end
    | _, _ => ((v, n, s), Panic)
    end.

  (** State.cs 9-15, StateReplayer.cs 33-37.  The container is part of the root, however it is left. *)
  Fixpoint t_modify (t : cty) (v : cobj) (n : N) (s : H) (path : list N) (op : top) : left_by :=
    match path with
    | [] => op t v n s
    | tag :: path' =>
        making v n s (o_child t v tag) (fun c =>
          match c with
          | None => ((v, n, s), Ok tt)
          | Some (t', x) => let '((x', n', s'), o) := t_modify t' x n s path' op in ((o_put_child v tag x', n', s'), o)
          end)
    end.
  (** StateReplayer.cs 16-69. *)
  Definition t_handle (t : cty) (e : entry) (v : cobj) (n : N) (s : H) : left_by :=
    match e with
    | EUpdate path bs =>
        match path with
        | [] => making v n s (o_deser t (o_path v) n bs) (fun '(x, _, n') => ((x, n', s), Ok tt))
        | _ => t_modify t v n s (removelast path) (t_replace_at (last path 0) bs)
        end
    | EListPush path bs => t_modify t v n s path (t_push bs)
    | EListPop path => t_modify t v n s path t_pop
    | EMapRemove path k => t_modify t v n s path (t_remove k)
    end.

  (** What [GetNested] (Reader.cs 100-103) leaves unread if it throws: nothing if it was looking for the
      end of the size, otherwise what comes after the size. *)
  Definition c_unread (bs : bytes) : bytes := match c_unsigned bs with Ok (_, rest) => rest | _ => [] end.

  (** StateReplayer.cs 9-14: the objects and handlers afterwards, what the reader has not read, the
      outcome.  An entry is taken out of the reader before it is looked at. *)
  Fixpoint t_loop (fuel : nat) (t : cty) (v : cobj) (n : N) (s : H) (bs : bytes) : (cobj * N * H) * bytes * res unit :=
    match bs with
    | [] => ((v, n, s), [], Ok tt)
    | _ =>
        match fuel with
        | O => ((v, n, s), bs, NoFuel)
        | S fuel =>
            match c_nested bs with
            | Ok (sub, rest) =>
                match (do (x, _) <- c_deser cEntry sub; c_entry x) with
                | Ok e =>
                    match t_handle t e v n s with
                    | ((v, n, s), Ok _) => t_loop fuel t v n s rest
                    | (w, o) => (w, rest, o)
                    end
                | Panic => ((v, n, s), rest, Panic)
                | Err e => ((v, n, s), rest, Err e)
                | NoFuel => ((v, n, s), rest, NoFuel)
                end
            | Panic => ((v, n, s), c_unread bs, Panic)
            | Err e => ((v, n, s), c_unread bs, Err e)
            | NoFuel => ((v, n, s), c_unread bs, NoFuel)
            end
        end
    end.
  Definition t_replay (t : cty) (v : cobj) (n : N) (s : H) (bs : bytes) : (cobj * N * H) * bytes * res unit :=
    t_loop (length bs) t v n s bs.
End Handlers.
Arguments handler : clear implicits.
