(** Where a reader stands when decoding ends, also when it ends with an error.

    De.v says what a call that succeeds leaves unread.  Here is what every call leaves unread, function by function
    over those of De.v, which give the values.  A reader that failed can be used again: [replay] is called by a program
    that may call it once more on the same reader (state.rs 37-57), and a nested reader borrows the outer one
    (reader.rs 20-36), so bytes read by it are gone from the outer one and the others are not.
    - One-byte [read_exact]s (varint.rs 40-62, bool.rs 24-37) fail only at the end: nothing is left.
    - [read_to_end] (string.rs 26, bytes.rs 61, array.rs 51-52, tuple.rs 42-43) leaves nothing.
    - A byte that [eof] keeps is read by the step that follows, before anything can fail, so none is lost with a nested
      reader (C47 is about that byte).
    After a panic the reader is not used again; what is given then has no meaning. *)
From Verif Require Import Base Varint WireFmt Utf8 Types De Log State.

Definition lefter := val -> bytes -> bytes.
(** What is left by a call that reads one thing or runs into the end. *)
Definition after {A} (x : res (A * bytes)) : bytes := match x with Ok (_, rest) => rest | _ => [] end.

(** reader.rs 43-57. *)
Definition skipL (m : mode) (w : wtype) (bs : bytes) : bytes :=
  match rd_skip_field m w bs with Ok rest => rest | _ => [] end.
(** de.rs 16-29. *)
Definition merge_nestedL (m : mode) (tw : wtype) (lf : lefter) (w : wtype) (v : val) (bs : bytes) : bytes :=
  if negb (wtype_eqb w tw) then skipL m w bs
  else match w with
       | Varint => lf v bs
       | Sized => match rd_nested m bs with Ok (sub, rest) => lf v sub ++ rest | _ => [] end
       end.

(** [while !reader.eof()? { step }], as in De.v. *)
Fixpoint loopL {S} (fuel : nat) (step : S -> bytes -> S * res bytes) (lf : S -> bytes -> bytes) (s : S) (bs : bytes) : bytes :=
  match bs with
  | [] => []
  | _ => match fuel with
         | O => bs
         | Datatypes.S f =>
             match step s bs with (s', Ok rest) => loopL f step lf s' rest | _ => lf s bs end
         end
  end.
Definition runL {S} (step : S -> bytes -> S * res bytes) (lf : S -> bytes -> bytes) (s : S) (bs : bytes) : bytes :=
  loopL (length bs) step lf s bs.

(** option.rs 37-45. *)
Definition opt_stepL (m : mode) (tw : wtype) (lf : lefter) (d : val) (o : option val) (bs : bytes) : bytes :=
  merge_nestedL m tw lf tw (match o with Some x => x | None => d end) bs.
(** vec.rs 41-44. *)
Definition vec_stepL (m : mode) (tw : wtype) (lf : lefter) (d : val) (l : list val) (bs : bytes) : bytes :=
  merge_nestedL m tw lf tw d bs.
(** array.rs 43-49. *)
Fixpoint arr_loopL (m : mode) (tw : wtype) (mg : merger) (lf : lefter) (d : val) (l : list val) (bs : bytes) : bytes :=
  match l, bs with
  | [], _ | _, [] => bs
  | x :: l', _ =>
      match de_nested m tw mg d bs with
      | Ok (_, rest) => arr_loopL m tw mg lf d l' rest
      | _ => merge_nestedL m tw lf tw d bs
      end
  end.
(** tuple.rs 39. *)
Fixpoint tup_readL (m : mode) (ms : list ((wtype * (merger * lefter)) * val)) (bs : bytes) : bytes :=
  match ms with
  | [] => bs
  | ((tw, (mg, lf)), d) :: ms' =>
      match de_nested m tw mg d bs with
      | Ok (_, rest) => tup_readL m ms' rest
      | _ => merge_nestedL m tw lf tw d bs
      end
  end.
(** hash_map.rs 42-46. *)
Definition hash_stepL (m : mode) (ktw : wtype) (kmg : merger) (klf : lefter) (kd : val) (vtw : wtype) (vlf : lefter) (vd : val)
    (l : list (val * val)) (bs : bytes) : bytes :=
  match de_nested m ktw kmg kd bs with
  | Ok (_, rest) => merge_nestedL m vtw vlf vtw vd rest
  | _ => merge_nestedL m ktw klf ktw kd bs
  end.
(** struct.rs 364-367 with field.rs 376-380. *)
Fixpoint merge_fieldL (m : mode) (ms : list (N * (wtype * lefter))) (fs : list (finfo * val)) (fn : N) (w : wtype) (bs : bytes) : bytes :=
  match ms, fs with
  | [], [] => skipL m w bs
  | (tag, (tw, lf)) :: ms', (fi, x) :: fs' =>
      if fn =? tag then merge_nestedL m tw lf w x bs else merge_fieldL m ms' fs' fn w bs
  | _, _ => []
  end.
(** struct.rs 361-368: a tag that is not one (wire_fmt.rs 39-47) has been read. *)
Definition struct_stepL (m : mode) (ms : list (N * (wtype * lefter))) (fs : list (finfo * val)) (bs : bytes) : bytes :=
  match uv_deserialize m 32 bs with
  | Ok (value, rest) => match parse_tag value with Ok (fn, w) => merge_fieldL m ms fs fn w rest | _ => rest end
  | _ => []
  end.
(** list.rs 181-186. *)
Definition list_stepL (m : mode) (tw : wtype) (lf : lefter) (fresh : N -> val) (l : list val) (bs : bytes) : bytes :=
  merge_nestedL m tw lf tw (fresh (lenN l)) bs.
(** map.rs 185-198: of an entry that is refused for its key the key has been read, the value not. *)
Definition map_stepL (m : mode) (k : mkey) (tw : wtype) (lf : lefter) (fresh : N -> val) (es : list (N * val)) (bs : bytes) : bytes :=
  match uv_deserialize m 32 bs with
  | Ok (n, rest) =>
      match (do (fn, _) <- parse_tag n; do _ <- validate_field_number fn; do _ <- key_of_fn k fn; Ok fn) with
      | Ok fn => merge_nestedL m tw lf tw (match assoc fn es with Some x => x | None => fresh fn end) rest
      | _ => rest
      end
  | _ => []
  end.

(** As cited at [merge] in De.v. *)
Fixpoint mergeL (m : mode) (t : ty) {struct t} : lefter :=
  let flefters := map (fun p : finfo * ty => let '(fi, t) := p in (f_tag fi, (wty t, mergeL m t))) in
  fun v bs =>
  match t, v with
  | TInt k, VInt _ _ => after (int_deserialize m k bs)
  | TBool, VBool _ => after (bool_deserialize bs)
  | TStr, _ | TBytes, _ => []
  | TOpt t, VOpt o => runL (opt_step m (wty t) (merge m t) (dflt t rt_default)) (opt_stepL m (wty t) (mergeL m t) (dflt t rt_default)) o bs
  | TVec t, VVec l => runL (vec_step m (wty t) (merge m t) (dflt t rt_default)) (vec_stepL m (wty t) (mergeL m t) (dflt t rt_default)) l bs
  | TArr _ t, VArr l =>
      match arr_loop m (wty t) (merge m t) (dflt t rt_default) l bs with
      | (_, Ok _) => []
      | _ => arr_loopL m (wty t) (merge m t) (mergeL m t) (dflt t rt_default) l bs
      end
  | TTup ts, VTup _ =>
      match tup_read m (map (fun t => ((wty t, merge m t), dflt t rt_default)) ts) bs with
      | Ok _ => []
      | _ => tup_readL m (map (fun t => ((wty t, (merge m t, mergeL m t)), dflt t rt_default)) ts) bs
      end
  | THash kt vt, VHash l =>
      runL (hash_step m (wty kt) (merge m kt) (dflt kt rt_default) (wty vt) (merge m vt) (dflt vt rt_default))
           (hash_stepL m (wty kt) (merge m kt) (mergeL m kt) (dflt kt rt_default) (wty vt) (mergeL m vt) (dflt vt rt_default)) l bs
  | TBox t, VBox x => mergeL m t x bs
  | TStruct _ fts, VStruct _ _ fs => runL (struct_step m (fmergers m fts)) (struct_stepL m (flefters fts)) fs bs
  | TEnum st vs, VEnum tag _ r fs =>
      match uv_deserialize m 32 bs with
      | Ok (tag', rest) =>
          (fix go vs := match vs with
           | [] => rest
           | va :: vs' =>
               let '((vtag, vc), fts) := va in
               if tag' =? vtag then
                 match (if tag =? tag' then Ok v else do p <- enum_parent r; Ok (variant_ctor st va p)) with
                 | Ok (VEnum _ _ _ fs1) => runL (struct_step m (fmergers m fts)) (struct_stepL m (flefters fts)) fs1 rest
                 | _ => rest
                 end
               else go vs'
           end) vs
      | _ => []
      end
  | TList t, VList r l =>
      runL (list_step m (wty t) (merge m t) (fun i => dflt t (nested r i))) (list_stepL m (wty t) (mergeL m t) (fun i => dflt t (nested r i))) l bs
  | TMap k t, VMap r es =>
      runL (map_step m k (wty t) (merge m t) (fun i => dflt t (nested r i))) (map_stepL m k (wty t) (mergeL m t) (fun i => dflt t (nested r i))) es bs
  | _, _ => bs
  end.
Definition flefters (m : mode) (fts : list (finfo * ty)) : list (N * (wtype * lefter)) :=
  map (fun p : finfo * ty => let '(fi, t) := p in (f_tag fi, (wty t, mergeL m t))) fts.

(** state.rs 46-54: an entry is read before it is handled, and handled from its own bytes (51). *)
Definition read_entryL (m : mode) (bs : bytes) : bytes := merge_nestedL m (wty tEntry) (mergeL m tEntry) (wty tEntry) (dflt tEntry rt_default) bs.
Definition replay_stepL (m : mode) (t : ty) (v : val) (bs : bytes) : bytes :=
  match read_entry m bs with Ok (_, rest) => rest | _ => read_entryL m bs end.
(** state.rs 37-57: what [replay] leaves in its reader. *)
Definition replayL (m : mode) (t : ty) (v : val) (bs : bytes) : bytes :=
  match is_root v with
  | Ok true => runL (replay_step m t) (replay_stepL m t) v bs
  | _ => bs
  end.

(** [while let Err(_) = state.replay(reader) {}]: a program that goes on after errors.  The value at the end and how
    often there was an error; [None] if it panicked or did not end within [fuel] calls. *)
Fixpoint keep_on (fuel : nat) (m : mode) (t : ty) (v : val) (bs : bytes) : option (val * nat) :=
  match fuel with
  | O => None
  | S f =>
      match replay m t v bs with
      | (v', Ok _) => Some (v', O)
      | (v', Err _) => match keep_on f m t v' (replayL m t v bs) with Some (w, n) => Some (w, S n) | None => None end
      | _ => None
      end
  end.
