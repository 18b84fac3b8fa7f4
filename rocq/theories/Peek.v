(** Deserialization with the one-byte look-ahead of [Reader] made explicit.

    De.v reads from a list of bytes.  The code reads through [Reader] (steit/src/de/reader.rs),
    which wraps its source in [iowrap::Eof] (version 0.2.0, not part of /repo; modelled from its
    use and documentation): [eof] reads one byte ahead and keeps it, [read] hands a kept byte out
    first, and [get_mut] gives access to the source behind a kept byte.  [nested] reads from the
    source obtained with [get_mut], so a byte kept at that time would be bypassed, and a byte kept
    by the nested reader when it is dropped is lost.  The functions below are those of De.v over
    such readers.  Sources are in memory and do not fail; [read] into a longer buffer is taken as
    repeated reading of one byte. *)
From Verif Require Import Base Varint WireFmt Utf8 Types De Log State.

(** What a reader reads from: bytes, or [io::Take<Reader<&mut dyn io::Read>>] with its limit,
    the byte kept by the [Reader] inside, and the source behind it (reader.rs 30-36). *)
Inductive source := Base (bs : bytes) | Lim (limit : N) (kept : option N) (s : source).

(** reader.rs 9-11: the kept byte and the source. *)
Definition reader : Type := option N * source.

(** One byte of [Read::read]; [None] at the end. *)
Fixpoint src_read (s : source) : option (N * source) :=
  match s with
  | Base [] => None
  | Base (b :: bs) => Some (b, Base bs)
  | Lim n kept s =>
      if n =? 0 then None
      else match kept with
           | Some b => Some (b, Lim (n - 1) None s)
           | None => match src_read s with
                     | Some (b, s') => Some (b, Lim (n - 1) None s')
                     | None => None
                     end
           end
  end.
(** reader.rs 64-68. *)
Definition rd_read (r : reader) : option (N * reader) :=
  match r with
  | (Some b, s) => Some (b, (None, s))
  | (None, s) => match src_read s with Some (b, s') => Some (b, (None, s')) | None => None end
  end.
(** reader.rs 26-28. *)
Definition rd_eofE (r : reader) : bool * reader :=
  match r with
  | (Some b, s) => (false, r)
  | (None, s) => match src_read s with Some (b, s') => (false, (Some b, s')) | None => (true, r) end
  end.
(** reader.rs 20-24 with the [take] of 32: the reader a sized field is decoded from. *)
Definition rd_enter (size : N) (r : reader) : reader := (None, Lim size None (snd r)).
(** The end of its borrow: what it read is gone from the source of [r], what it kept is lost. *)
Definition rd_leave (r : reader) (sub : reader) : res reader :=
  match snd sub with Lim _ _ s => Ok (fst r, s) | Base _ => NoFuel end.

(** Enough fuel for every loop below: one more than the number of bytes there are. *)
Fixpoint src_len (s : source) : nat :=
  match s with
  | Base bs => length bs
  | Lim _ kept s => (match kept with Some _ => 1 | None => 0 end + src_len s)%nat
  end.
Definition rd_fuel (r : reader) : nat :=
  S (match fst r with Some _ => 1 | None => 0 end + src_len (snd r)).

(** As in Varint.v, WireFmt.v. *)
Fixpoint uv_de_loopE (fuel : nat) (m : mode) (bits value offset : N) (r : reader) : res (N * reader) :=
  match fuel with
  | O => NoFuel
  | S fuel =>
      match rd_read r with
      | None => Err UnexpectedEof
      | Some (b, rest) =>
          let continue_with (sh : N) :=
            let value' := N.lor value (N.shiftl (N.land b 127) sh mod 2 ^ bits) in
            if N.land b 128 =? 0 then Ok (value', rest)
            else uv_de_loopE fuel m bits value' (offset + 7) rest in
          if offset <? bits then continue_with offset
          else match m with Debug => Panic | Release => continue_with (offset mod bits) end
      end
  end.
Definition uv_deserializeE (m : mode) (bits : N) (r : reader) : res (N * reader) :=
  uv_de_loopE (rd_fuel r) m bits 0 0 r.
Definition int_deserializeE (m : mode) (k : ikind) (r : reader) : res (Z * reader) :=
  do (u, rest) <- uv_deserializeE m (ibits k) r;
  Ok (if isigned k then zz_decode (as_signed (ibits k) u) else Z.of_N u, rest).
Fixpoint bool_de_loopE (fuel : nat) (value : bool) (r : reader) : res (bool * reader) :=
  match fuel with
  | O => NoFuel
  | S fuel =>
      match rd_read r with
      | None => Err UnexpectedEof
      | Some (b, rest) =>
          let value' := value || negb (N.land b 127 =? 0) in
          if N.land b 128 =? 0 then Ok (value', rest) else bool_de_loopE fuel value' rest
      end
  end.
Definition bool_deserializeE (r : reader) : res (bool * reader) := bool_de_loopE (rd_fuel r) false r.
(** [read_to_end]. *)
Fixpoint drainE (fuel : nat) (r : reader) : res (bytes * reader) :=
  match fuel with
  | O => NoFuel
  | S fuel => match rd_read r with
              | None => Ok ([], r)
              | Some (b, r') => do (bs, r'') <- drainE fuel r'; Ok (b :: bs, r'')
              end
  end.
Definition to_endE (r : reader) : res (bytes * reader) := drainE (rd_fuel r) r.
(** [self.by_ref().take(n).read_to_end(..)] (reader.rs 52): reads through the kept byte. *)
Fixpoint skipE (fuel : nat) (n : N) (r : reader) : res reader :=
  match fuel with
  | O => NoFuel
  | S fuel => if n =? 0 then Ok r
              else match rd_read r with None => Ok r | Some (_, r') => skipE fuel (n - 1) r' end
  end.
Definition rd_tagE (m : mode) (r : reader) : res (N * wtype * reader) :=
  do (value, rest) <- uv_deserializeE m 32 r;
  do (fn, w) <- parse_tag value;
  Ok (fn, w, rest).
Definition rd_skip_fieldE (m : mode) (w : wtype) (r : reader) : res reader :=
  match w with
  | Varint => do (_, rest) <- uv_deserializeE m 8 r; Ok rest
  | Sized =>
      do (size, rest) <- uv_deserializeE m 64 r;
      if size <? 2 ^ 63 then skipE (rd_fuel rest) size rest else Panic
  end.

(** As in De.v. *)
Definition mergerE := val -> reader -> val * res reader.
Definition tryE {S A} (s : S) (x : res A) (k : A -> S * res reader) : S * res reader :=
  match x with
  | Ok a => k a
  | Err e => (s, Err e)
  | Panic => (s, Panic)
  | NoFuel => (s, NoFuel)
  end.
Definition merge_nestedE (m : mode) (tw : wtype) (mg : mergerE) (w : wtype) (v : val) (r : reader)
    : val * res reader :=
  if negb (wtype_eqb w tw) then (v, rd_skip_fieldE m w r)
  else match w with
       | Varint => mg v r
       | Sized => tryE v (uv_deserializeE m 64 r) (fun '(size, r) =>
                    let '(v', o) := mg v (rd_enter size r) in (v', do sub <- o; rd_leave r sub))
       end.
Definition de_nestedE (m : mode) (tw : wtype) (mg : mergerE) (d : val) (r : reader) : res (val * reader) :=
  let '(v, o) := merge_nestedE m tw mg tw d r in do rest <- o; Ok (v, rest).
Fixpoint loopE {S} (fuel : nat) (step : S -> reader -> S * res reader) (s : S) (r : reader)
    : S * res reader :=
  let '(e, r) := rd_eofE r in
  if e : bool then (s, Ok r)
  else match fuel with
       | O => (s, NoFuel)
       | Datatypes.S f => let '(s', o) := step s r in tryE s' o (fun r => loopE f step s' r)
       end.
Definition runE {S} (step : S -> reader -> S * res reader) (s : S) (r : reader) : S * res reader :=
  loopE (rd_fuel r) step s r.
Definition opt_stepE (m : mode) (tw : wtype) (mg : mergerE) (d : val) (o : option val) (r : reader)
    : option val * res reader :=
  let x := match o with Some x => x | None => d end in
  let '(x', r) := merge_nestedE m tw mg tw x r in (Some x', r).
Definition vec_stepE (m : mode) (tw : wtype) (mg : mergerE) (d : val) (l : list val) (r : reader)
    : list val * res reader :=
  tryE l (de_nestedE m tw mg d r) (fun '(x, rest) => (l ++ [x], Ok rest)).
(** array.rs 45: the end is looked for only while there are items left. *)
Fixpoint arr_loopE (m : mode) (tw : wtype) (mg : mergerE) (d : val) (l : list val) (r : reader)
    : list val * res reader :=
  match l with
  | [] => (l, Ok r)
  | x :: l' =>
      let '(e, r) := rd_eofE r in
      if e : bool then (l, Ok r)
      else tryE l (de_nestedE m tw mg d r) (fun '(y, rest) =>
             let '(l'', o) := arr_loopE m tw mg d l' rest in (y :: l'', o))
  end.
Fixpoint tup_readE (m : mode) (ms : list ((wtype * mergerE) * val)) (r : reader)
    : res (list val * reader) :=
  match ms with
  | [] => Ok ([], r)
  | ((tw, mg), d) :: ms' =>
      do (x, rest) <- de_nestedE m tw mg d r;
      do (l, rest) <- tup_readE m ms' rest;
      Ok (x :: l, rest)
  end.
Definition drain_res (o : res reader) : res reader := do r <- o; do (_, r') <- to_endE r; Ok r'.
Definition hash_stepE (m : mode) (ktw : wtype) (kmg : mergerE) (kd : val)
    (vtw : wtype) (vmg : mergerE) (vd : val) (l : list (val * val)) (r : reader)
    : list (val * val) * res reader :=
  tryE l (de_nestedE m ktw kmg kd r) (fun '(k, rest) =>
  tryE l (de_nestedE m vtw vmg vd rest) (fun '(x, rest) =>
  (hash_insert k x l, Ok rest))).
Fixpoint merge_fieldE (m : mode) (ms : list (N * (wtype * mergerE))) (fs : list (finfo * val))
    (fn : N) (w : wtype) (r : reader) : list (finfo * val) * res reader :=
  match ms, fs with
  | [], [] => ([], rd_skip_fieldE m w r)
  | (tag, (tw, mg)) :: ms', (fi, x) :: fs' =>
      if fn =? tag then
        let '(x', r) := merge_nestedE m tw mg w x r in ((fi, x') :: fs', r)
      else
        let '(fs'', r) := merge_fieldE m ms' fs' fn w r in ((fi, x) :: fs'', r)
  | _, _ => (fs, NoFuel)
  end.
Definition struct_stepE (m : mode) (ms : list (N * (wtype * mergerE))) (fs : list (finfo * val))
    (r : reader) : list (finfo * val) * res reader :=
  tryE fs (rd_tagE m r) (fun '(fn, w, rest) => merge_fieldE m ms fs fn w rest).
Definition list_stepE (m : mode) (tw : wtype) (mg : mergerE) (fresh : N -> val)
    (l : list val) (r : reader) : list val * res reader :=
  let '(x, o) := merge_nestedE m tw mg tw (fresh (lenN l)) r in
  tryE l o (fun rest => (l ++ [x], Ok rest)).
Definition map_stepE (m : mode) (k : mkey) (tw : wtype) (mg : mergerE) (fresh : N -> val)
    (es : list (N * val)) (r : reader) : list (N * val) * res reader :=
  tryE es (uv_deserializeE m 32 r) (fun '(n, rest) =>
  tryE es (parse_tag n) (fun '(fn, _) =>
  tryE es (validate_field_number fn) (fun _ =>
  tryE es (key_of_fn k fn) (fun _ =>
    match assoc fn es with
    | Some x =>
        let '(x', o) := merge_nestedE m tw mg tw x rest in (im_insert fn x' es, o)
    | None =>
        let '(x, o) := merge_nestedE m tw mg tw (fresh fn) rest in
        tryE es o (fun rest => (im_insert fn x es, Ok rest))
    end)))).

(** [merge], as cited at [merge] in De.v. *)
Fixpoint mergeE (m : mode) (t : ty) {struct t} : mergerE :=
  let fmergers := map (fun p : finfo * ty => let '(fi, t) := p in
                         (f_tag fi, (wty t, mergeE m t))) in
  fun v r =>
  match t, v with
  | TInt k, VInt k' _ =>
      if ikind_eqb k k' then
        tryE v (int_deserializeE m k r) (fun '(z, rest) => (VInt k z, Ok rest))
      else (v, NoFuel)
  | TBool, VBool _ => tryE v (bool_deserializeE r) (fun '(b, rest) => (VBool b, Ok rest))
  | TStr, VStr _ => tryE v (to_endE r) (fun '(bs, rest) =>
                      if utf8_valid bs then (VStr bs, Ok rest) else (v, Err InvalidData))
  | TBytes, VBytes s => tryE v (to_endE r) (fun '(bs, rest) => (VBytes (s ++ bs), Ok rest))
  | TOpt t, VOpt o =>
      let '(o', r) := runE (opt_stepE m (wty t) (mergeE m t) (dflt t rt_default)) o r in (VOpt o', r)
  | TVec t, VVec l =>
      let '(l', r) := runE (vec_stepE m (wty t) (mergeE m t) (dflt t rt_default)) l r in (VVec l', r)
  | TArr _ t, VArr l =>
      let '(l', o) := arr_loopE m (wty t) (mergeE m t) (dflt t rt_default) l r in (VArr l', drain_res o)
  | TTup ts, VTup _ =>
      tryE v (tup_readE m (map (fun t => ((wty t, mergeE m t), dflt t rt_default)) ts) r)
        (fun '(l, rest) => (VTup l, drain_res (Ok rest)))
  | THash kt vt, VHash l =>
      let '(l', o) := runE (hash_stepE m (wty kt) (mergeE m kt) (dflt kt rt_default)
                                       (wty vt) (mergeE m vt) (dflt vt rt_default)) l r in
      (VHash l', o)
  | TBox t, VBox x => let '(x', o) := mergeE m t x r in (VBox x', o)
  | TStruct _ fts, VStruct c r0 fs =>
      let '(fs', o) := runE (struct_stepE m (fmergers fts)) fs r in (VStruct c r0 fs', o)
  | TEnum st vs, VEnum tag c r0 fs =>
      tryE v (uv_deserializeE m 32 r) (fun '(tag', rest) =>
        (fix go vs := match vs with
         | [] => (v, Err InvalidData)
         | va :: vs' =>
             let '((vtag, vc), fts) := va in
             if tag' =? vtag then
               tryE v (if tag =? tag' then Ok v
                       else do p <- enum_parent r0; Ok (variant_ctor st va p)) (fun v1 =>
                 match v1 with
                 | VEnum tag1 c1 r1 fs1 =>
                     let '(fs', o) := runE (struct_stepE m (fmergers fts)) fs1 rest in
                     (VEnum tag1 c1 r1 fs', o)
                 | _ => (v1, NoFuel)
                 end)
             else go vs'
         end) vs)
  | TList t, VList r0 l =>
      let '(l', o) := runE (list_stepE m (wty t) (mergeE m t) (fun i => dflt t (nested r0 i))) l r in
      (VList r0 l', o)
  | TMap k t, VMap r0 es =>
      let '(es', o) := runE (map_stepE m k (wty t) (mergeE m t) (fun i => dflt t (nested r0 i))) es r in
      (VMap r0 es', o)
  | _, _ => (v, NoFuel)
  end.

(** reader.rs 14-18, de.rs 10-14. *)
Definition deserializeE (m : mode) (t : ty) (bs : bytes) : res (val * reader) :=
  let '(v, o) := mergeE m t (dflt t rt_default) (None, Base bs) in do rest <- o; Ok (v, rest).

(** The loop of [replay] (state.rs 45-54) over such a reader.  The value of an entry is decoded from a
    fresh reader over its bytes (state.rs 51), which is [handle_entry] of State.v. *)
Definition read_entryE (m : mode) (r : reader) : res (entry * reader) :=
  do (v, rest) <- de_nestedE m (wty tEntry) (mergeE m tEntry) (dflt tEntry rt_default) r;
  match entry_of_val v with Some e => Ok (e, rest) | None => NoFuel end.
Definition replay_stepE (m : mode) (t : ty) (v : val) (r : reader) : val * res reader :=
  tryE v (read_entryE m r) (fun '(e, rest) =>
    let '(v', o) := handle_entry m t e v in (v', do _ <- o; Ok rest)).
Definition replayE (m : mode) (t : ty) (v : val) (r : reader) : val * res unit :=
  match is_root v with
  | Ok true => let '(v', o) := runE (replay_stepE m t) v r in (v', do _ <- o; Ok tt)
  | Ok false => (v, Err InvalidInput)
  | Err e => (v, Err e) | Panic => (v, Panic) | NoFuel => (v, NoFuel)
  end.
