(** Deserialization from a source that gives its bytes in pieces, is interrupted, or fails.

    De.v reads from a list of bytes and Peek.v adds the look-ahead of [Reader], both over bytes in memory.
    Here the source is any [io::Read] (steit/src/de/reader.rs 9-18, de/de.rs 8-14, state.rs 37): a file or
    a connection.  Each call of its [read] gives some of the bytes asked for, or fails.
    Not part of /repo and modelled from their documentation:
    - [Read::read_exact] and [Read::read_to_end] of std: call [read] again after a part, and after
      [ErrorKind::Interrupted]; [read_to_end] chooses how much to ask for ([buf] below, any function);
    - [io::Take]: asks for no more than its limit, and for nothing when the limit is 0;
    - [iowrap::Eof] 0.2.0, as in Peek.v; a kept byte is handed out alone.  Whether its [eof] calls [read]
      again after [Interrupted] is left open ([again] below). *)
From Verif Require Import Base Varint WireFmt Utf8 Types De Log State.

(** [io::Error]s of the source.  [Other n] is any error but [Interrupted]. *)
Inductive ioerr := Interrupted | Other (n : N).

(** As [res], with the errors of the source apart from those the crate makes. *)
Inductive resF (A : Type) := OkF (a : A) | ErrF (e : errk) | IoF (x : ioerr) | PanicF | NoFuelF.
Arguments OkF {A} a.
Arguments ErrF {A} e.
Arguments IoF {A} x.
Arguments PanicF {A}.
Arguments NoFuelF {A}.
Definition bindF {A B} (x : resF A) (f : A -> resF B) : resF B :=
  match x with
  | OkF a => f a
  | ErrF e => ErrF e
  | IoF e => IoF e
  | PanicF => PanicF
  | NoFuelF => NoFuelF
  end.
Notation "'io' x <- a ; b" := (bindF a (fun x => b))
  (at level 200, x pattern, a at level 100, b at level 200, right associativity).
Definition liftF {A} (x : res A) : resF A :=
  match x with Ok a => OkF a | Err e => ErrF e | Panic => PanicF | NoFuel => NoFuelF end.

(** What the source answers: some bytes (at least one), over as many calls as it takes to fetch them, or
    an error, once.  At the end of the list every call gives 0 bytes. *)
Inductive event := Data (b : N) (bs : bytes) | Fails (x : ioerr).

(** What is left open about the libraries. *)
Record lib := mkLib { again : bool; buf : nat -> nat }.

(** What a reader reads from, as in Peek.v. *)
Inductive source := Base (ev : list event) | Lim (limit : N) (kept : option N) (s : source).
Definition reader : Type := option N * source.

(** [read] into a buffer of [n] bytes: what it gives, and the source afterwards. *)
Fixpoint src_read (n : nat) (s : source) : (ioerr + bytes) * source :=
  match s with
  | Base [] => (inr [], s)
  | Base (Data b bs :: ev) =>
      (inr (firstn n (b :: bs)),
       Base (match skipn n (b :: bs) with [] => ev | b' :: bs' => Data b' bs' :: ev end))
  | Base (Fails x :: ev) => (inl x, Base ev)
  | Lim l kept s =>
      if l =? 0 then (inr [], Lim l kept s)
      else match kept with
           | Some b => (inr [b], Lim (l - 1) None s)
           | None => match src_read (Nat.min n (N.to_nat l)) s with
                     | (inr bs, s') => (inr bs, Lim (l - lenN bs) None s')
                     | (inl x, s') => (inl x, Lim l None s')
                     end
           end
  end.
(** reader.rs 64-68. *)
Definition rd_some (n : nat) (r : reader) : (ioerr + bytes) * reader :=
  match r with
  | (Some b, s) => (inr [b], (None, s))
  | (None, s) => let '(x, s') := src_read n s in (x, (None, s'))
  end.

(** Enough fuel for every loop below: more than the number of answers there are, byte by byte. *)
Definition ev_len (e : event) : nat := match e with Data _ bs => S (length bs) | Fails _ => 1 end.
Fixpoint src_len (s : source) : nat :=
  match s with
  | Base ev => list_sum (map ev_len ev)
  | Lim _ kept s => (match kept with Some _ => 1 | None => 0 end + src_len s)%nat
  end.
Definition rd_fuel (r : reader) : nat :=
  S (match fst r with Some _ => 1 | None => 0 end + src_len (snd r)).

(** [read_exact] of one byte. *)
Fixpoint exact_loop (fuel : nat) (r : reader) : resF (N * reader) :=
  match fuel with
  | O => NoFuelF
  | S fuel => match rd_some 1 r with
              | (inr [], _) => ErrF UnexpectedEof
              | (inr (b :: _), r') => OkF (b, r')
              | (inl Interrupted, r') => exact_loop fuel r'
              | (inl x, _) => IoF x
              end
  end.
Definition rd_exact (r : reader) : resF (N * reader) := exact_loop (rd_fuel r) r.

(** reader.rs 26-28. *)
Fixpoint eof_loop (fuel : nat) (o : lib) (r : reader) : resF (bool * reader) :=
  match fuel with
  | O => NoFuelF
  | S fuel =>
      match r with
      | (Some _, _) => OkF (false, r)
      | (None, s) => match src_read 1 s with
                     | (inr [], s') => OkF (true, (None, s'))
                     | (inr (b :: _), s') => OkF (false, (Some b, s'))
                     | (inl Interrupted, s') =>
                         if again o then eof_loop fuel o (None, s') else IoF Interrupted
                     | (inl x, _) => IoF x
                     end
      end
  end.
Definition rd_eof (o : lib) (r : reader) : resF (bool * reader) := eof_loop (rd_fuel r) o r.

(** reader.rs 20-24 with the [take] of 32, and the end of its borrow, as in Peek.v. *)
Definition rd_enter (size : N) (r : reader) : reader := (None, Lim size None (snd r)).
Definition rd_leave (r : reader) (sub : reader) : resF reader :=
  match snd sub with Lim _ _ s => OkF (fst r, s) | Base _ => NoFuelF end.

(** As in Varint.v, WireFmt.v. *)
Fixpoint uv_de_loopF (fuel : nat) (m : mode) (bits value offset : N) (r : reader) : resF (N * reader) :=
  match fuel with
  | O => NoFuelF
  | S fuel =>
      io (b, rest) <- rd_exact r;
      let continue_with (sh : N) :=
        let value' := N.lor value (N.shiftl (N.land b 127) sh mod 2 ^ bits) in
        if N.land b 128 =? 0 then OkF (value', rest)
        else uv_de_loopF fuel m bits value' (offset + 7) rest in
      if offset <? bits then continue_with offset
      else match m with Debug => PanicF | Release => continue_with (offset mod bits) end
  end.
Definition uv_deserializeF (m : mode) (bits : N) (r : reader) : resF (N * reader) :=
  uv_de_loopF (rd_fuel r) m bits 0 0 r.
Definition int_deserializeF (m : mode) (k : ikind) (r : reader) : resF (Z * reader) :=
  io (u, rest) <- uv_deserializeF m (ibits k) r;
  OkF (if isigned k then zz_decode (as_signed (ibits k) u) else Z.of_N u, rest).
Fixpoint bool_de_loopF (fuel : nat) (value : bool) (r : reader) : resF (bool * reader) :=
  match fuel with
  | O => NoFuelF
  | S fuel =>
      io (b, rest) <- rd_exact r;
      let value' := value || negb (N.land b 127 =? 0) in
      if N.land b 128 =? 0 then OkF (value', rest) else bool_de_loopF fuel value' rest
  end.
Definition bool_deserializeF (r : reader) : resF (bool * reader) := bool_de_loopF (rd_fuel r) false r.
(** [read_to_end]: what was appended to the buffer (also on failure), and the outcome. *)
Fixpoint drainF (fuel : nat) (o : lib) (got : bytes) (r : reader) : bytes * resF reader :=
  match fuel with
  | O => (got, NoFuelF)
  | S fuel => match rd_some (S (buf o (length got))) r with
              | (inr [], r') => (got, OkF r')
              | (inr bs, r') => drainF fuel o (got ++ bs) r'
              | (inl Interrupted, r') => drainF fuel o got r'
              | (inl x, _) => (got, IoF x)
              end
  end.
Definition to_endF (o : lib) (r : reader) : bytes * resF reader := drainF (rd_fuel r) o [] r.
(** [self.by_ref().take(n).read_to_end(..)] (reader.rs 52): reads through the kept byte. *)
Fixpoint skipF (fuel : nat) (o : lib) (got : nat) (n : N) (r : reader) : resF reader :=
  match fuel with
  | O => NoFuelF
  | S fuel =>
      if n =? 0 then OkF r
      else match rd_some (Nat.min (S (buf o got)) (N.to_nat n)) r with
           | (inr [], r') => OkF r'
           | (inr bs, r') => skipF fuel o (got + length bs) (n - lenN bs) r'
           | (inl Interrupted, r') => skipF fuel o got n r'
           | (inl x, _) => IoF x
           end
  end.
Definition rd_tagF (m : mode) (r : reader) : resF (N * wtype * reader) :=
  io (value, rest) <- uv_deserializeF m 32 r;
  io (fn, w) <- liftF (parse_tag value);
  OkF (fn, w, rest).
Definition rd_skip_fieldF (o : lib) (m : mode) (w : wtype) (r : reader) : resF reader :=
  match w with
  | Varint => io (_, rest) <- uv_deserializeF m 8 r; OkF rest
  | Sized =>
      io (size, rest) <- uv_deserializeF m 64 r;
      if size <? 2 ^ 63 then skipF (rd_fuel rest) o 0 size rest else PanicF
  end.

(** As in De.v. *)
Definition mergerF := val -> reader -> val * resF reader.
Definition tryF {S A} (s : S) (x : resF A) (k : A -> S * resF reader) : S * resF reader :=
  match x with
  | OkF a => k a
  | ErrF e => (s, ErrF e)
  | IoF e => (s, IoF e)
  | PanicF => (s, PanicF)
  | NoFuelF => (s, NoFuelF)
  end.
Definition merge_nestedF (o : lib) (m : mode) (tw : wtype) (mg : mergerF) (w : wtype) (v : val) (r : reader)
    : val * resF reader :=
  if negb (wtype_eqb w tw) then (v, rd_skip_fieldF o m w r)
  else match w with
       | Varint => mg v r
       | Sized => tryF v (uv_deserializeF m 64 r) (fun '(size, r) =>
                    let '(v', c) := mg v (rd_enter size r) in (v', io sub <- c; rd_leave r sub))
       end.
Definition de_nestedF (o : lib) (m : mode) (tw : wtype) (mg : mergerF) (d : val) (r : reader) : resF (val * reader) :=
  let '(v, c) := merge_nestedF o m tw mg tw d r in io rest <- c; OkF (v, rest).
Fixpoint loopF {S} (fuel : nat) (o : lib) (step : S -> reader -> S * resF reader) (s : S) (r : reader)
    : S * resF reader :=
  match fuel with
  | O => (s, NoFuelF)
  | Datatypes.S f =>
      tryF s (rd_eof o r) (fun '(e, r) =>
        if e : bool then (s, OkF r)
        else let '(s', c) := step s r in tryF s' c (fun r => loopF f o step s' r))
  end.
Definition runF {S} (o : lib) (step : S -> reader -> S * resF reader) (s : S) (r : reader) : S * resF reader :=
  loopF (rd_fuel r) o step s r.
Definition opt_stepF (o : lib) (m : mode) (tw : wtype) (mg : mergerF) (d : val) (v : option val) (r : reader)
    : option val * resF reader :=
  let x := match v with Some x => x | None => d end in
  let '(x', r) := merge_nestedF o m tw mg tw x r in (Some x', r).
Definition vec_stepF (o : lib) (m : mode) (tw : wtype) (mg : mergerF) (d : val) (l : list val) (r : reader)
    : list val * resF reader :=
  tryF l (de_nestedF o m tw mg d r) (fun '(x, rest) => (l ++ [x], OkF rest)).
(** array.rs 45: the end is looked for only while there are items left. *)
Fixpoint arr_loopF (o : lib) (m : mode) (tw : wtype) (mg : mergerF) (d : val) (l : list val) (r : reader)
    : list val * resF reader :=
  match l with
  | [] => (l, OkF r)
  | x :: l' =>
      tryF l (rd_eof o r) (fun '(e, r) =>
        if e : bool then (l, OkF r)
        else tryF l (de_nestedF o m tw mg d r) (fun '(y, rest) =>
               let '(l'', c) := arr_loopF o m tw mg d l' rest in (y :: l'', c)))
  end.
Fixpoint tup_readF (o : lib) (m : mode) (ms : list ((wtype * mergerF) * val)) (r : reader)
    : resF (list val * reader) :=
  match ms with
  | [] => OkF ([], r)
  | ((tw, mg), d) :: ms' =>
      io (x, rest) <- de_nestedF o m tw mg d r;
      io (l, rest) <- tup_readF o m ms' rest;
      OkF (x :: l, rest)
  end.
Definition drain_resF (o : lib) (c : resF reader) : resF reader := io r <- c; snd (to_endF o r).
Definition hash_stepF (o : lib) (m : mode) (ktw : wtype) (kmg : mergerF) (kd : val)
    (vtw : wtype) (vmg : mergerF) (vd : val) (l : list (val * val)) (r : reader)
    : list (val * val) * resF reader :=
  tryF l (de_nestedF o m ktw kmg kd r) (fun '(k, rest) =>
  tryF l (de_nestedF o m vtw vmg vd rest) (fun '(x, rest) =>
  (hash_insert k x l, OkF rest))).
Fixpoint merge_fieldF (o : lib) (m : mode) (ms : list (N * (wtype * mergerF))) (fs : list (finfo * val))
    (fn : N) (w : wtype) (r : reader) : list (finfo * val) * resF reader :=
  match ms, fs with
  | [], [] => ([], rd_skip_fieldF o m w r)
  | (tag, (tw, mg)) :: ms', (fi, x) :: fs' =>
      if fn =? tag then
        let '(x', r) := merge_nestedF o m tw mg w x r in ((fi, x') :: fs', r)
      else
        let '(fs'', r) := merge_fieldF o m ms' fs' fn w r in ((fi, x) :: fs'', r)
  | _, _ => (fs, NoFuelF)
  end.
Definition struct_stepF (o : lib) (m : mode) (ms : list (N * (wtype * mergerF))) (fs : list (finfo * val))
    (r : reader) : list (finfo * val) * resF reader :=
  tryF fs (rd_tagF m r) (fun '(fn, w, rest) => merge_fieldF o m ms fs fn w rest).
Definition list_stepF (o : lib) (m : mode) (tw : wtype) (mg : mergerF) (fresh : N -> val)
    (l : list val) (r : reader) : list val * resF reader :=
  let '(x, c) := merge_nestedF o m tw mg tw (fresh (lenN l)) r in
  tryF l c (fun rest => (l ++ [x], OkF rest)).
Definition map_stepF (o : lib) (m : mode) (k : mkey) (tw : wtype) (mg : mergerF) (fresh : N -> val)
    (es : list (N * val)) (r : reader) : list (N * val) * resF reader :=
  tryF es (uv_deserializeF m 32 r) (fun '(n, rest) =>
  tryF es (liftF (parse_tag n)) (fun '(fn, _) =>
  tryF es (liftF (validate_field_number fn)) (fun _ =>
  tryF es (liftF (key_of_fn k fn)) (fun _ =>
    match assoc fn es with
    | Some x =>
        let '(x', c) := merge_nestedF o m tw mg tw x rest in (im_insert fn x' es, c)
    | None =>
        let '(x, c) := merge_nestedF o m tw mg tw (fresh fn) rest in
        tryF es c (fun rest => (im_insert fn x es, OkF rest))
    end)))).

(** [merge], as cited at [merge] in De.v.  bytes.rs 61 reads into the value itself, so what arrived
    before a failure stays there; string.rs 26 reads into a buffer of its own. *)
Fixpoint mergeF (o : lib) (m : mode) (t : ty) {struct t} : mergerF :=
  let fmergers := map (fun p : finfo * ty => let '(fi, t) := p in
                         (f_tag fi, (wty t, mergeF o m t))) in
  fun v r =>
  match t, v with
  | TInt k, VInt k' _ =>
      if ikind_eqb k k' then
        tryF v (int_deserializeF m k r) (fun '(z, rest) => (VInt k z, OkF rest))
      else (v, NoFuelF)
  | TBool, VBool _ => tryF v (bool_deserializeF r) (fun '(b, rest) => (VBool b, OkF rest))
  | TStr, VStr _ => let '(bs, c) := to_endF o r in
                    tryF v c (fun rest => if utf8_valid bs then (VStr bs, OkF rest) else (v, ErrF InvalidData))
  | TBytes, VBytes s => let '(bs, c) := to_endF o r in (VBytes (s ++ bs), c)
  | TOpt t, VOpt x =>
      let '(x', c) := runF o (opt_stepF o m (wty t) (mergeF o m t) (dflt t rt_default)) x r in (VOpt x', c)
  | TVec t, VVec l =>
      let '(l', c) := runF o (vec_stepF o m (wty t) (mergeF o m t) (dflt t rt_default)) l r in (VVec l', c)
  | TArr _ t, VArr l =>
      let '(l', c) := arr_loopF o m (wty t) (mergeF o m t) (dflt t rt_default) l r in (VArr l', drain_resF o c)
  | TTup ts, VTup _ =>
      tryF v (tup_readF o m (map (fun t => ((wty t, mergeF o m t), dflt t rt_default)) ts) r)
        (fun '(l, rest) => (VTup l, drain_resF o (OkF rest)))
  | THash kt vt, VHash l =>
      let '(l', c) := runF o (hash_stepF o m (wty kt) (mergeF o m kt) (dflt kt rt_default)
                                         (wty vt) (mergeF o m vt) (dflt vt rt_default)) l r in
      (VHash l', c)
  | TBox t, VBox x => let '(x', c) := mergeF o m t x r in (VBox x', c)
  | TStruct _ fts, VStruct c0 r0 fs =>
      let '(fs', c) := runF o (struct_stepF o m (fmergers fts)) fs r in (VStruct c0 r0 fs', c)
  | TEnum st vs, VEnum tag c0 r0 fs =>
      tryF v (uv_deserializeF m 32 r) (fun '(tag', rest) =>
        (fix go vs := match vs with
         | [] => (v, ErrF InvalidData)
         | va :: vs' =>
             let '((vtag, vc), fts) := va in
             if tag' =? vtag then
               tryF v (liftF (if tag =? tag' then Ok v
                              else do p <- enum_parent r0; Ok (variant_ctor st va p))) (fun v1 =>
                 match v1 with
                 | VEnum tag1 c1 r1 fs1 =>
                     let '(fs', c) := runF o (struct_stepF o m (fmergers fts)) fs1 rest in
                     (VEnum tag1 c1 r1 fs', c)
                 | _ => (v1, NoFuelF)
                 end)
             else go vs'
         end) vs)
  | TList t, VList r0 l =>
      let '(l', c) := runF o (list_stepF o m (wty t) (mergeF o m t) (fun i => dflt t (nested r0 i))) l r in
      (VList r0 l', c)
  | TMap k t, VMap r0 es =>
      let '(es', c) := runF o (map_stepF o m k (wty t) (mergeF o m t) (fun i => dflt t (nested r0 i))) es r in
      (VMap r0 es', c)
  | _, _ => (v, NoFuelF)
  end.

(** reader.rs 14-18, de.rs 10-14. *)
Definition deserializeF (o : lib) (m : mode) (t : ty) (ev : list event) : resF (val * reader) :=
  let '(v, c) := mergeF o m t (dflt t rt_default) (None, Base ev) in io rest <- c; OkF (v, rest).

(** The loop of [replay] (state.rs 45-54).  The value of an entry is decoded from its bytes in memory
    (state.rs 51), which is [handle_entry] of State.v. *)
Definition read_entryF (o : lib) (m : mode) (r : reader) : resF (entry * reader) :=
  io (v, rest) <- de_nestedF o m (wty tEntry) (mergeF o m tEntry) (dflt tEntry rt_default) r;
  match entry_of_val v with Some e => OkF (e, rest) | None => NoFuelF end.
Definition replay_stepF (o : lib) (m : mode) (t : ty) (v : val) (r : reader) : val * resF reader :=
  tryF v (read_entryF o m r) (fun '(e, rest) =>
    let '(v', c) := handle_entry m t e v in (v', io _ <- liftF c; OkF rest)).
Definition replayF (o : lib) (m : mode) (t : ty) (v : val) (r : reader) : val * resF reader :=
  match is_root v with
  | Ok true => runF o (replay_stepF o m t) v r
  | Ok false => (v, ErrF InvalidInput)
  | Err e => (v, ErrF e) | Panic => (v, PanicF) | NoFuel => (v, NoFuelF)
  end.
