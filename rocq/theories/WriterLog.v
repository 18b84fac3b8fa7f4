(** The logger that writes text for people to read, log/loggers/writer.rs.

    For each entry it writes the derived [Debug] text of the entry over several lines ([{:#?}]), an arrow and the
    bytes of the entry on one line ([{:?}]).
    Not part of /repo and modelled from its documentation: [#[derive(Debug)]], the [Debug] of numbers and of
    [Vec], and [write_fmt], which hands the text to [write_all] in pieces and stops at the first error. *)
From Verif Require Import Base Varint WireFmt Types Ser Log Meta Gen Sink GenDir.
From Coq Require Import String Ascii.
Import String.StringSyntax.
Local Open Scope string_scope.
Local Open Scope list_scope.
Local Open Scope N_scope.

(** ** Debug *)

(** What a [Debug] impl tells the formatter: [fmt::Formatter::debug_struct], [debug_list], or a number. *)
Inductive dval := DNum (n : N) | DSeq (l : list dval) | DRec (name : string) (fs : list (string * dval)).

(** [{:#?}], in a context that is [ind] spaces to the right. *)
Fixpoint pretty (ind : nat) (d : dval) {struct d} : string :=
  match d with
  | DNum n => dec n
  | DSeq [] => "[]"
  | DSeq l => "[" +++ nl +++
      (fix go l := match l with
                   | [] => ""
                   | x :: l => spaces (4 + ind) +++ pretty (4 + ind) x +++ "," +++ nl +++ go l
                   end) l +++ spaces ind +++ "]"
  | DRec name [] => name
  | DRec name fs => name +++ " {" +++ nl +++
      (fix go fs := match fs with
                    | [] => ""
                    | (f, x) :: fs => spaces (4 + ind) +++ f +++ ": " +++ pretty (4 + ind) x +++ "," +++ nl +++ go fs
                    end) fs +++ spaces ind +++ "}"
  end.

(** [{:?}] of a list of bytes. *)
Fixpoint comma_list (l : list N) : string :=
  match l with
  | [] => ""
  | [n] => dec n
  | n :: l => dec n +++ ", " +++ comma_list l
  end.
Definition compact (bs : bytes) : string := "[" +++ comma_list bs +++ "]".

(** types/bytes.rs 35-39 (as the [Vec] inside), rt/size_cache.rs 17-20. *)
Definition nums_dbg (l : list N) : dval := DSeq (map DNum l).
Definition cache_dbg (size : N) : dval := DRec "SizeCache" [("size", DNum size)].
(** entry.rs 19-48 with the field that the macro adds to each variant, after the others (struct.rs 100-115). *)
Definition entry_dbg (size : N) (e : entry) : dval :=
  match e with
  | EUpdate p b => DRec "Update" [("path", nums_dbg p); ("value", nums_dbg b); ("size_cache", cache_dbg size)]
  | EListPush p b => DRec "ListPush" [("path", nums_dbg p); ("item", nums_dbg b); ("size_cache", cache_dbg size)]
  | EListPop p => DRec "ListPop" [("path", nums_dbg p); ("size_cache", cache_dbg size)]
  | EMapRemove p k => DRec "MapRemove" [("path", nums_dbg p); ("key", DNum k); ("size_cache", cache_dbg size)]
  end.

(** ** The logger *)

(** writer.rs 39: the text, given the bytes and the caches that serializing left. *)
Definition log_text (e : entry) (bs : bytes) (h : store) : string :=
  pretty 0 (entry_dbg (h []) e) +++ " => " +++ compact bs +++ nl.

(** [write_fmt]: the pieces one after the other. *)
Fixpoint put_pieces (ps : list string) (s : sink) : resW unit * sink :=
  match ps with
  | [] => (OkW tt, s)
  | p :: ps => match write_all (text_bytes p) fresh_store s with
               | (OkW _, _, s') => put_pieces ps s'
               | (r, _, s') => (r, s')
               end
  end.

(** 35-40.  [split] is how the formatter cuts the text up.  The entry is new, its caches are 0 (entry.rs 55). *)
Definition writer_log (m : mode) (split : string -> list string) (s : sink) (e : entry) : resW unit * sink :=
  match write_nested m (entry_val e) fresh_store with
  | Ok (bs, h) => put_pieces (split (log_text e bs h)) s
  | Err x => (ErrW x, s)
  | Panic => (PanicW, s)
  | NoFuel => (NoFuelW, s)
  end.

(** Calls of [log], whatever the earlier ones returned. *)
Fixpoint writer_logs (m : mode) (split : string -> list string) (s : sink) (es : list entry) : list (resW unit) * sink :=
  match es with
  | [] => ([], s)
  | e :: es => let '(r, s) := writer_log m split s e in
               let '(rs, s) := writer_logs m split s es in (r :: rs, s)
  end.
