(** C# clients that go on after an exception.

    [StateReplayer.Replay] (StateReplayer.cs 9-14) may be called again with the same reader after it threw.  The reader
    is a [ByteReader] (ByteReader.cs 6-53), whose offset tells what is left. *)
From Verif Require Import Base Varint WireFmt Types De Log State CSharp Pos.

(** What [GetNested] (Reader.cs 100-103) leaves: the size is read (80-82), then all bytes of the frame at once
    (ByteReader.cs 30-42), which throws before it moves if there are not that many, or the size is negative. *)
Definition c_nestedL (bs : bytes) : bytes :=
  match c_unsigned bs with
  | Ok (n, rest) =>
      let size := n mod 2 ^ 32 in
      if (2 ^ 31 <=? size) || (lenN rest <? size) then rest else snd (splitN size rest)
  | _ => []
  end.

(** StateReplayer.cs 9-14: the entry is decoded from a reader of its own and its payload from another one
    (26, 43, 52), so what these leave is lost. *)
Definition c_replayL (t : cty) (v : cval) (bs : bytes) : bytes :=
  runL (c_replay_step t) (fun _ bs => c_nestedL bs) v bs.

(** [while (true) try { Replay(ref root, reader); break; } catch {}]: the state at the end and how often there was an
    exception; [None] if it did not end within [fuel] calls. *)
Fixpoint c_keep_on (fuel : nat) (t : cty) (v : cval) (bs : bytes) : option (cval * nat) :=
  match fuel with
  | O => None
  | S f =>
      match c_replay t v bs with
      | (v', Ok _) => Some (v', O)
      | (v', Panic) => match c_keep_on f t v' (c_replayL t v bs) with Some (w, n) => Some (w, S n) | None => None end
      | _ => None
      end
  end.
