(** Generation into a directory: the settings, the order of the map, the file system.

    Gen.v gives the texts of the files.  Here they are written (steit/src/gen/generator.rs 26-62), one after
    the other, in whatever order the map of messages yields them, to a file system that may refuse to create a
    file and whose files may take their bytes in pieces or fail (Sink.v).
    Not part of /repo and modelled from the sources of std (as they are since 2021; before that,
    [BufWriter] had no [write_all] of its own and the end of a large file could be lost like a small file):
    [File::create] makes the file or empties it;
    [BufWriter] has a buffer of 8192 bytes; [write_all] of fewer bytes than fit goes to the buffer only, of as
    many as its capacity or more goes to the file at once; dropping the [BufWriter] writes the buffer to the
    file and ignores errors. *)
From Verif Require Import Base Varint WireFmt Types Ser Meta Gen Sink.
From Coq Require Import String Ascii.
Import String.StringSyntax.
Local Open Scope string_scope.
Local Open Scope list_scope.
Local Open Scope N_scope.

(** ** setting.rs *)

(** setting.rs 22-33.  The name of the directory is left out. *)
Definition rust_name (m : message) : string := n_rust (m_name m).
Definition setting_new : gsetting := GS csharp_name true [].
(** 35-56: each call overrides what was set before. *)
Definition get_name_rust (s : gsetting) : gsetting := GS rust_name (g_skip_builtins s) (g_skip s).
Definition get_name_csharp (s : gsetting) : gsetting := GS csharp_name (g_skip_builtins s) (g_skip s).
Definition skip_builtins (b : bool) (s : gsetting) : gsetting := GS (g_name s) b (g_skip s).
Definition skip_names (l : list string) (s : gsetting) : gsetting := GS (g_name s) (g_skip_builtins s) l.

(** ** Files *)

(** [source.as_bytes()], generator.rs 56. *)
Definition text_bytes (s : string) : bytes := map N_of_ascii (list_ascii_of_string s).
(** A directory: contents by name. *)
Definition folder := string -> option bytes.
Definition set_file (n : string) (c : bytes) (d : folder) : folder := fun m => if String.eqb m n then Some c else d m.
(** What the system answers to [File::create]: an error, or a file that answers its writes by the list. *)
Definition answer : Type := werr + list wevent.
(** The answers still to come; when there are none left, files are created and take everything. *)
Definition next_answer (a : list answer) : answer * list answer := match a with x :: a => (x, a) | [] => (inr [], []) end.

(** generator.rs 52-56 with the end of the scope of [writer] (58): the error that [write_all] returns, and
    what the file contains afterwards. *)
Definition buf_capacity : N := 8192.
Definition write_file (text : bytes) (ev : list wevent) : option werr * bytes :=
  let '(r, s) := all_loop (List.length text + List.length ev) text (mkSink ev []) in
  (if lenN text <? buf_capacity then None else match r with IoW x => Some x | _ => None end, sent s).

(** generator.rs 26-62, given the messages in the order in which the map yields them: what is returned and the
    directory afterwards. *)
Fixpoint gen_dir (s : gsetting) (cs : cssetting) (l : list (string * message)) (a : list answer) (d : folder)
    : resW (list string) * folder :=
  match l with
  | [] => (OkW [], d)
  | (n, m) :: l =>
      if is_builtin m && g_skip_builtins s then gen_dir s cs l a d
      else if str_mem n (g_skip s) then gen_dir s cs l a d
      else match gen_text m cs with
      | Ok text =>
          match next_answer a with
          | (inl x, _) => (IoW x, d)
          | (inr ev, a) =>
              let '(r, c) := write_file (text_bytes text) ev in
              let d := set_file (n +++ ".cs") c d in
              match r with
              | Some x => (IoW x, d)
              | None => match gen_dir s cs l a d with
                        | (OkW names, d) => (OkW (n :: names), d)
                        | (r, d) => (r, d)
                        end
              end
          end
      | Err e => (ErrW e, d)
      | Panic => (PanicW, d)
      | NoFuel => (NoFuelW, d)
      end
  end.
