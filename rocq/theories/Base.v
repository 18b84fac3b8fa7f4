(** Common vocabulary of the model: bytes, results, overflow-check mode. *)
From Coq Require Export List NArith ZArith Bool Lia Arith.
From Coq Require Export ZifyBool ZifyNat ZifyN.
Export ListNotations.
Ltac Zify.zify_post_hook ::= Z.div_mod_to_equations.

Global Open Scope N_scope.

Arguments N.add : simpl never.
Arguments N.sub : simpl never.
Arguments N.mul : simpl never.
Arguments N.div : simpl never.
Arguments N.modulo : simpl never.
Arguments N.pow : simpl never.
Arguments N.land : simpl never.
Arguments N.lor : simpl never.
Arguments N.shiftl : simpl never.
Arguments N.shiftr : simpl never.
Arguments N.ltb : simpl never.
Arguments N.leb : simpl never.
Arguments N.eqb : simpl never.
Arguments Z.add : simpl never.
Arguments Z.sub : simpl never.
Arguments Z.mul : simpl never.
Arguments Z.div : simpl never.
Arguments Z.modulo : simpl never.
Arguments Z.pow : simpl never.
Arguments Z.ltb : simpl never.
Arguments Z.leb : simpl never.
Arguments Z.eqb : simpl never.
Arguments Z.opp : simpl never.
Arguments Z.land : simpl never.
Arguments Z.lxor : simpl never.
Arguments Z.shiftl : simpl never.
Arguments Z.shiftr : simpl never.
Arguments Z.of_N : simpl never.
Arguments Z.to_N : simpl never.

(** A byte string.  A Rust [u8] is an [N] below 256; [bytes_ok] says so. *)
Definition bytes := list N.
Definition bytes_ok (bs : bytes) : Prop := Forall (fun b => b < 256) bs.

(** Whether integer-overflow checks are compiled in (Rust "debug" profile) or
    not ("release" profile).  Relevant to [<<] with a too large shift amount
    and to [+=] on sizes. *)
Inductive mode := Debug | Release.

(** The [io::ErrorKind]s the crate produces or passes on. *)
Inductive errk := UnexpectedEof | InvalidData | InvalidInput.

(** Outcome of a Rust call: value, [io::Error], panic.  [NoFuel] is an artefact
    of bounded recursion in the model; theorems exclude it. *)
Inductive res (A : Type) := Ok (a : A) | Err (e : errk) | Panic | NoFuel.
Arguments Ok {A} a.
Arguments Err {A} e.
Arguments Panic {A}.
Arguments NoFuel {A}.

Definition bind {A B} (x : res A) (f : A -> res B) : res B :=
  match x with
  | Ok a => f a
  | Err e => Err e
  | Panic => Panic
  | NoFuel => NoFuel
  end.
Notation "'do' x <- a ; b" := (bind a (fun x => b))
  (at level 200, x pattern, a at level 100, b at level 200, right associativity).

(** [Result::unwrap]: an error becomes a panic. *)
Definition unwrap {A} (x : res A) : res A :=
  match x with Err _ => Panic | r => r end.

Definition is_ok {A} (x : res A) : bool := match x with Ok _ => true | _ => false end.

(** Unsigned addition on [u32] ([size += ...]): panics on overflow in Debug,
    wraps in Release. *)
Definition add32 (m : mode) (a b : N) : res N :=
  if a + b <? 2 ^ 32 then Ok (a + b)
  else match m with Debug => Panic | Release => Ok ((a + b) mod 2 ^ 32) end.

(** Two's-complement reduction of an integer to [bits] bits. *)
Definition swrap (bits : N) (z : Z) : Z :=
  let m := (2 ^ Z.of_N bits)%Z in
  let r := (z mod m)%Z in
  if (r <? m / 2)%Z then r else (r - m)%Z.

(** The first [n] elements and the others ([io::Take] on an in-memory stream).
    [n] is a 64-bit size, so the recursion is on the list. *)
Fixpoint splitN {A} (n : N) (l : list A) : list A * list A :=
  match l with
  | [] => ([], [])
  | x :: r => if n =? 0 then ([], l)
              else let '(a, b) := splitN (n - 1) r in (x :: a, b)
  end.

Definition lenN {A} (l : list A) : N := N.of_nat (length l).
