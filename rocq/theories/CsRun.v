(** What the methods of a class do, read off its text (CsRead.v): an interpreter for the statements
    and expressions of generated classes.  Like CsRead.v it stands for the C# compiler and is part of
    what C57, C58, C60 and C61 rely on.

    One object of the class is tracked, as the values of its properties.  What objects of other classes
    are, how they are constructed and read, is a parameter ([world]); only the classes of the client
    library that generated code calls directly are built in (Path.cs, Reader.cs 45-98, StateFactory.cs
    36-71, State.cs 17-57).  An exception is [Panic]; [NoFuel] marks what the compiler would reject or
    this interpreter does not know. *)
From Verif Require Import Base Varint WireFmt Types De Meta Gen CSharp CsRead.
From Coq Require Import String.
Import String.StringSyntax.
Local Open Scope string_scope.
Local Open Scope list_scope.
Local Open Scope N_scope.

Fixpoint sassoc {A} (n : string) (l : list (string * A)) : option A :=
  match l with [] => None | (n', a) :: l => if String.eqb n n' then Some a else sassoc n l end.
Fixpoint sput {A} (n : string) (a : A) (l : list (string * A)) : list (string * A) :=
  match l with
  | [] => []
  | (n', b) :: l => if String.eqb n n' then (n', a) :: l else (n', b) :: sput n a l
  end.

(** ** Names *)

(** The meaning of a name in a class: a nested class, a property of that type, another member, a type
    parameter. *)
Inductive meaning := IsType | IsProp (t : cname) | IsOther | IsParam.
Definition declares (m : member) : list (string * meaning) :=
  match m with
  | KProp _ t n _ | KGet _ t n _ => [(n, IsProp t)]
  | KConst _ _ n _ | KEvent _ _ n | KMethod _ _ n _ _ _ => [(n, IsOther)]
  | KCtor _ _ _ _ _ => []
  | KClass _ n _ _ _ => [(n, IsType)]
  end.

(** Reader.cs 45-71. *)
Definition primitives : list (string * cty) := [
  ("Byte", CInt U8); ("UInt16", CInt U16); ("UInt32", CInt U32); ("UInt64", CInt U64);
  ("SByte", CInt I8); ("Int16", CInt I16); ("Int32", CInt I32); ("Int64", CInt I64);
  ("Boolean", CBool); ("String", CStr)].
Definition read_methods : list (string * cty) := map (fun p => ("Read" +++ fst p, snd p)) primitives.

(** Which class a type name means: the type parameters in scope first, then nested classes and classes
    of the namespace ([user]), then those of the namespaces used. *)
Definition builtin (n : string) (args : list cty) : option cty :=
  match args with
  | [] => if String.eqb n "Bytes" then Some CBytes else sassoc n primitives
  | [c] => if String.eqb n "Option" then Some (COpt c)
           else if String.eqb n "Vector" then Some (CVec c)
           else if String.eqb n "StateList" then Some (CList c)
           else if String.eqb n "StateMap" then Some (CMap c)
           else None
  | _ => None
  end.
Fixpoint resolve (params : list (string * cty)) (user : string -> list cty -> option cty) (t : cname) : option cty :=
  match t with
  | CN n args =>
      let rs := (fix go l := match l with
                 | [] => Some []
                 | t :: l => match resolve params user t, go l with Some c, Some cs => Some (c :: cs) | _, _ => None end
                 end) args in
      match rs with
      | None => None
      | Some cs =>
          match (match cs with [] => sassoc n params | _ => None end) with
          | Some c => Some c
          | None => match user n cs with Some c => Some c | None => builtin n cs end
          end
      end
  end.

Section Run.
  Variable V : Type.

  (** Values of other classes: [default(T)] of a primitive, [reader.ReadX()], [new T(path)] and
      [T.Deserialize(reader, path)]. *)
  Record world := World {
    w_default : cty -> V;
    w_prim : cty -> bytes -> res (V * bytes);
    w_new : cty -> list N -> res V;
    w_read : cty -> list N -> bytes -> res (V * bytes) }.

  Inductive value :=
  | VNull | VBool (b : bool) | VNum (n : N) | VWire (w : wtype)
  | VPath (p : list N)
  | VReader                                                  (* the reader passed to the method *)
  | VThis                                                    (* the object *)
  | VObj (c : cty) (x : V)                                   (* an object of another class or a primitive *)
  | VType (c : cty)                                          (* typeof *)
  | VEvent (n : string)                                      (* an event of the class *)
  | VArgs (l : list value).                                  (* event arguments *)

  (** [s_this]: the properties of the object; [s_in]: what the reader has left; [s_log]: the events
      raised, with their arguments. *)
  Record st := ST { s_this : option (list (string * value)); s_in : bytes; s_log : list (string * list value) }.
  Definition with_in (s : st) (bs : bytes) : st := ST (s_this s) bs (s_log s).
  Definition with_this (s : st) (o : list (string * value)) : st := ST (Some o) (s_in s) (s_log s).

  Variable w : world.
  Variable ty : cname -> option cty.
  (** The class; what the classes around it declare. *)
  Variable cls : member.
  Variable outer : list (string * meaning).

  Definition c_name := match cls with KClass _ n _ _ _ => n | _ => "" end.
  Definition c_params := match cls with KClass _ _ ps _ _ => ps | _ => [] end.
  Definition c_enum := match cls with KClass _ _ _ (CN b _) _ => String.eqb b "IEnumState" | _ => false end.
  Definition c_members := match cls with KClass _ _ _ _ ms => ms | _ => [] end.
  Definition own : cname := CN c_name (map (fun p => CN p []) c_params).
  Definition names : list (string * meaning) := flat_map declares c_members ++ map (fun p => (p, IsParam)) c_params ++ outer.

  Fixpoint cname_eqb (a b : cname) : bool :=
    match a, b with
    | CN n l, CN n' l' =>
        String.eqb n n' &&
        (fix go l l' := match l, l' with
         | [], [] => true
         | x :: l, x' :: l' => cname_eqb x x' && go l l'
         | _, _ => false
         end) l l'
    end.

  (** An expression before a dot that means a type: a name that is no variable and no member, or a
      property with the name of its own type; no type parameter. *)
  Definition as_type (loc : list (string * value)) (e : expr) : option cname :=
    match e with
    | EName n =>
        match sassoc n loc with
        | Some _ => None
        | None =>
            match sassoc n names with
            | None | Some IsType => Some (CN n [])
            | Some (IsProp t) => if cname_eqb t (CN n []) then Some t else None
            | Some IsOther | Some IsParam => None
            end
        end
    | EGen n a => Some (CN n a)
    | _ => None
    end.

  (** A type parameter has no constructor. *)
  Definition param_name (t : cname) : bool :=
    match t with
    | CN n [] => match sassoc n names with Some IsParam => true | _ => false end
    | _ => false
    end.

  Definition prop (n : string) (s : st) : res value :=
    match s_this s with
    | Some o => match sassoc n o with Some v => Ok v | None => NoFuel end
    | None => NoFuel
    end.
  Definition set_prop (n : string) (v : value) (s : st) : res st :=
    match s_this s with
    | Some o => match sassoc n o with Some _ => Ok (with_this s (sput n v o)) | None => NoFuel end
    | None => NoFuel
    end.
  (** The properties of an object before its constructor runs. *)
  Definition fresh : list (string * value) :=
    flat_map (fun m => match m with
      | KProp _ t n _ =>
          [(n, match ty t with Some c => if c_state c then VNull else VObj c (w_default w c) | None => VNull end)]
      | _ => []
      end) c_members.

  (** The names of a namespace used, unless a class of the program has that name. *)
  Definition library (t : cname) (n : string) : bool :=
    match ty t with Some _ => false | None => cname_eqb t (CN n []) end.
  Definition static_member (t : cname) (n : string) : res value :=
    if library t "WireType" then
      if String.eqb n "Varint" then Ok (VWire Varint) else if String.eqb n "Sized" then Ok (VWire Sized) else NoFuel
    else if library t "Path" then if String.eqb n "Root" then Ok (VPath []) else NoFuel
    else if cname_eqb t own then match sassoc n names with Some IsOther => Ok (VEvent n) | _ => NoFuel end
    else NoFuel.

  Definition read_with (c : cty) (r : bytes -> res (V * bytes)) (s : st) : res (value * st) :=
    do (x, rest) <- r (s_in s); Ok (VObj c x, with_in s rest).
  (** StateFactory.cs 36-71 and [Deserialize] of a class. *)
  Definition static_call (t : cname) (n : string) (targs : list cname) (args : list value) (s : st) : res (value * st) :=
    if library t "StateFactory" then
      match targs, args with
      | [t], [VPath p] =>
          match ty t with
          | Some c =>
              if String.eqb n "Construct" then
                if c_state c then if c_constructible c then do x <- w_new w c p; Ok (VObj c x, s) else Panic
                else Ok (VObj c (w_default w c), s)
              else NoFuel
          | None => NoFuel
          end
      | [t], [VReader; VPath p; VNum tag] =>
          match ty t with
          | Some c =>
              if String.eqb n "Deserialize" then
                read_with c (if c_state c then w_read w c (p ++ [tag]) else w_prim w c) s
              else NoFuel
          | None => NoFuel
          end
      | [], [VType c] =>
          if String.eqb n "IsStateType" then Ok (VBool (c_state c), s)
          else if String.eqb n "ValidateType" then Ok (VNull, s)
          else NoFuel
      | _, _ => NoFuel
      end
    else
      match ty t, targs, args with
      | Some c, [], [VReader; VPath p] =>
          if String.eqb n "Deserialize" && c_state c then read_with c (w_read w c p) s else NoFuel
      | _, _, _ => NoFuel
      end.

  (** Reader.cs 92-98. *)
  Definition skip_field (wt : wtype) (s : st) : res st :=
    match wt with
    | Varint => do (_, rest) <- c_bool (s_in s) false; Ok (with_in s rest)
    | Sized => Ok (with_in s [])
    end.
  (** Path.cs 17-19, Reader.cs 45-71, 88-98. *)
  Definition method (r : value) (n : string) (args : list value) (s : st) : res (value * st) :=
    match r, args with
    | VPath p, [VNum tag] => if String.eqb n "GetNested" then Ok (VPath (p ++ [tag]), s) else NoFuel
    | VReader, [] =>
        if String.eqb n "SkipToEnd" then Ok (VNull, with_in s [])
        else match sassoc n read_methods with Some c => read_with c (w_prim w c) s | None => NoFuel end
    | VReader, [VWire wt] => if String.eqb n "SkipField" then do s <- skip_field wt s; Ok (VNull, s) else NoFuel
    | _, _ => NoFuel
    end.

  (** The statements a [switch] runs: those after the label, or after [default]. *)
  Fixpoint labels (l : list stmt) : list N :=
    match l with [] => [] | SCase n :: l => n :: labels l | _ :: l => labels l end.
  Fixpoint distinct (l : list N) : bool :=
    match l with [] => true | n :: l => negb (existsb (N.eqb n) l) && distinct l end.
  Fixpoint after_case (n : N) (l : list stmt) : option (list stmt) :=
    match l with [] => None | SCase m :: l => if n =? m then Some l else after_case n l | _ :: l => after_case n l end.
  Fixpoint after_default (l : list stmt) : option (list stmt) :=
    match l with [] => None | SDefault :: l => Some l | _ :: l => after_default l end.
  Definition select (n : N) (l : list stmt) : option (list stmt) :=
    match after_case n l with Some l => Some l | None => after_default l end.

  Inductive outcome := ONext (loc : list (string * value)) | OBreak | ORet (v : value).

  (** Statements, given how to evaluate expressions and to run blocks.  Falling into the next [case] is
      not allowed. *)
  Section Stmts.
    Variable ev : list (string * value) -> expr -> st -> res (value * st).
    Variable blk : list (string * value) -> list stmt -> st -> res (outcome * st).
    Fixpoint stmts (loc : list (string * value)) (l : list stmt) (s : st) {struct l} : res (outcome * st) :=
      match l with
      | [] => Ok (ONext loc, s)
      | SExpr e :: l => do (_, s) <- ev loc e s; stmts loc l s
      | SAssign (EMem EThis n) e :: l => do (v, s) <- ev loc e s; do s <- set_prop n v s; stmts loc l s
      | SAssign _ _ :: _ => NoFuel
      | SVar x e :: l => do (v, s) <- ev loc e s; stmts ((x, v) :: loc) l s
      | SReturn e :: _ => do (v, s) <- ev loc e s; Ok (ORet v, s)
      | SThrow _ :: _ => Panic
      | SBreak :: _ => Ok (OBreak, s)
      | SCase _ :: _ | SDefault :: _ => NoFuel
      | SIf c b :: l =>
          do (v, s) <- ev loc c s;
          match v with
          | VBool true => do (o, s) <- blk loc b s; match o with ONext _ => stmts loc l s | _ => Ok (o, s) end
          | VBool false => stmts loc l s
          | _ => NoFuel
          end
      | SSwitch c b :: l =>
          do (v, s) <- ev loc c s;
          match v with
          | VNum n =>
              if distinct (labels b) then
                match select n b with
                | Some b' => do (o, s) <- blk loc b' s;
                             match o with OBreak => stmts loc l s | ONext _ => NoFuel | ORet _ => Ok (o, s) end
                | None => stmts loc l s
                end
              else NoFuel
          | _ => NoFuel
          end
      end.

    Fixpoint evals (loc : list (string * value)) (l : list (option string * expr)) (s : st) : res (list (option string * value) * st) :=
      match l with
      | [] => Ok ([], s)
      | (n, e) :: l => do (v, s) <- ev loc e s; do (vs, s) <- evals loc l s; Ok ((n, v) :: vs, s)
      end.
  End Stmts.
  Fixpoint plain (l : list (option string * value)) : res (list value) :=
    match l with
    | [] => Ok []
    | (None, v) :: l => do vs <- plain l; Ok (v :: vs)
    | (Some _, _) :: _ => NoFuel
    end.

  Fixpoint find_method (n : string) (static : bool) (l : list member) : option (list param * list stmt) :=
    match l with
    | [] => None
    | KMethod mods _ n' _ ps body :: l =>
        if String.eqb n n' && Bool.eqb static (str_mem "static" mods) then Some (ps, body) else find_method n static l
    | _ :: l => find_method n static l
    end.
  Fixpoint find_ctor (k : nat) (l : list member) : option (list param * option (list (option string * expr)) * list stmt) :=
    match l with
    | [] => None
    | KCtor _ _ ps init body :: l => if Nat.eqb (List.length ps) k then Some (ps, init, body) else find_ctor k l
    | _ :: l => find_ctor k l
    end.
  Definition bind_params (ps : list param) (vs : list value) : list (string * value) := combine (map pm_name ps) vs.

  (** [while (!reader.EndOfStream())]. *)
  Fixpoint loop (n : nat) (step : st -> res st) (s : st) : res st :=
    match s_in s with
    | [] => Ok s
    | _ => match n with O => NoFuel | S n => do s <- step s; loop n step s end
    end.
  (** State.cs 17-57, given how to call methods of the object. *)
  Definition replace_step (call : string -> list value -> st -> res (value * st)) (notify : bool) (s : st) : res st :=
    do (tag, wt, rest) <- c_key (s_in s);
    do (expected, s) <- call "GetWireType" [VNum tag] (with_in s rest);
    do (sub, rest) <- match wt with Sized => c_nested (s_in s) | Varint => Ok (s_in s, s_in s) end;
    do s <- match expected with
            | VNull => do (_, s) <- call "ReplaceAt" [VNum tag; VWire wt; VReader; VBool notify] (with_in s sub); Ok s
            | VWire wt' =>
                if wtype_eqb wt wt' then do (_, s) <- call "ReplaceAt" [VNum tag; VWire wt; VReader; VBool notify] (with_in s sub); Ok s
                else skip_field wt (with_in s sub)
            | _ => NoFuel
            end;
    Ok (with_in s match wt with Sized => rest | Varint => s_in s end).
  Definition replace (call : string -> list value -> st -> res (value * st)) (notify : bool) (s : st) : res st :=
    if c_enum then
      do (z, rest) <- c_int U32 (s_in s);
      do (_, s) <- call "ReplaceAt" [VNum (Z.to_N z); VWire Sized; VReader; VBool notify] (with_in s rest); Ok s
    else loop (List.length (s_in s)) (replace_step call notify) s.

  (** Calls and expressions nested deeper than [f] are not followed. *)
  Fixpoint eval (f : nat) (loc : list (string * value)) (e : expr) (s : st) {struct f} : res (value * st) :=
    match f with
    | O => NoFuel
    | S f =>
        match e with
        | ENum n => Ok (VNum n, s)
        | ENull => Ok (VNull, s)
        | EBool b => Ok (VBool b, s)
        | EThis => match s_this s with Some _ => Ok (VThis, s) | None => NoFuel end
        | EName n =>
            match sassoc n loc with
            | Some v => Ok (v, s)
            | None =>
                match sassoc n names with
                | Some (IsProp _) => do v <- prop n s; Ok (v, s)
                | Some IsOther => Ok (VEvent n, s)
                | _ => NoFuel
                end
            end
        | EMem e n =>
            match as_type loc e with
            | Some t => do v <- static_member t n; Ok (v, s)
            | None => do (r, s) <- eval f loc e s; match r with VThis => do v <- prop n s; Ok (v, s) | _ => NoFuel end
            end
        | ECall (EMem e n) args =>
            match as_type loc e with
            | Some t => do (vs, s) <- evals (eval f) loc args s; do vs <- plain vs; static_call t n [] vs s
            | None =>
                do (r, s) <- eval f loc e s;
                do (vs, s) <- evals (eval f) loc args s;
                match r with
                | VThis =>
                    match find_method n false c_members with
                    | Some _ => do vs <- plain vs; call f n vs s
                    | None =>
                        match vs with
                        | [(None, VReader); (Some a, VBool b)] =>
                            if String.eqb n "Replace" && String.eqb a "shouldNotify"
                            then do s <- replace (call f) b s; Ok (VNull, s) else NoFuel
                        | _ => NoFuel
                        end
                    end
                | _ => do vs <- plain vs; method r n vs s
                end
            end
        | ECall (EMemGen e n targs) args =>
            match as_type loc e with
            | Some t => do (vs, s) <- evals (eval f) loc args s; do vs <- plain vs; static_call t n targs vs s
            | None => NoFuel
            end
        | ECall (EQMem e n) args =>
            do (r, s) <- eval f loc e s;
            match r with
            | VNull => Ok (VNull, s)
            | VEvent h =>
                do (vs, s) <- evals (eval f) loc args s;
                do vs <- plain vs;
                if String.eqb n "Invoke" then Ok (VNull, ST (s_this s) (s_in s) (s_log s ++ [(h, vs)])) else NoFuel
            | _ => NoFuel
            end
        | ENew (CN n targs) args =>
            do (vs, s) <- evals (eval f) loc args s;
            do vs <- plain vs;
            if param_name (CN n targs) then NoFuel
            else if (String.eqb n "FieldUpdateEventArgs" || String.eqb n "VariantUpdateEventArgs") &&
               match ty (CN n targs) with None => true | _ => false end then Ok (VArgs vs, s)
            else if cname_eqb (CN n targs) own && match s_this s with None => true | _ => false end then
              do s <- construct f vs s; Ok (VThis, s)
            else
              match ty (CN n targs), vs with
              | Some c, [VPath p] => if c_state c then do x <- w_new w c p; Ok (VObj c x, s) else NoFuel
              | _, _ => NoFuel
              end
        | ETypeof t => match ty t with Some c => Ok (VType c, s) | None => NoFuel end
        | EAs e (CN n []) =>
            do (v, s) <- eval f loc e s;
            if String.eqb n "IState" && match ty (CN n []) with None => true | _ => false end then
              match v with
              | VNull => Ok (VNull, s)
              | VObj c _ => Ok (if c_state c then v else VNull, s)
              | _ => NoFuel
              end
            else NoFuel
        | EEq a b =>
            do (x, s) <- eval f loc a s; do (y, s) <- eval f loc b s;
            match x, y with VNum m, VNum n => Ok (VBool (m =? n), s) | _, _ => NoFuel end
        | ECoal a b => do (v, s) <- eval f loc a s; match v with VNull => eval f loc b s | _ => Ok (v, s) end
        | ECond c a b =>
            do (v, s) <- eval f loc c s;
            match v with VBool true => eval f loc a s | VBool false => eval f loc b s | _ => NoFuel end
        | _ => NoFuel
        end
    end
  with exec (f : nat) (loc : list (string * value)) (l : list stmt) (s : st) {struct f} : res (outcome * st) :=
    match f with O => NoFuel | S f => stmts (eval f) (exec f) loc l s end
  with call (f : nat) (n : string) (args : list value) (s : st) {struct f} : res (value * st) :=
    match f with
    | O => NoFuel
    | S f =>
        match find_method n false c_members with
        | Some (ps, body) =>
            if Nat.eqb (List.length ps) (List.length args) then
              do (o, s) <- exec f (bind_params ps args) body s;
              match o with ORet v => Ok (v, s) | ONext _ => Ok (VNull, s) | OBreak => NoFuel end
            else NoFuel
        | None => NoFuel
        end
    end
  with construct (f : nat) (args : list value) (s : st) {struct f} : res st :=
    match f with
    | O => NoFuel
    | S f =>
        match find_ctor (List.length args) c_members with
        | Some (ps, init, body) =>
            let loc := bind_params ps args in
            do s <- match init with
                    | Some es => do (vs, s) <- evals (eval f) loc es s; do vs <- plain vs; construct f vs s
                    | None => Ok (with_this s fresh)
                    end;
            do (o, s) <- exec f loc body s;
            match o with OBreak => NoFuel | _ => Ok s end
        | None => NoFuel
        end
    end.

  (** ** The methods *)

  Definition depth : nat := 20.
  (** A path or [null]. *)
  Definition a_path (p : option (list N)) : value := match p with Some p => VPath p | None => VNull end.
  Definition run_new (p : option (list N)) : res (list (string * value)) :=
    do s <- construct depth [a_path p] (ST None [] []);
    match s_this s with Some o => Ok o | None => NoFuel end.
  Definition run_wire_type (o : list (string * value)) (tag : N) : res value :=
    do (v, _) <- call depth "GetWireType" [VNum tag] (ST (Some o) [] []); Ok v.
  Definition run_nested (o : list (string * value)) (tag : N) : res value :=
    do (v, _) <- call depth "GetNested" [VNum tag] (ST (Some o) [] []); Ok v.
  (** The object, what is left to read, the events raised. *)
  Definition run_replace_at (o : list (string * value)) (tag : N) (wt : wtype) (bs : bytes) (notify : bool)
    : res (list (string * value) * bytes * list (string * list value)) :=
    do (_, s) <- call depth "ReplaceAt" [VNum tag; VWire wt; VReader; VBool notify] (ST (Some o) bs []);
    match s_this s with Some o => Ok (o, s_in s, s_log s) | None => NoFuel end.
  (** A static method that returns a new object. *)
  Definition run_static (n : string) (args : list value) (bs : bytes)
    : res (list (string * value) * bytes * list (string * list value)) :=
    match find_method n true c_members with
    | Some (ps, body) =>
        if Nat.eqb (List.length ps) (List.length args) then
          do (o, s) <- exec depth (bind_params ps args) body (ST None bs []);
          match o, s_this s with ORet VThis, Some o => Ok (o, s_in s, s_log s) | _, _ => NoFuel end
        else NoFuel
    | None => NoFuel
    end.
  Definition run_deserialize (p : option (list N)) (bs : bytes)
    : res (list (string * value) * bytes * list (string * list value)) :=
    run_static "Deserialize" [VReader; a_path p] bs.
End Run.
Arguments VNull {V}. Arguments VBool {V}. Arguments VNum {V}. Arguments VWire {V}. Arguments VPath {V}.
Arguments VReader {V}. Arguments VThis {V}. Arguments VObj {V}. Arguments VType {V}. Arguments VEvent {V}. Arguments VArgs {V}. Arguments a_path {V}.
Arguments ST {V}. Arguments s_this {V}. Arguments s_in {V}. Arguments s_log {V}.
Arguments w_default {V}. Arguments w_prim {V}. Arguments w_new {V}. Arguments w_read {V}. Arguments World {V}.
