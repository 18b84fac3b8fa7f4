(** A reader of C# text, for stating what the generated files mean: a lexer and a parser for the part
    of the language that generated files use.  It is not a model of anything in the repository; it
    stands for the C# compiler and accepts less: one class in one namespace in a file, no literals but
    numbers, no operators but [.], [?.], [as], [==], [??] and [?:].  It is written after the language
    specification and not after the generator; it is part of what C57, C58, C60 and C61 rely on. *)
From Verif Require Import Base Varint WireFmt Types Meta Gen.
From Coq Require Ascii DecimalString.
From Coq Require Import String.
Import Ascii String.StringSyntax.
Local Open Scope string_scope.
Local Open Scope list_scope.
Local Open Scope N_scope.

(** ** Tokens *)

Inductive tok := Id (w : string) | Pc (c : ascii).

Definition is_digit (c : ascii) : bool := (48 <=? code c) && (code c <=? 57).
Definition id_start (c : ascii) : bool := is_lower c || is_upper c || Ascii.eqb c "_".
Definition id_char (c : ascii) : bool := id_start c || is_digit c.
Definition blank (c : ascii) : bool := (code c =? 32) || (code c =? 10) || (code c =? 13) || (code c =? 9).

Definition flush (w : string) (k : list tok) : list tok := match w with "" => k | _ => Id w :: k end.
(** [Some w]: [w] is the beginning of a word; [None]: in a comment. *)
Fixpoint lex_from (st : option string) (s : string) : list tok :=
  match s with
  | "" => match st with Some w => flush w [] | None => [] end
  | String c s' =>
      match st with
      | None => if code c =? 10 then lex_from (Some "") s' else lex_from None s'
      | Some w =>
          if id_char c then lex_from (Some (w +++ String c "")) s'
          else flush w
            (if blank c then lex_from (Some "") s'
             else if Ascii.eqb c "/" then
               match s' with
               | String c' _ => if Ascii.eqb c' "/" then lex_from None s' else Pc c :: lex_from (Some "") s'
               | "" => [Pc c]
               end
             else Pc c :: lex_from (Some "") s')
      end
  end.
Definition lex (s : string) : list tok := lex_from (Some "") s.

Definition keywords : list string := [
  "abstract"; "as"; "base"; "bool"; "break"; "byte"; "case"; "catch"; "char"; "checked"; "class"; "const"; "continue";
  "decimal"; "default"; "delegate"; "do"; "double"; "else"; "enum"; "event"; "explicit"; "extern"; "false"; "finally";
  "fixed"; "float"; "for"; "foreach"; "goto"; "if"; "implicit"; "in"; "int"; "interface"; "internal"; "is"; "lock"; "long";
  "namespace"; "new"; "null"; "object"; "operator"; "out"; "override"; "params"; "private"; "protected"; "public";
  "readonly"; "ref"; "return"; "sbyte"; "sealed"; "short"; "sizeof"; "stackalloc"; "static"; "string"; "struct"; "switch";
  "this"; "throw"; "true"; "try"; "typeof"; "uint"; "ulong"; "unchecked"; "unsafe"; "ushort"; "using"; "virtual"; "void";
  "volatile"; "while"].
Fixpoint all_chars (p : ascii -> bool) (s : string) : bool :=
  match s with "" => true | String c s => p c && all_chars p s end.
(** A name one can declare. *)
Definition ident (w : string) : bool :=
  match w with "" => false | String c s => id_start c && all_chars id_char s end && negb (str_mem w keywords).
(** Words with a meaning of their own where types stand. *)
Definition contextual : list string := ["partial"; "var"; "dynamic"; "record"; "required"; "file"; "scoped"; "where"; "async"; "await"].
Definition type_ident (w : string) : bool := ident w && negb (str_mem w contextual).
Definition type_word (w : string) : bool := type_ident w || String.eqb w "bool" || String.eqb w "void".
Definition number (w : string) : option N := option_map N.of_uint (DecimalString.NilZero.uint_of_string w).

Definition parser (A : Type) : Type := list tok -> option (A * list tok).
Definition pbind {A B} (x : option (A * list tok)) (k : A -> parser B) : option (B * list tok) :=
  match x with Some (a, l) => k a l | None => None end.

Definition pc (c : ascii) : parser unit := fun l =>
  match l with Pc c' :: l => if Ascii.eqb c c' then Some (tt, l) else None | _ => None end.
Definition pword (w : string) : parser unit := fun l =>
  match l with Id w' :: l => if String.eqb w w' then Some (tt, l) else None | _ => None end.
Definition pname : parser string := fun l =>
  match l with Id w :: l => if ident w then Some (w, l) else None | _ => None end.
Definition pnum : parser N := fun l =>
  match l with Id w :: l => match number w with Some n => Some (n, l) | None => None end | _ => None end.

(** ** Types *)

Inductive cname := CN (n : string) (args : list cname).

Fixpoint ptype (f : nat) (l : list tok) {struct f} : option (cname * list tok) :=
  match f with
  | O => None
  | S f =>
      match l with
      | Id w :: l =>
          if type_word w then
            match l with
            | Pc "<" :: l => pbind (ptypes f l) (fun args l => Some (CN w args, l))
            | _ => Some (CN w [], l)
            end
          else None
      | _ => None
      end
  end
with ptypes (f : nat) (l : list tok) {struct f} : option (list cname * list tok) :=
  match f with
  | O => None
  | S f =>
      pbind (ptype f l) (fun t l =>
      match l with
      | Pc "," :: l => pbind (ptypes f l) (fun ts l => Some (t :: ts, l))
      | Pc ">" :: l => Some ([t], l)
      | _ => None
      end)
  end.
(** Twice the number of tokens is enough fuel. *)
Definition fuel_for (l : list tok) : nat := (List.length l + List.length l)%nat.
Definition a_type : parser cname := fun l => ptype (fuel_for l) l.
Definition type_args : parser (list cname) := fun l => ptypes (fuel_for l) l.
(** A type followed by [?] is [Nullable] of it. *)
Definition result_type : parser cname := fun l =>
  pbind (a_type l) (fun t l => match l with Pc "?" :: l => Some (CN "Nullable" [t], l) | _ => Some (t, l) end).
(** Declared type parameters, after a name. *)
Definition tparams : parser (list string) := fun l =>
  match l with
  | Pc "<" :: l =>
      pbind (type_args l) (fun ts l =>
      if forallb (fun t => match t with CN w [] => type_ident w | _ => false end) ts
      then Some (map (fun t => match t with CN w _ => w end) ts, l) else None)
  | _ => Some ([], l)
  end.

(** ** Expressions *)

Inductive expr :=
| ENum (n : N)
| ENull
| EBool (b : bool)
| EThis
| EName (n : string)
| EGen (n : string) (a : list cname)                       (* n<a> *)
| EMem (e : expr) (n : string)
| EMemGen (e : expr) (n : string) (a : list cname)         (* e.n<a> *)
| EQMem (e : expr) (n : string)                            (* e?.n *)
| ECall (e : expr) (args : list (option string * expr))
| ENew (t : cname) (args : list (option string * expr))
| ETypeof (t : cname)
| EAs (e : expr) (t : cname)
| EEq (a b : expr)
| ECoal (a b : expr)
| ECond (c a b : expr).

(** Expressions nested deeper than [f] are refused. *)
Fixpoint pexpr (f : nat) (l : list tok) {struct f} : option (expr * list tok) :=
  match f with
  | O => None
  | S f =>
      pbind (punary f l) (fun a l =>
      pbind (match l with
             | Id w :: l' => if String.eqb w "as" then pbind (a_type l') (fun t l => Some (EAs a t, l)) else Some (a, l)
             | _ => Some (a, l)
             end) (fun a l =>
      pbind (match l with
             | Pc "=" :: Pc "=" :: l => pbind (punary f l) (fun b l => Some (EEq a b, l))
             | _ => Some (a, l)
             end) (fun a l =>
      pbind (match l with
             | Pc "?" :: Pc "?" :: l => pbind (punary f l) (fun b l => Some (ECoal a b, l))
             | _ => Some (a, l)
             end) (fun a l =>
      match l with
      | Pc "?" :: l =>
          pbind (pexpr f l) (fun b l => pbind (pc ":" l) (fun _ l => pbind (pexpr f l) (fun c l => Some (ECond a b c, l))))
      | _ => Some (a, l)
      end))))
  end
with punary (f : nat) (l : list tok) {struct f} : option (expr * list tok) :=
  match f with
  | O => None
  | S f =>
      match l with
      | Id w :: l =>
          match number w with
          | Some n => Some (ENum n, l)
          | None =>
              if String.eqb w "null" then Some (ENull, l)
              else if String.eqb w "true" then Some (EBool true, l)
              else if String.eqb w "false" then Some (EBool false, l)
              else if String.eqb w "this" then ppost f EThis l
              else if String.eqb w "new" then
                pbind (a_type l) (fun t l => pbind (pc "(" l) (fun _ l => pbind (pargs f l) (fun args l => ppost f (ENew t args) l)))
              else if String.eqb w "typeof" then
                pbind (pc "(" l) (fun _ l => pbind (a_type l) (fun t l => pbind (pc ")" l) (fun _ l => ppost f (ETypeof t) l)))
              else if ident w then
                match l with
                | Pc "<" :: l => pbind (type_args l) (fun a l => ppost f (EGen w a) l)
                | _ => ppost f (EName w) l
                end
              else None
          end
      | _ => None
      end
  end
with ppost (f : nat) (e : expr) (l : list tok) {struct f} : option (expr * list tok) :=
  match f with
  | O => None
  | S f =>
      match l with
      | Pc "." :: l =>
          pbind (pname l) (fun n l =>
          match l with
          | Pc "<" :: l => pbind (type_args l) (fun a l => ppost f (EMemGen e n a) l)
          | _ => ppost f (EMem e n) l
          end)
      | Pc "?" :: Pc "." :: l => pbind (pname l) (fun n l => ppost f (EQMem e n) l)
      | Pc "(" :: l => pbind (pargs f l) (fun args l => ppost f (ECall e args) l)
      | _ => Some (e, l)
      end
  end
with pargs (f : nat) (l : list tok) {struct f} : option (list (option string * expr) * list tok) :=
  match f with
  | O => None
  | S f =>
      match l with
      | Pc ")" :: l => Some ([], l)
      | _ =>
          pbind (match l with
                 | Id n :: Pc ":" :: l => if ident n then pbind (pexpr f l) (fun e l => Some ((Some n, e), l)) else None
                 | _ => pbind (pexpr f l) (fun e l => Some ((None, e), l))
                 end) (fun a l =>
          match l with
          | Pc "," :: l => pbind (pargs f l) (fun args l => Some (a :: args, l))
          | Pc ")" :: l => Some ([a], l)
          | _ => None
          end)
      end
  end.
Definition an_expr : parser expr := pexpr 20.

(** ** Statements *)

Inductive stmt :=
| SExpr (e : expr)
| SAssign (a b : expr)
| SVar (x : string) (e : expr)
| SReturn (e : expr)
| SThrow (e : expr)
| SBreak
| SCase (n : N)                                            (* the label *)
| SDefault
| SIf (c : expr) (body : list stmt)
| SSwitch (c : expr) (body : list stmt).

Definition semi {A} (a : A) : parser A := fun l => pbind (pc ";" l) (fun _ l => Some (a, l)).
Definition psimple : parser stmt := fun l =>
  pbind (an_expr l) (fun a l =>
  match l with
  | Pc "=" :: l => pbind (an_expr l) (fun b l => semi (SAssign a b) l)
  | _ => semi (SExpr a) l
  end).

Fixpoint pstmts (f : nat) (l : list tok) {struct f} : option (list stmt * list tok) :=
  match l with
  | Pc "}" :: l => Some ([], l)
  | _ =>
      match f with
      | O => None
      | S f => pbind (pstmt f l) (fun s l => pbind (pstmts f l) (fun ss l => Some (s :: ss, l)))
      end
  end
with pstmt (f : nat) (l : list tok) {struct f} : option (stmt * list tok) :=
  match f with
  | O => None
  | S f =>
      let block k := fun l =>
        pbind (pc "(" l) (fun _ l => pbind (an_expr l) (fun c l => pbind (pc ")" l) (fun _ l => pbind (pc "{" l) (fun _ l =>
        pbind (pstmts f l) (fun b l => Some (k c b, l)))))) in
      match l with
      | Id w :: l' =>
          if String.eqb w "return" then pbind (an_expr l') (fun e l => semi (SReturn e) l)
          else if String.eqb w "throw" then pbind (an_expr l') (fun e l => semi (SThrow e) l)
          else if String.eqb w "break" then semi SBreak l'
          else if String.eqb w "if" then block SIf l'
          else if String.eqb w "switch" then block SSwitch l'
          else if String.eqb w "case" then pbind (pnum l') (fun n l => pbind (pc ":" l) (fun _ l => Some (SCase n, l)))
          else if String.eqb w "default" then pbind (pc ":" l') (fun _ l => Some (SDefault, l))
          else
            match l' with
            | Id x :: Pc "=" :: l'' =>
                if String.eqb w "var" && ident x then pbind (an_expr l'') (fun e l => semi (SVar x e) l) else None
            | _ => psimple l
            end
      | _ => None
      end
  end.

(** ** Members and classes *)

(** The type, the name, whether there is a default ([null]). *)
Record param := PM { pm_type : cname; pm_name : string; pm_null : bool }.

Inductive member :=
| KProp (mods : list string) (t : cname) (n : string) (settable : bool)
| KGet (mods : list string) (t : cname) (n : string) (body : list stmt)
| KConst (mods : list string) (t : cname) (n : string) (v : N)
| KEvent (mods : list string) (t : cname) (n : string)
| KMethod (mods : list string) (t : cname) (n : string) (tps : list string) (ps : list param) (body : list stmt)
| KCtor (mods : list string) (n : string) (ps : list param) (init : option (list (option string * expr))) (body : list stmt)
| KClass (mods : list string) (n : string) (tps : list string) (base : cname) (ms : list member).

Fixpoint pparams (f : nat) (l : list tok) {struct f} : option (list param * list tok) :=
  match f with
  | O => None
  | S f =>
      match l with
      | Pc ")" :: l => Some ([], l)
      | _ =>
          pbind (a_type l) (fun t l => pbind (pname l) (fun n l =>
          pbind (match l with
                 | Pc "=" :: l => pbind (pword "null" l) (fun _ l => Some (PM t n true, l))
                 | _ => Some (PM t n false, l)
                 end) (fun p l =>
          match l with
          | Pc "," :: l => pbind (pparams f l) (fun ps l => Some (p :: ps, l))
          | Pc ")" :: l => Some ([p], l)
          | _ => None
          end)))
      end
  end.

Definition modifiers : list string := ["public"; "private"; "internal"; "static"; "sealed"; "partial"].
Fixpoint pmods (l : list tok) : list string * list tok :=
  match l with
  | Id w :: l' => if str_mem w modifiers then let '(ms, l'') := pmods l' in (w :: ms, l'') else ([], l)
  | _ => ([], l)
  end.

Definition a_block : parser (list stmt) := fun l => pbind (pc "{" l) (fun _ l => pstmts (List.length l) l).
(** What follows the type and the name of a property. *)
Definition accessors (mods : list string) (t : cname) (n : string) : parser member := fun l =>
  pbind (pword "get" l) (fun _ l =>
  match l with
  | Pc ";" :: Pc "}" :: l => Some (KProp mods t n false, l)
  | Pc ";" :: l =>
      pbind (pword "private" l) (fun _ l => pbind (pword "set" l) (fun _ l => pbind (pc ";" l) (fun _ l => pbind (pc "}" l) (fun _ l =>
      Some (KProp mods t n true, l)))))
  | _ => pbind (a_block l) (fun b l => pbind (pc "}" l) (fun _ l => Some (KGet mods t n b, l)))
  end).

Fixpoint pmembers (f : nat) (l : list tok) {struct f} : option (list member * list tok) :=
  match l with
  | Pc "}" :: l => Some ([], l)
  | _ =>
      match f with
      | O => None
      | S f => pbind (pmember f l) (fun m l => pbind (pmembers f l) (fun ms l => Some (m :: ms, l)))
      end
  end
with pmember (f : nat) (l : list tok) {struct f} : option (member * list tok) :=
  match f with
  | O => None
  | S f =>
      let '(mods, l) := pmods l in
      match l with
      | Id w :: l' =>
          if String.eqb w "class" then
            pbind (pname l') (fun n l => if negb (type_ident n) then None else pbind (tparams l) (fun tps l => pbind (pc ":" l) (fun _ l => pbind (a_type l) (fun base l =>
            pbind (pc "{" l) (fun _ l => pbind (pmembers f l) (fun ms l => Some (KClass mods n tps base ms, l)))))))
          else if String.eqb w "const" then
            pbind (a_type l') (fun t l => pbind (pname l) (fun n l => pbind (pc "=" l) (fun _ l => pbind (pnum l) (fun v l =>
            semi (KConst mods t n v) l))))
          else if String.eqb w "event" then
            pbind (a_type l') (fun t l => pbind (pname l) (fun n l => semi (KEvent mods t n) l))
          else
            match l' with
            | Pc "(" :: l' =>
                if ident w then
                  pbind (pparams (List.length l') l') (fun ps l =>
                  pbind (match l with
                         | Pc ":" :: l =>
                             pbind (pword "this" l) (fun _ l => pbind (pc "(" l) (fun _ l => pbind (pargs 20 l) (fun args l => Some (Some args, l))))
                         | _ => Some (None, l)
                         end) (fun init l =>
                  pbind (a_block l) (fun b l => Some (KCtor mods w ps init b, l))))
                else None
            | _ =>
                pbind (result_type l) (fun t l => pbind (pname l) (fun n l =>
                match l with
                | Pc "{" :: l => accessors mods t n l
                | _ =>
                    pbind (tparams l) (fun tps l => pbind (pc "(" l) (fun _ l => pbind (pparams (List.length l) l) (fun ps l =>
                    pbind (a_block l) (fun b l => Some (KMethod mods t n tps ps b, l)))))
                end))
            end
      | _ => None
      end
  end.

(** ** Files *)

Fixpoint pdotted (l : list tok) : option (list string * list tok) :=
  match l with
  | Id w :: l =>
      if ident w then
        match l with
        | Pc "." :: l => pbind (pdotted l) (fun ws l => Some (w :: ws, l))
        | _ => Some ([w], l)
        end
      else None
  | _ => None
  end.
Fixpoint pusings (f : nat) (l : list tok) : option (list (list string) * list tok) :=
  match f, l with
  | S f, Id w :: l' =>
      if String.eqb w "using" then
        pbind (pdotted l') (fun u l => pbind (pc ";" l) (fun _ l => pbind (pusings f l) (fun us l => Some (u :: us, l))))
      else Some ([], l)
  | _, _ => Some ([], l)
  end.

Record file := File { fl_using : list (list string); fl_namespace : list string; fl_class : member }.
Definition parse (s : string) : option file :=
  let l := lex s in
  match pusings (List.length l) l with
  | Some (us, l) =>
      match pbind (pword "namespace" l) (fun _ l => pbind (pdotted l) (fun ns l => pbind (pc "{" l) (fun _ l =>
            pbind (pmember (List.length l) l) (fun m l => Some ((ns, m), l))))) with
      | Some ((ns, m), [Pc "}"]) => Some (File us ns m)
      | _ => None
      end
  | None => None
  end.
