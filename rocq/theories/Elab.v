(** From the declarations of a Rust program to its types (Types.v) and to the classes their generated
    code means (CSharp.v).  [stands] is the Rust side, from the declarations; [user_of] the C# side,
    from their descriptions (Meta.v). *)
From Verif Require Import Base Varint WireFmt Types De Meta Gen CSharp CsRead CsRun GenSpec.
From Coq Require Import String.
Import String.StringSyntax.
Local Open Scope string_scope.
Local Open Scope list_scope.
Local Open Scope N_scope.

(** ** Rust *)

Definition field_stands (st : list ty -> rty -> ty -> Prop) (args : list ty) (f : field) (p : finfo * ty) : Prop :=
  fd_tag f = f_tag (fst p) /\ st args (fd_ty f) (snd p).
(** A declaration with type arguments [args] is [T]: the same fields in the same order. *)
Definition decl_stands (st : list ty -> rty -> ty -> Prop) (d : decl) (args : list ty) (T : ty) : Prop :=
  List.length args = List.length (d_params d) /\
  match d_body d, T with
  | BStruct fs, TStruct _ fts => Forall2 (field_stands st args) fs fts
  | BEnum vs, TEnum _ vts => Forall2 (fun (v : (nmeta * N) * list field) (vt : (N * bool) * list (finfo * ty)) =>
      snd (fst v) = fst (fst vt) /\ Forall2 (field_stands st args) (snd v) (snd vt)) vs vts
  | _, _ => False
  end.
(** The type [t] of a declaration with type arguments [args] is [T].  Which types derive State, have a
    size cache or skip fields when comparing is not declared in Meta.v and is left open here.  [k]
    bounds the nesting; the types of Types.v are finite, so recursive declarations stand for none. *)
Fixpoint stands (k : nat) (e : env) (args : list ty) (t : rty) (T : ty) {struct k} : Prop :=
  match k with
  | O => False
  | S k =>
      match t, T with
      | RInt i, TInt i' => i = i'
      | RBool, TBool | RStr, TStr | RBytes, TBytes => True
      | ROpt t, TOpt T | RVec t, TVec T | RList t, TList T | RBox t, TBox T => stands k e args t T
      | RArr n t, TArr n' T => n = n' /\ stands k e args t T
      | RMap i t, TMap i' T => i = i' /\ stands k e args t T
      | RVar i, _ => nth_error args i = Some T
      | RAlias t, _ => stands k e args t T
      | RUser d l, _ => exists Ts, Forall2 (stands k e args) l Ts /\ decl_stands (stands k e) (decl_of e d) Ts T
      | _, _ => False
      end
  end.
Definition declared (e : env) (d : decl) (args : list ty) (T : ty) : Prop := exists k, decl_stands (stands k e) d args T.

(** ** C# *)

(** A field that is not of primitive type nor of a type parameter is constructed with a path. *)
Definition constructed (fc : vfield * cty) : bool :=
  match fm_ty (v_meta (fst fc)) with MRef _ _ => c_state (snd fc) | _ => true end.
Definition class_fields (ty : cname -> option cty) (l : list fmeta) : option (list (N * (bool * cty))) :=
  match fields_of ty l with Some fcs => if forallb constructed fcs then Some (cfields fcs) else None | None => None end.
Definition class_variants (ty : cname -> option cty) (l : list (smeta * N)) : option (list (N * list (N * (bool * cty)))) :=
  some_all (fun v : smeta * N => option_map (pair (snd v)) (class_fields ty (sm_fields (fst v)))) l.
Definition class_msg (ty : cname -> option cty) (m : message) : option cty :=
  match m with
  | MStruct s => option_map CStruct (class_fields ty (sm_fields s))
  | MEnum em => option_map CEnum (class_variants ty (em_variants em))
  end.
(** The class of that name with these type arguments, from the file generated for it. *)
Fixpoint user_of (k : nat) (e : env) (n : string) (cs : list cty) {struct k} : option cty :=
  match k with
  | O => None
  | S k =>
      match find (fun d => String.eqb (cs_name (d_name d)) n) e with
      | Some d =>
          if Nat.eqb (List.length (d_params d)) (List.length cs) then
            class_msg (resolve (combine (d_params d) cs) (user_of k e)) (decl_msg e d)
          else None
      | None => None
      end
  end.

(** ** Names *)

Definition taken : list string :=
  ["Box"; "Bytes"; "Option"; "Vector"; "StateList"; "StateMap"; ""] ++ map fst primitives ++ library_names ++ header_names.
(** Field types behind an alias show no box. *)
Fixpoint boxed (t : rty) : bool := match t with RBox _ => true | RAlias t => boxed t | _ => false end.
Definition plain_field (f : field) : bool := match fd_ty f with RAlias t => negb (boxed t) | _ => true end.
(** Classes have names of their own, and so have type parameters. *)
Definition env_ok (e : env) : bool :=
  let ns := map (fun d => cs_name (d_name d)) e in
  unique ns && forallb (fun n => negb (str_mem n taken)) ns &&
  forallb (fun d => unique (d_params d) && forallb (fun p => negb (str_mem p (ns ++ taken))) (d_params d) &&
    forallb plain_field (body_fields (d_body d))) e.
