(** Versions of a type: what a reader of another version makes of a value.  The specification of C55;
    nothing here is code of /repo. *)
From Verif Require Import Base Varint WireFmt Utf8 Types Ser Spec De Log State.

(** [t'] is another version of [t]: structs and variants may have gained fields, lost them, or have them
    in another order, or fields of another wire type under a tag; enums may have gained or lost variants;
    structs and enums may have become states or stopped to be. *)
Fixpoint evolves (t t' : ty) {struct t} : bool :=
  let fields (fts fts' : list (finfo * ty)) : bool :=
    forallb (fun p : finfo * ty => let '(fi, t) := p in
      match find_field (f_tag fi) fts' with
      | Some (_, t') => if wtype_eqb (wty t) (wty t') then evolves t t' else true
      | None => true
      end) fts in
  match t, t' with
  | TInt k, TInt k' => ikind_eqb k k'
  | TBool, TBool | TStr, TStr | TBytes, TBytes => true
  | TOpt t, TOpt t' | TVec t, TVec t' | TBox t, TBox t' | TList t, TList t' | TMap _ t, TMap _ t' => evolves t t'
  | TArr n t, TArr n' t' => Nat.eqb n n' && evolves t t'
  | TTup ts, TTup ts' =>
      (fix go ts ts' := match ts, ts' with
       | [], [] => true
       | t :: ts, t' :: ts' => evolves t t' && go ts ts'
       | _, _ => false
       end) ts ts'
  | THash kt vt, THash kt' vt' =>
      match kt, kt' with TInt k, TInt k' => ikind_eqb k k' | TBool, TBool | TStr, TStr => true | _, _ => false end && evolves vt vt'
  | TStruct _ fts, TStruct _ fts' => fields fts fts'
  | TEnum _ vs, TEnum _ vs' =>
      forallb (fun va : (N * bool) * list (finfo * ty) => match find_variant vs' (fst (fst va)) with Some va' => fields (snd va) (snd va') | None => true end) vs
  | _, _ => false
  end.

(** The value as the other version has it, on runtime [r]: known fields of the expected wire type are
    taken over, the others are default. *)
Fixpoint view (t : ty) (r : rt) (v : val) {struct t} : val :=
  let fields (r : rt) (fts : list (finfo * ty)) (fs : list (finfo * val)) : list (finfo * val) :=
    map (fun p : finfo * ty => let '(fi, t) := p in
      (fi, match find_field (f_tag fi) fs with
           | Some (_, x) => if wtype_eqb (wty t) (vwty x) then view t (field_rt r fi) x else dflt t (field_rt r fi)
           | None => dflt t (field_rt r fi)
           end)) fts in
  match t, v with
  | TOpt t, VOpt (Some x) => VOpt (Some (view t rt_default x))
  | TVec t, VVec l => VVec (map (view t rt_default) l)
  | TArr _ t, VArr l => VArr (map (view t rt_default) l)
  | TTup ts, VTup l =>
      VTup ((fix go ts l := match ts, l with t :: ts, x :: l => view t rt_default x :: go ts l | _, _ => [] end) ts l)
  | THash kt vt, VHash l => VHash (map (fun e : val * val => (view kt rt_default (fst e), view vt rt_default (snd e))) l)
  | TBox t, VBox x => VBox (view t r x)
  | TStruct si fts, VStruct _ _ fs => VStruct (s_cache si) (if s_state si then Some r else None) (fields r fts fs)
  | TEnum st vs, VEnum tag _ _ fs =>
      (fix go vs := match vs with
       | [] => v
       | ((tag', c), fts) :: vs' =>
           if tag' =? tag then VEnum tag c (if st then Some (nested r tag) else None) (fields (nested r tag) fts fs) else go vs'
       end) vs
  | TList t, VList _ l =>
      VList r ((fix items i l := match l with [] => [] | x :: l => view t (nested r i) x :: items (i + 1) l end) 0 l)
  | TMap _ t, VMap _ es => VMap r (map (fun e : N * val => (fst e, view t (nested r (fst e)) (snd e))) es)
  | _, _ => v
  end.

(** What the reader needs of the value: its variants are known, its map keys fit, its signed integers are
    in the half range (C02), and what is skipped can be skipped (C13): with overflow checks on, varints of
    at most two bytes. *)
Definition short (m : mode) (x : val) : bool :=
  match vwty x, m with Varint, Debug => lenN (enc x) <=? 2 | _, _ => true end.
Fixpoint takes (m : mode) (t : ty) (v : val) {struct v} : bool :=
  let fields (fts : list (finfo * ty)) (fs : list (finfo * val)) : bool :=
    forallb (fun p : finfo * val => let '(fi, x) := p in
      match find_field (f_tag fi) fts with
      | Some (_, t) => if wtype_eqb (wty t) (vwty x) then takes m t x else short m x
      | None => short m x
      end) fs in
  match v, t with
  | VInt k z, TInt _ => int_safe k z
  | VBool _, TBool | VStr _, TStr | VBytes _, TBytes | VOpt None, TOpt _ => true
  | VOpt (Some x), TOpt t => takes m t x
  | VVec l, TVec t | VArr l, TArr _ t | VList _ l, TList t => forallb (takes m t) l
  | VTup l, TTup ts =>
      (fix go l ts := match l, ts with x :: l, t :: ts => takes m t x && go l ts | _, _ => true end) l ts
  | VHash l, THash kt vt => forallb (fun e : val * val => let '(k, x) := e in takes m kt k && takes m vt x) l
  | VBox x, TBox t => takes m t x
  | VStruct _ _ fs, TStruct _ fts => fields fts fs
  | VEnum tag _ _ fs, TEnum _ vs => match find_variant vs tag with Some va => fields (snd va) fs | None => false end
  | VMap _ es, TMap kk t =>
      forallb (fun e : N * val => let '(k, x) := e in (k <=? mkey_max kk) && (k <=? FIELD_NUMBER_MAX) && takes m t x) es
  | _, _ => false
  end.

(** [t'] keeps all of [t]: a version that only gained fields and variants, at any depth. *)
Fixpoint keeps (t t' : ty) {struct t} : bool :=
  let fields (fts fts' : list (finfo * ty)) : bool :=
    forallb (fun p : finfo * ty => let '(fi, t) := p in
      match find_field (f_tag fi) fts' with Some (_, t') => keeps t t' | None => false end) fts in
  match t, t' with
  | TInt k, TInt k' => ikind_eqb k k'
  | TBool, TBool | TStr, TStr | TBytes, TBytes => true
  | TOpt t, TOpt t' | TVec t, TVec t' | TBox t, TBox t' | TList t, TList t' | TMap _ t, TMap _ t' => keeps t t'
  | TArr n t, TArr n' t' => Nat.eqb n n' && keeps t t'
  | TTup ts, TTup ts' =>
      (fix go ts ts' := match ts, ts' with
       | [], [] => true
       | t :: ts, t' :: ts' => keeps t t' && go ts ts'
       | _, _ => false
       end) ts ts'
  | THash kt vt, THash kt' vt' =>
      match kt, kt' with TInt k, TInt k' => ikind_eqb k k' | TBool, TBool | TStr, TStr => true | _, _ => false end && keeps vt vt'
  | TStruct _ fts, TStruct _ fts' => fields fts fts'
  | TEnum _ vs, TEnum _ vs' =>
      forallb (fun va : (N * bool) * list (finfo * ty) => match find_variant vs' (fst (fst va)) with Some va' => fields (snd va) (snd va') | None => false end) vs
  | _, _ => false
  end.

(** A version whose states can take over: it keeps everything, what was part of the state tree still is,
    and no map's key type became narrower. *)
Fixpoint grown (t t' : ty) {struct t} : bool :=
  let fields (fts fts' : list (finfo * ty)) : bool :=
    forallb (fun p : finfo * ty => let '(fi, t) := p in
      match find_field (f_tag fi) fts' with Some (fi', t') => implb (f_state fi) (f_state fi') && grown t t' | None => false end) fts in
  match t, t' with
  | TInt k, TInt k' => ikind_eqb k k'
  | TBool, TBool | TStr, TStr | TBytes, TBytes => true
  | TOpt t, TOpt t' | TVec t, TVec t' | TBox t, TBox t' | TList t, TList t' => grown t t'
  | TMap kk t, TMap kk' t' => (mkey_max kk <=? mkey_max kk') && grown t t'
  | TArr n t, TArr n' t' => Nat.eqb n n' && grown t t'
  | TTup ts, TTup ts' =>
      (fix go ts ts' := match ts, ts' with
       | [], [] => true
       | t :: ts, t' :: ts' => grown t t' && go ts ts'
       | _, _ => false
       end) ts ts'
  | THash kt vt, THash kt' vt' =>
      match kt, kt' with TInt k, TInt k' => ikind_eqb k k' | TBool, TBool | TStr, TStr => true | _, _ => false end && grown vt vt'
  | TStruct _ fts, TStruct _ fts' => fields fts fts'
  | TEnum _ vs, TEnum _ vs' =>
      forallb (fun va : (N * bool) * list (finfo * ty) => match find_variant vs' (fst (fst va)) with Some va' => fields (snd va) (snd va') | None => false end) vs
  | _, _ => false
  end.
