(** Values seen uniformly as a header followed by slots, and induction on values. *)
From Verif Require Import Base Varint WireFmt Utf8 Types Ser Spec.

(** What a composite value writes for one component: field number, may be left out?, component. *)
Definition slot : Type := (option N * bool) * val.

Definition fslot (p : finfo * val) : slot := ((Some (f_tag (fst p)), true), snd p).
Definition islot (x : val) : slot := ((None, false), x).
Definition mslot (e : N * val) : slot := ((Some (fst e), false), snd e).
Definition hslots (e : val * val) : list slot := [islot (fst e); islot (snd e)].

Definition slots (v : val) : list slot :=
  match v with
  | VInt _ _ | VBool _ | VStr _ | VBytes _ | VOpt None | VBox _ => []
  | VOpt (Some x) => [islot x]
  | VVec l | VArr l | VTup l | VList _ l => map islot l
  | VHash l => flat_map hslots l
  | VStruct _ _ fs | VEnum _ _ _ fs => map fslot fs
  | VMap _ es => map mslot es
  end.

Definition leaf (v : val) : bool :=
  match v with VInt _ _ | VBool _ | VStr _ | VBytes _ => true | _ => false end.
Definition composite (v : val) : bool :=
  match v with VInt _ _ | VBool _ | VStr _ | VBytes _ | VBox _ => false | _ => true end.

Definition hdr (v : val) : bytes :=
  match v with VEnum tag _ _ _ => leb128 tag | _ => [] end.

Definition slot_enc (s : slot) : bytes :=
  let '((fn, om), x) := s in
  if is_some fn && om && left_out x (enc x) then []
  else match fn with
       | Some fn => enc_tagged fn x (enc x)
       | None => delimited x (enc x)
       end.

Lemma flat_map_map {A B C} (g : A -> B) (f : B -> list C) l :
  flat_map f (map g l) = flat_map (fun x => f (g x)) l.
Proof. induction l; cbn; [reflexivity|now rewrite IHl]. Qed.

Lemma flat_map_ext' {A C} (f g : A -> list C) l : (forall x, f x = g x) -> flat_map f l = flat_map g l.
Proof. intros H. induction l; cbn; [reflexivity|now rewrite H, IHl]. Qed.

Lemma enc_slots v : composite v = true -> enc v = hdr v ++ flat_map slot_enc (slots v).
Proof.
  destruct v as [| | | |[x|]|l|l|l|l| |c r fs|tag c r fs|r l|r es]; intros H; try discriminate H;
    cbn [enc hdr slots app]; rewrite ?flat_map_map; try reflexivity.
  - cbn. now rewrite app_nil_r.
  - induction l as [|[k x] l IH]; [reflexivity|]. cbn [flat_map hslots app]. rewrite IH by reflexivity.
    cbn. now rewrite <- app_assoc.
  - apply flat_map_ext'. now intros [fi x].
  - f_equal. apply flat_map_ext'. now intros [fi x].
  - apply flat_map_ext'. now intros [k x].
Qed.

Section Ind.
  Variable P : val -> Prop.
  Hypothesis Hleaf : forall v, leaf v = true -> P v.
  Hypothesis Hbox : forall v, P v -> P (VBox v).
  Hypothesis Hcomp : forall v, composite v = true -> Forall (fun s => P (snd s)) (slots v) -> P v.

  Fixpoint val_slots_ind (v : val) : P v :=
    let items := fix items (l : list val) : Forall (fun s : slot => P (snd s)) (map islot l) :=
      match l with
      | [] => Forall_nil _
      | x :: l' => Forall_cons (islot x) (val_slots_ind x) (items l')
      end in
    let fields := fix fields (l : list (finfo * val)) : Forall (fun s : slot => P (snd s)) (map fslot l) :=
      match l with
      | [] => Forall_nil _
      | p :: l' => Forall_cons (fslot p)
                     (match p as p return P (snd (fslot p)) with (_, x) => val_slots_ind x end) (fields l')
      end in
    match v as v return P v with
    | VInt k z => Hleaf (VInt k z) eq_refl
    | VBool b => Hleaf (VBool b) eq_refl
    | VStr s => Hleaf (VStr s) eq_refl
    | VBytes s => Hleaf (VBytes s) eq_refl
    | VOpt None => Hcomp (VOpt None) eq_refl (Forall_nil _)
    | VOpt (Some x) => Hcomp (VOpt (Some x)) eq_refl
                         (Forall_cons (islot x) (val_slots_ind x) (Forall_nil _))
    | VVec l => Hcomp (VVec l) eq_refl (items l)
    | VArr l => Hcomp (VArr l) eq_refl (items l)
    | VTup l => Hcomp (VTup l) eq_refl (items l)
    | VHash l => Hcomp (VHash l) eq_refl
        ((fix go (l : list (val * val)) : Forall (fun s : slot => P (snd s)) (flat_map hslots l) :=
          match l with
          | [] => Forall_nil _
          | p :: l' => 
              Forall_cons (islot (fst p)) (match p as p return P (fst p) with (k, _) => val_slots_ind k end)
                (Forall_cons (islot (snd p)) (match p as p return P (snd p) with (_, x) => val_slots_ind x end) (go l'))
          end) l)
    | VBox x => Hbox x (val_slots_ind x)
    | VStruct c r fs => Hcomp (VStruct c r fs) eq_refl (fields fs)
    | VEnum tag c r fs => Hcomp (VEnum tag c r fs) eq_refl (fields fs)
    | VList r l => Hcomp (VList r l) eq_refl (items l)
    | VMap r es => Hcomp (VMap r es) eq_refl
        ((fix go (l : list (N * val)) : Forall (fun s : slot => P (snd s)) (map mslot l) :=
          match l with
          | [] => Forall_nil _
          | p :: l' => Forall_cons (mslot p)
                         (match p as p return P (snd (mslot p)) with (_, x) => val_slots_ind x end) (go l')
          end) es)
    end.
End Ind.

(** Induction on types, with hypotheses about every component type. *)
Section TyInd.
  Variable P : ty -> Prop.
  Hypothesis Hint : forall k, P (TInt k).
  Hypothesis Hbool : P TBool.
  Hypothesis Hstr : P TStr.
  Hypothesis Hbytes : P TBytes.
  Hypothesis Hopt : forall t, P t -> P (TOpt t).
  Hypothesis Hvec : forall t, P t -> P (TVec t).
  Hypothesis Harr : forall n t, P t -> P (TArr n t).
  Hypothesis Htup : forall ts, Forall P ts -> P (TTup ts).
  Hypothesis Hhash : forall k v, P k -> P v -> P (THash k v).
  Hypothesis Hbox : forall t, P t -> P (TBox t).
  Hypothesis Hstruct : forall si fs, Forall (fun p => P (snd p)) fs -> P (TStruct si fs).
  Hypothesis Henum : forall st vs,
    Forall (fun va : (N * bool) * list (finfo * ty) => Forall (fun p => P (snd p)) (snd va)) vs ->
    P (TEnum st vs).
  Hypothesis Hlist : forall t, P t -> P (TList t).
  Hypothesis Hmap : forall k t, P t -> P (TMap k t).

  Fixpoint ty_ind' (t : ty) : P t :=
    let fields := fix fields (l : list (finfo * ty)) : Forall (fun p => P (snd p)) l :=
      match l with
      | [] => Forall_nil _
      | p :: l' => Forall_cons p (match p as p return P (snd p) with (_, x) => ty_ind' x end) (fields l')
      end in
    match t as t return P t with
    | TInt k => Hint k
    | TBool => Hbool
    | TStr => Hstr
    | TBytes => Hbytes
    | TOpt t => Hopt t (ty_ind' t)
    | TVec t => Hvec t (ty_ind' t)
    | TArr n t => Harr n t (ty_ind' t)
    | TTup ts => Htup ts
        ((fix go (l : list ty) : Forall P l :=
          match l with [] => Forall_nil _ | t :: l' => Forall_cons t (ty_ind' t) (go l') end) ts)
    | THash k v => Hhash k v (ty_ind' k) (ty_ind' v)
    | TBox t => Hbox t (ty_ind' t)
    | TStruct si fs => Hstruct si fs (fields fs)
    | TEnum st vs => Henum st vs
        ((fix go (l : list ((N * bool) * list (finfo * ty)))
           : Forall (fun va => Forall (fun p => P (snd p)) (snd va)) l :=
          match l with
          | [] => Forall_nil _
          | va :: l' => Forall_cons va
              (match va as va return Forall (fun p => P (snd p)) (snd va) with (_, fs) => fields fs end) (go l')
          end) vs)
    | TList t => Hlist t (ty_ind' t)
    | TMap k t => Hmap k t (ty_ind' t)
    end.
End TyInd.
