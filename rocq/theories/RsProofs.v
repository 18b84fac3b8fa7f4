(** Generated code run: fields of structs and variants. *)
From Verif Require Import Base Varint WireFmt Utf8 Types Ser De Hash Log State Meta Gen RsGen RsRun RsSpec TypeProofs EqProofs.
From Coq Require Import String.
Import String.StringSyntax.
Local Open Scope string_scope.
Local Open Scope list_scope.
Local Open Scope N_scope.

(** ** Lists of named things *)

Lemma lookup_skip {A} x (l k : list (string * A)) : ~ In x (map fst l) -> lookup x (l ++ k) = lookup x k.
Proof.
  induction l as [|[y a] l IH]; intros H; [reflexivity|]. cbn in *.
  destruct (String.eqb_spec x y) as [->|Ne]; [tauto|]. apply IH. tauto.
Qed.
Lemma lookup_mid {A} x (a : A) l k : ~ In x (map fst l) -> lookup x (l ++ (x, a) :: k) = Some a.
Proof. intros H. rewrite lookup_skip by exact H. cbn. now rewrite String.eqb_refl. Qed.
Lemma pos_mid {A} x (a : A) l k : ~ In x (map fst l) -> pos x (l ++ (x, a) :: k) = List.length l.
Proof.
  induction l as [|[y b] l IH]; intros H; cbn in *; [now rewrite String.eqb_refl|].
  destruct (String.eqb_spec x y) as [->|Ne]; [tauto|]. f_equal. apply IH. tauto.
Qed.
Lemma assign_mid {A} x (a b : A) l k : ~ In x (map fst l) -> assign x b (l ++ (x, a) :: k) = l ++ (x, b) :: k.
Proof.
  induction l as [|[y c] l IH]; intros H; cbn in *; [now rewrite String.eqb_refl|].
  destruct (String.eqb_spec x y) as [->|Ne]; [tauto|]. f_equal. apply IH. tauto.
Qed.

(** ** Inner recursions of the models *)

Section Inner.
Variables (m : mode) (a : addr).
Fixpoint comp_fields (i : nat) (acc : N) (l : list (finfo * val)) (h : store) : res (N * store) :=
  match l with
  | [] => Ok (acc, h)
  | (fi, x) :: l' =>
      do (n, h) <- unwrap (size_nested m (Some (f_tag fi)) true (i :: a) x (compute m (i :: a) x h));
      do acc <- add32 m acc n;
      comp_fields (S i) acc l' h
  end.
Lemma compute_struct c r fs h : compute m a (VStruct c r fs) h = comp_fields O 0 fs h.
Proof. reflexivity. Qed.
Lemma compute_enum tag c r fs h : compute m a (VEnum tag c r fs) h = do acc <- add32 m 0 (uv_size 32 tag); comp_fields O acc fs h.
Proof. reflexivity. Qed.

Fixpoint serc_fields (i : nat) (l : list (finfo * val)) (h : store) : res (bytes * store) :=
  match l with
  | [] => Ok ([], h)
  | (fi, x) :: l' =>
      do (b, h) <- ser_nested m (Some (f_tag fi)) true (i :: a) x (ser_cached m (i :: a) x) h;
      do (bs, h) <- serc_fields (S i) l' h;
      Ok (b ++ bs, h)
  end.
Lemma ser_struct c r fs h : ser_cached m a (VStruct c r fs) h = serc_fields O fs h.
Proof. reflexivity. Qed.
Lemma ser_enum tag c r fs h : ser_cached m a (VEnum tag c r fs) h =
  do t <- uv_serialize 32 tag; do (bs, h) <- serc_fields O fs h; Ok (t ++ bs, h).
Proof. reflexivity. Qed.

End Inner.

Definition hash_fields (fs : list (finfo * val)) : list htok :=
  flat_map (fun p : finfo * val => let '(fi, x) := p in if f_eq fi && f_hash fi then hfeed x else []) fs.

(** ** States *)

Lemma st_eta s : s = St (s_self s) (s_at s) (s_heap s) (s_in s) (s_path s) (s_out s) (s_hash s) (s_log s) (s_vars s).
Proof. now destruct s. Qed.

Arguments eval : simpl never.
Arguments step : simpl never.
Arguments run_block : simpl never.
Arguments rbind {A B} x f s /.
Arguments ret {A} a s /.
Arguments stuck {A} s /.
Arguments boom {A} s /.
Arguments rval v s /.
Arguments load v s /.
Arguments upd_st f s /.

Section Fields.
  Variables (m : mode) (hl : store) (p : prog) (call : fn -> list rv -> R rv).
  Notation ev := (eval m hl p call).
  Notation sp := (step m hl p call).
  Notation bl := (run_block m hl p call).

  Notation va := (fun e x => v <~ ev e x;; rval v).

  Lemma e_num e n : ev e (ENum n) = ret (RNum n). Proof. reflexivity. Qed.
  Lemma e_bool e b : ev e (EBool b) = ret (RBool b). Proof. reflexivity. Qed.
  Lemma e_unit e : ev e EUnit = ret RUnit. Proof. reflexivity. Qed.
  Lemma e_name e x : ev e (EName x) = match lookup x e with Some v => ret v | None => stuck end. Proof. reflexivity. Qed.
  Lemma e_self e : ev e ESelf = fun s => match s_self s with Some _ => (s, Go RSelf) | None => (s, Stuck) end. Proof. reflexivity. Qed.
  Lemma e_field e x f : ev e (EField x f) =
    rbind (va e x) (fun v => match v with
          | RSelf => ret (RPlace f)
          | RObj o => match lookup f (o_cells o) with
                      | Some c => match cell_rv c with Some v => ret v | None => stuck end
                      | None => stuck
                      end
          | _ => stuck
          end). Proof. reflexivity. Qed.
  Lemma e_meth e x n args : ev e (EMeth x n args) = v <~ ev e x;; vs <~ each (va e) args;; native m hl p call v n vs. Proof. reflexivity. Qed.
  Lemma e_fun e t n args : ev e (EFun t n args) = vs <~ each (va e) args;; native_fun m p call t n vs. Proof. reflexivity. Qed.
  Lemma e_app e x args : ev e (EApp x args) = vs <~ each (va e) args;; match lookup x e with Some v => apply v vs | None => stuck end.
  Proof. reflexivity. Qed.
  Lemma e_some e x : ev e (ESome x) = v <~ va e x;; ret (ROpt (Some v)). Proof. reflexivity. Qed.
  Lemma e_none e : ev e ENone = ret (ROpt None). Proof. reflexivity. Qed.
  Lemma e_ok e x : ev e (EOk x) = v <~ va e x;; ret (ROk v). Proof. reflexivity. Qed.
  Lemma e_invalid e : ev e EInvalid = ret (RErr InvalidData). Proof. reflexivity. Qed.
  Lemma e_try e x : ev e (ETry x) = rbind (va e x) (fun v => match v with ROk v => ret v | RErr er => fun s => (s, Ret (RErr er)) | _ => stuck end).
  Proof. reflexivity. Qed.
  Lemma e_not e x : ev e (ENot x) = rbind (va e x) (fun v => match v with RBool b => ret (RBool (negb b)) | _ => stuck end). Proof. reflexivity. Qed.
  Lemma e_ne e x y : ev e (ENe x y) =
    a <~ va e x;; a <~ load a;; b <~ va e y;; b <~ load b;;
    match a, b with RVal _ a, RVal _ b => ret (RBool (negb (veqb a b))) | _, _ => stuck end. Proof. reflexivity. Qed.
  Lemma e_ref e x : ev e (ERef x) = ev e x. Proof. reflexivity. Qed.
  Lemma e_unimpl e : ev e EUnimplemented = boom. Proof. reflexivity. Qed.
  Lemma e_init e v fs : ev e (EInit v fs) =
    vs <~ each (fun f : string * expr => v <~ va e (snd f);; ret (fst f, v)) fs;;
    match decl_of p v with
    | Some ds => match mk_cells ds vs with Some cs => ret (RObj (Obj v cs)) | None => stuck end
    | None => stuck
    end. Proof. reflexivity. Qed.
  Lemma e_match e x arms : ev e (EMatch x arms) = v <~ va e x;; first_arm ev e v arms. Proof. reflexivity. Qed.
  Lemma e_iflet e q x b els : ev e (EIfLet q x b els) =
    rbind (va e x) (fun v s => match matches s q v with
                   | Some bs => bl (bs ++ e) b s
                   | None => match els with Some b => bl e b s | None => (s, Go RUnit) end
                   end). Proof. reflexivity. Qed.
  Lemma e_block e b : ev e (EBlock b) = bl e b. Proof. reflexivity. Qed.
  Lemma b_eq e ss l : bl e (Block ss l) =
    rbind (thread sp e ss) (fun e => match l with Some x => va e x | None => ret RUnit end). Proof. reflexivity. Qed.
  Lemma s_let e x y : sp e (SLet x y) = v <~ va e y;; ret ((x, v) :: e). Proof. reflexivity. Qed.
  Lemma s_letmut e x y : sp e (SLetMut x y) =
    rbind (va e y) (fun v s => match lookup x (s_vars s) with
                   | Some _ => (s, Stuck)
                   | None => (set_vars ((x, v) :: s_vars s) s, Go ((x, RMut x) :: e))
                   end). Proof. reflexivity. Qed.
  Lemma s_letpair e x y z : sp e (SLetPair x y z) =
    rbind (va e z) (fun v => match v with RPair a b => ret ((y, b) :: (x, a) :: e) | _ => stuck end). Proof. reflexivity. Qed.
  Lemma s_expr e x : sp e (SExpr x) = _ <~ ev e x;; ret e. Proof. reflexivity. Qed.
  Lemma s_add e x y : sp e (SAdd x y) =
    rbind (va e y) (fun v s => match lookup x e, v with
       | Some (RMut x), RNum n =>
           match lookup x (s_vars s) with
           | Some (RNum k) => (_ <~ plain (add32 m k n) (fun k => upd_st (fun s => set_vars (assign x (RNum k) (s_vars s)) s));; ret e) s
           | _ => (s, Stuck)
           end
       | _, _ => (s, Stuck)
       end). Proof. reflexivity. Qed.
  Lemma s_set e x f y : sp e (SSet x f y) =
    v <~ va e y;; t <~ ev e x;; match t with RSelf => _ <~ store_to (RPlace f) v;; ret e | _ => stuck end. Proof. reflexivity. Qed.
  Lemma s_deref e x y : sp e (SDeref x y) = v <~ va e y;; t <~ ev e x;; _ <~ store_to t v;; ret e. Proof. reflexivity. Qed.
  Lemma s_if e x b : sp e (SIf x b) =
    rbind (va e x) (fun v => match v with RBool true => _ <~ bl e b;; ret e | RBool false => ret e | _ => stuck end). Proof. reflexivity. Qed.
  Lemma s_while e x b : sp e (SWhile x b) = fun s => (_ <~ while (List.length (s_in s)) (va e x) (bl e b);; ret e) s. Proof. reflexivity. Qed.
  Lemma s_return e x : sp e (SReturn x) = rbind (va e x) (fun v s => (s, Ret v)). Proof. reflexivity. Qed.

  Ltac rs1 := first [rewrite e_num | rewrite e_bool | rewrite e_unit | rewrite e_name | rewrite e_self | rewrite e_field | rewrite e_meth | rewrite e_fun | rewrite e_app | rewrite e_some | rewrite e_none | rewrite e_ok | rewrite e_invalid | rewrite e_try | rewrite e_not | rewrite e_ne | rewrite e_ref | rewrite e_unimpl | rewrite e_init | rewrite e_match | rewrite e_iflet | rewrite e_block | rewrite b_eq | rewrite s_let | rewrite s_letmut | rewrite s_letpair | rewrite s_expr | rewrite s_add | rewrite s_set | rewrite s_deref | rewrite s_if | rewrite s_while | rewrite s_return].
  Ltac rs := cbn; repeat (rs1; cbn).
  (** [self] with the fields [fl], of types [tl] and contents [xl], between [A] and [B]. *)
  Definition holds (vn : option string) A fl tl xl B (s : st) : Prop :=
    s_self s = Some (Obj vn (A ++ val_cells fl tl xl ++ B)).
  (** The fields can be reached in this scope. *)
  Definition reach (v : bool) (fl : list dfield) (e : env) : Prop :=
    forall f s, In f fl -> s_self s <> None -> ev e (field_of v (fst f)) s = (s, Go (RPlace (access (fst f)))).

  Lemma cell_at vn A n c B s : s_self s = Some (Obj vn (A ++ (n, c) :: B)) -> ~ In n (map fst A) -> self_cell s n = Some c.
  Proof. intros E N. unfold self_cell. rewrite E. now apply lookup_mid. Qed.
  Lemma set_cell_at vn A n c c' B s : s_self s = Some (Obj vn (A ++ (n, c) :: B)) -> ~ In n (map fst A) ->
    set_cell n c' s = (set_self (Some (Obj vn (A ++ (n, c') :: B))) s, Go tt).
  Proof. intros E N. unfold set_cell. rewrite E. cbn [o_variant o_cells]. now rewrite assign_mid. Qed.

  Lemma size_step v f t x vn A B e s acc : reach v [f] e ->
    s_self s = Some (Obj vn (A ++ (access (fst f), CVal t x) :: B)) -> ~ In (access (fst f)) (map fst A) ->
    lookup "size" e = Some (RMut "size") -> s_vars s = [("size", RNum acc)] ->
    match (do (n, h) <- unwrap (size_nested m (Some (f_tag (snd f))) true (List.length A :: s_at s) x (compute m (List.length A :: s_at s) x (s_heap s)));
           do acc <- add32 m acc n; Ok (acc, h)) with
    | Ok (acc', h) => sp e (size_field v f) s = (set_vars [("size", RNum acc')] (set_heap h s), Go e)
    | Panic => exists s', sp e (size_field v f) s = (s', Boom) /\ s_self s' = s_self s
    | Err _ | NoFuel => exists s', sp e (size_field v f) s = (s', Stuck)
    end.
  Proof.
    intros Re Se Ni Le Lv. unfold size_field. rs.
    rewrite (Re f s (or_introl eq_refl)) by (rewrite Se; discriminate).
    rs. rewrite (cell_at _ _ _ _ _ _ Se Ni). unfold native_field. rewrite Se. cbn [o_cells]. rewrite pos_mid by exact Ni. cbn.
    unfold io. destruct (size_nested _ _ _ _ _ _) as [[n h]|er| |] eqn:Es; cbn.
    - rewrite Le, Lv. cbn. unfold plain. destruct (add32 m acc n) as [acc'|er| |]; cbn; eauto. rewrite Lv. reflexivity.
    - eauto.
    - eauto.
    - eauto.
  Qed.

  Notation nm := (fun f : dfield => access (fst f)).

  (** Fields, types and contents belong together. *)
  Fixpoint fit (fl : list dfield) (tl : list ty) (xl : list (finfo * val)) : Prop :=
    match fl, tl, xl with
    | [], [], [] => True
    | f :: fl, _ :: tl, (fi, _) :: xl => fi = snd f /\ fit fl tl xl
    | _, _, _ => False
    end.
  Lemma reach_tl v f fl e : reach v (f :: fl) e -> reach v [f] e /\ reach v fl e.
  Proof. intros H. split; intros g s I N; apply H; auto; [destruct I as [<-|[]]; now left|now right]. Qed.
  Lemma nodup_hd A f (fl : list dfield) : NoDup (map (@fst string cell) A ++ map nm (f :: fl)) ->
    ~ In (nm f) (map fst A) /\ forall c, NoDup (map fst (A ++ [(nm f, c)]) ++ map nm fl).
  Proof.
    intros H. cbn [map] in H. split.
    - intros I. apply NoDup_remove_2 in H. apply H, in_or_app. now left.
    - intros c. rewrite map_app. cbn [map fst]. now rewrite <- app_assoc.
  Qed.
  Lemma mid_app {X} (A : list X) x B : A ++ x :: B = (A ++ [x]) ++ B.
  Proof. now rewrite <- app_assoc. Qed.

  Lemma size_list v e fl : forall tl xl vn A B s acc, reach v fl e -> fit fl tl xl -> holds vn A fl tl xl B s ->
    NoDup (map fst A ++ map nm fl) -> lookup "size" e = Some (RMut "size") -> s_vars s = [("size", RNum acc)] ->
    match comp_fields m (s_at s) (List.length A) acc xl (s_heap s) with
    | Ok (n, h) => thread sp e (map (size_field v) fl) s = (set_vars [("size", RNum n)] (set_heap h s), Go e)
    | Panic => exists s', thread sp e (map (size_field v) fl) s = (s', Boom) /\ s_self s' = s_self s
    | Err _ | NoFuel => exists s', thread sp e (map (size_field v) fl) s = (s', Stuck)
    end.
  Proof.
    induction fl as [|f fl IH]; intros [|t tl] [|[fi x] xl] vn A B s acc Re Fi Ho Nd Le Lv; try contradiction.
    - cbn. f_equal. rewrite (st_eta s) at 1. unfold set_vars, set_heap. cbn. now rewrite Lv.
    - destruct Fi as [-> Fi]. apply reach_tl in Re. destruct Re as [Rf Re]. apply nodup_hd in Nd. destruct Nd as [Ni Nd].
      unfold holds in Ho. cbn [val_cells] in Ho. rewrite <- app_comm_cons in Ho.
      pose proof (size_step v f t x vn A (val_cells fl tl xl ++ B) e s acc Rf Ho Ni Le Lv) as St.
      cbn [comp_fields map thread]. cbn.
      destruct (unwrap _) as [[n h]|er| |]; cbn [bind] in *; [|destruct St as [s' ->]; eauto|destruct St as (s' & -> & ?); eauto|destruct St as [s' ->]; eauto].
      destruct (add32 m acc n) as [acc'|er| |]; cbn [bind] in *; [|destruct St as [s' ->]; eauto|destruct St as (s' & -> & ?); eauto|destruct St as [s' ->]; eauto].
      rewrite St. rewrite mid_app in Ho.
      specialize (IH tl xl vn (A ++ [(nm f, CVal t x)]) B (set_vars [("size", RNum acc')] (set_heap h s)) acc' Re Fi Ho (Nd _) Le eq_refl).
      rewrite app_length in IH. cbn [List.length] in IH. rewrite Nat.add_1_r in IH. cbn [s_at s_heap set_vars set_heap] in IH.
      destruct (comp_fields _ _ _ _ _ _) as [[k h']|er| |]; exact IH.
  Qed.

  Lemma ser_step v f t x vn A B e s : reach v [f] e ->
    s_self s = Some (Obj vn (A ++ (access (fst f), CVal t x) :: B)) -> ~ In (access (fst f)) (map fst A) ->
    lookup "writer" e = Some RWriter ->
    sp e (ser_field v f) s =
    match ser_nested m (Some (f_tag (snd f))) true (List.length A :: s_at s) x (ser_cached m (List.length A :: s_at s) x) (s_heap s) with
    | Ok (b, h) => (put_out b (set_heap h s), Go e)
    | Err er => (s, Ret (RErr er)) | Panic => (s, Boom) | NoFuel => (s, Stuck)
    end.
  Proof.
    intros Re Se Ni Le. unfold ser_field. rs.
    rewrite (Re f s (or_introl eq_refl)) by (rewrite Se; discriminate). rs.
    rewrite Le. rs. rewrite (cell_at _ _ _ _ _ _ Se Ni). unfold native_field. rewrite Se. cbn [o_cells]. rewrite pos_mid by exact Ni. cbn.
    unfold io. now destruct (ser_nested _ _ _ _ _ _ _) as [[b h]|er| |].
  Qed.
  Lemma ser_list v e fl : forall tl xl vn A B s, reach v fl e -> fit fl tl xl -> holds vn A fl tl xl B s ->
    NoDup (map fst A ++ map nm fl) -> lookup "writer" e = Some RWriter ->
    match serc_fields m (s_at s) (List.length A) xl (s_heap s) with
    | Ok (b, h) => thread sp e (map (ser_field v) fl) s = (put_out b (set_heap h s), Go e)
    | Err er => exists s', thread sp e (map (ser_field v) fl) s = (s', Ret (RErr er)) /\ s_self s' = s_self s
    | Panic => exists s', thread sp e (map (ser_field v) fl) s = (s', Boom) /\ s_self s' = s_self s
    | NoFuel => exists s', thread sp e (map (ser_field v) fl) s = (s', Stuck)
    end.
  Proof.
    induction fl as [|f fl IH]; intros [|t tl] [|[fi x] xl] vn A B s Re Fi Ho Nd Le; try contradiction.
    - cbn. f_equal. rewrite (st_eta s) at 1. unfold put_out, set_heap. cbn. now rewrite app_nil_r.
    - destruct Fi as [-> Fi]. apply reach_tl in Re. destruct Re as [Rf Re]. apply nodup_hd in Nd. destruct Nd as [Ni Nd].
      unfold holds in Ho. cbn [val_cells] in Ho. rewrite <- app_comm_cons in Ho.
      cbn [serc_fields map thread]. cbn. rewrite (ser_step v f t x vn A _ e s Rf Ho Ni Le).
      destruct (ser_nested _ _ _ _ _ _ _) as [[b h]|er| |]; cbn [bind]; [|eauto|eauto|eauto].
      rewrite mid_app in Ho.
      specialize (IH tl xl vn (A ++ [(nm f, CVal t x)]) B (put_out b (set_heap h s)) Re Fi Ho (Nd _) Le).
      rewrite app_length in IH. cbn [List.length] in IH. rewrite Nat.add_1_r in IH. cbn [s_at s_heap put_out set_heap] in IH.
      destruct (serc_fields _ _ _ _ _) as [[k h']|er| |]; cbn [bind]; [|exact IH..].
      rewrite IH. unfold put_out, set_heap. cbn. now rewrite app_assoc.
  Qed.

  Lemma thread_app {X} (f : env -> X -> R env) a b : forall e s, thread f e (a ++ b) s = (e <~ thread f e a;; thread f e b) s.
  Proof.
    induction a as [|x a IH]; intros e s; [reflexivity|]. cbn [app thread]. cbn.
    destruct (f e x s) as [s' [e'| | |]]; try reflexivity. apply IH.
  Qed.

  Lemma hash_list v e fl : forall tl xl vn A B s, reach v fl e -> fit fl tl xl -> holds vn A fl tl xl B s ->
    NoDup (map fst A ++ map nm fl) -> lookup "state" e = Some RHasher ->
    thread sp e (flat_map (hash_field v) fl) s = (put_hash (hash_fields xl) s, Go e).
  Proof.
    induction fl as [|f fl IH]; intros [|t tl] [|[fi x] xl] vn A B s Re Fi Ho Nd Le; try contradiction.
    - cbn. f_equal. rewrite (st_eta s) at 1. unfold put_hash. cbn. now rewrite app_nil_r.
    - destruct Fi as [-> Fi]. apply reach_tl in Re. destruct Re as [Rf Re]. apply nodup_hd in Nd. destruct Nd as [Ni Nd].
      unfold holds in Ho. cbn [val_cells] in Ho. rewrite <- app_comm_cons in Ho.
      cbn [flat_map]. rewrite thread_app. cbn [hash_fields flat_map]. fold (hash_fields xl). unfold hash_field at 1.
      rewrite (andb_comm (f_hash (snd f))). pose proof Ho as Ho'. rewrite mid_app in Ho'.
      destruct (f_eq (snd f) && f_hash (snd f)); cbn [thread].
      + rs. rewrite (Rf f s (or_introl eq_refl)) by (rewrite Ho; discriminate). rs.
        rewrite Le. rs. rewrite (cell_at _ _ _ _ _ _ Ho Ni). cbn.
        rewrite (IH tl xl vn _ B (put_hash (hfeed x) s) Re Fi Ho' (Nd _) Le). unfold put_hash. cbn. now rewrite app_assoc.
      + cbn. apply (IH tl xl vn _ B s Re Fi Ho' (Nd _) Le).
  Qed.

  (** The fields of [other] can be reached. *)
  Fixpoint others v e (fl : list dfield) (tl : list ty) (yl : list (finfo * val)) : Prop :=
    match fl, tl, yl with
    | f :: fl, t :: tl, (_, y) :: yl => (forall s, ev e (field_other v (fst f)) s = (s, Go (RVal t y))) /\ others v e fl tl yl
    | _, _, _ => True
    end.
  Lemma eq_list v e fl : forall tl xl yl vn A B s, reach v fl e -> fit fl tl xl -> fit fl tl yl -> holds vn A fl tl xl B s ->
    NoDup (map fst A ++ map nm fl) -> others v e fl tl yl ->
    thread sp e (flat_map (eq_field v) fl) s = (s, if eq_fields xl yl then Go e else Ret (RBool false)).
  Proof.
    induction fl as [|f fl IH]; intros [|t tl] [|[fi x] xl] [|[fj y] yl] vn A B s Re Fi Fj Ho Nd Ot; try contradiction.
    - reflexivity.
    - destruct Fi as [-> Fi], Fj as [-> Fj], Ot as [Of Ot]. apply reach_tl in Re. destruct Re as [Rf Re]. apply nodup_hd in Nd. destruct Nd as [Ni Nd].
      unfold holds in Ho. cbn [val_cells] in Ho. rewrite <- app_comm_cons in Ho.
      cbn [flat_map]. rewrite thread_app. cbn [eq_fields]. unfold eq_field at 1. pose proof Ho as Ho'. rewrite mid_app in Ho'.
      destruct (f_eq (snd f)); cbn [thread].
      + rs. rewrite (Rf f s (or_introl eq_refl)) by (rewrite Ho; discriminate). rs.
        rewrite (cell_at _ _ _ _ _ _ Ho Ni). cbn. rewrite Of. cbn.
        destruct (veqb x y); cbn; [|rs; reflexivity].
        apply (IH tl xl yl vn _ B s Re Fi Fj Ho' (Nd _) Ot).
      + cbn. apply (IH tl xl yl vn _ B s Re Fi Fj Ho' (Nd _) Ot).
  Qed.

  (** State fields are of State types. *)
  Fixpoint states (fl : list dfield) (tl : list ty) : Prop :=
    match fl, tl with
    | f :: fl, t :: tl => (f_state (snd f) = true -> state_ty t = true) /\ states fl tl
    | _, _ => True
    end.
  Definition set_rts (r : rt) (xl : list (finfo * val)) : list (finfo * val) :=
    map (fun p : finfo * val => let '(fi, x) := p in (fi, if f_state fi then set_rt (nested r (f_tag fi)) x else x)) xl.
  Lemma rt_list v e r fl : forall tl xl vn A B s, reach v fl e -> fit fl tl xl -> states fl tl -> holds vn A fl tl xl B s ->
    NoDup (map fst A ++ map nm fl) -> lookup "runtime" e = Some (RRt r) ->
    thread sp e (flat_map (rt_field v) fl) s = (set_self (Some (Obj vn (A ++ val_cells fl tl (set_rts r xl) ++ B))) s, Go e).
  Proof.
    induction fl as [|f fl IH]; intros [|t tl] [|[fi x] xl] vn A B s Re Fi Sf Ho Nd Le; try contradiction.
    - cbn. f_equal. rewrite (st_eta s) at 1. unfold holds in Ho. rewrite Ho. reflexivity.
    - destruct Fi as [-> Fi], Sf as [St Sf]. apply reach_tl in Re. destruct Re as [Rf Re]. apply nodup_hd in Nd. destruct Nd as [Ni Nd].
      unfold holds in Ho. cbn [val_cells] in Ho. rewrite <- app_comm_cons in Ho.
      cbn [flat_map]. rewrite thread_app. cbn [set_rts map]. fold (set_rts r xl). unfold rt_field at 1. pose proof Ho as Ho'. rewrite mid_app in Ho'.
      destruct (f_state (snd f)); cbn [thread val_cells].
      + rs. rewrite (Rf f s (or_introl eq_refl)) by (rewrite Ho; discriminate). rs.
        rewrite Le. rs. rewrite (cell_at _ _ _ _ _ _ Ho Ni). cbn. rewrite (St eq_refl). cbn.
        rewrite (set_cell_at _ _ _ _ _ _ _ Ho Ni). cbn.
        rewrite (IH tl xl vn (A ++ [(nm f, CVal t (set_rt (nested r (f_tag (snd f))) x))]) B _ Re Fi Sf); [|unfold holds; cbn [s_self set_self]; rewrite mid_app; reflexivity|apply Nd|exact Le].
        cbn. now rewrite <- app_assoc.
      + cbn. rewrite (IH tl xl vn _ B s Re Fi Sf Ho' (Nd _) Le). now rewrite <- app_assoc.
  Qed.

  Definition with_fields vn A fl tl xl B (s : st) : st := set_self (Some (Obj vn (A ++ val_cells fl tl xl ++ B))) s.
  Lemma set_self_same o s : s_self s = Some o -> set_self (Some o) s = s.
  Proof. intros H. rewrite (st_eta s) at 2. now rewrite H. Qed.
  Lemma with_same vn A fl tl xl B s : holds vn A fl tl xl B s -> with_fields vn A fl tl xl B s = s.
  Proof. apply set_self_same. Qed.

  Definition fin (r : res bytes) (s : st) : st * ctl rv :=
    match r with Ok rest => (set_in rest s, Go RUnit) | Err er => (s, Ret (RErr er)) | Panic => (s, Boom) | NoFuel => (s, Stuck) end.
  Notation fms fl tl := (fmergers m (combine (map (@snd rfield finfo) fl) tl)).

  Lemma merge_arms v e k w fl : forall tl xl vn A B s, reach v fl e -> fit fl tl xl -> holds vn A fl tl xl B s ->
    NoDup (map fst A ++ map nm fl) -> lookup "wire_type" e = Some (RWire w) -> lookup "reader" e = Some RReader ->
    first_arm ev e (RNum k) (map (merge_arm v) fl ++ [(PWild, ETry (EMeth (EName "reader") "skip_field" [EName "wire_type"]))]) s
    = let '(xl', r) := merge_field m (fms fl tl) xl k w (s_in s) in fin r (with_fields vn A fl tl xl' B s).
  Proof.
    induction fl as [|f fl IH]; intros [|t tl] [|[fi x] xl] vn A B s Re Fi Ho Nd Lw Lr; try contradiction.
    - cbn. rewrite (with_same vn A [] [] [] B s Ho). rs. rewrite Lr. rs. rewrite Lw. rs. unfold io.
      now destruct (rd_skip_field m w (s_in s)).
    - destruct Fi as [-> Fi]. apply reach_tl in Re. destruct Re as [Rf Re]. apply nodup_hd in Nd. destruct Nd as [Ni Nd].
      unfold holds in Ho. cbn [val_cells] in Ho. rewrite <- app_comm_cons in Ho.
      cbn [map app first_arm merge_arm fst snd combine fmergers merge_field]. fold (fmergers m (combine (map snd fl) tl)).
      cbn [matches]. rewrite (N.eqb_sym (f_tag (snd f)) k). destruct (k =? f_tag (snd f)).
      + cbn [app]. rs. rewrite (Rf f s (or_introl eq_refl)) by (rewrite Ho; discriminate). rs.
        rewrite Lw. rs. rewrite Lr. rs. rewrite (cell_at _ _ _ _ _ _ Ho Ni). cbn.
        destruct (merge_nested m (wty t) (merge m t) w x (s_in s)) as [x' r]. cbn.
        rewrite (set_cell_at _ _ _ _ _ _ _ Ho Ni). unfold io, with_fields. cbn. now destruct r.
      + pose proof Ho as Ho'. rewrite mid_app in Ho'.
        rewrite (IH tl xl vn _ B s Re Fi Ho' (Nd _) Lw Lr).
        destruct (merge_field m _ xl k w (s_in s)) as [xl' r]. unfold with_fields. cbn [val_cells]. now rewrite <- app_assoc.
  Qed.

  Lemma merge_field_fit k w bs fl : forall tl xl, fit fl tl xl -> fit fl tl (fst (merge_field m (fms fl tl) xl k w bs)).
  Proof.
    induction fl as [|f fl IH]; intros [|t tl] [|[fi x] xl] Fi; try contradiction; [exact I|]. destruct Fi as [-> Fi].
    cbn [map snd combine fmergers merge_field]. fold (fmergers m (combine (map snd fl) tl)).
    destruct (k =? f_tag (snd f)).
    - destruct (merge_nested _ _ _ _ _ _). now split.
    - specialize (IH tl xl Fi). destruct (merge_field _ _ _ _ _ _). now split.
  Qed.
  Lemma struct_step_fit fl tl xl bs : fit fl tl xl -> fit fl tl (fst (struct_step m (fms fl tl) xl bs)).
  Proof.
    intros Fi. unfold struct_step. destruct (rd_tag m bs) as [[[k w] rest]| | |]; cbn [try fst]; auto. now apply merge_field_fit.
  Qed.

  Notation round v fl := (Block [SLetPair "field_number" "wire_type" (ETry (EMeth (EName "reader") "read_tag" []));
              SExpr (EMatch (EName "field_number")
                (map (merge_arm v) fl ++
                 [(PWild, ETry (EMeth (EName "reader") "skip_field" [EName "wire_type"]))]))] None).
  (** Inside a round. *)
  Definition reach_round v fl (e : env) : Prop :=
    forall k w, reach v fl (("wire_type", RWire w) :: ("field_number", RNum k) :: e).

  Lemma merge_round v e fl tl xl vn A B s : reach_round v fl e -> fit fl tl xl -> holds vn A fl tl xl B s ->
    NoDup (map fst A ++ map nm fl) -> lookup "reader" e = Some RReader ->
    let '(xl', r) := struct_step m (fms fl tl) xl (s_in s) in
    exists i, bl e (round v fl) s =
      match r with
      | Ok rest => (set_in rest (with_fields vn A fl tl xl' B s), Go RUnit)
      | Err er => (set_in i (with_fields vn A fl tl xl' B s), Ret (RErr er))
      | Panic => (set_in i (with_fields vn A fl tl xl' B s), Boom)
      | NoFuel => (set_in i (with_fields vn A fl tl xl' B s), Stuck)
      end.
  Proof.
    intros Re Fi Ho Nd Lr. unfold struct_step. rewrite b_eq. cbn. rs. rewrite Lr. rs. unfold io.
    assert (Same : set_in (s_in s) (with_fields vn A fl tl xl B s) = s).
    { rewrite with_same by exact Ho. now destruct s. }
    destruct (rd_tag m (s_in s)) as [[[k w] rest]|er| |]; cbn [try]; try (exists (s_in s); rewrite Same; reflexivity).
    cbn. rs.
    rewrite (merge_arms v _ k w fl tl xl vn A B (set_in rest s) (Re k w) Fi Ho Nd eq_refl Lr).
    cbn [s_in set_in]. destruct (merge_field m _ xl k w rest) as [xl' r]. exists rest. now destruct r.
  Qed.

  Notation more := (ENot (ETry (EMeth (EName "reader") "eof" []))).
  Lemma more_eq e s : lookup "reader" e = Some RReader ->
    va e more s = (s, Go (RBool match s_in s with [] => false | _ => true end)).
  Proof. intros Lr. rs. rewrite Lr. rs. now destruct (s_in s). Qed.
  Lemma merge_while v e fl tl vn A B : reach_round v fl e -> NoDup (map fst A ++ map nm fl) -> lookup "reader" e = Some RReader ->
    forall fuel xl s, fit fl tl xl -> holds vn A fl tl xl B s ->
    let '(xl', r) := loop fuel (struct_step m (fms fl tl)) xl (s_in s) in
    exists i, while fuel (va e more) (bl e (round v fl)) s =
      match r with
      | Ok rest => (set_in rest (with_fields vn A fl tl xl' B s), Go tt)
      | Err er => (set_in i (with_fields vn A fl tl xl' B s), Ret (RErr er))
      | Panic => (set_in i (with_fields vn A fl tl xl' B s), Boom)
      | NoFuel => (set_in i (with_fields vn A fl tl xl' B s), Stuck)
      end.
  Proof.
    intros Re Nd Lr fuel. pose proof (fun s => more_eq e s Lr) as Me. remember (va e more) as cond eqn:Ec. clear Ec.
    remember (bl e (round v fl)) as body eqn:Eb. induction fuel as [|fuel IH]; intros xl s Fi Ho.
    all: assert (Same : set_in (s_in s) (with_fields vn A fl tl xl B s) = s) by (rewrite with_same by exact Ho; now destruct s).
    all: cbn [while loop]; cbn; rewrite Me; destruct (s_in s) as [|b bs] eqn:Ei; cbn.
    - exists []. now rewrite Same.
    - exists (b :: bs). now rewrite Same.
    - exists []. now rewrite Same.
    - pose proof (merge_round v e fl tl xl vn A B s Re Fi Ho Nd Lr) as Ro. rewrite Ei, <- Eb in Ro.
      pose proof (struct_step_fit fl tl xl (b :: bs) Fi) as Fi'.
      destruct (struct_step m _ xl (b :: bs)) as [xl' r]. destruct Ro as [i Ro]. cbn [fst] in Fi'. rewrite Ro.
      destruct r as [rest|er| |]; cbn [try]; try (exists i; reflexivity).
      specialize (IH xl' (set_in rest (with_fields vn A fl tl xl' B s)) Fi' eq_refl). cbn [s_in set_in] in IH.
      destruct (loop fuel _ xl' rest) as [xl'' r]. destruct IH as [j IH]. exists j. exact IH.
  Qed.

  (** The whole loop. *)
  Lemma merge_loop v d e tl xl vn A B s : is_variant d = v -> reach_round v (ds_fields d) e -> fit (ds_fields d) tl xl ->
    holds vn A (ds_fields d) tl xl B s -> NoDup (map fst A ++ map nm (ds_fields d)) -> lookup "reader" e = Some RReader ->
    let '(xl', r) := De.run (struct_step m (fms (ds_fields d) tl)) xl (s_in s) in
    exists i, sp e (merger_loop d) s =
      match r with
      | Ok rest => (set_in rest (with_fields vn A (ds_fields d) tl xl' B s), Go e)
      | Err er => (set_in i (with_fields vn A (ds_fields d) tl xl' B s), Ret (RErr er))
      | Panic => (set_in i (with_fields vn A (ds_fields d) tl xl' B s), Boom)
      | NoFuel => (set_in i (with_fields vn A (ds_fields d) tl xl' B s), Stuck)
      end.
  Proof.
    intros Ev Re Fi Ho Nd Lr. unfold merger_loop, De.run. rewrite Ev.
    pose proof (merge_while v e (ds_fields d) tl vn A B Re Nd Lr (List.length (s_in s)) xl s Fi Ho) as W.
    destruct (loop _ _ xl (s_in s)) as [xl' r]. destruct W as [i W]. exists i. rewrite s_while. cbv beta. unfold rbind at 1. rewrite W. now destruct r.
  Qed.

  (** Applying an entry below this struct or variant. *)
  Lemma replay_arms v e k path kind key bs fl : forall tl xl vn A B s, reach v fl e -> fit fl tl xl -> states fl tl ->
    holds vn A fl tl xl B s -> NoDup (map fst A ++ map nm fl) ->
    lookup "path" e = Some (RMut "path") -> lookup "kind" e = Some (RKind kind) -> lookup "key" e = Some (RKey key) -> lookup "reader" e = Some RReader ->
    lookup "path" (s_vars s) = Some RPath -> s_path s = path -> s_in s = bs ->
    first_arm ev e (RNum k) (map (replay_arm v) fl ++ [(PWild, EInvalid)]) s
    = let '(xl', r) := handle_field (hfields m (combine (map (@snd rfield finfo) fl) tl)) xl k path kind key bs in
      (with_fields vn A fl tl xl' B s,
       match r with Ok _ => Go (ROk RUnit) | Err er => Go (RErr er) | Panic => Boom | NoFuel => Stuck end).
  Proof.
    induction fl as [|f fl IH]; intros [|t tl] [|[fi x] xl] vn A B s Re Fi Sf Ho Nd Lp Lk Ly Lr Lv Ep Ei; try contradiction.
    - cbn. rewrite (with_same vn A [] [] [] B s Ho). rs. reflexivity.
    - destruct Fi as [-> Fi], Sf as [St Sf]. apply reach_tl in Re. destruct Re as [Rf Re]. apply nodup_hd in Nd. destruct Nd as [Ni Nd].
      pose proof Ho as Hw. unfold holds in Ho. cbn [val_cells] in Ho. rewrite <- app_comm_cons in Ho.
      pose proof Ho as Ho'. rewrite mid_app in Ho'.
      specialize (IH tl xl vn _ B s Re Fi Sf Ho' (Nd _) Lp Lk Ly Lr Lv Ep Ei).
      unfold handle_field in *. cbn [map app first_arm replay_arm fst snd combine hfields find_field put_field].
      fold (hfields m (combine (map snd fl) tl)).
      cbn [matches]. rewrite (N.eqb_sym (f_tag (snd f)) k). destruct (k =? f_tag (snd f)).
      + cbn [app]. destruct (f_state (snd f)).
        * rs. rewrite (Rf f s (or_introl eq_refl)) by (rewrite Ho; discriminate). rs.
          rewrite Lp. rs. rewrite Lv. rs. rewrite Lk. rs. rewrite Ly. rs. rewrite Lr. rs.
          rewrite (cell_at _ _ _ _ _ _ Ho Ni). cbn. rewrite (St eq_refl), Ep, Ei.
          destruct (handle m t path kind key bs x) as [x' r]. cbn.
          rewrite (set_cell_at _ _ _ _ _ _ _ Ho Ni). unfold io, with_fields. cbn. now destruct r.
        * rs. now rewrite (with_same _ _ _ _ _ _ _ Hw).
      + rewrite IH. clear IH.
        assert (Out : forall xl', with_fields vn (A ++ [(nm f, CVal t x)]) fl tl xl' B s = with_fields vn A (f :: fl) (t :: tl) ((snd f, x) :: xl') B s).
        { intros xl'. unfold with_fields. cbn [val_cells]. now rewrite <- app_assoc. }
        destruct (find_field k (hfields m _)) as [[fj hd]|]; [|now rewrite Out].
        destruct (f_state fj); [|now rewrite Out].
        destruct (find_field k xl) as [[fk z]|]; [|now rewrite Out].
        destruct (hd path kind key bs z) as [z' r]. now rewrite Out.
  Qed.

  (** *** Constructors *)

  (** A field of a declaration, what it is initialised with, what is in it then. *)
  Record part := Part { pt_name : string; pt_type : ctype; pt_init : rv; pt_cell : cell }.
  Lemma mk_cells_parts vs L : (forall q, In q L -> lookup (pt_name q) vs = Some (pt_init q) /\ mk_cell (pt_type q) (pt_init q) = Some (pt_cell q)) ->
    mk_cells (map (fun q => (pt_name q, pt_type q)) L) vs = Some (map (fun q => (pt_name q, pt_cell q)) L).
  Proof.
    induction L as [|q L IH]; intros H; [reflexivity|]. cbn. destruct (H q (or_introl eq_refl)) as [-> ->].
    rewrite IH by (intros; apply H; now right). reflexivity.
  Qed.
  Lemma lookup_in {A} x (a : A) l : NoDup (map fst l) -> In (x, a) l -> lookup x l = Some a.
  Proof.
    induction l as [|[y b] l IH]; intros N I; [contradiction|]. cbn in *. inversion N as [|? ? N1 N2]; subst.
    destruct I as [[= -> ->]|I]; [now rewrite String.eqb_refl|].
    destruct (String.eqb_spec x y) as [->|Ne]; [|auto]. exfalso. apply N1. now apply (in_map fst) in I.
  Qed.
  Lemma mk_cells_all L : NoDup (map pt_name L) -> (forall q, In q L -> mk_cell (pt_type q) (pt_init q) = Some (pt_cell q)) ->
    mk_cells (map (fun q => (pt_name q, pt_type q)) L) (map (fun q => (pt_name q, pt_init q)) L) = Some (map (fun q => (pt_name q, pt_cell q)) L).
  Proof.
    intros N H. apply mk_cells_parts. intros q I. split; [|now apply H]. apply lookup_in.
    - rewrite map_map. exact N.
    - now apply (in_map (fun q => (pt_name q, pt_init q))) in I.
  Qed.

  Definition new_rt (r : rt) (f : dfield) : option rt := if f_state (snd f) then Some (nested r (f_tag (snd f))) else None.
  Fixpoint field_parts (r : rt) (fl : list dfield) (tl : list ty) : list part :=
    match fl, tl with
    | f :: fl, t :: tl => Part (nm f) (TVal t) (RNew (new_rt r f)) (CVal t (dflt t (field_rt r (snd f)))) :: field_parts r fl tl
    | _, _ => []
    end.
  Definition parts_of (r : rt) (d : dstruct) (tl : list ty) : list part :=
    field_parts r (ds_fields d) tl
    ++ match ds_cache d with Some f => [Part (access f) TSize RCache CSize] | None => [] end
    ++ match ds_rt d with Some f => [Part (access f) TRt (RRt r) (CRt r)] | None => [] end.

  Lemma field_parts_names r fl : forall tl, List.length tl = List.length fl -> map pt_name (field_parts r fl tl) = map nm fl.
  Proof. induction fl as [|f fl IH]; intros [|t tl] L; try discriminate; [reflexivity|]. cbn in *. now rewrite IH by lia. Qed.
  Lemma field_parts_types r fl : forall tl, List.length tl = List.length fl ->
    map (fun q => (pt_name q, pt_type q)) (field_parts r fl tl) = combine (map nm fl) (map TVal tl).
  Proof. induction fl as [|f fl IH]; intros [|t tl] L; try discriminate; [reflexivity|]. cbn in *. now rewrite IH by lia. Qed.
  Lemma field_parts_inits r fl : forall tl, List.length tl = List.length fl ->
    map (fun q => (pt_name q, pt_init q)) (field_parts r fl tl) = map (fun f => (nm f, RNew (new_rt r f))) fl.
  Proof. induction fl as [|f fl IH]; intros [|t tl] L; try discriminate; [reflexivity|]. cbn in *. now rewrite IH by lia. Qed.
  Lemma field_parts_cells r fl : forall tl, List.length tl = List.length fl ->
    map (fun q => (pt_name q, pt_cell q)) (field_parts r fl tl) = val_cells fl tl (dflt_fields r (combine (map snd fl) tl)).
  Proof. induction fl as [|f fl IH]; intros [|t tl] L; try discriminate; [reflexivity|]. cbn in *. now rewrite IH by lia. Qed.
  Lemma field_parts_ok r fl : forall tl q, states fl tl -> In q (field_parts r fl tl) -> mk_cell (pt_type q) (pt_init q) = Some (pt_cell q).
  Proof.
    induction fl as [|f fl IH]; intros [|t tl] q S I; try contradiction. destruct S as [S1 S2]. cbn in I. destruct I as [<-|I]; [|eauto].
    cbn. unfold new_rt, field_rt. destruct (f_state (snd f)); [now rewrite S1|reflexivity].
  Qed.

  Lemma each_app {X Y} (f : X -> R Y) a b s : each f (a ++ b) s = (x <~ each f a;; y <~ each f b;; ret (x ++ y)) s.
  Proof.
    revert s. induction a as [|x a IH]; intros s; cbn; [destruct (each f b s) as [s' [y| | |]]; reflexivity|].
    destruct (f x s) as [s' [y| | |]]; try reflexivity. rewrite IH. cbn.
    destruct (each f a s') as [s'' [z| | |]]; try reflexivity. destruct (each f b s'') as [s3 [w| | |]]; reflexivity.
  Qed.
  Notation ini e := (fun f : string * expr => v <~ va e (snd f);; ret (fst f, v)).
  Lemma inits e r s fl : (forall f, In f fl -> f_state (snd f) = true -> lookup "runtime" e = Some (RRt r)) ->
    each (ini e) (map init_default fl) s = (s, Go (map (fun f => (nm f, RNew (new_rt r f))) fl)).
  Proof.
    induction fl as [|f fl IH]; intros H; [reflexivity|].
    cbn [map each]. unfold init_default at 1, init. cbn [fst snd]. unfold new_rt at 1.
    destruct (f_state (snd f)) eqn:E; rs.
    - rewrite (H f (or_introl eq_refl) E). rs. rewrite IH by (intros; apply (H f0); [now right|assumption]). reflexivity.
    - rewrite IH by (intros; apply (H f0); [now right|assumption]). reflexivity.
  Qed.

  Definition own_rt (r : rt) (d : dstruct) : rt := match ds_variant d with Some (_, tag) => nested r tag | None => r end.
  Definition rt_part (r : rt) (d : dstruct) : option rt := match ds_rt d with Some _ => Some r | None => None end.
  Definition rt_env (r : rt) (d : dstruct) : env := match ds_rt d with Some _ => [("runtime", RRt r)] | None => [] end.

  Lemma ctor_block se d tl r s : decl_of p (variant_name d) = Some (snd (decl d tl)) -> List.length tl = List.length (ds_fields d) ->
    NoDup (cell_names d) -> states (ds_fields d) tl -> (ds_rt d = None -> forallb (fun f : dfield => negb (f_state (snd f))) (ds_fields d) = true) ->
    bl (rt_env r d) (fn_body (ctor se d)) s
    = (s, Go (RObj (obj_of d tl (rt_part (own_rt r d) d) (dflt_fields (own_rt r d) (combine (map snd (ds_fields d)) tl))))).
  Proof.
    intros D L N S Nr. unfold ctor. cbn [fn_body]. rewrite b_eq.
    set (nest := match ds_rt d, ds_variant d with Some _, Some (_, tag) => _ | _, _ => [] end).
    set (q := own_rt r d).
    assert (E1 : exists e1, thread sp (rt_env r d) nest s = (s, Go e1) /\ (ds_rt d <> None -> lookup "runtime" e1 = Some (RRt q))).
    { unfold nest, rt_env, q, own_rt. destruct (ds_rt d) as [f|]; [destruct (ds_variant d) as [[vn tag]|]|]; rs; eexists; split; try reflexivity; cbn; congruence. }
    destruct E1 as (e1 & E1 & Lr). cbn [rbind]. rewrite E1. cbv beta iota. rewrite e_init. rewrite D. cbn [rbind].
    assert (Ei : each (ini e1) (map init_default (ds_fields d)
        ++ match ds_cache d with Some f => [init f (EFun "SizeCache" "new" [])] | None => [] end
        ++ match ds_rt d with Some f => [init f (EName "runtime")] | None => [] end) s
        = (s, Go (map (fun u => (pt_name u, pt_init u)) (parts_of q d tl)))).
    { rewrite each_app. cbn [rbind]. rewrite (inits e1 q).
      - unfold parts_of. rewrite !map_app, field_parts_inits by exact L. rewrite each_app. cbn [rbind].
        destruct (ds_cache d), (ds_rt d); rs; rewrite ?Lr by congruence; reflexivity.
      - intros f If Ef. apply Lr. intros En. specialize (Nr En). rewrite forallb_forall in Nr. specialize (Nr f If). now rewrite Ef in Nr. }
    rewrite Ei. cbv beta iota.
    replace (snd (decl d tl)) with (map (fun u => (pt_name u, pt_type u)) (parts_of q d tl)).
    2:{ unfold parts_of, decl. cbn [snd]. rewrite !map_app, field_parts_types by exact L. destruct (ds_cache d), (ds_rt d); reflexivity. }
    rewrite mk_cells_all.
    - cbn. unfold obj_of, extra_cells, parts_of. rewrite !map_app, field_parts_cells by exact L.
      unfold rt_part. destruct (ds_cache d), (ds_rt d); reflexivity.
    - unfold parts_of. rewrite !map_app, field_parts_names by exact L. unfold cell_names in N. destruct (ds_cache d), (ds_rt d); exact N.
    - intros u I. apply in_app_or in I. destruct I as [I|I]; [now apply (field_parts_ok q _ _ _ S)|].
      destruct (ds_cache d), (ds_rt d); cbn in I; repeat (destruct I as [<-|I]; [reflexivity|]); contradiction.
  Qed.
End Fields.

Ltac rs1 := first [rewrite e_num | rewrite e_bool | rewrite e_unit | rewrite e_name | rewrite e_self | rewrite e_field | rewrite e_meth | rewrite e_fun | rewrite e_app | rewrite e_some | rewrite e_none | rewrite e_ok | rewrite e_invalid | rewrite e_try | rewrite e_not | rewrite e_ne | rewrite e_ref | rewrite e_unimpl | rewrite e_init | rewrite e_match | rewrite e_iflet | rewrite e_block | rewrite b_eq | rewrite s_let | rewrite s_letmut | rewrite s_letpair | rewrite s_expr | rewrite s_add | rewrite s_set | rewrite s_deref | rewrite s_if | rewrite s_while | rewrite s_return].
Ltac rs := cbn; repeat (rs1; cbn).
Notation nm := (fun f : dfield => access (fst f)).

(** ** Well-typed values *)

Lemma fit_wt fl : forall tl xl, List.length tl = List.length fl -> wt_fields (combine (map snd fl) tl) xl = true -> fit fl tl xl.
Proof.
  induction fl as [|f fl IH]; intros [|t tl] [|[fi x] xl] L W; try discriminate; [exact I|].
  cbn in *. bprop. split; [symmetry; now apply finfo_eqb_eq|]. apply IH; [lia|assumption].
Qed.
Lemma states_ok st fl : forall tl, fields_ok st (combine (map snd fl) tl) = true -> states fl tl.
Proof.
  induction fl as [|f fl IH]; intros [|t tl] O; try exact I. unfold fields_ok in *. cbn in O. bprop. split; [|now apply IH].
  intros E. rewrite E in *. cbn in *. bprop. assumption.
Qed.
Lemma no_states fl : forall tl, List.length tl = List.length fl -> fields_ok false (combine (map snd fl) tl) = true ->
  forallb (fun f : dfield => negb (f_state (snd f))) fl = true.
Proof.
  induction fl as [|f fl IH]; intros [|t tl] L O; try discriminate; [reflexivity|]. unfold fields_ok in *. cbn in *. bprop.
  rewrite (IH tl); [|lia|assumption]. rewrite andb_true_r. match goal with H : _ || _ = true |- _ => now rewrite orb_false_r in H end.
Qed.
Lemma val_cells_names fl : forall tl xl, fit fl tl xl -> map fst (val_cells fl tl xl) = map nm fl.
Proof. induction fl as [|f fl IH]; intros [|t tl] [|[fi x] xl] F; try contradiction; [reflexivity|]. destruct F as [_ F]. cbn. f_equal. now apply IH. Qed.
Lemma val_cells_length fl : forall tl xl, fit fl tl xl -> List.length (val_cells fl tl xl) = List.length fl.
Proof. induction fl as [|f fl IH]; intros [|t tl] [|[fi x] xl] F; try contradiction; [reflexivity|]. destruct F as [_ F]. cbn. f_equal. now apply IH. Qed.
Lemma set_rts_fit r fl : forall tl xl, fit fl tl xl -> fit fl tl (set_rts r xl).
Proof. induction fl as [|f fl IH]; intros [|t tl] [|[fi x] xl] F; try contradiction; [exact I|]. destruct F as [E F]. split; [exact E|now apply IH]. Qed.
Lemma dflt_fit r fl : forall tl, List.length tl = List.length fl -> fit fl tl (dflt_fields r (combine (map snd fl) tl)).
Proof. induction fl as [|f fl IH]; intros [|t tl] L; try discriminate; [exact I|]. cbn in *. split; [reflexivity|]. apply IH. lia. Qed.
Lemma nodup_l {A} (a b : list A) : NoDup (a ++ b) -> NoDup a.
Proof. induction a as [|x a IH]; intros N; [constructor|]. inversion N; subst. constructor; [|auto]. intros I. match goal with H : ~ In _ _ |- _ => apply H, in_or_app; now left end. Qed.
Lemma nodup_fields d : NoDup (cell_names d) -> NoDup (map nm (ds_fields d)).
Proof. apply nodup_l. Qed.

(** ** Functions by name *)

Lemma named_app n a b : named n (a ++ b) = match named n a with Some f => Some f | None => named n b end.
Proof. induction a as [|f a IH]; [reflexivity|]. cbn. destruct (String.eqb n (fn_name f)); [reflexivity|exact IH]. Qed.
Lemma named_none n l : ~ In n (map fn_name l) -> named n l = None.
Proof.
  induction l as [|f l IH]; intros H; [reflexivity|]. cbn in *. destruct (String.eqb_spec n (fn_name f)) as [->|]; [tauto|]. apply IH. tauto.
Qed.
Lemma named_in f l : NoDup (map fn_name l) -> In f l -> named (fn_name f) l = Some f.
Proof.
  induction l as [|g l IH]; intros N I; [contradiction|]. cbn in *. inversion N as [|? ? N1 N2]; subst.
  destruct I as [->|I]; [now rewrite String.eqb_refl|].
  destruct (String.eqb_spec (fn_name f) (fn_name g)) as [E|]; [|auto]. exfalso. apply N1. rewrite <- E. now apply in_map.
Qed.
Lemma nodup_filter (q : fn -> bool) l : NoDup (map fn_name l) -> NoDup (map fn_name (filter q l)).
Proof.
  induction l as [|f l IH]; intros N; [exact N|]. cbn in *. inversion N as [|? ? N1 N2]; subst.
  destruct (q f); [|auto]. cbn. constructor; [|auto]. intros I. apply N1.
  apply in_map_iff in I. destruct I as [g [E I]]. apply filter_In in I. rewrite <- E. now apply in_map.
Qed.

(** Setters are named [set_..]. *)
Fixpoint starts (a b : string) {struct a} : bool :=
  match a, b with
  | EmptyString, _ => true
  | String x a, String y b => Ascii.eqb x y && starts a b
  | _, _ => false
  end.
Definition sets_name (n : string) : bool := starts "set_" n.
Lemma setter_self se d f g : In g (setter se d f) -> fn_self g = true.
Proof. unfold setter. destruct (f_state (snd f)), (ds_variant d) as [[v tag]|]; cbn; intros [<-|H]; try reflexivity; try destruct H as [<-|[]]; try reflexivity; contradiction. Qed.
Lemma setter_named se d f g : In g (setter se d f) -> sets_name (fn_name g) = true.
Proof. unfold setter. destruct (f_state (snd f)), (ds_variant d) as [[v tag]|]; cbn; intros [<-|H]; try reflexivity; try destruct H as [<-|[]]; try reflexivity; contradiction. Qed.
Lemma setters_none se l n : sets_name n = false -> named n (flat_map (setters se) l) = None.
Proof.
  intros H. apply named_none. intros I. apply in_map_iff in I. destruct I as [g [E I]]. apply in_flat_map in I. destruct I as [d [_ I]].
  apply in_flat_map in I. destruct I as [f [_ I]]. apply setter_named in I. congruence.
Qed.
Lemma setters_all_self se l : filter fn_self (flat_map (setters se) l) = flat_map (setters se) l.
Proof.
  assert (F : forallb fn_self (flat_map (setters se) l) = true).
  { apply forallb_forall. intros g I. apply in_flat_map in I. destruct I as [d [_ I]]. apply in_flat_map in I. destruct I as [f [_ I]]. now apply setter_self in I. }
  induction (flat_map (setters se) l) as [|g k IH]; [reflexivity|]. cbn in *. bprop. rewrite H. f_equal. auto.
Qed.

(** ** Calls *)

Lemma call_S m hl p n f vs s e mv : params (fn_params f) vs = Some (e, mv) ->
  call m hl p (S n) f vs s =
  let '(s', c) := run_block m hl p (call m hl p n) e (fn_body f) (set_vars mv s) in
  (set_vars (s_vars s) s', match c with Ret v => Go v | c => c end).
Proof. intros E. cbn [call]. now rewrite E. Qed.
Arguments call : simpl never. Arguments static : simpl never. Arguments method : simpl never. Arguments trait_method : simpl never.
Arguments named : simpl never. Arguments own_bytes : simpl never.
Arguments native_fun : simpl never. Arguments self_cell : simpl never. Arguments call_method : simpl never. Arguments call_static : simpl never.
Lemma nf_runtime m p call s : native_fun m p call "Runtime" "default" [] s = (s, Go (RRt rt_default)). Proof. reflexivity. Qed.
Ltac enter e mv := match goal with |- context [call ?m ?hl ?p (S ?n) ?f ?vs ?s] => rewrite (call_S m hl p n f vs s e mv eq_refl) end.
