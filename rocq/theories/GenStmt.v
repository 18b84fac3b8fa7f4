(** Parsing the statements and members the generator writes: proofs for PropGen.v. *)
From Verif Require Import Base Varint WireFmt Types Meta Gen CsRead GenSpec GenLex GenParse.
From Coq Require Import String Lia.
Import Ascii String.StringSyntax.
Local Open Scope string_scope.
Local Open Scope list_scope.
Local Open Scope N_scope.

Definition head_id (ts : list tok) : Prop := exists w ts', ts = Id w :: ts'.
Lemma pstmts_cons f w l : pstmts (S f) (Id w :: l) =
  pbind (pstmt f (Id w :: l)) (fun s l => pbind (pstmts f l) (fun ss l => Some (s :: ss, l))).
Proof. reflexivity. Qed.
Lemma head_ctoks t l : head_id (ctoks t ++ l).
Proof. destruct t as [n a]. now do 2 eexists. Qed.
Lemma reads_cons ts ts1 s l : head_id ts -> (S (List.length ts1) < List.length ts)%nat ->
  (forall f rest, pstmt (S f) (ts ++ rest) = Some (s, ts1 ++ rest)) -> reads_stmts ts1 l -> reads_stmts ts (s :: l).
Proof.
  intros (w & ts' & ->) Hl H H1 f0 rest ss r Hr f Hf. cbn [List.length] in *.
  destruct f as [|[|f]]; [lia|lia|]. cbn [app]. rewrite pstmts_cons. specialize (H f rest). cbn [app] in H. rewrite H. cbn [pbind].
  rewrite (H1 f0 rest ss r Hr (S f)) by lia. reflexivity.
Qed.
Lemma reads_switch cts c body b : (forall l, an_expr (cts ++ Pc ")" :: Pc "{" :: l) = Some (c, Pc ")" :: Pc "{" :: l)) ->
  reads_stmts body b -> reads_stmts (Id "switch" :: Pc "(" :: cts ++ Pc ")" :: Pc "{" :: body ++ [Pc "}"]) [SSwitch c b].
Proof.
  intros Hc Hb. apply reads_one. split; [now do 2 eexists|]. intros f rest Hf. cbn [app List.length] in *.
  rewrite app_length in Hf. cbn [List.length] in Hf. rewrite app_length in Hf.
  destruct f as [|f]; [lia|]. rewrite <- !app_assoc. cbn [app]. rewrite <- app_assoc. cbn [app].
  eapply ps_switch; [apply Hc|]. apply reads_block; [assumption|lia].
Qed.
Lemma reads_if cts c body b : (forall l, an_expr (cts ++ Pc ")" :: Pc "{" :: l) = Some (c, Pc ")" :: Pc "{" :: l)) ->
  reads_stmts body b -> reads_stmts (Id "if" :: Pc "(" :: cts ++ Pc ")" :: Pc "{" :: body ++ [Pc "}"]) [SIf c b].
Proof.
  intros Hc Hb. apply reads_one. split; [now do 2 eexists|]. intros f rest Hf. cbn [app List.length] in *.
  rewrite app_length in Hf. cbn [List.length] in Hf. rewrite app_length in Hf.
  destruct f as [|f]; [lia|]. rewrite <- !app_assoc. cbn [app]. rewrite <- app_assoc. cbn [app].
  eapply ps_if; [apply Hc|]. apply reads_block; [assumption|lia].
Qed.

Ltac flatten := repeat (progress (rewrite <- ?app_assoc; cbn [app])).
(** One statement; what is left over is given. *)
Ltac pst :=
  lazymatch goal with
  | |- pstmt (S _) (Id "return" :: _) = _ => apply ps_return; unfold an_expr; pexp
  | |- pstmt (S _) (Id "throw" :: _) = _ => apply ps_throw; unfold an_expr; pexp
  | |- pstmt (S _) (Id "break" :: _) = _ => apply ps_break
  | |- pstmt (S _) (Id "case" :: _) = _ => apply ps_case; apply number_dec
  | |- pstmt (S _) (Id "default" :: _) = _ => apply ps_default
  | |- pstmt (S _) (Id "var" :: _) = _ => apply ps_var; [side|unfold an_expr; pexp]
  end.
Ltac lens := cbn [List.length]; rewrite ?app_length; cbn [List.length]; lia.
Ltac stmt_with ts1 := apply (reads_cons _ ts1); [first [apply head_ctoks|now do 2 eexists]|lens|intros ? ?; flatten; try pst|].

(** The expressions and statements of generated classes. *)
Definition nested_path (tag : N) : expr := ECall (EMem (EMem EThis "Path") "GetNested") [(None, ENum tag)].
Definition sub (n : string) : expr := EMem EThis n.
Definition v_cs (v : vfield) : csfield := CF (v_meta v) (v_name v) (cprint (v_type v)).
(** What a field needs for its lines to be read. *)
Definition v_ok (v : vfield) : Prop :=
  ident (v_name v) = true /\ cn_all type_ident (v_type v) = true /\
  match fm_ty (v_meta v) with
  | MPrim n _ => v_type v = CN (cs_name n) []
  | MRef _ _ => True
  | MParam p => v_type v = CN p []
  end.

Lemma cn_all_impl (p q : string -> bool) : (forall w, p w = true -> q w = true) -> forall t, cn_all p t = true -> cn_all q t = true.
Proof.
  intros I t. induction t as [n args IH] using cname_ind'. cbn [cn_all]. intros H. apply andb_prop in H. destruct H as [H1 H2].
  rewrite (I _ H1). cbn [andb]. rewrite forallb_forall in *. rewrite Forall_forall in IH. auto.
Qed.
Lemma cn_word t : cn_all type_ident t = true -> cn_all word t = true.
Proof. apply cn_all_impl. intros w H. apply ident_word, type_ident_ident, H. Qed.
Lemma cn_type_word t : cn_all type_ident t = true -> cn_all type_word t = true.
Proof. apply cn_all_impl. intros w. apply type_ident_word. Qed.
Lemma cn_head t : cn_all type_ident t = true -> match t with CN n _ => ident n end = true.
Proof. destruct t as [n a]. cbn. intros H. apply andb_prop in H. apply type_ident_ident, H. Qed.
Lemma cprint_name n : cprint (CN n []) = n.
Proof. apply sapp_nil. Qed.
Lemma ident_on n : word n = true -> ident ("On" +++ n +++ "Update") = true.
Proof. intros H. apply (ident_glue "O" "n" n "Update"); [reflexivity..|assumption|reflexivity]. Qed.

Definition x_init (v : vfield) : list stmt :=
  match fm_ty (v_meta v) with
  | MPrim _ _ => []
  | MRef _ _ => [SAssign (sub (v_name v)) (ENew (v_type v) [(None, nested_path (v_tag v))])]
  | MParam p => [SAssign (sub (v_name v)) (ECall (EMemGen (EName "StateFactory") "Construct" [CN p []]) [(None, nested_path (v_tag v))])]
  end.
Lemma lexops_writeln s : lexops (writeln s) = lex s.
Proof. unfold lexops. cbn. apply app_nil_r. Qed.
Lemma lexops_flat {A} (f : A -> list wop) l : lexops (flat_map f l) = flat_map (fun a => lexops (f a)) l.
Proof. induction l; cbn; [reflexivity|]. now rewrite lexops_app, IHl. Qed.

Ltac vprep v :=
  let Hn := fresh "Hn" in let Ht := fresh "Ht" in let Hm := fresh "Hm" in
  intros (Hn & Ht & Hm); pose proof (ident_word _ Hn) as Hw; pose proof (cn_word _ Ht) as Htw;
  pose proof (cn_type_word _ Ht) as Htt; pose proof (cn_head _ Ht) as Hth; pose proof (ident_on _ Hw) as Hon;
  unfold v_cs in *.
Ltac wd := first [assumption | apply word_dec | apply ident_word; side].

Lemma read_init v : v_ok v -> reads_stmts (lexops (field_init (v_cs v))) (x_init v).
Proof.
  vprep v. unfold field_init, x_init, v_tag, cf_tag. cbn [cf_meta cf_name cf_type].
  destruct (fm_ty (v_meta v)) as [n w|n args|p]; [apply reads_nil| |]; rewrite lexops_writeln.
  - lexline; try wd. stmt_with (@nil tok).
    + rewrite ps_simple by reflexivity. eapply psimple_assign; unfold an_expr; pexp.
    + apply reads_nil.
  - rewrite Hm in *. cbn in Ht. rewrite andb_true_r in Ht. lexline; try wd. stmt_with (@nil tok).
    + rewrite ps_simple by reflexivity. eapply psimple_assign; unfold an_expr; pexp.
    + apply reads_nil.
Qed.
Ltac brk := stmt_with (@nil tok); apply reads_nil.
Ltac simple_assign := rewrite ps_simple by reflexivity; eapply psimple_assign; unfold an_expr; pexp.
Ltac simple_call := rewrite ps_simple by (reflexivity || (apply ident_not_stmt; side)); eapply psimple_call; unfold an_expr; pexp.

Ltac case_line := match goal with |- reads_stmts (_ :: _ :: _ :: ?l) _ => stmt_with l end.

Definition wire (w : wtype) : expr := EMem (EName "WireType") match w with Varint => "Varint" | Sized => "Sized" end.
Definition x_wire1 (f : fmeta) : list stmt :=
  [SCase (fm_tag f);
   SReturn match fm_ty f with
           | MPrim _ w => wire w
           | MRef _ _ => wire Sized
           | MParam p => ECond (ECall (EMem (EName "StateFactory") "IsStateType") [(None, ETypeof (CN p []))]) (wire Sized) (wire Varint)
           end].
Lemma read_wire1 v : v_ok v -> reads_stmts (lexops (field_wire (v_meta v))) (x_wire1 (v_meta v)).
Proof.
  vprep v. unfold field_wire, x_wire1. rewrite lexops_writeln.
  destruct (fm_ty (v_meta v)) as [n w|n args|p].
  - destruct w; (lexline; [wd|]; case_line; brk).
  - lexline; [wd|]. case_line. brk.
  - rewrite Hm in *. cbn in Ht. rewrite andb_true_r in Ht. rewrite !sapp_assoc. lexline; try wd. case_line. brk.
Qed.

Definition x_nested1 (v : vfield) : list stmt :=
  match fm_ty (v_meta v) with
  | MPrim _ _ => []
  | MRef _ _ => [SCase (v_tag v); SReturn (sub (v_name v))]
  | MParam _ => [SCase (v_tag v); SReturn (EAs (sub (v_name v)) (CN "IState" []))]
  end.
Lemma read_nested1 v : v_ok v -> reads_stmts (lexops (field_nested (v_cs v))) (x_nested1 v).
Proof.
  vprep v. unfold field_nested, x_nested1, v_tag, cf_tag. cbn [cf_meta cf_name cf_type].
  destruct (fm_ty (v_meta v)) as [n w|n args|p]; [apply reads_nil| |]; rewrite lexops_writeln.
  - lexline; try wd. case_line. brk.
  - lexline; try wd. case_line. brk.
Qed.

Definition x_read (v : vfield) : expr :=
  match fm_ty (v_meta v) with
  | MPrim n _ => ECall (EMem (EName "reader") ("Read" +++ cs_name n)) []
  | MRef _ _ => ECall (EMem (texpr (v_type v)) "Deserialize") [(None, EName "reader"); (None, nested_path (v_tag v))]
  | MParam p => ECall (EMemGen (EName "StateFactory") "Deserialize" [CN p []])
                  [(None, EName "reader"); (None, EMem EThis "Path"); (None, ENum (v_tag v))]
  end.
Definition x_replace1 (v : vfield) : list stmt :=
  [SCase (v_tag v);
   SAssign (sub (v_name v)) (ECall (EMem EThis "MaybeNotify")
     [(None, ENum (v_tag v)); (None, x_read v); (None, sub (v_name v)); (None, EName ("On" +++ v_name v +++ "Update"));
      (None, EName "shouldNotify")]);
   SBreak].
Lemma ident_read n : word n = true -> ident ("Read" +++ n) = true.
Proof. intros H. rewrite <- (sapp_nil n). apply (ident_glue "R" "ead" n ""); [reflexivity..|assumption|reflexivity]. Qed.
Lemma read_replace1 v : v_ok v -> reads_stmts (lexops (field_replace (v_cs v))) (x_replace1 v).
Proof.
  vprep v. unfold field_replace, x_replace1, x_read, v_tag, cf_tag. cbn [cf_meta cf_name cf_type]. rewrite lexops_writeln.
  destruct (fm_ty (v_meta v)) as [n w|n args|p]; rewrite ?sapp_assoc.
  - rewrite Hm in *. rewrite cprint_name. cbn in Ht. rewrite andb_true_r in Ht.
    pose proof (ident_word _ (type_ident_ident _ Ht)) as Hc. pose proof (ident_read _ Hc) as Hr.
    lexline; try wd. case_line. stmt_with [Id "break"; Pc ";"]; [simple_assign|brk].
  - lexline; try wd. case_line. stmt_with [Id "break"; Pc ";"]; [simple_assign|brk].
  - rewrite Hm in *. rewrite cprint_name. cbn in Ht. rewrite andb_true_r in Ht.
    lexline; try wd. case_line. stmt_with [Id "break"; Pc ";"]; [simple_assign|brk].
Qed.

Definition x_validate (p : string) : stmt := SExpr (ECall (EMem (EName "StateFactory") "ValidateType") [(None, ETypeof (CN p []))]).
Lemma read_validate ps : forallb type_ident ps = true -> reads_stmts (lexops (validate ps)) (map x_validate ps).
Proof.
  intros H. unfold validate. rewrite lexops_flat. induction ps as [|p ps IH]; [apply reads_nil|].
  cbn [forallb] in H. apply andb_prop in H. destruct H as [Hp H]. cbn [flat_map map].
  change (x_validate p :: map x_validate ps) with ([x_validate p] ++ map x_validate ps).
  apply reads_app; [|auto]. rewrite lexops_writeln. lexline; try wd. stmt_with (@nil tok); [simple_call|apply reads_nil].
Qed.
Definition x_off (v : vfield) : stmt := SAssign (EName ("On" +++ v_name v +++ "Update")) ENull.
Lemma read_off n : word n = true -> reads_stmts (lex ("On" +++ n +++ "Update = null;")) [SAssign (EName ("On" +++ n +++ "Update")) ENull].
Proof.
  intros H. pose proof (ident_on n H). lexline; try wd. stmt_with (@nil tok); [|apply reads_nil].
  rewrite ps_simple by (reflexivity || (apply ident_not_stmt; side)). eapply psimple_assign; unfold an_expr; pexp.
Qed.
