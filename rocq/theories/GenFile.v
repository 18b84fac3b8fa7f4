(** Whole structs and files: proofs for PropGen.v. *)
From Verif Require Import Base Varint WireFmt Types Meta Gen CsRead GenSpec GenLex GenParse GenStmt GenMember GenClass.
From Coq Require Import String Lia.
Import Ascii String.StringSyntax.
Local Open Scope string_scope.
Local Open Scope list_scope.
Local Open Scope N_scope.

(** ** A struct's class *)

Lemma own_print n ps : n +++ type_params ps = cprint (own_type n ps).
Proof.
  unfold own_type, type_params. cbn [cprint]. rewrite map_map, (map_ext (fun p => cprint (CN p [])) (fun p => p)) by apply cprint_name.
  rewrite map_id. destruct ps; reflexivity.
Qed.
Lemma own_ok n ps : type_ident n = true -> forallb type_ident ps = true -> cn_all type_ident (own_type n ps) = true.
Proof.
  intros Hn Hp. unfold own_type. cbn [cn_all]. rewrite Hn. cbn [andb]. rewrite forallb_forall in *. intros t Ht.
  apply in_map_iff in Ht. destruct Ht as (p & <- & Hin). cbn [cn_all forallb]. now rewrite (Hp p Hin).
Qed.
Lemma lex_class own base : cn_all word own = true -> word base = true ->
  lex ("public sealed partial class " +++ cprint own +++ " : " +++ base +++ " {") =
  map Id ["public"; "sealed"; "partial"] ++ Id "class" :: ctoks own ++ [Pc ":"; Id base; Pc "{"].
Proof. intros Ho Hb. lexline; try wd. cbn [map]. tokens. reflexivity. Qed.
Lemma lex_path : lex "public Path Path { get; }" = prop_toks ["public"] (CN "Path" []) "Path" false.
Proof. reflexivity. Qed.

(** The writes of a struct, without the file around it. *)
Definition struct_ops (access name type_name : string) (params : list string) (metas : list fmeta) (fields : list csfield) : list wop :=
  struct_properties type_name fields ++
  struct_ctor access name params fields ++
  struct_events type_name fields ++
  gen_deserialize access type_name (uncap_first_char name) ++
  struct_wire metas ++
  struct_nested fields ++
  struct_replace fields ++
  gen_replay ++
  struct_notify type_name ++
  outdent_writeln "}".

Lemma read_struct acc n ps vps vs : acc = "public" \/ acc = "internal" -> type_ident n = true -> ident (uncap_first_char n) = true ->
  forallb type_ident ps = true -> forallb type_ident vps = true -> Forall v_ok vs ->
  reads_member (lexops (struct_ops acc n (n +++ type_params ps) vps (map v_meta vs) (map v_cs vs))) (x_struct acc n ps vps vs).
Proof.
  intros Ha Hn Hv Hps Hvps Hvs. rewrite own_print. pose proof (own_ok n ps Hn Hps) as Ho.
  destruct (read_own _ Ho) as (How & Hot & Hoh). unfold struct_ops. rewrite !lexops_app, lexops_outdent, lex_close.
  unfold struct_properties. rewrite !lexops_app, !lexops_writeln. nothing. rewrite !app_nil_l.
  pose proof (lex_class (own_type n ps) "IState" How eq_refl) as L. 
  replace (" : " +++ "IState" +++ " {") with " : IState {" in L by reflexivity. rewrite L. clear L.
  pose proof (reads_m_one _ _ (read_prop ["public"] (CN "Path" []) "Path" false eq_refl eq_refl eq_refl)) as R0. rewrite <- lex_path in R0.
  pose proof (read_props vs Hvs) as R1.
  pose proof (read_struct_ctor acc n vps vs Ha Hn Hvps Hvs) as R2.
  pose proof (read_struct_events _ vs Ho Hvs) as R3.
  pose proof (read_deserialize acc _ (uncap_first_char n) Ha Ho Hv) as R4.
  pose proof (read_struct_wire vs Hvs) as R5.
  pose proof (read_struct_nested vs Hvs) as R6.
  pose proof (read_struct_replace vs Hvs) as R7.
  pose proof read_replay as R8.
  pose proof (read_struct_notify _ Ho) as R9.
  pose proof (reads_m_app _ _ _ _ R0 (reads_m_app _ _ _ _ R1 (reads_m_app _ _ _ _ R2 (reads_m_app _ _ _ _ R3
    (reads_m_app _ _ _ _ R4 (reads_m_app _ _ _ _ R5 (reads_m_app _ _ _ _ R6 (reads_m_app _ _ _ _ R7 (reads_m_app _ _ _ _ R8 R9))))))))) as R.
  clear R0 R1 R2 R3 R4 R5 R6 R7 R8 R9. revert R.
  generalize (lex "public Path Path { get; }")
    (lexops (flat_map (fun f => writeln ("public " +++ cf_type f +++ " " +++ cf_name f +++ " { get; private set; }")) (map v_cs vs)))
    (lexops (struct_ctor acc n vps (map v_cs vs))) (lexops (struct_events (cprint (own_type n ps)) (map v_cs vs)))
    (lexops (gen_deserialize acc (cprint (own_type n ps)) (uncap_first_char n))) (lexops (struct_wire (map v_meta vs)))
    (lexops (struct_nested (map v_cs vs))) (lexops (struct_replace (map v_cs vs))) (lexops gen_replay)
    (lexops (struct_notify (cprint (own_type n ps)))).
  intros l0 l1 l2 l3 l4 l5 l6 l7 l8 l9 R.
  pose proof (read_class ["public"; "sealed"; "partial"] n ps "IState" _ _ eq_refl Hn Hps eq_refl R) as K.
  revert K. unfold x_struct, x_struct_members, class_toks. generalize (ctoks (own_type n ps)). intros lo. cbn [map]. tokens. exact (fun K => K).
Qed.

(** ** Text that is read line by line *)

Definition plain (s : string) : bool := all_chars (fun c => negb (Ascii.eqb c "/")) s.
Lemma closed_plain s c : plain s = true -> id_char c = false -> Ascii.eqb c "/" = false -> closed (s +++ String c "").
Proof.
  intros Hs Hc Hd x. unfold lex.
  assert (F : forall w k x, flush w (k ++ x) = flush w k ++ x) by (intros [|]; reflexivity).
  enough (G : forall w, lex_from (Some w) ((s +++ String c "") +++ x) = lex_from (Some w) (s +++ String c "") ++ lex_from (Some "") x) by apply G.
  unfold plain in Hs. induction s as [|d s IH]; intros w.
  - cbn [String.append lex_from]. rewrite Hc, Hd. rewrite <- F. destruct (blank c); reflexivity.
  - cbn [String.append lex_from]. cbn [all_chars] in Hs. apply andb_prop in Hs. destruct Hs as [H1 H2].
    specialize (IH H2). destruct (id_char d); [apply IH|]. rewrite <- F. f_equal. destruct (blank d); [apply IH|].
    destruct (Ascii.eqb d "/"); [discriminate|]. now rewrite IH.
Qed.
Lemma plain_app a b : plain (a +++ b) = plain a && plain b.
Proof. apply all_chars_app. Qed.
Lemma plain_word w : word w = true -> plain w = true.
Proof.
  intros H. apply word_chars in H. unfold plain. induction w as [|c w IH]; [reflexivity|]. cbn [all_chars] in *.
  apply andb_prop in H. destruct H as [H1 H2]. rewrite (IH H2), andb_true_r. destruct (Ascii.eqb_spec c "/") as [->|]; [discriminate|reflexivity].
Qed.
Ltac tidies := repeat first
  [exact I | apply tidy_writeln | apply tidy_app | apply tidy_flat; intros ? | apply tidy_when
  | match goal with |- tidy (if ?b then _ else _) => destruct b end].
Lemma tidy_line s l : closed s -> tidy l -> tidy (WWrite s :: l).
Proof. intros H Hl. cbn [tidy]. auto. Qed.
Lemma tidy_flat_in {A} (f : A -> list wop) l : (forall a, In a l -> tidy (f a)) -> tidy (flat_map f l).
Proof.
  induction l as [|a l IH]; intros H; [exact I|]. cbn [flat_map]. apply tidy_app; [apply H; now left|]. apply IH. intros b Hb. apply H. now right.
Qed.
Lemma closed_end a c : plain a = true -> id_char c = false -> Ascii.eqb c "/" = false -> forall s, s = a +++ String c "" -> closed s.
Proof. intros H1 H2 H3 s ->. now apply closed_plain. Qed.
Lemma tidy_field_clear b f : word (cf_name f) = true -> tidy (field_clear b f).
Proof.
  intros H. pose proof (plain_word _ H) as P. unfold field_clear.
  assert (C1 : closed ("public static void Clear" +++ cf_name f +++ "UpdateHandlers() {")).
  { apply (closed_end ("public static void Clear" +++ cf_name f +++ "UpdateHandlers() ") "{"); [|reflexivity|reflexivity|].
    - rewrite !plain_app, P. reflexivity.
    - now rewrite !sapp_assoc. }
  assert (C2 : closed ("On" +++ cf_name f +++ "Update = null;")).
  { apply (closed_end ("On" +++ cf_name f +++ "Update = null") ";"); [|reflexivity|reflexivity|].
    - rewrite !plain_app, P. reflexivity.
    - now rewrite !sapp_assoc. }
  destruct b; cbn [app]; repeat first [exact I | apply tidy_line; [first [exact C1|exact C2|now apply (closed_end "" " ")|now apply (closed_end "" "}")]|] | cbn [tidy]; fold tidy].
Qed.
Lemma tidy_indent s : tidy (indent_writeln s).
Proof. exact (tidy_writeln s). Qed.
Lemma tidy_outdent s : tidy (outdent_writeln s).
Proof. exact (tidy_writeln s). Qed.
Lemma tidy_newline : tidy newline.
Proof. exact I. Qed.
Ltac tidy_parts := repeat first
  [ exact I | apply tidy_writeln | apply tidy_indent | apply tidy_outdent | apply tidy_newline | apply tidy_when
  | apply tidy_app | apply tidy_flat; intros ? | match goal with |- tidy (match ?b with _ => _ end) => destruct b end ].
Lemma tidy_struct acc n tn ps metas fields : Forall (fun f => word (cf_name f) = true) fields ->
  tidy (struct_ops acc n tn ps metas fields).
Proof.
  intros H. rewrite Forall_forall in H. unfold struct_ops.
  apply tidy_app; [unfold struct_properties; tidy_parts|].
  apply tidy_app; [unfold struct_ctor, validate, field_init; tidy_parts|].
  apply tidy_app; [|repeat (apply tidy_app; [unfold gen_deserialize, struct_wire, field_wire, struct_nested, field_nested,
    struct_replace, field_replace, gen_replay, struct_notify; solve [tidy_parts]|]); tidy_parts].
  unfold struct_events.
  apply tidy_app; [tidy_parts|]. apply tidy_app; [tidy_parts|].
  apply tidy_app; [apply tidy_flat_in; intros f Hf; apply tidy_field_clear; auto|]. apply tidy_app; [tidy_parts|].
  apply tidy_app; [cbn [tidy]; split; [|exact I]; left; now apply (closed_end "public static void ClearUpdateHandlers() " "{")|].
  apply tidy_app; [destruct (some fields); cbn [tidy]; [exact I|]; split; [|exact I]; left; now apply (closed_end "" " ")|].
  apply tidy_app; [|apply tidy_app; [tidy_parts|cbn [tidy]; auto]].
  apply tidy_flat_in. intros f Hf. cbn [tidy]. split; [|exact I]. left.
  apply (closed_end ("On" +++ cf_name f +++ "Update = null") ";"); [|reflexivity|reflexivity|].
  - rewrite !plain_app, (plain_word _ (H f Hf)). reflexivity.
  - now rewrite !sapp_assoc.
Qed.

(** ** The file around a class *)

Fixpoint dot_toks (l : list string) : list tok :=
  match l with [] => [] | [w] => [Id w] | w :: l => Id w :: Pc "." :: dot_toks l end.
Lemma split_cons w s : exists x l, split_from w s = x :: l.
Proof.
  revert w. induction s as [|c s IH]; intros w; cbn [split_from]; [now do 2 eexists|]. destruct (Ascii.eqb c "."); [now do 2 eexists|apply IH].
Qed.
Lemma all_chars_id_word w c : word (w +++ String c "") = true -> id_char c = true.
Proof.
  intros H. apply word_chars in H. rewrite all_chars_app in H. apply andb_prop in H. destruct H as [_ H]. cbn [all_chars] in H.
  apply andb_prop in H. apply H.
Qed.
Lemma word_split w s : all_chars id_char w = true -> forallb word (split_from w s) = true ->
  forall t, stops t = true -> lex_from (Some w) (s +++ t) = dot_toks (split_from w s) ++ lex_from (Some "") t.
Proof.
  revert w. induction s as [|c s IH]; intros w Hw H t Ht.
  - cbn [split_from forallb] in *. rewrite andb_true_r in H. cbn [String.append dot_toks app]. now apply lex_stop.
  - cbn [String.append]. cbn [split_from] in *. destruct (Ascii.eqb_spec c ".") as [->|].
    + cbn [forallb] in H. apply andb_prop in H. destruct H as [H1 H2].
      rewrite (lex_stop w (String "." (s +++ t)) H1 eq_refl).
      change (lex_from (Some "") (String "." (s +++ t))) with (Pc "." :: lex_from (Some "") (s +++ t)).
      rewrite (IH "" eq_refl H2 t Ht).
      destruct (split_cons "" s) as (x & l & ->). reflexivity.
    + assert (Hc : id_char c = true).
      { clear IH Ht. destruct (split_cons (w +++ String c "") s) as (x & l & E). rewrite E in H. cbn [forallb] in H. apply andb_prop in H. destruct H as [H _].
        assert (P : forall s w x l, split_from w s = x :: l -> exists y, x = w +++ y).
        { clear. induction s as [|c s IH]; intros w x l; cbn [split_from].
          - intros [= <- <-]. exists "". symmetry. apply sapp_nil.
          - destruct (Ascii.eqb c ".").
            + intros [= <- <-]. exists "". symmetry. apply sapp_nil.
            + intros E. destruct (IH _ _ _ E) as (y & ->). exists (String c y). now rewrite sapp_assoc. }
        destruct (P _ _ _ _ E) as (y & ->). apply word_chars in H. rewrite !all_chars_app in H. cbn [all_chars] in H.
        apply andb_prop in H. destruct H as [H _]. apply andb_prop in H. destruct H as [_ H]. apply andb_prop in H. apply H. }
      cbn [lex_from]. rewrite Hc. apply IH; [|assumption|assumption]. rewrite all_chars_app, Hw. cbn [all_chars]. now rewrite Hc.
Qed.
Lemma pdotted_ok ws rest : ws <> [] -> forallb ident ws = true -> match rest with Pc "." :: _ => False | _ => True end ->
  pdotted (dot_toks ws ++ rest) = Some (ws, rest).
Proof.
  intros Hn H Hr. induction ws as [|w ws IH]; [congruence|]. cbn [forallb] in H. apply andb_prop in H. destruct H as [Hw H].
  destruct ws as [|x ws].
  - cbn [dot_toks app pdotted]. rewrite Hw. destruct rest as [|[|c] r]; try reflexivity. destruct c as [[] [] [] [] [] [] [] []]; try reflexivity. now destruct Hr.
  - change (dot_toks (w :: x :: ws) ++ rest) with (Id w :: Pc "." :: (dot_toks (x :: ws) ++ rest)). cbn [pdotted].
    rewrite Hw, IH by (discriminate || assumption). reflexivity.
Qed.
Lemma ns_words s : ns_ok s = true -> forallb word (split s) = true.
Proof. unfold ns_ok. rewrite !forallb_forall. intros H w Hw. apply ident_word. auto. Qed.
Lemma lex_using s : ns_ok s = true -> lex ("using " +++ s +++ ";") = Id "using" :: dot_toks (split s) ++ [Pc ";"].
Proof.
  intros H. change (lex ("using " +++ s +++ ";")) with (Id "using" :: lex_from (Some "") (s +++ ";")).
  rewrite word_split; [reflexivity|reflexivity|now apply ns_words|reflexivity].
Qed.
Lemma lex_namespace s : ns_ok s = true -> lex ("namespace " +++ s +++ " {") = Id "namespace" :: dot_toks (split s) ++ [Pc "{"].
Proof.
  intros H. change (lex ("namespace " +++ s +++ " {")) with (Id "namespace" :: lex_from (Some "") (s +++ " {")).
  rewrite word_split; [reflexivity|reflexivity|now apply ns_words|reflexivity].
Qed.
Definition using_toks (us : list string) : list tok := flat_map (fun u => Id "using" :: dot_toks (split u) ++ [Pc ";"]) us.
Lemma split_nonempty s : split s <> [].
Proof. destruct (split_cons "" s) as (x & l & E). unfold split. rewrite E. discriminate. Qed.
Lemma pusings_ok us w l : forallb ns_ok us = true -> String.eqb w "using" = false -> forall f, (List.length us <= f)%nat ->
  pusings f (using_toks us ++ Id w :: l) = Some (map split us, Id w :: l).
Proof.
  intros H Hw. induction us as [|u us IH]; intros f Hf.
  - cbn [using_toks flat_map app map]. destruct f; [reflexivity|]. cbn [pusings]. now rewrite Hw.
  - destruct f as [|f]; [cbn in Hf; lia|]. cbn [forallb] in H. apply andb_prop in H. destruct H as [Hu H].
    cbn [using_toks flat_map map]. fold (using_toks us). rewrite <- !app_assoc, <- app_comm_cons, <- app_assoc. cbn [pusings].
    change (String.eqb "using" "using") with true. cbn match. rewrite pdotted_ok; [|apply split_nonempty|exact Hu|exact I].
    cbn [pbind app pc]. change (Ascii.eqb ";" ";") with true. cbn match. cbn [pbind]. rewrite IH; [reflexivity|assumption|cbn in Hf; lia].
Qed.
Lemma ssort_in x l : In x (ssort l) <-> In x l.
Proof.
  assert (I : forall s l, In x (sinsert s l) <-> s = x \/ In x l).
  { clear. intros s l. induction l as [|y l IH]; cbn [sinsert]; [reflexivity|]. destruct (String.leb s y); cbn [In]; [reflexivity|]. rewrite IH. tauto. }
  induction l as [|y l IH]; [reflexivity|]. unfold ssort in *. cbn [fold_right In]. now rewrite I, IH.
Qed.
Definition file_usings (s : cssetting) : list string := "System" :: ssort (lib_usings ++ cs_used s).
Lemma usings_ok s : setting_ok s = true -> forallb ns_ok (file_usings s) = true.
Proof.
  intros H. apply andb_prop in H. destruct H as [_ H]. unfold file_usings. cbn [forallb]. rewrite forallb_forall in *. change (ns_ok "System") with true. cbn [andb].
  rewrite forallb_forall. intros x Hx. apply ssort_in, in_app_iff in Hx. destruct Hx as [Hx|Hx]; [|auto].
  assert (L : forallb ns_ok lib_usings = true) by reflexivity. rewrite forallb_forall in L. auto.
Qed.
Lemma lex_opening s : setting_ok s = true ->
  lexops (gen_file_opening s) = using_toks (file_usings s) ++ Id "namespace" :: dot_toks (split (cs_namespace s)) ++ [Pc "{"].
Proof.
  intros H. pose proof (usings_ok s H) as Hu. cbn [file_usings forallb] in Hu. apply andb_prop in Hu. destruct Hu as [_ Hu]. rewrite forallb_forall in Hu.
  apply andb_prop in H. destruct H as [Hn _].
  unfold gen_file_opening. rewrite !lexops_app, !lexops_writeln. nothing. rewrite app_nil_l, app_nil_r.
  rewrite (lex_namespace _ Hn). cbn [file_usings using_toks flat_map]. rewrite <- app_assoc. f_equal. rewrite app_nil_l. f_equal.
  rewrite lexops_flat. fold lib_usings. unfold using_toks. clear Hn.
  assert (G : forall l, (forall x, In x l -> ns_ok x = true) -> flat_map (fun a => lexops (writeln ("using " +++ a +++ ";"))) l =
    flat_map (fun u => Id "using" :: dot_toks (split u) ++ [Pc ";"]) l).
  { induction l as [|u l IH]; intros Hl; [reflexivity|]. cbn [flat_map]. rewrite lexops_writeln, lex_using by (apply Hl; now left). rewrite IH; [reflexivity|].
    intros x Hx. apply Hl. now right. }
  now apply G.
Qed.
Lemma tidy_opening s : tidy (gen_file_opening s).
Proof. unfold gen_file_opening. tidy_parts. Qed.
Lemma tidy_closing : tidy gen_file_closing.
Proof. unfold gen_file_closing. tidy_parts. Qed.
Lemma parse_file s ops m : setting_ok s = true -> tidy ops -> reads_member (lexops ops) m ->
  parse (emit 4 0 (gen_file_opening s ++ ops ++ gen_file_closing)) = Some (File (map split (file_usings s)) (split (cs_namespace s)) m).
Proof.
  intros Hs Ht [Hh Hm]. unfold parse. rewrite lex_emit by (apply tidy_app; [apply tidy_opening|apply tidy_app; [assumption|apply tidy_closing]]).
  rewrite !lexops_app, (lex_opening s Hs). unfold gen_file_closing. rewrite lexops_outdent, lex_close.
  rewrite <- app_assoc, <- app_comm_cons.
  rewrite pusings_ok; [|now apply usings_ok|reflexivity|].
  - cbn [pword]. change (String.eqb "namespace" "namespace") with true. cbn match. cbn [pbind]. rewrite <- app_assoc.
    apply andb_prop in Hs. destruct Hs as [Hn _].
    rewrite pdotted_ok; [|apply split_nonempty|exact Hn|exact I]. cbn [pbind app pc]. change (Ascii.eqb "{" "{") with true. cbn match. cbn [pbind].
    rewrite Hm; [reflexivity|]. rewrite app_length. cbn [List.length]. lia.
  - rewrite app_length. assert (G : forall l, (List.length l <= List.length (using_toks l))%nat).
    { clear. induction l as [|u l IH]; [auto|]. cbn [using_toks flat_map List.length]. fold (using_toks l). rewrite app_length. cbn [List.length]. lia. }
    pose proof (G (file_usings s)). lia.
Qed.
