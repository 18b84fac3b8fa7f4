(** Parsing the members and classes the generator writes: proofs for PropGen.v. *)
From Verif Require Import Base Varint WireFmt Types Meta Gen CsRead GenSpec GenLex GenParse GenStmt.
From Coq Require Import String Lia.
Import Ascii String.StringSyntax.
Local Open Scope string_scope.
Local Open Scope list_scope.
Local Open Scope N_scope.

(** ** Modifiers, parameters *)

Lemma pmods_ok mods w l : forallb (fun m => str_mem m modifiers) mods = true -> str_mem w modifiers = false ->
  pmods (map Id mods ++ Id w :: l) = (mods, Id w :: l).
Proof.
  intros H Hw. induction mods as [|m mods IH].
  - cbn [map app pmods]. now rewrite Hw.
  - cbn [forallb] in H. apply andb_prop in H. destruct H as [Hm H]. cbn [map app pmods]. rewrite Hm, IH by assumption. reflexivity.
Qed.
Lemma not_contextual w k : type_ident w = true -> str_mem k contextual = true -> String.eqb w k = false.
Proof.
  intros H K. destruct (String.eqb_spec w k) as [->|]; [|reflexivity].
  unfold type_ident in H. rewrite K in H. now rewrite andb_false_r in H.
Qed.
Lemma type_word_inv w : type_word w = true -> type_ident w = true \/ w = "bool" \/ w = "void".
Proof.
  unfold type_word. intros H. apply orb_prop in H. destruct H as [H|H]; [apply orb_prop in H; destruct H as [H|H]|].
  - now left.
  - right. left. now apply String.eqb_eq.
  - right. right. now apply String.eqb_eq.
Qed.
Lemma type_word_not_mod w : type_word w = true -> str_mem w modifiers = false.
Proof.
  intros H. destruct (type_word_inv w H) as [T|[->| ->]]; try reflexivity.
  pose proof (type_ident_ident w T) as I. unfold str_mem. cbn [modifiers existsb].
  rewrite !(ident_not_keyword w _ I) by reflexivity. now rewrite (not_contextual w "partial" T).
Qed.
Definition type_head (w : string) : bool :=
  negb (String.eqb w "class") && negb (String.eqb w "const") && negb (String.eqb w "event").
Lemma type_word_head w : type_word w = true ->
  String.eqb w "class" = false /\ String.eqb w "const" = false /\ String.eqb w "event" = false.
Proof.
  intros H. destruct (type_word_inv w H) as [T|[->| ->]]; try now repeat split.
  pose proof (type_ident_ident w T) as I. rewrite !(ident_not_keyword w _ I) by reflexivity. now repeat split.
Qed.

Definition pm_ok (p : param) : bool := cn_all type_word (pm_type p) && ident (pm_name p).
Definition one_param (p : param) : list tok :=
  ctoks (pm_type p) ++ Id (pm_name p) :: if pm_null p then [Pc "="; Id "null"] else [].
Fixpoint param_toks (ps : list param) : list tok :=
  match ps with [] => [] | [p] => one_param p | p :: ps => one_param p ++ Pc "," :: param_toks ps end.
Lemma one_param_length p : (1 <= List.length (one_param p))%nat.
Proof. unfold one_param. rewrite app_length. cbn [List.length]. lia. Qed.
Lemma param_toks_length ps : (List.length ps <= List.length (param_toks ps))%nat.
Proof.
  induction ps as [|p ps IH]; [auto|]. pose proof (one_param_length p).
  destruct ps; [cbn [param_toks List.length]; lia|].
  change (param_toks (p :: p0 :: ps)) with (one_param p ++ Pc "," :: param_toks (p0 :: ps)).
  rewrite app_length. cbn [List.length] in *. lia.
Qed.
Lemma pparams_ok ps : forallb pm_ok ps = true -> forall f rest, (List.length ps < f)%nat ->
  pparams f (param_toks ps ++ Pc ")" :: rest) = Some (ps, rest).
Proof.
  induction ps as [|p ps IH]; intros H f rest Hf; (destruct f as [|f]; [lia|]); [reflexivity|].
  cbn [forallb] in H. apply andb_prop in H. destruct H as [Hp H]. apply andb_prop in Hp. destruct Hp as [Ht Hn].
  destruct p as [t n b]. cbn [pm_type pm_name] in *.
  assert (E : param_toks (PM t n b :: ps) ++ Pc ")" :: rest =
    ctoks t ++ Id n :: (if b then [Pc "="; Id "null"] else []) ++
      match ps with [] => [] | _ => Pc "," :: param_toks ps end ++ Pc ")" :: rest).
  { destruct ps; cbn [param_toks]; unfold one_param; cbn [pm_type pm_name pm_null]; rewrite <- !app_assoc; cbn [app];
      rewrite <- ?app_assoc; reflexivity. }
  rewrite E. clear E.
  assert (U : forall l, pparams (S f) (ctoks t ++ l) =
     pbind (a_type (ctoks t ++ l)) (fun t l => pbind (pname l) (fun n l =>
          pbind (match l with
                 | Pc "=" :: l => pbind (pword "null" l) (fun _ l => Some (PM t n true, l))
                 | _ => Some (PM t n false, l)
                 end) (fun p l =>
          match l with
          | Pc "," :: l => pbind (pparams f l) (fun ps l => Some (p :: ps, l))
          | Pc ")" :: l => Some ([p], l)
          | _ => None
          end)))) by (intros; destruct t; reflexivity).
  rewrite U, a_type_ok by (assumption || reflexivity). cbn [pbind pname]. rewrite Hn. cbn [pbind]. clear U.
  cbn [List.length] in Hf.
  destruct b, ps as [|q ps]; cbn [app pbind pword String.eqb Ascii.eqb Bool.eqb]; try reflexivity;
    rewrite IH by (assumption || lia); reflexivity.
Qed.

(** ** Members *)

Definition mods_ok (mods : list string) : Prop := forallb (fun m => str_mem m modifiers) mods = true.
Lemma pm_ctor f mods n ps body b l0 rest init :
  mods_ok mods -> type_ident n = true -> forallb pm_ok ps = true -> reads_stmts body b ->
  match init with
  | Some args => exists its, l0 = Pc ":" :: Id "this" :: Pc "(" :: its /\
      forall l, pargs 20 (its ++ Pc "{" :: l) = Some (args, Pc "{" :: l)
  | None => l0 = []
  end ->
  pmember (S f) (map Id mods ++ Id n :: Pc "(" :: param_toks ps ++ Pc ")" :: l0 ++ Pc "{" :: body ++ Pc "}" :: rest)
  = Some (KCtor mods n ps init b, rest).
Proof.
  intros Hm Hn Hp Hb Hi. destruct (type_word_head n (type_ident_word n Hn)) as (E1 & E2 & E3).
  cbn [pmember]. rewrite pmods_ok by (assumption || now apply type_word_not_mod, type_ident_word).
  rewrite E1, E2, E3, (type_ident_ident n Hn).
  rewrite pparams_ok; [|assumption|].
  - cbn [pbind]. destruct init as [args|].
    + destruct Hi as (its & -> & Hi). cbn [app pbind pword pc String.eqb Ascii.eqb Bool.eqb].
      rewrite Hi. cbn [pbind]. rewrite a_block_ok with (l := b) by assumption. reflexivity.
    + subst l0. cbn [app pbind]. rewrite a_block_ok with (l := b) by assumption. reflexivity.
  - rewrite app_length. cbn [List.length].
    pose proof (param_toks_length ps). lia.
Qed.

(** A member that begins with its type; [q] is the question mark. *)
Lemma pm_typed f mods t q n l :
  mods_ok mods -> cn_all type_word t = true -> ident n = true ->
  pmember (S f) (map Id mods ++ ctoks t ++ (if q : bool then [Pc "?"] else []) ++ Id n :: l) =
  let t := if q then CN "Nullable" [t] else t in
  match l with
  | Pc "{" :: l => accessors mods t n l
  | _ =>
      pbind (tparams l) (fun tps l => pbind (pc "(" l) (fun _ l => pbind (pparams (List.length l) l) (fun ps l =>
      pbind (a_block l) (fun b l => Some (KMethod mods t n tps ps b, l)))))
  end.
Proof.
  intros Hm Ht Hn.
  assert (E : exists w l', ctoks t ++ (if q then [Pc "?"] else []) ++ Id n :: l = Id w :: l' /\ type_word w = true /\
     match l' with Pc "(" :: _ => False | _ => True end).
  { destruct t as [w a]. cbn [cn_all] in Ht. apply andb_prop in Ht. destruct Ht as [Hw _].
    exists w. cbn [ctoks]. eexists. split; [reflexivity|]. split; [assumption|].
    destruct a; cbn [app]; [|exact I]. destruct q; exact I. }
  assert (R : result_type (ctoks t ++ (if q then [Pc "?"] else []) ++ Id n :: l) = Some (if q then CN "Nullable" [t] else t, Id n :: l)).
  { unfold result_type. rewrite a_type_ok; [|assumption|destruct q; reflexivity]. destruct q; reflexivity. }
  destruct E as (w & l' & E & Hw & Hl). rewrite E in *.
  destruct (type_word_head w Hw) as (E1 & E2 & E3).
  cbn [pmember]. rewrite pmods_ok by (assumption || now apply type_word_not_mod). rewrite E1, E2, E3, R. cbn [pbind pname]. rewrite Hn.
  cbn [pbind].
  destruct l' as [|[v|c] l']; try reflexivity. destruct c as [[] [] [] [] [] [] [] []]; try reflexivity. now destruct Hl.
Qed.

Definition reads_member (ts : list tok) (m : member) : Prop :=
  head_id ts /\ forall f rest, (List.length ts <= S f)%nat -> pmember f (ts ++ rest) = Some (m, rest).
Definition mparses (f0 : nat) (l : list tok) (ms : list member) (r : list tok) : Prop :=
  forall f, (f0 <= f)%nat -> pmembers f l = Some (ms, r).
Definition reads_members (ts : list tok) (l : list member) : Prop :=
  forall f0 rest ms r, mparses f0 rest ms r -> mparses (List.length ts + f0) (ts ++ rest) (l ++ ms) r.
Lemma reads_m_nil : reads_members [] [].
Proof. intros f0 rest ss r H. exact H. Qed.
Lemma reads_m_app a b la lb : reads_members a la -> reads_members b lb -> reads_members (a ++ b) (la ++ lb).
Proof.
  intros Ha Hb f0 rest ss r H. rewrite <- !app_assoc, app_length, <- Nat.add_assoc. apply Ha. now apply Hb.
Qed.
Lemma reads_m_one ts s : reads_member ts s -> reads_members ts [s].
Proof.
  intros [(w & ts' & ->) H] f0 rest ss r Hr f Hf. destruct f as [|f]; [cbn in Hf; lia|].
  cbn [app]. cbn [pmembers]. specialize (H f rest). rewrite <- app_comm_cons in H. rewrite H by lia. cbn [pbind].
  rewrite Hr by (cbn in Hf; lia). reflexivity.
Qed.
Lemma reads_m_flat {A} (g : A -> list tok) (h : A -> list member) (l : list A) :
  (forall a, In a l -> reads_members (g a) (h a)) -> reads_members (flat_map g l) (flat_map h l).
Proof.
  induction l as [|a l IH]; intros H; [apply reads_m_nil|]. cbn. apply reads_m_app; [apply H; now left|].
  apply IH. intros x Hx. apply H. now right.
Qed.
Lemma reads_m_map {A} (g : A -> list tok) (h : A -> member) (l : list A) :
  (forall a, In a l -> reads_member (g a) (h a)) -> reads_members (flat_map g l) (map h l).
Proof.
  intros H. replace (map h l) with (flat_map (fun a => [h a]) l) by (clear; induction l; cbn; congruence).
  apply reads_m_flat. intros a Ha. now apply reads_m_one, H.
Qed.
Lemma reads_m_block ts l rest f : reads_members ts l -> (List.length ts <= f)%nat ->
  pmembers f (ts ++ Pc "}" :: rest) = Some (l, rest).
Proof.
  intros H Hf. specialize (H 0%nat (Pc "}" :: rest) [] rest). rewrite app_nil_r in H. apply H; [|lia].
  intros [|g] _; reflexivity.
Qed.

Lemma head_mods mods l : head_id l -> head_id (map Id mods ++ l).
Proof. destruct mods; [auto|]. intros _. now do 2 eexists. Qed.

(** Tokens of members. *)
Definition method_toks (mods : list string) (t : cname) (q : bool) (n : string) (ps : list param) (body : list tok) : list tok :=
  map Id mods ++ ctoks t ++ (if q then [Pc "?"] else []) ++ Id n :: Pc "(" :: param_toks ps ++ Pc ")" :: Pc "{" :: body ++ [Pc "}"].
Lemma read_method mods t q n ps body b : mods_ok mods -> cn_all type_word t = true -> ident n = true -> forallb pm_ok ps = true ->
  reads_stmts body b ->
  reads_member (method_toks mods t q n ps body) (KMethod mods (if q then CN "Nullable" [t] else t) n [] ps b).
Proof.
  intros Hm Ht Hn Hp Hb. unfold method_toks. split; [apply head_mods; apply head_ctoks|]. intros f rest Hf.
  destruct f as [|f]. { rewrite !app_length in Hf. destruct t. cbn [ctoks List.length] in Hf. rewrite app_length in Hf. cbn [List.length] in Hf. lia. }
  replace ((map Id mods ++ ctoks t ++ (if q then [Pc "?"] else []) ++ Id n :: Pc "(" :: param_toks ps ++ Pc ")" :: Pc "{" :: body ++ [Pc "}"]) ++ rest)
    with (map Id mods ++ ctoks t ++ (if q then [Pc "?"] else []) ++ Id n :: Pc "(" :: param_toks ps ++ Pc ")" :: Pc "{" :: body ++ Pc "}" :: rest)
    by (repeat (progress (rewrite <- ?app_assoc; cbn [app])); reflexivity).
  rewrite pm_typed by assumption. cbn zeta. cbn [tparams pbind pc Ascii.eqb Bool.eqb].
  rewrite pparams_ok; [|assumption|].
  - cbn [pbind]. rewrite a_block_ok with (l := b) by assumption. reflexivity.
  - rewrite app_length. pose proof (param_toks_length ps). cbn [List.length]. lia.
Qed.
Lemma type_args_one p l : type_ident p = true -> type_args (Id p :: Pc ">" :: l) = Some ([CN p []], l).
Proof.
  intros H. pose proof (type_args_ok [CN p []] l ltac:(discriminate)) as A. cbn [sep_toks ctoks app] in A. apply A.
  cbn [cn_all forallb]. rewrite (type_ident_word p H). reflexivity.
Qed.
Definition generic_toks (mods : list string) (t : cname) (n p : string) (ps : list param) (body : list tok) : list tok :=
  map Id mods ++ ctoks t ++ Id n :: Pc "<" :: Id p :: Pc ">" :: Pc "(" :: param_toks ps ++ Pc ")" :: Pc "{" :: body ++ [Pc "}"].
Lemma read_generic mods t n p ps body b : mods_ok mods -> cn_all type_word t = true -> ident n = true -> type_ident p = true ->
  forallb pm_ok ps = true -> reads_stmts body b ->
  reads_member (generic_toks mods t n p ps body) (KMethod mods t n [p] ps b).
Proof.
  intros Hm Ht Hn Hpt Hp Hb. unfold generic_toks. split; [apply head_mods; apply head_ctoks|]. intros f rest Hf.
  destruct f as [|f]. { rewrite !app_length in Hf. destruct t. cbn [ctoks List.length] in Hf. rewrite app_length in Hf. cbn [List.length] in Hf. lia. }
  replace ((map Id mods ++ ctoks t ++ Id n :: Pc "<" :: Id p :: Pc ">" :: Pc "(" :: param_toks ps ++ Pc ")" :: Pc "{" :: body ++ [Pc "}"]) ++ rest)
    with (map Id mods ++ ctoks t ++ (if false then [Pc "?"] else []) ++ Id n :: Pc "<" :: Id p :: Pc ">" :: Pc "(" :: param_toks ps ++ Pc ")" :: Pc "{" :: body ++ Pc "}" :: rest)
    by (repeat (progress (rewrite <- ?app_assoc; cbn [app])); reflexivity).
  rewrite (pm_typed f mods t false n _ Hm Ht Hn). cbn zeta. cbn [tparams]. rewrite type_args_one by assumption.
  cbn [pbind forallb map]. rewrite Hpt. cbn [andb pbind pc Ascii.eqb Bool.eqb].
  rewrite pparams_ok; [|assumption|].
  - cbn [pbind]. rewrite a_block_ok with (l := b) by assumption. reflexivity.
  - rewrite app_length. pose proof (param_toks_length ps). cbn [List.length]. lia.
Qed.
Definition prop_toks (mods : list string) (t : cname) (n : string) (settable : bool) : list tok :=
  map Id mods ++ ctoks t ++ Id n :: Pc "{" :: Id "get" :: Pc ";" ::
    (if settable then [Id "private"; Id "set"; Pc ";"] else []) ++ [Pc "}"].
Lemma read_prop mods t n b : mods_ok mods -> cn_all type_word t = true -> ident n = true ->
  reads_member (prop_toks mods t n b) (KProp mods t n b).
Proof.
  intros Hm Ht Hn. unfold prop_toks. split; [apply head_mods; apply head_ctoks|]. intros f rest Hf.
  destruct f as [|f]. { rewrite !app_length in Hf. destruct t. cbn [ctoks List.length] in Hf. rewrite app_length in Hf. cbn [List.length] in Hf. lia. }
  pose proof (pm_typed f mods t false n (Pc "{" :: Id "get" :: Pc ";" :: (if b then [Id "private"; Id "set"; Pc ";"] else []) ++ Pc "}" :: rest) Hm Ht Hn) as E.
  cbn [app] in E. replace ((map Id mods ++ ctoks t ++ Id n :: Pc "{" :: Id "get" :: Pc ";" ::
    (if b then [Id "private"; Id "set"; Pc ";"] else []) ++ [Pc "}"]) ++ rest) with
    (map Id mods ++ ctoks t ++ Id n :: Pc "{" :: Id "get" :: Pc ";" ::
    (if b then [Id "private"; Id "set"; Pc ";"] else []) ++ Pc "}" :: rest)
    by (repeat (progress (rewrite <- ?app_assoc; cbn [app])); reflexivity).
  rewrite E. destruct b; reflexivity.
Qed.
Definition get_toks (mods : list string) (t : cname) (n : string) (body : list tok) : list tok :=
  map Id mods ++ ctoks t ++ Id n :: Pc "{" :: Id "get" :: Pc "{" :: body ++ [Pc "}"; Pc "}"].
Lemma read_get mods t n body b : mods_ok mods -> cn_all type_word t = true -> ident n = true -> reads_stmts body b ->
  reads_member (get_toks mods t n body) (KGet mods t n b).
Proof.
  intros Hm Ht Hn Hb. unfold get_toks. split; [apply head_mods; apply head_ctoks|]. intros f rest Hf.
  destruct f as [|f]. { rewrite !app_length in Hf. destruct t. cbn [ctoks List.length] in Hf. rewrite app_length in Hf. cbn [List.length] in Hf. lia. }
  pose proof (pm_typed f mods t false n (Pc "{" :: Id "get" :: Pc "{" :: body ++ Pc "}" :: Pc "}" :: rest) Hm Ht Hn) as E.
  cbn [app] in E. replace ((map Id mods ++ ctoks t ++ Id n :: Pc "{" :: Id "get" :: Pc "{" :: body ++ [Pc "}"; Pc "}"]) ++ rest) with
    (map Id mods ++ ctoks t ++ Id n :: Pc "{" :: Id "get" :: Pc "{" :: body ++ Pc "}" :: Pc "}" :: rest)
    by (repeat (progress (rewrite <- ?app_assoc; cbn [app])); reflexivity).
  rewrite E. unfold accessors. cbn [pbind pword String.eqb Ascii.eqb Bool.eqb].
  rewrite a_block_ok with (l := b) by assumption. reflexivity.
Qed.
Definition event_toks (mods : list string) (t : cname) (n : string) : list tok :=
  map Id mods ++ Id "event" :: ctoks t ++ [Id n; Pc ";"].
Lemma read_event mods t n : mods_ok mods -> cn_all type_word t = true -> ident n = true ->
  reads_member (event_toks mods t n) (KEvent mods t n).
Proof.
  intros Hm Ht Hn. unfold event_toks. split; [apply head_mods; now do 2 eexists|]. intros f rest Hf.
  destruct f as [|f]. { rewrite app_length in Hf. cbn [List.length] in Hf. rewrite app_length in Hf. cbn [List.length] in Hf. lia. }
  repeat (progress (rewrite <- ?app_assoc; cbn [app])). cbn [pmember]. rewrite pmods_ok by (assumption || reflexivity).
  cbn [String.eqb Ascii.eqb Bool.eqb]. rewrite a_type_ok by (assumption || reflexivity). cbn [pbind pname]. rewrite Hn. reflexivity.
Qed.
Definition const_toks (mods : list string) (w n v : string) : list tok :=
  map Id mods ++ [Id "const"; Id w; Id n; Pc "="; Id v; Pc ";"].
Lemma read_const mods w n v x : mods_ok mods -> type_word w = true -> ident n = true -> number v = Some x ->
  reads_member (const_toks mods w n v) (KConst mods (CN w []) n x).
Proof.
  intros Hm Ht Hn Hv. unfold const_toks. split; [apply head_mods; now do 2 eexists|]. intros f rest Hf.
  destruct f as [|f]. { rewrite app_length in Hf. cbn [List.length] in Hf. lia. }
  rewrite <- app_assoc. cbn [app]. cbn [pmember]. rewrite pmods_ok by (assumption || reflexivity).
  cbn [String.eqb Ascii.eqb Bool.eqb]. rewrite a_type_word by (assumption || reflexivity). cbn [pbind pname]. rewrite Hn.
  cbn [pbind pc pnum Ascii.eqb Bool.eqb]. rewrite Hv. reflexivity.
Qed.
Definition ctor_toks (mods : list string) (n : string) (ps : list param) (l0 body : list tok) : list tok :=
  map Id mods ++ Id n :: Pc "(" :: param_toks ps ++ Pc ")" :: l0 ++ Pc "{" :: body ++ [Pc "}"].
Lemma read_ctor mods n ps body b l0 init :
  mods_ok mods -> type_ident n = true -> forallb pm_ok ps = true -> reads_stmts body b ->
  match init with
  | Some args => exists its, l0 = Pc ":" :: Id "this" :: Pc "(" :: its /\
      forall l, pargs 20 (its ++ Pc "{" :: l) = Some (args, Pc "{" :: l)
  | None => l0 = []
  end ->
  reads_member (ctor_toks mods n ps l0 body) (KCtor mods n ps init b).
Proof.
  intros Hm Hn Hp Hb Hi. unfold ctor_toks. split; [apply head_mods; now do 2 eexists|]. intros f rest Hf.
  destruct f as [|f]. { rewrite app_length in Hf. cbn [List.length] in Hf. lia. }
  replace ((map Id mods ++ Id n :: Pc "(" :: param_toks ps ++ Pc ")" :: l0 ++ Pc "{" :: body ++ [Pc "}"]) ++ rest) with
    (map Id mods ++ Id n :: Pc "(" :: param_toks ps ++ Pc ")" :: l0 ++ Pc "{" :: body ++ Pc "}" :: rest)
    by (repeat (progress (rewrite <- ?app_assoc; cbn [app])); reflexivity).
  now apply pm_ctor.
Qed.
Definition class_toks (mods : list string) (n : string) (ps : list string) (base : string) (body : list tok) : list tok :=
  map Id mods ++ Id "class" :: ctoks (own_type n ps) ++ Pc ":" :: Id base :: Pc "{" :: body ++ [Pc "}"].
Lemma read_class mods n ps base body ms : mods_ok mods -> type_ident n = true -> forallb type_ident ps = true -> type_ident base = true ->
  reads_members body ms -> reads_member (class_toks mods n ps base body) (KClass mods n ps (CN base []) ms).
Proof.
  intros Hm Hn Hp Hb Hms. unfold class_toks. split; [apply head_mods; now do 2 eexists|]. intros f rest Hf.
  assert (Hl : (S (List.length body) <= f)%nat).
  { rewrite app_length in Hf. cbn [List.length] in Hf. rewrite app_length in Hf. cbn [List.length] in Hf. rewrite app_length in Hf. cbn in Hf. lia. }
  destruct f as [|f]; [lia|].
  replace ((map Id mods ++ Id "class" :: ctoks (own_type n ps) ++ Pc ":" :: Id base :: Pc "{" :: body ++ [Pc "}"]) ++ rest) with
    (map Id mods ++ Id "class" :: ctoks (own_type n ps) ++ Pc ":" :: Id base :: Pc "{" :: body ++ Pc "}" :: rest)
    by (repeat (progress (rewrite <- ?app_assoc; cbn [app])); reflexivity).
  cbn [pmember]. rewrite pmods_ok by (assumption || reflexivity). cbn [String.eqb Ascii.eqb Bool.eqb].
  assert (T : forall l, tparams (match ps with [] => [] | _ => Pc "<" :: sep_toks ctoks (map (fun p => CN p []) ps) ++ [Pc ">"] end ++ Pc ":" :: l) = Some (ps, Pc ":" :: l)).
  { intros l. destruct ps as [|p ps]; [reflexivity|]. cbn [app]. rewrite <- app_assoc. cbn [app tparams].
    rewrite type_args_ok; [|discriminate|].
    - cbn [pbind]. rewrite (proj2 (forallb_forall _ _)).
      + f_equal. f_equal. rewrite map_map. clear. induction (p :: ps) as [|q l IH]; [reflexivity|]. cbn [map]. now rewrite IH.
      + intros t Ht. apply in_map_iff in Ht. destruct Ht as (q & <- & Hq). rewrite forallb_forall in Hp. now apply Hp.
    - apply forallb_forall. intros t Ht. apply in_map_iff in Ht. destruct Ht as (q & <- & Hq). rewrite forallb_forall in Hp.
      cbn [cn_all forallb]. rewrite andb_true_r. now apply type_ident_word, Hp. }
  unfold own_type. cbn [ctoks app]. cbn [pname pbind]. rewrite (type_ident_ident n Hn). cbn [pbind]. rewrite Hn. cbn [negb].
  replace (match map (fun p => CN p []) ps with [] => [] | _ :: _ => Pc "<" :: sep_toks ctoks (map (fun p => CN p []) ps) ++ [Pc ">"] end)
    with (match ps with [] => [] | _ => Pc "<" :: sep_toks ctoks (map (fun p => CN p []) ps) ++ [Pc ">"] end) by (destruct ps; reflexivity).
  rewrite T. cbn [pbind pc Ascii.eqb Bool.eqb].
  rewrite a_type_word by (reflexivity || now apply type_ident_word). cbn [pbind pc Ascii.eqb Bool.eqb].
  rewrite reads_m_block with (l := ms) by (assumption || lia). reflexivity.
Qed.
