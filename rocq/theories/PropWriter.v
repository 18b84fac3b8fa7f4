(** C83: what [WriterLogger] writes for people to read, a program can read back. *)
From Verif Require Import Base Varint WireFmt Utf8 Types Ser Spec De Log State StateSpec ValInd VarintProofs WireProofs SerProofs TypeProofs DeProofs RoundTrip NormProofs LogProofs HandleProofs
  PropLog Meta Gen CsRead GenLex GenParse Sink SinkProofs GenDir WriterLog.
From Coq Require Import String Ascii.
Import String.StringSyntax.
Local Open Scope string_scope.
Local Open Scope list_scope.
Local Open Scope N_scope.

(** ** The reader *)

(** The complete lines of a text; [cur] is the line so far. *)
Fixpoint lines (cur s : string) : list string :=
  match s with
  | "" => []
  | String c s => if Ascii.eqb c "010" then cur :: lines "" s else lines (cur +++ String c "") s
  end.
(** What follows the last line end. *)
Fixpoint pending (cur s : string) : string :=
  match s with
  | "" => cur
  | String c s => if Ascii.eqb c "010" then pending "" s else pending (cur +++ String c "") s
  end.
(** Numbers in decimal, with commas and spaces between them, up to a bracket that ends the line. *)
Fixpoint nums (w s : string) : option (list N) :=
  match s with
  | "" => None
  | String c s' =>
      if String.eqb s "]" then if String.eqb w "" then Some [] else option_map (fun n => [n]) (number w)
      else if Ascii.eqb c "," then
        match number w, s' with
        | Some n, String " " s'' => option_map (cons n) (nums "" s'')
        | _, _ => None
        end
      else nums (w +++ String c "") s'
  end.
(** What is left of a text after its beginning. *)
Fixpoint strip (p s : string) : option string :=
  match p, s with
  | "", _ => Some s
  | String c p, String d s => if Ascii.eqb c d then strip p s else None
  | _, _ => None
  end.
(** The line that ends an entry. *)
Definition shown (l : string) : option bytes := match strip "} => [" l with Some s => nums "" s | None => None end.
Definition read_back (s : string) : list bytes :=
  flat_map (fun l => match shown l with Some b => [b] | None => [] end) (lines "" s).

(** ** Lines *)

Lemma app_a s t u : (s +++ t) +++ u = s +++ (t +++ u).
Proof. induction s as [|c s IH]; [reflexivity|]. cbn. now rewrite IH. Qed.
Lemma app_e s : s +++ "" = s.
Proof. induction s as [|c s IH]; [reflexivity|]. cbn. now rewrite IH. Qed.
Lemma lines_app : forall a b cur, lines cur (a +++ b) = lines cur a ++ lines (pending cur a) b.
Proof.
  induction a as [|c a IH]; intros b cur; [reflexivity|]. cbn [String.append lines pending].
  destruct (Ascii.eqb c "010"); rewrite IH; reflexivity.
Qed.
Lemma pending_app : forall a b cur, pending cur (a +++ b) = pending (pending cur a) b.
Proof.
  induction a as [|c a IH]; intros b cur; [reflexivity|]. cbn [String.append pending].
  destruct (Ascii.eqb c "010"); apply IH.
Qed.
Definition plain (c : ascii) : bool := negb (Ascii.eqb c "010").
Lemma lines_plain : forall a cur, all_chars plain a = true -> lines cur a = [] /\ pending cur a = cur +++ a.
Proof.
  induction a as [|c a IH]; intros cur P; [cbn; now rewrite app_e|]. cbn [all_chars] in P. apply andb_prop in P. destruct P as [P Q].
  apply negb_true_iff in P. cbn [lines pending]. rewrite P. destruct (IH (cur +++ String c "") Q) as [-> ->]. now rewrite app_a.
Qed.

(** ** Lines that are not shown *)

Definition dead (l : string) : Prop := shown l = None.
Lemma strip_some : forall p s r, strip p s = Some r -> s = p +++ r.
Proof.
  induction p as [|c p IH]; intros s r E; [now injection E|]. destruct s as [|d s]; [discriminate E|]. cbn [strip] in E.
  destruct (Ascii.eqb_spec c d) as [->|]; [|discriminate E]. cbn. f_equal. now apply IH.
Qed.
Lemma nums_end : forall n w s l, (String.length s <= n)%nat -> nums w s = Some l -> exists p, s = p +++ "]".
Proof.
  induction n as [|n IH]; intros w s l L E; (destruct s as [|c s]; [discriminate E|]); cbn [String.length] in L; [lia|].
  cbn [nums] in E. destruct (String.eqb_spec (String c s) "]") as [->|]; [now exists ""|].
  assert (G : (exists p, s = p +++ "]") -> exists p, String c s = p +++ "]") by (intros [p ->]; now exists (String c p)).
  apply G. destruct (Ascii.eqb c ",").
  - destruct (number w); [|discriminate E]. destruct s as [|d s]; [discriminate E|].
    assert (D : d = " "%char /\ exists l', nums "" s = Some l').
    { destruct d as [[] [] [] [] [] [] [] []]; try discriminate E. split; [reflexivity|]. destruct (nums "" s); [eauto|discriminate E]. }
    destruct D as (-> & l' & E'). cbn [String.length] in L. destruct (IH "" s l') as [p ->]; [lia|exact E'|]. now exists (String " " p).
  - apply (IH (w +++ String c "") s l); [lia|exact E].
Qed.
Lemma snoc_inj : forall p q c d, p +++ String c "" = q +++ String d "" -> c = d.
Proof.
  induction p as [|x p IH]; intros q c d E.
  - destruct q as [|y q]; [now injection E|]. cbn in E. injection E as _ E. destruct q; discriminate E.
  - destruct q as [|y q]; cbn in E; injection E as _ E; [destruct p; discriminate E|]. now apply IH in E.
Qed.
Lemma dead_brace l : dead (l +++ "{").
Proof.
  unfold dead, shown. destruct (strip "} => [" (l +++ "{")) as [s|] eqn:E; [|reflexivity]. apply strip_some in E.
  destruct (nums "" s) as [b|] eqn:F; [|reflexivity]. apply (nums_end _ _ _ _ (Nat.le_refl _)) in F. destruct F as [p ->].
  rewrite <- app_a in E. apply snoc_inj in E. discriminate E.
Qed.

(** A line that has begun otherwise than with a brace. *)
Definition quiet (l : string) : Prop := match l with "" => False | String c _ => c <> "}"%char end.
Lemma quiet_dead l : quiet l -> dead l.
Proof.
  destruct l as [|c l]; [intros []|]. intros Q. unfold dead, shown. cbn [quiet strip] in *.
  destruct (Ascii.eqb_spec "}" c) as [<-|]; [now contradict Q|reflexivity].
Qed.
Lemma quiet_app l a : quiet l -> quiet (l +++ a).
Proof. now destruct l. Qed.
Definition calm (t : string) : Prop := forall cur, quiet cur -> Forall dead (lines cur t) /\ quiet (pending cur t).
Lemma calm_app a b : calm a -> calm b -> calm (a +++ b).
Proof.
  intros A B cur Q. destruct (A cur Q) as [A1 A2]. destruct (B _ A2) as [B1 B2]. rewrite lines_app, pending_app.
  split; [apply Forall_app; now split|exact B2].
Qed.
Lemma calm_plain a : all_chars plain a = true -> calm a.
Proof. intros P cur Q. destruct (lines_plain a cur P) as [-> ->]. split; [constructor|now apply quiet_app]. Qed.
Lemma calm_break n a : calm a -> calm (nl +++ spaces (S n) +++ a).
Proof.
  intros A cur Q.
  assert (P : forall k c, c <> "}"%char -> calm (spaces k)).
  { intros k _ _. apply calm_plain. induction k; [reflexivity|exact IHk]. }
  destruct (calm_app _ _ (P n " "%char ltac:(discriminate)) A " ") as [B1 B2]; [discriminate|].
  split; [|exact B2]. change (Forall dead (cur :: lines " " (spaces n +++ a))). constructor; [now apply quiet_dead|exact B1].
Qed.
Lemma plain_dec n : all_chars plain (dec n) = true.
Proof.
  pose proof (word_dec n) as W. unfold word in W. destruct (dec n) as [|c s]; [discriminate W|]. revert W. generalize (String c s).
  induction s0 as [|d t IH]; [reflexivity|]. cbn [all_chars]. intros W. apply andb_prop in W. destruct W as [W1 W2]. rewrite (IH W2), andb_true_r.
  unfold plain. destruct (Ascii.eqb_spec d "010") as [->|]; [discriminate W1|reflexivity].
Qed.

Lemma calm_nums i l : calm (pretty (S i) (nums_dbg l)).
Proof.
  unfold nums_dbg. destruct l as [|n l]; [now apply calm_plain|]. change (map DNum (n :: l)) with (DNum n :: map DNum l).
  assert (G : forall l a, calm a -> calm (nl +++ ((fix go l := match l with
                   | [] => ""
                   | x :: l => spaces (4 + S i) +++ pretty (4 + S i) x +++ "," +++ nl +++ go l
                   end) (map DNum l)) +++ spaces (S i) +++ a)).
  { clear. induction l as [|n l IH]; intros a A; [now apply calm_break|]. cbn [map pretty]. rewrite !app_a.
    apply (calm_break (3 + S i)). apply calm_app; [apply calm_plain, plain_dec|]. apply calm_app; [now apply calm_plain|]. now apply IH. }
  specialize (G (n :: l) "]" (calm_plain "]" eq_refl)). apply (calm_app "[" _ (calm_plain "[" eq_refl)) in G. exact G.
Qed.
Lemma calm_cache i n : calm (pretty (S i) (cache_dbg n)).
Proof.
  unfold cache_dbg. cbn [pretty]. apply calm_app; [now apply calm_plain|]. apply calm_app; [now apply calm_plain|]. rewrite !app_a.
  apply (calm_break (3 + S i)). apply calm_app; [now apply calm_plain|]. apply calm_app; [now apply calm_plain|].
  apply calm_app; [apply calm_plain, plain_dec|]. apply calm_app; [now apply calm_plain|]. now apply calm_break, calm_plain.
Qed.
Lemma calm_num i n : calm (pretty i (DNum n)).
Proof. apply calm_plain, plain_dec. Qed.

(** ** The text of an entry *)

Lemma number_char c s : id_char c = true -> String.eqb (String c s) "]" = false /\ Ascii.eqb c "," = false.
Proof.
  intros H. split.
  - destruct (String.eqb_spec (String c s) "]") as [E|]; [|reflexivity]. injection E as -> _. discriminate H.
  - destruct (Ascii.eqb_spec c ",") as [->|]; [discriminate H|reflexivity].
Qed.
Lemma nums_word : forall a w s, all_chars id_char a = true -> nums w (a +++ s) = nums (w +++ a) s.
Proof.
  induction a as [|c a IH]; intros w s H; [now rewrite app_e|]. cbn [all_chars] in H. apply andb_prop in H. destruct H as [H1 H2].
  cbn [String.append nums]. destruct (number_char c (a +++ s) H1) as [-> ->]. rewrite IH by exact H2. now rewrite app_a.
Qed.
Lemma dec_chars n : all_chars id_char (dec n) = true /\ dec n <> "".
Proof. pose proof (word_dec n) as W. unfold word in W. destruct (dec n); [discriminate W|]. now split. Qed.
Lemma nums_list : forall l, nums "" (comma_list l +++ "]") = Some l.
Proof.
  induction l as [|n l IH]; [reflexivity|]. destruct (dec_chars n) as [C N]. destruct l as [|k l].
  - cbn [comma_list]. rewrite nums_word by exact C. cbn [nums String.append]. rewrite String.eqb_refl.
    destruct (String.eqb_spec (dec n) "") as [E|_]; [now contradict N|]. now rewrite number_dec.
  - change (comma_list (n :: k :: l)) with (dec n +++ ", " +++ comma_list (k :: l)). rewrite app_a, nums_word by exact C.
    change ("" +++ dec n) with (dec n). change ((", " +++ comma_list (k :: l)) +++ "]") with (String "," (String " " (comma_list (k :: l) +++ "]"))).
    cbn [nums]. change (String.eqb (String "," (String " " (comma_list (k :: l) +++ "]"))) "]") with false. cbn [Ascii.eqb Bool.eqb].
    rewrite number_dec, IH. reflexivity.
Qed.
Lemma plain_list : forall l, all_chars plain (comma_list l) = true.
Proof.
  induction l as [|n l IH]; [reflexivity|]. destruct l as [|k l]; [apply plain_dec|].
  change (comma_list (n :: k :: l)) with (dec n +++ ", " +++ comma_list (k :: l)). now rewrite !all_chars_app, plain_dec, IH.
Qed.

(** Whole lines that are not shown, from the start of a line. *)
Definition tidy (t : string) : Prop := Forall dead (lines "" t) /\ pending "" t = "".
Lemma tidy_app a b : tidy a -> tidy b -> tidy (a +++ b).
Proof.
  intros [A1 A2] [B1 B2]. unfold tidy. rewrite lines_app, pending_app, A2. split; [apply Forall_app; now split|exact B2].
Qed.
Lemma tidy_field f t rest : all_chars plain f = true -> calm t -> tidy rest -> tidy (spaces 4 +++ f +++ ": " +++ t +++ "," +++ nl +++ rest).
Proof.
  intros F T R. assert (E : forall r, spaces 4 +++ f +++ ": " +++ t +++ "," +++ nl +++ r = (spaces 4 +++ f +++ ": " +++ t +++ "," +++ nl) +++ r)
    by (intros r; now rewrite !app_a).
  rewrite E. apply tidy_app; [|exact R]. clear E R.
  destruct (calm_app _ _ (calm_plain _ F) (calm_app ": " _ (calm_plain ": " eq_refl) (calm_app _ "," T (calm_plain "," eq_refl))) "    ") as [C1 C2]; [discriminate|].
  assert (E : spaces 4 +++ f +++ ": " +++ t +++ "," +++ nl = "    " +++ (f +++ ": " +++ t +++ ",") +++ nl) by now rewrite !app_a.
  rewrite E. clear E. revert C1 C2. generalize (f +++ ": " +++ t +++ ","). intros g C1 C2.
  change (Forall dead (lines "    " (g +++ nl)) /\ pending "    " (g +++ nl) = "").
  rewrite lines_app, pending_app. split; [|reflexivity]. apply Forall_app. split; [exact C1|]. constructor; [now apply quiet_dead|constructor].
Qed.

Fixpoint fields (fs : list (string * dval)) : string :=
  match fs with
  | [] => ""
  | (f, x) :: fs => spaces 4 +++ f +++ ": " +++ pretty 4 x +++ "," +++ nl +++ fields fs
  end.
Lemma pretty_rec name f fs : pretty 0 (DRec name (f :: fs)) = name +++ " {" +++ nl +++ fields (f :: fs) +++ "}".
Proof. reflexivity. Qed.
Lemma tidy_fields fs : Forall (fun f => all_chars plain (fst f) = true /\ calm (pretty 4 (snd f))) fs -> tidy (fields fs).
Proof.
  induction fs as [|[f x] fs IH]; intros F; [split; [constructor|reflexivity]|]. inversion F as [|? ? [P C] F']; subst. apply tidy_field; [exact P|exact C|now apply IH].
Qed.
Lemma entry_shape size e : exists name g, pretty 0 (entry_dbg size e) = name +++ " {" +++ nl +++ g +++ "}" /\ all_chars plain name = true /\ tidy g.
Proof.
  destruct e; cbn [entry_dbg]; rewrite pretty_rec; eexists _, _; (split; [reflexivity|]); (split; [reflexivity|]); apply tidy_fields;
    repeat (apply Forall_cons; [split; [reflexivity|]; cbn [snd]|]); try apply Forall_nil;
    first [apply (calm_nums 3)|apply (calm_cache 3)|apply (calm_num 4)].
Qed.

(** Whatever was on the line before, the text of an entry shows its bytes in its last line and nothing else. *)
Lemma text_lines e bs h cur : exists ls,
  lines cur (log_text e bs h) = ls ++ ["} => " +++ compact bs] /\ Forall dead ls /\ pending cur (log_text e bs h) = "".
Proof.
  unfold log_text. destruct (entry_shape (h []) e) as (name & g & -> & P & T1 & T2).
  assert (E : (name +++ " {" +++ nl +++ g +++ "}") +++ " => " +++ compact bs +++ nl = (name +++ " {") +++ nl +++ g +++ ("} => " +++ compact bs) +++ nl).
  { rewrite !app_a. reflexivity. }
  rewrite E. clear E.
  assert (P1 : all_chars plain (name +++ " {") = true) by now rewrite all_chars_app, P.
  assert (P2 : all_chars plain ("} => " +++ compact bs) = true).
  { unfold compact. rewrite !all_chars_app, plain_list. reflexivity. }
  destruct (lines_plain _ cur P1) as [L1 Q1]. destruct (lines_plain _ "" P2) as [L2 Q2].
  clear P1 P2. revert L2 Q2. generalize ("} => " +++ compact bs). intros l L2 Q2.
  rewrite (lines_app (name +++ " {")), L1, Q1, (pending_app (name +++ " {")), Q1.
  change (lines (cur +++ name +++ " {") (nl +++ g +++ l +++ nl)) with ((cur +++ name +++ " {") :: lines "" (g +++ l +++ nl)).
  change (pending (cur +++ name +++ " {") (nl +++ g +++ l +++ nl)) with (pending "" (g +++ l +++ nl)).
  rewrite (lines_app g), (pending_app g), T2, (lines_app l), (pending_app l), L2, Q2.
  exists ((cur +++ name +++ " {") :: lines "" g). split; [reflexivity|]. split; [|reflexivity].
  constructor; [|exact T1]. replace (cur +++ name +++ " {") with ((cur +++ name +++ " ") +++ "{") by now rewrite !app_a. apply dead_brace.
Qed.
Lemma shown_last bs : shown ("} => " +++ compact bs) = Some bs.
Proof. exact (nums_list bs). Qed.

Definition bytes_of (ls : list string) : list bytes := flat_map (fun l => match shown l with Some b => [b] | None => [] end) ls.
Lemma bytes_app a b : bytes_of (a ++ b) = bytes_of a ++ bytes_of b.
Proof. apply flat_map_app. Qed.
Lemma bytes_dead ls : Forall dead ls -> bytes_of ls = [].
Proof. induction 1 as [|l ls D _ IH]; [reflexivity|]. unfold bytes_of in *. cbn [flat_map]. now rewrite D, IH. Qed.
Lemma text_read e bs h cur : bytes_of (lines cur (log_text e bs h)) = [bs].
Proof. destruct (text_lines e bs h cur) as (ls & -> & D & _). rewrite bytes_app, (bytes_dead _ D). unfold bytes_of. cbn [flat_map]. now rewrite shown_last. Qed.

(** A text that is cut off shows nothing. *)
Lemma lines_nl : forall q cur, lines cur (q +++ nl) <> [].
Proof. induction q as [|c q IH]; intros cur; [discriminate|]. cbn [String.append lines]. destruct (Ascii.eqb c "010"); [discriminate|apply IH]. Qed.
Lemma last_nl : forall p q a, p +++ q = a +++ nl -> q <> "" -> exists q', q = q' +++ nl.
Proof.
  induction p as [|c p IH]; intros q a E N; [now exists a|]. destruct a as [|d a].
  - cbn in E. injection E as _ E. destruct p; [|discriminate E]. cbn in E. now contradict N.
  - cbn in E. injection E as _ E. now apply (IH q a).
Qed.
Lemma cut_read e bs h p q cur : log_text e bs h = p +++ q -> q <> "" -> bytes_of (lines cur p) = [].
Proof.
  intros E N. destruct (text_lines e bs h cur) as (ls & L & D & _). rewrite E, lines_app in L.
  destruct (last_nl p q (pretty 0 (entry_dbg (h []) e) +++ " => " +++ compact bs)) as [q' ->]; [|exact N|].
  { rewrite <- E. unfold log_text. now rewrite !app_a. }
  pose proof (lines_nl q' (pending cur p)) as X. destruct (exists_last X) as (l & x & Y). rewrite Y in L. rewrite app_assoc in L.
  apply app_inj_tail in L. destruct L as [L _]. apply bytes_dead. rewrite <- L in D. now apply Forall_app in D.
Qed.

(** ** Writing *)

Fixpoint join (ps : list string) : string := match ps with [] => "" | p :: ps => p +++ join ps end.
Lemma text_bytes_app a b : text_bytes (a +++ b) = text_bytes a ++ text_bytes b.
Proof. induction a as [|c a IH]; [reflexivity|]. unfold text_bytes in *. cbn. now rewrite IH. Qed.
Lemma put_pieces_outcome : forall ps s r s', put_pieces ps s = (r, s') -> outcome s (text_bytes (join ps)) r s'.
Proof.
  induction ps as [|p ps IH]; intros s r s' E; [injection E as <- <-; apply outcome_nil|]. cbn [put_pieces] in E. cbn [join]. rewrite text_bytes_app.
  destruct (write_all_delivers (text_bytes p) fresh_store s) as (r1 & h1 & s1 & W & _ & O). rewrite W in E.
  destruct (outcome_cases _ _ _ _ O) as [->|[x ->]].
  - apply (outcome_app s _ s1); [exact O|now apply IH].
  - injection E as <- <-. now apply outcome_io.
Qed.
Lemma text_cut : forall t c, (c < List.length (text_bytes t))%nat -> exists p q, t = p +++ q /\ q <> "" /\ firstn c (text_bytes t) = text_bytes p.
Proof.
  induction t as [|a t IH]; intros c L; [cbn in L; lia|]. destruct c as [|c].
  - exists "", (String a t). repeat split. discriminate.
  - destruct (IH c) as (p & q & -> & N & F); [cbn in L; unfold text_bytes; lia|]. exists (String a p), q. repeat split; [exact N|].
    unfold text_bytes in *. cbn [String.append list_ascii_of_string map firstn]. now rewrite F.
Qed.
Lemma write_entry_size m e h : PropLog.fits e -> exists h',
  write_nested m (entry_val e) h = Ok (entry_wire e, h') /\ h' [] = lenN (enc (entry_val e)).
Proof.
  intros [O L]. rewrite entry_wire_delimited in *.
  assert (K : ser_ok (entry_val e)).
  { apply (wt_ser_ok tEntry); [apply tEntry_ok|now apply wt_entry|]. pose proof (lossless_entry e O) as H. apply lossless_and in H. tauto. }
  assert (L0 : lenN (enc (entry_val e)) < 2 ^ 32) by (pose proof (delimited_len (entry_val e) (enc (entry_val e))); lia).
  unfold write_nested. destruct (cache_size_spec _ K L0 m [] h) as [h1 [E1 [A1 _]]]. rewrite E1. cbn [bind].
  destruct (ser_nested_spec m None false [] (entry_val e) (ser_cached m [] (entry_val e)) h1 K) as [h2 [E2 S2]]; try assumption; [exact Logic.I| |].
  - intros h0 A0. destruct (ser_cached_spec _ K L0 m [] h0) as [h' [E S]]; [now apply all_ok_kids|]. eauto.
  - exists h2. split; [exact E2|]. rewrite S2. apply (all_ok_own _ _ _ A1). now destruct e.
Qed.

(** ** C83 *)

(** The text of an entry: the size shown is that of the entry, the bytes are those that any logger would store. *)
Definition entry_text (e : entry) : string := log_text e (entry_wire e) (fun _ => lenN (enc (entry_val e))).

(** [log] sends that text, or as much of it as the writer takes before it fails, with the error of the writer. *)
Theorem c83_log : forall m split s e, (forall t, join (split t) = t) -> PropLog.fits e ->
  exists r s', writer_log m split s e = (r, s') /\
    ((SinkProofs.fits s (List.length (text_bytes (entry_text e))) /\ r = OkW tt /\ sent s' = sent s ++ text_bytes (entry_text e) /\
        room s' = option_map (fun c => c - List.length (text_bytes (entry_text e)))%nat (room s) /\ fault s' = fault s) \/
     (exists c x, room s = Some c /\ (c < List.length (text_bytes (entry_text e)))%nat /\ fault s = Some x /\ r = IoW x /\
        sent s' = sent s ++ firstn c (text_bytes (entry_text e)))).
Proof.
  intros m split s e J F. destruct (write_entry_size m e fresh_store F) as (h & W & Z). unfold writer_log. rewrite W.
  assert (E : log_text e (entry_wire e) h = entry_text e) by (unfold log_text, entry_text; now rewrite Z). rewrite E.
  destruct (put_pieces (split (entry_text e)) s) as [r s'] eqn:P. exists r, s'. split; [reflexivity|].
  apply put_pieces_outcome in P. rewrite J in P. exact P.
Qed.
Print Assumptions c83_log.

(** The entries whose [log] returned [Ok]. *)
Definition logged (es : list entry) (rs : list (resW unit)) : list entry :=
  map fst (filter (fun x => match snd x with OkW _ => true | _ => false end) (combine es rs)).

(** Reading the text back gives the bytes of exactly those entries, also when the program goes on after a failure and the
    rest of the text of an entry is missing. *)
Theorem c83_read_back : forall m split s es, (forall t, join (split t) = t) -> Forall PropLog.fits es ->
  exists rs s' t, writer_logs m split s es = (rs, s') /\ List.length rs = List.length es /\
    sent s' = sent s ++ text_bytes t /\ read_back t = map entry_wire (logged es rs).
Proof.
  intros m split s es J F.
  assert (G : exists rs s' t, writer_logs m split s es = (rs, s') /\ List.length rs = List.length es /\
    sent s' = sent s ++ text_bytes t /\ forall cur, bytes_of (lines cur t) = map entry_wire (logged es rs)).
  { revert s. induction F as [|e es Fe F IH]; intros s.
    - exists [], s, "". cbn. rewrite app_nil_r. now repeat split.
    - destruct (c83_log m split s e J Fe) as (r & s1 & E & O). cbn [writer_logs]. rewrite E.
      destruct (IH s1) as (rs & s2 & t & E2 & L & S & R). rewrite E2.
      destruct O as [(_ & -> & S1 & _)|(c & x & _ & C & _ & -> & S1)].
      + exists (OkW tt :: rs), s2, (entry_text e +++ t). split; [reflexivity|]. split; [cbn; now rewrite L|].
        split; [now rewrite S, S1, text_bytes_app, app_assoc|]. intros cur. rewrite lines_app, bytes_app, R.
        unfold entry_text. rewrite text_read. reflexivity.
      + destruct (text_cut _ _ C) as (p & q & T & N & Cp). exists (IoW x :: rs), s2, (p +++ t). split; [reflexivity|]. split; [cbn; now rewrite L|].
        split; [now rewrite S, S1, Cp, text_bytes_app, app_assoc|]. intros cur. rewrite lines_app, bytes_app, R.
        rewrite (cut_read _ _ _ _ _ cur T N). reflexivity. }
  destruct G as (rs & s' & t & E & L & S & R). exists rs, s', t. repeat split; auto. apply R.
Qed.
Print Assumptions c83_read_back.

(** The bytes read back are a log: those that a [BufferLogger] has after the same entries; a state that replays them
    handles the logged entries in turn. *)
Theorem c83_replay : forall m split s es, (forall t, join (split t) = t) -> Forall PropLog.fits es ->
  exists rs s' t, writer_logs m split s es = (rs, s') /\ sent s' = sent s ++ text_bytes t /\
    (exists b b', log_multi buf_log [] (logged es rs) = (b, Ok tt) /\ buf_bytes m b = Ok (List.concat (read_back t), b')) /\
    (forall m' ty v, is_root v = Ok true -> replay m' ty v (List.concat (read_back t)) = handle_all m' ty (logged es rs) v).
Proof.
  intros m split s es J F. destruct (c83_read_back m split s es J F) as (rs & s' & t & E & L & S & R).
  exists rs, s', t. split; [exact E|]. split; [exact S|]. rewrite R.
  assert (F' : Forall PropLog.fits (logged es rs)).
  { apply Forall_forall. intros e H. unfold logged in H. apply in_map_iff in H. destruct H as ([e' r] & <- & H). apply filter_In in H.
    destruct H as [H _]. apply in_combine_l in H. rewrite Forall_forall in F. now apply F. }
  split.
  - destruct (log_multi_buf (logged es rs) []) as (b & M & B). rewrite app_nil_l in B.
    destruct (buf_bytes_spec m b) as (b' & K & _); [now rewrite B|]. exists b, b'. rewrite B in K. now split.
  - intros m' ty v Rt. unfold replay. rewrite Rt.
    pose proof (replay_run m' ty (logged es rs)) as X. rewrite <- (app_nil_r (List.concat _)), X; clear X.
    + destruct (handle_all m' ty (logged es rs) v) as [v' [[]|x| |]]; reflexivity.
    + eapply Forall_impl; [|exact F']. intros e [O Q]. split; [exact O|]. unfold entry_wire in Q. rewrite lenN_app in Q.
      change (2 ^ 64) with (2 ^ 32 * 2 ^ 32). lia.
Qed.
Print Assumptions c83_replay.

(** An item is pushed; a removal is lost in the middle of its last line and the next entry begins on that line. *)
Definition push_entry : entry := EListPush [3; 0] [7; 200].
Definition words (t : string) : list string := let fix go c s := match s with "" => [c] | String x s => String x "" :: go c s end in go "" t.
Definition broken : sink := mkSink [Takes 289; Pauses; Full] [].
Example c83_case :
  entry_text push_entry =
    "ListPush {" +++ nl +++
    "    path: [" +++ nl +++
    "        3," +++ nl +++
    "        0," +++ nl +++
    "    ]," +++ nl +++
    "    item: [" +++ nl +++
    "        7," +++ nl +++
    "        200," +++ nl +++
    "    ]," +++ nl +++
    "    size_cache: SizeCache {" +++ nl +++
    "        size: 9," +++ nl +++
    "    }," +++ nl +++
    "} => [9, 8, 2, 2, 3, 0, 10, 2, 7, 200]" +++ nl /\
  (let '(rs, s) := writer_logs Release words broken [push_entry; EMapRemove [] 5; EListPop [3; 0]] in
   rs = [OkW tt; IoW WriteZero; OkW tt] /\
   exists t, sent s = text_bytes t /\
     In "} => [3, 12, 8ListPop {" (lines "" t) /\
     read_back t = [[9; 8; 2; 2; 3; 0; 10; 2; 7; 200]; [5; 9; 2; 2; 3; 0]]).
Proof.
  split; [vm_compute; reflexivity|].
  destruct (writer_logs Release words broken [push_entry; EMapRemove [] 5; EListPop [3; 0]]) as [rs s] eqn:E. vm_compute in E. injection E as <- <-.
  split; [reflexivity|].
  exists (entry_text push_entry +++ substring 0 104 (entry_text (EMapRemove [] 5)) +++ entry_text (EListPop [3; 0])).
  split; [vm_compute; reflexivity|]. split; [|vm_compute; reflexivity]. vm_compute. tauto.
Qed.
