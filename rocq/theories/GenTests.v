(** The generator model against the generated files in the repository (steit-derive/test-crate/src/lib.rs 246-274):
    for the declarations there it writes exactly those files, byte for byte. *)
From Verif Require Import Base Varint WireFmt Types Meta Gen GenGolden.
From Coq Require Import String.
Import String.StringSyntax.
Local Open Scope string_scope.
Local Open Scope list_scope.
Local Open Scope N_scope.

Definition nm (s : string) : nmeta := NM s None.
Definition fd (s : string) (t : rty) (tag : N) : field := FD (nm s) t tag.
Definition path : field := FD (NM "path" (Some "flatten_path")) (RVec (RInt U32)) 0.

(** log/entry.rs 19-48; test-crate/src/lib.rs 51-57, 74-83, 85-244. *)
Definition dLogEntry := 0%nat. Definition dMaybe := 1%nat. Definition dSure := 2%nat. Definition dActionsOr := 3%nat.
Definition dOldAction := 4%nat. Definition dOldHit := 5%nat. Definition dAction := 6%nat. Definition dAttack := 7%nat.
Definition dHit := 8%nat. Definition dSkill := 9%nat. Definition dHello := 10%nat. Definition dOuter := 11%nat.
Definition dInner := 12%nat. Definition dMulticase := 13%nat. Definition dWoof := 14%nat.
Definition acts : rty := RVec (RUser dAction []).
Definition test_env : env := [
  DL (nm "LogEntry") [] (BEnum [
    ((nm "Update", 0), [path; fd "value" RBytes 1]);
    ((nm "ListPush", 8), [path; fd "item" RBytes 1]);
    ((nm "ListPop", 9), [path]);
    ((nm "MapRemove", 12), [path; fd "key" (RInt U32) 1])]) true;
  DL (nm "Maybe") ["T"] (BEnum [((nm "None", 0), []); ((nm "Some", 1), [fd "f0" (RVar 0) 0])]) false;
  DL (nm "Sure") ["T"] (BStruct [fd "f0" (RVar 0) 0]) false;
  DL (nm "ActionsOr") ["T"] (BEnum [((nm "Actions", 0), [fd "f0" acts 0]); ((nm "Value", 1), [fd "f0" (RVar 0) 0])]) false;
  DL (nm "OldAction") [] (BEnum [
    ((nm "Raw", 0), [fd "log_entries" (RList (RInt U8)) 0]);
    ((nm "Attack", 1), [fd "attacker" (RInt U8) 0; fd "defender" (RInt U8) 1; fd "hits" (RList (RUser dOldHit [])) 2])]) false;
  DL (nm "OldHit") [] (BStruct [
    fd "before_attacking" (RBox (RUser dOldAction [])) 0; fd "before_damaging" (RBox (RUser dOldAction [])) 1;
    fd "damaging" (RBox (RUser dOldAction [])) 2; fd "after_damaging" (RBox (RUser dOldAction [])) 3;
    fd "after_attacking" (RBox (RUser dOldAction [])) 4; fd "dummy" (RInt I32) 5]) false;
  DL (nm "Action") [] (BEnum [
    ((nm "Raw", 0), []);
    ((nm "CardDraw", 1), [fd "player_index" (RInt U16) 0; fd "draw" acts 1; fd "post_draw" acts 2]);
    ((nm "CardDiscard", 2), []);
    ((nm "Attack", 3), [fd "attacker_index" (RInt U16) 0; fd "card_id" (RInt U32) 1; fd "before_attacks" acts 2;
       fd "attacks" (RUser dActionsOr [RVec (RUser dActionsOr [RUser dAttack []])]) 3; fd "after_attacks" acts 4]);
    ((nm "Skill", 4), [fd "caster_index" (RInt U16) 0; fd "card_id" (RInt U32) 1; fd "before_skills" acts 2;
       fd "skills" (RUser dActionsOr [RVec (RUser dActionsOr [RUser dSkill []])]) 3; fd "after_skills" acts 4])]) false;
  DL (nm "Attack") [] (BStruct [fd "target_index" (RInt U16) 0; fd "before_hits" acts 1;
    fd "hits" (RUser dActionsOr [RVec (RUser dActionsOr [RUser dHit []])]) 2; fd "after_hits" acts 3]) false;
  DL (nm "Hit") [] (BStruct [fd "is_miss" RBool 0; fd "pre_damage" acts 1; fd "damage" acts 2; fd "post_damage" acts 3]) false;
  DL (nm "Skill") [] (BStruct [fd "target_index" (RInt U16) 0; fd "pre_cast" acts 1; fd "cast" acts 2;
    fd "post_cast" (RVec (RUser dSure [RUser dAction []])) 3]) false;
  DL (nm "Hello") [] (BStruct [fd "numbers" (RList (RInt I32)) 0; fd "others" (RVec (RInt I32)) 1]) false;
  DL (nm "Outer") [] (BStruct [fd "foo" (RInt I32) 0; fd "bar" RBool 1; fd "inner" (RUser dInner []) 2]) false;
  DL (nm "Inner") [] (BStruct [fd "foo" (RInt I32) 0; fd "bar" RBool 1]) false;
  DL (nm "Multicase") [] (BEnum [
    ((nm "FirstCase", 0), [fd "counter" (RInt I32) 0; fd "enabled" RBool 1]);
    ((nm "SecondCase", 1), [fd "counter" (RInt I32) 0; fd "enabled" RBool 1])]) false;
  DL (nm "Woof") [] (BStruct [fd "map" (RMap K16 (RInt I32)) 0]) false
].

(** lib.rs 250-274. *)
Definition files (ns : string) (skip : bool) (root : rty) : res (list (string * string)) :=
  gen_files 100 test_env (GS csharp_name skip []) (CS ns []) root.
Definition tests := files "Just.To.Test" true.

Example gen_log_entry : files "Steit.State" false (RUser dLogEntry []) = Ok [("LogEntry.cs", golden_LogEntry)].
Proof. vm_compute. reflexivity. Qed.
Example gen_maybe : files "Steit.Builtins" false (RUser dMaybe [RInt U8]) = Ok [("Maybe.cs", golden_Maybe)].
Proof. vm_compute. reflexivity. Qed.
Example gen_old_action : tests (RUser dOldAction []) = Ok [("OldAction.cs", golden_OldAction); ("OldHit.cs", golden_OldHit)].
Proof. vm_compute. reflexivity. Qed.
Example gen_action : tests (RUser dAction []) =
  Ok [("Action.cs", golden_Action); ("ActionsOr.cs", golden_ActionsOr); ("Attack.cs", golden_Attack); ("Hit.cs", golden_Hit);
      ("Skill.cs", golden_Skill); ("Sure.cs", golden_Sure)].
Proof. vm_compute. reflexivity. Qed.
Example gen_hello : tests (RUser dHello []) = Ok [("Hello.cs", golden_Hello)].
Proof. vm_compute. reflexivity. Qed.
Example gen_outer : tests (RUser dOuter []) = Ok [("Outer.cs", golden_Outer); ("Inner.cs", golden_Inner)].
Proof. vm_compute. reflexivity. Qed.
Example gen_multicase : tests (RUser dMulticase []) = Ok [("Multicase.cs", golden_Multicase)].
Proof. vm_compute. reflexivity. Qed.
Example gen_woof : tests (RUser dWoof []) = Ok [("Woof.cs", golden_Woof)].
Proof. vm_compute. reflexivity. Qed.
