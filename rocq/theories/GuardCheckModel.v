(** Model of the check of guards at the end of a language stage (Compiler/language_stage.cpp 506-537).  The
    guards it goes through are [g_guards] of LangModel.v. *)
From Verif Require Import Base OrdMap GrammarModel FirstModel LangModel.
Local Open Scope Z_scope.

(** EMPTY_GUARD (a warning) and INEFFECTIVE_GUARD (an error) *)
Inductive guard_message := EmptyGuard (g : item) | IneffectiveGuard (g : item).
(** 515-537, for one guard and then for all in the order of the map.  [allowed]: the option allow-empty-guards
    is set.  [None]: FIRST ran out of fuel *)
Definition check_guard (rules : Z -> list (list item)) (fuel : nat) (allowed : bool) (g : item) (c : first_cache) : option (first_cache * list guard_message) :=
  match g with
  | IGuard _ l =>
      match first_for_rule rules fuel l c with
      | None => None
      | Some (c, s) =>
          Some (c, if icontains s IEmpty then
                     match l with
                     | [] => if allowed then [] else [EmptyGuard g]
                     | _ => [IneffectiveGuard g]
                     end
                   else [])
      end
  | _ => Some (c, [])
  end.
Fixpoint check_guards (rules : Z -> list (list item)) (fuel : nat) (allowed : bool) (gs : list item) (c : first_cache) : option (first_cache * list guard_message) :=
  match gs with
  | [] => Some (c, [])
  | g :: gs =>
      match check_guard rules fuel allowed g c with
      | None => None
      | Some (c, ms) => match check_guards rules fuel allowed gs c with None => None | Some (c, ns) => Some (c, ms ++ ns) end
      end
  end.
(** The check for a language that has been compiled: the caches of its grammar are empty (grammar.cpp 76-79,
    and nothing before 515 asks for FIRST). *)
Definition check_stage (fuel : nat) (allowed : bool) (st : stage) : option (list guard_message) :=
  option_map snd (check_guards (LangModel.rules_of (g_rules (s_gram st))) fuel allowed (g_guards (s_gram st)) []).
