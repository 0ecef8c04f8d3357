(** Model of the answers an lalr_builder keeps (TameParse/Lr/lalr_builder.cpp 369-377, 449-546,
    m_ActionsForState and m_ActionRewriters).  No proofs in this file. *)
From Verif Require Import Base OrdMap GrammarModel FirstModel LrItemModel ClosureModel MachineModel BuilderModel ActionModel.
Local Open Scope Z_scope.

(** A builder whose machine is complete: its rewriters, the answers it keeps, and the caches of the
    grammar it works with *)
Record asked_builder := mkAsked { ab_rewriters : list rewriter; ab_kept : list (Z * action_set); ab_cache : caching }.

Inductive request := AddRewriter (w : rewriter) | SetRewriters (ws : list rewriter) | Ask (q : Z).

Section Ask.
  Context (rid : rule -> Z) (first_of : item -> iset) (rules : Z -> list (list item)) (busy : nat -> list item -> item -> bool)
    (fuel : nat) (m : machine) (guards : guard_states).

  (** lalr_builder.cpp 452-546: the kept answer or a new one, which is kept.  (The entry is made
      before the answer is complete; a rewriter that asks for its own state would see it.  Rewriters
      are functions of the actions here.) *)
  Definition ask (b : asked_builder) (q : Z) : option (asked_builder * action_set) :=
    match mfind Z.ltb q (ab_kept b) with
    | Some acts => Some (b, acts)
    | None => match actions_for_state rid first_of rules busy fuel m guards (ab_rewriters b) q (ab_cache b) with
              | None => None
              | Some (acts, c) => Some (mkAsked (ab_rewriters b) (mset Z.ltb q acts (ab_kept b)) c, acts)
              end
    end.

  (** lalr_builder.cpp 370-377 *)
  Definition add_rewriter (b : asked_builder) (w : rewriter) : asked_builder := mkAsked (ab_rewriters b ++ [w]) (ab_kept b) (ab_cache b).
  Definition set_rewriters (b : asked_builder) (ws : list rewriter) : asked_builder := mkAsked ws (ab_kept b) (ab_cache b).

  (** A history, with the answers given (none for the changes of rewriters) *)
  Fixpoint history (b : asked_builder) (rs : list request) : option (list (option action_set)) :=
    match rs with
    | [] => Some []
    | AddRewriter w :: rs => match history (add_rewriter b w) rs with None => None | Some l => Some (None :: l) end
    | SetRewriters ws :: rs => match history (set_rewriters b ws) rs with None => None | Some l => Some (None :: l) end
    | Ask q :: rs => match ask b q with
                     | None => None
                     | Some (b, acts) => match history b rs with None => None | Some l => Some (Some acts :: l) end
                     end
    end.
End Ask.
