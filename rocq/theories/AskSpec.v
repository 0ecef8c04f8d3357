(** What the answers of a builder have to be. *)
From Verif Require Import Base OrdMap GrammarModel LrItemModel ActionModel AskModel.
Local Open Scope Z_scope.

(** The rewriters in force after some requests *)
Fixpoint in_force (ws : list rewriter) (rs : list request) : list rewriter :=
  match rs with
  | [] => ws
  | AddRewriter w :: rs => in_force (ws ++ [w]) rs
  | SetRewriters ws' :: rs => in_force ws' rs
  | Ask _ :: rs => in_force ws rs
  end.

(** The requests up to the first question for a state *)
Fixpoint before (q : Z) (rs : list request) : list request :=
  match rs with
  | [] => []
  | Ask q' :: rs => if q' =? q then [] else Ask q' :: before q rs
  | r :: rs => r :: before q rs
  end.

(** Rewriting: each rewriter works on what the one before it left. *)
Definition rewritten (ws : list rewriter) (q : Z) (acts : action_set) : action_set := fold_left (fun acts w => w q acts) ws acts.

(** All rewriters are set before the first question. *)
Definition settled (rs : list request) : Prop :=
  exists rs1 qs, rs = rs1 ++ map Ask qs /\ forall r, In r rs1 -> match r with Ask _ => False | _ => True end.
