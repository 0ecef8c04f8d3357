(** What the functions of generated source mean. *)
From Verif Require Import Base NamesModel StartFunModel.
Local Open Scope Z_scope.

(** A call of the function [name] with parameters [p] makes a parser that starts in [state]. *)
Inductive starts_in (fs : list creator) : str -> parameters -> Z -> Prop :=
| starts_here name p state : In (mkCreator name p (CreateParser state)) fs -> starts_in fs name p state
| starts_there name p name' p' state : In (mkCreator name p (Calls name' p')) fs -> starts_in fs name' p' state -> starts_in fs name p state.

(** C++ has one definition for each name and list of parameters. *)
Definition one_definition (fs : list creator) : Prop := NoDup (map (fun f => (cr_name f, cr_parameters f)) fs).
