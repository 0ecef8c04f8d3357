(** C48: property theorems for rule attributes. *)
From Verif Require Import Base RuleDataModel RuleDataSpec RuleDataProofs.
Local Open Scope Z_scope.

(** C48 is false as stated: rule 1 is a copy of rule 0; setting the attributes of the item of
    rule 1 changes those of the item of rule 0. *)
Theorem C48_copies_refuted : exists (w w' : world (attrs := Z)), rrun start [RNew; RAppend 0; RSet 0 0 7; RCopy 0] = Some w /\
  rstep w (RSet 1 0 8) = Some w' /\ attributes_for 0 w 0 0 = 7 /\ attributes_for 0 w' 0 0 = 8.
Proof. exists (mkW [[1]; [1]] 2 [(1, 7)]), (mkW [[1]; [1]] 2 [(1, 8)]). repeat split. Qed.
Print Assumptions C48_copies_refuted.

(** C48, the part that holds: for every history of creating, extending, copying and assigning
    rules and of setting attributes, in which no item that has attributes gets new ones after
    it was copied, every item of every rule reports the attributes last set on it (or on the
    item it was copied from, before the copy), and the defaults if there are none.  Missing:
    new attributes for an item that was copied, or is a copy. *)
Theorem C48_attributes_partial (attrs : Type) (default : attrs) (ops : list rop) (w : world) (r i : nat) :
  sets_before_copies [] ops -> rrun start ops = Some w ->
  attributes_for default w r i = reported default (srun [] ops) r i.
Proof. exact (attributes_lemma default ops w r i). Qed.
Print Assumptions C48_attributes_partial.

Example C48_nontrivial :
  let ops := [RNew; RAppend 0; RAppend 0; RSet 0 1 5; RSet 0 1 6; RNew; RAppend 1; RAppendRule 1 0; RSet 1 0 9; RSet 1 1 3; RSet 0 0 4] in
  sets_before_copies [] ops /\
  exists w, rrun start ops = Some w /\ map (fun p => attributes_for 0 w (fst p) (snd p)) [(0, 0); (0, 1); (1, 0); (1, 1); (1, 2)]%nat = [4; 6; 9; 3; 6].
Proof. split; [repeat split|]. eexists. split; [reflexivity|reflexivity]. Qed.
