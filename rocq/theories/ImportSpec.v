(** What the import of language files should do. *)
From Verif Require Import Base TermDictModel ImportModel.

Section Spec.
  Context {block : Type} (real_path : name -> name) (load : name -> option (file block)).
  (** The files that a file with the name [root] and the given content brings in, with their real paths *)
  Inductive reached (root : name) (f : option (file block)) : name -> option (file block) -> Prop :=
  | reached_root : reached root f (real_path root) f
  | reached_import p g n : reached root f p (Some g) -> In (Import n) g -> reached root f (real_path n) (load n).
  (** The blocks for a language in a list of files *)
  Definition blocks_in (n : name) (f : option (file block)) : list block :=
    match f with
    | Some f => flat_map (fun d => match d with Language m b => if list_eq_dec Z.eq_dec m n then [b] else [] | _ => [] end) f
    | None => []
    end.
  Definition blocks_for (n : name) (fs : list (name * option (file block))) : list block := flat_map (fun p => blocks_in n (snd p)) fs.
  (** How often a language is said to be defined more than once *)
  Definition said_again (n : name) (ms : list message) : nat :=
    length (filter (fun m => match m with Ambiguous _ k => if list_eq_dec Z.eq_dec k n then true else false | Original _ _ => false end) ms).
  (** Two names with the same real path are of the same file. *)
  Definition same_files (root : name) (f : option (file block)) : Prop :=
    real_path (real_path root) = real_path root /\ (forall n, real_path n = real_path root -> load n = f) /\
    forall n m, real_path n = real_path m -> load n = load m.
End Spec.
