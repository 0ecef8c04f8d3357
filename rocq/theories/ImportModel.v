(** Model of the import of language files (Compiler/import_stage.cpp 37-129, import_stage.h 80-104).  Reading
    and parsing a file (parser_stage) and console::real_path are section variables. *)
From Verif Require Import Base OrdMap TermDictModel.
Local Open Scope Z_scope.

Section Import.
  (** Language blocks, as they are handed on to the next stage *)
  Context (block : Type).
  (** The blocks at the top of a file (Language/toplevel_block.h).  Parser and test blocks are of no interest
      here. *)
  Inductive defn := Import (file : name) | Language (n : name) (b : block) | OtherDefn.
  Definition file := list defn.
  (** console::real_path *)
  Context (real_path : name -> name).
  (** parser_stage::compile and definition_file: [None] if the file cannot be read or is not right; what the
      parser stage reports then is not modelled.  The name is that of the import statement: it does not matter
      which file the statement is in. *)
  Context (load : name -> option file).

  (** AMBIGUOUS_LANGUAGE_DEFINITION and AMBIGUOUS_LANGUAGE_ORIGINAL, with the file and the language *)
  Inductive message := Ambiguous (f n : name) | Original (f n : name).
  (** import_stage.h 55-66; [i_reads] is not in the class: the files that are read, in order *)
  Record imports := mkImports {
    i_files : list (name * option file);
    i_short : list (name * name);
    i_blocks : list (name * block);
    i_where : list (name * name);
    i_messages : list message;
    i_reads : list name }.
  (** import_stage.cpp 37-46 *)
  Definition new_imports (root : name) (f : option file) : imports :=
    mkImports [(real_path root, f)] [(real_path root, root)] [] [] [] [].

  (** m_ShortNameForFile[...] and m_LanguageFile[...] as values *)
  Definition at_name (n : name) (m : list (name * name)) : name := match mfind name_ltb n m with Some s => s | None => [] end.
  (** import_stage.cpp 79-121: one block of the file with the real path [p] *)
  Definition stack := list (name * option file).
  Definition look_at (p : name) (s : imports * list name * stack) (d : defn) : imports * list name * stack :=
    let '(st, imported, st_stack) := s in
    match d with
    | Import n =>
        let r := real_path n in
        if smem name_ltb r imported then s
        else (mkImports (mset name_ltb r (load n) (i_files st)) (mset name_ltb r n (i_short st)) (i_blocks st) (i_where st) (i_messages st) (i_reads st ++ [n]),
              sins name_ltb r imported, (r, load n) :: st_stack)
    | Language n b =>
        match mfind name_ltb n (i_blocks st) with
        | Some _ => (mkImports (i_files st) (i_short st) (i_blocks st) (i_where st)
                       (i_messages st ++ [Ambiguous (at_name p (i_short st)) n; Original (at_name n (i_where st)) n]) (i_reads st), imported, st_stack)
        | None => (mkImports (i_files st) (i_short st) (mset name_ltb n b (i_blocks st)) (mset name_ltb n p (i_where st)) (i_messages st) (i_reads st), imported, st_stack)
        end
    | OtherDefn => s
    end.
  (** import_stage.cpp 69-123.  [None]: out of fuel *)
  Fixpoint process (fuel : nat) (s : imports * list name * stack) : option imports :=
    match fuel with
    | O => None
    | S fuel =>
        let '(st, imported, st_stack) := s in
        match st_stack with
        | [] => Some st
        | (p, f) :: st_stack =>
            match f with
            | None => process fuel (st, imported, st_stack)
            | Some f => process fuel (fold_left (look_at p) f (st, imported, st_stack))
            end
        end
    end.
  (** import_stage.cpp 53-67 and the whole *)
  Definition compile (fuel : nat) (root : name) (f : option file) : option imports :=
    process fuel (new_imports root f, [real_path (real_path root)], [(real_path root, f)]).

  (** import_stage.h 80-85 *)
  Definition language_with_name (n : name) (st : imports) : option block := mfind name_ltb n (i_blocks st).
  (** import_stage.h 87-102 *)
  Definition file_with_language (n : name) (st : imports) : option name :=
    match mfind name_ltb n (i_where st) with
    | None => None
    | Some p => Some (match mfind name_ltb p (i_short st) with Some s => s | None => p end)
    end.
End Import.
Arguments Import {block}. Arguments Language {block}. Arguments OtherDefn {block}.
Arguments i_blocks {block}. Arguments i_where {block}. Arguments i_messages {block}. Arguments i_reads {block}. Arguments i_files {block}. Arguments i_short {block}. Arguments mkImports {block}.
