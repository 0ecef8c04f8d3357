(** What JSON is according to json.tp: tokens, how a text is cut into tokens, and what the tokens say. *)
From Coq Require Import String.
From Verif Require Import Base NamesModel JsonModel.
Local Open Scope string_scope.
Local Open Scope list_scope.
Local Open Scope Z_scope.

(** ** Tokens (json.tp 7-47) *)
Definition digit (c : Z) : Prop := 48 <= c <= 57.
Definition hex (c : Z) : Prop := 48 <= c <= 57 \/ 65 <= c <= 70 \/ 97 <= c <= 102.
(** What may be between the quotes *)
Inductive chars : str -> Prop :=
| chars_nil : chars []
| chars_plain c s : c <> 34 -> c <> 92 -> chars s -> chars (c :: s)
| chars_escape c s : In c (codes """\/bfnrt") -> chars s -> chars (92 :: c :: s)
| chars_unicode a b c d s : hex a -> hex b -> hex c -> hex d -> chars s -> chars (92 :: 117 :: a :: b :: c :: d :: s).
Definition string_text (w : str) : Prop := exists s, chars s /\ w = 34 :: s ++ [34].
Definition some_digits (s : str) : Prop := s <> [] /\ Forall digit s.
(** [frac] is /.{digit}+/, and a full stop stands for every character (C11) *)
Definition fraction (s : str) : Prop := exists c ds, some_digits ds /\ s = c :: ds.
Definition exponent (s : str) : Prop := exists e sign ds, (e = 101 \/ e = 69) /\ (sign = [] \/ sign = [43] \/ sign = [45]) /\ some_digits ds /\ s = e :: sign ++ ds.
Definition number_text (w : str) : Prop := exists sign ds f e, (sign = [] \/ sign = [45]) /\ some_digits ds /\ (f = [] \/ fraction f) /\ (e = [] \/ exponent e) /\ w = sign ++ ds ++ f ++ e.
Definition space (c : Z) : Prop := c = 32 \/ c = 9 \/ c = 10 \/ c = 13.
Definition fixed_texts : list str := map codes ["true"; "false"; "null"; "{"; "}"; "["; "]"; ","; ":"].
Inductive kind := KSpace | KString | KNumber | KFixed (s : str).
Definition kind_text (k : kind) (w : str) : Prop :=
  match k with KSpace => w <> [] /\ Forall space w | KString => string_text w | KNumber => number_text w | KFixed s => w = s /\ In s fixed_texts end.

(** No token at the start of the text is longer *)
Definition longest (text w : str) : Prop := forall k w' rest, text = w' ++ rest -> kind_text k w' -> (length w' <= length w)%nat.
Definition token := (kind * str)%type.
(** Cutting a text into tokens, always the longest one; white space is dropped *)
Inductive lexes : str -> list token -> Prop :=
| lexes_end : lexes [] []
| lexes_space w rest ts : kind_text KSpace w -> longest (w ++ rest) w -> lexes rest ts -> lexes (w ++ rest) ts
| lexes_token k w rest ts : k <> KSpace -> kind_text k w -> longest (w ++ rest) w -> lexes rest ts -> lexes (w ++ rest) ((k, w) :: ts).

(** ** The grammar (json.tp 49-65): the tokens of a value *)
Definition fixed (s : string) : token := (KFixed (codes s), codes s).
Fixpoint tokens_of (v : value) : list token :=
  match v with
  | VString w => [(KString, w)]
  | VNumber w => [(KNumber, w)]
  | VTrue => [fixed "true"]
  | VFalse => [fixed "false"]
  | VNull => [fixed "null"]
  | VObject PNil => [fixed "{"; fixed "}"]
  | VObject (PCons name v ps) => fixed "{" :: (KString, name) :: fixed ":" :: tokens_of v ++ more_pairs ps ++ [fixed "}"]
  | VArray ANil => [fixed "["; fixed "]"]
  | VArray (ACons v vs) => fixed "[" :: tokens_of v ++ more_values vs ++ [fixed "]"]
  end
with more_pairs (ps : pairs) : list token :=
  match ps with PNil => [] | PCons name v ps => fixed "," :: (KString, name) :: fixed ":" :: tokens_of v ++ more_pairs ps end
with more_values (vs : vals) : list token :=
  match vs with ANil => [] | ACons v vs => fixed "," :: tokens_of v ++ more_values vs end.
(** The text is JSON for this value *)
Definition is_json_for (text : str) (v : value) : Prop := lexes text (tokens_of v).

(** Trees that the parser can make: the lexemes have the text of a token *)
Fixpoint proper (v : value) : Prop :=
  match v with VString w => string_text w | VNumber w => number_text w | VObject ps => proper_pairs ps | VArray vs => proper_vals vs | _ => True end
with proper_pairs (ps : pairs) : Prop := match ps with PNil => True | PCons name v ps => string_text name /\ proper v /\ proper_pairs ps end
with proper_vals (vs : vals) : Prop := match vs with ANil => True | ACons v vs => proper v /\ proper_vals vs end.
