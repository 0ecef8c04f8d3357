(** Independent specification of UTF-8 and UTF-16, of case mapping and of quoted strings. *)
From Verif Require Import Base SymbolSetModel TextModel.
Local Open Scope Z_scope.

(** ** UTF-8 and UTF-16 (RFC 3629, RFC 2781) *)
Definition scalar (c : Z) : Prop := 0 <= c < 0xd800 \/ 0xe000 <= c < 0x110000.

Definition encode (c : Z) : list Z :=
  if c <? 0x80 then [c]
  else if c <? 0x800 then [0xc0 + c / 64; 0x80 + c mod 64]
  else if c <? 0x10000 then [0xe0 + c / 4096; 0x80 + (c / 64) mod 64; 0x80 + c mod 64]
  else [0xf0 + c / 262144; 0x80 + (c / 4096) mod 64; 0x80 + (c / 64) mod 64; 0x80 + c mod 64].

Definition utf16 (c : Z) : list Z :=
  if c <? 0x10000 then [c] else [0xd800 + (c - 0x10000) / 1024; 0xdc00 + (c - 0x10000) mod 1024].

(** Reading the encoding of [cps] into a variable that holds [target] delivers the UTF-16
    units of [cps], the reader staying good. *)
Definition decodes (target : Z) (cps : list Z) : Prop :=
  let units := flat_map utf16 cps in
  u8_run (length units) target (u8_new (flat_map encode cps)) = map (fun u => (u, true)) units.

(** ** Case mapping: the image of a character *)
Fixpoint case_of (map : list map_entry) (x : Z) : Z :=
  match map with
  | [] => x
  | e :: t => if (e_lower e <=? x) && (x <? e_upper e) then e_to e + (x - e_lower e) else case_of t x
  end.

(** Tables are sorted and their entries are not empty. *)
Fixpoint sorted_map (map : list map_entry) : bool :=
  match map with
  | [] => true
  | e :: t => (e_lower e <? e_upper e) && match t with [] => true | e' :: _ => e_upper e <=? e_lower e' end && sorted_map t
  end.

(** No range of the set starts inside an entry of the table (behind its first character) and
    ends behind it. *)
Definition no_straddle (map : list map_entry) (s : symbol_set) : Prop :=
  forall r e, In r s -> In e map -> ~ (e_lower e < lo r < e_upper e /\ e_upper e < hi r).

(** ** Quoted strings: [represents body s], the text [body] between the quotes stands for [s].
    A backslash followed by one of a, e, n, r, f, t is a control character, followed by
    any other character it is that character; all others stand for themselves. *)
Definition control : list (Z * Z) := [(97, 7); (101, 27); (110, 10); (114, 13); (102, 12); (116, 9)].

Inductive represents : list Z -> list Z -> Prop :=
| R_end : represents [] []
| R_plain c b s : c <> 92 -> represents b s -> represents (c :: b) (c :: s)
| R_control c v b s : In (c, v) control -> represents b s -> represents (92 :: c :: b) (v :: s)
| R_escape c b s : ~ In c (map fst control) -> represents b s -> represents (92 :: c :: b) (c :: s).

(** One way to quote a string: a backslash before every quotation mark and backslash. *)
Definition quote (s : list Z) : list Z :=
  34 :: flat_map (fun c => if (c =? 34) || (c =? 92) then [92; c] else [c]) s ++ [34].
