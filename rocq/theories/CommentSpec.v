(** Specification of comments in C: they begin with the two characters of "/" and "*", and end with the first
    "*" and "/" after that (42 is the star, 47 the slash). *)
From Verif Require Import Base.
Local Open Scope Z_scope.

(** The characters [x] and [y] stand next to each other somewhere in [w]. *)
Definition adjacent (x y : Z) (w : list Z) : Prop := exists u v, w = u ++ x :: y :: v.
(** What the comment says does not end it early, nor does its last character together with the end. *)
Definition c_comment (w : list Z) : Prop := exists body, w = 47 :: 42 :: body ++ [42; 47] /\ ~ adjacent 42 47 (body ++ [42]).
