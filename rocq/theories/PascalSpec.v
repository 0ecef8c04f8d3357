(** Specification of comments in Pascal (ISO 7185, 6.1.8): they begin with a curly bracket or with a round bracket and
    a star, and end with the first curly bracket or star and round bracket after that, whichever they began with.
    (40, 41 are round brackets, 42 the star, 123, 125 curly brackets.) *)
From Verif Require Import Base CommentSpec.
Local Open Scope Z_scope.

Definition opens (o : list Z) : Prop := o = [123] \/ o = [40; 42].
Definition closes (c : list Z) : Prop := c = [125] \/ c = [42; 41].
Definition pascal_comment (w : list Z) : Prop := exists o body c, opens o /\ closes c /\ w = o ++ body ++ c /\ ~ In 125 body /\ ~ adjacent 42 41 body.
