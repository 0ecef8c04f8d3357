(** Independent specification of reference counting: what a client may do, and when items
    have to be there. *)
From Verif Require Import Base ContainerModel.

(** The handles a client can get at without going through [avoid] (if given): its own
    variables, and the members of the items those refer to. *)
Inductive reach (m : memory) (avoid : option nat) : nat -> Prop :=
| reach_own h r : h_in (handle_at m h) = None -> h_ref (handle_at m h) = Some r -> Some h <> avoid -> reach m avoid h
| reach_member h r kids k : reach m avoid h -> h_ref (handle_at m h) = Some r ->
    c_kids (cell_at m r) = Some kids -> In k kids -> Some k <> avoid -> reach m avoid k.

(** A client copies and assigns handles it can get at, and destroys only its own variables.
    The source of an assignment must be in reach without the target: [p = p->next] is not
    covered. *)
Definition allowed (m : memory) (o : op) : Prop :=
  match o with
  | ONew _ members => forall h, In h members -> reach m None h
  | OCopy src => reach m None src
  | OAssign dst src => reach m None dst /\ (dst = src \/ reach m (Some dst) src)
  | ODestroy h => h_in (handle_at m h) = None /\ h_ref (handle_at m h) <> None
  end.

(** The states after the histories of allowed operations. *)
Inductive history (sptr : bool) : memory -> Prop :=
| history_start : history sptr (mkM [] [])
| history_step m o m' : history sptr m -> allowed m o -> step sptr m o = Some m' -> history sptr m'.

(** Item [r] exists and some handle refers to it. *)
Definition item_exists (m : memory) (r : nat) : Prop := c_kids (cell_at m r) <> None.
Definition referred (m : memory) (r : nat) : Prop := exists h, h_ref (handle_at m h) = Some r.
