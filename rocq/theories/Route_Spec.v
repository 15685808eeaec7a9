(** Specification vocabulary for routes: what a sequence of building calls says
    about the driven line, read off the calls alone. *)
From Coq Require Import List.
From Verif Require Import Swath_Model Route_Model.
Import ListNotations.

Section Spec.
  Context {P W : Type}.

  (** The points one call contributes. *)
  Definition rop_line (o : rop P W) : list P :=
    match o with
    | RAddSwaths s => flat_map sw_path s
    | RAddConnectedSwaths mp s => mp ++ flat_map sw_path s
    | RAddSwath s => sw_path s
    | RAddConnection => []
    | RAddPoint p => [p]
    | RAddPoints mp => mp
    end.

  (** The swaths one call contributes. *)
  Definition rop_swaths (o : rop P W) : list (swath P W) :=
    match o with
    | RAddSwaths s | RAddConnectedSwaths _ s => s
    | RAddSwath s => [s]
    | _ => []
    end.

  (** Calls that hand over at least one swath (if they hand over swaths at all),
      and only swaths with a centre line. *)
  Definition rop_solid (o : rop P W) : Prop :=
    match o with
    | RAddSwaths s | RAddConnectedSwaths _ s =>
        s <> [] /\ forall x, In x s -> sw_path x <> []
    | RAddSwath s => sw_path s <> []
    | _ => True
    end.
End Spec.
