(** Independence of a call from the calls made before it. *)
From Coq Require Import List.

Set Implicit Arguments.
Section Spec.
Variables Obj Call Out : Type.
(** One call on an object: the object afterwards and what the caller gets. *)
Variable run : Call -> Obj -> Obj * Out.
Definition after_calls (cs : list Call) (o : Obj) : Obj := fold_left (fun o c => fst (run c o)) cs o.
(** The call [c] gives on [o], after the calls [before], what it gives on [o] itself. *)
Definition unaffected_by (o : Obj) (before : list Call) (c : Call) : Prop := snd (run c (after_calls before o)) = snd (run c o).
End Spec.
