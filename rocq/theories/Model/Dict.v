(** Python dictionaries with insertion order, as used for the landmark groups of an image
    (menpo's LandmarkManager, an external class: only setting, reading and deleting are modelled). *)
From Coq Require Import String List.
From Verif.Model Require Import Py.
Import ListNotations.

Section Dict.
  Context {V : Type}.
  Definition dict := list (string * V).

  (** [d.get(k)] *)
  Fixpoint dict_get (k : string) (d : dict) : option V :=
    match d with
    | [] => None
    | (k', v) :: r => if String.eqb k k' then Some v else dict_get k r
    end.
  (** [d[k]] *)
  Definition dict_at (k : string) (d : dict) : res V :=
    match dict_get k d with Some v => Ok v | None => Err KeyError end.
  (** [d[k] = v]: an existing key keeps its place, a new one goes last. *)
  Fixpoint dict_set (k : string) (v : V) (d : dict) : dict :=
    match d with
    | [] => [(k, v)]
    | (k', v') :: r => if String.eqb k k' then (k', v) :: r else (k', v') :: dict_set k v r
    end.
  Fixpoint dict_remove (k : string) (d : dict) : dict :=
    match d with
    | [] => []
    | (k', v) :: r => if String.eqb k k' then r else (k', v) :: dict_remove k r
    end.
  (** [del d[k]] *)
  Definition dict_del (k : string) (d : dict) : res dict :=
    match dict_get k d with Some _ => Ok (dict_remove k d) | None => Err KeyError end.
End Dict.
Arguments dict : clear implicits.
