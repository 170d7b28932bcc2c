(** Python values and exceptions, as far as the argument checking code of menpofit inspects them. *)
From Coq Require Import String List ZArith QArith.
Import ListNotations.
Local Open Scope nat_scope.

(** Exceptions raised by the modelled code. *)
Inductive exn : Type :=
| ValueError | TypeError | IndexError | AttributeError | KeyError | NameError
| NotImplementedError | RecursionError | ZeroDivisionError | LinAlgError | OSError
| UserExn (id : nat).   (* raised by external code (features, rescaling, ...) *)

(** Outcome of a Python call: a value or an exception. *)
Inductive res (A : Type) : Type :=
| Ok (a : A)
| Err (e : exn).
Arguments Ok {A} a.
Arguments Err {A} e.

Definition bind {A B} (x : res A) (f : A -> res B) : res B :=
  match x with Ok a => f a | Err e => Err e end.

Notation "'let?' x := a 'in' b" := (bind a (fun x => b))
  (at level 200, x pattern, a at level 100, b at level 200, right associativity).

(** Sequencing a list of calls, left to right, stopping at the first exception. *)
Fixpoint mapM {A B} (f : A -> res B) (l : list A) : res (list B) :=
  match l with
  | [] => Ok []
  | x :: r => let? y := f x in let? ys := mapM f r in Ok (y :: ys)
  end.

(** Dynamically typed values.  [PArr] is a numpy array seen through its first axis; [PClass] carries
    the identifiers of its method resolution order; [PObj ty id] is any other object: it has no
    length, is not callable and not iterable; [ty] identifies its type. *)
Inductive pyval : Type :=
| PNone
| PBool (b : bool)
| PInt (z : Z)
| PFloat (q : Q)
| PStr (s : string)
| PFun (id : nat)
| PClass (id : nat) (mro : list nat)
| PPartial (id : nat) (f : pyval)
| PNpInt (z : Z)
| PArr (l : list pyval)
| PList (l : list pyval)
| PTuple (l : list pyval)
| PObj (ty id : nat).

(** [isinstance(v, int)]: Python booleans are ints. *)
Definition is_int (v : pyval) : bool :=
  match v with PInt _ | PBool _ => true | _ => false end.
(** [isinstance(v, float)] *)
Definition is_float (v : pyval) : bool :=
  match v with PFloat _ => true | _ => false end.
(** [isinstance(v, (int, float))] *)
Definition is_num (v : pyval) : bool := is_int v || is_float v.
(** [callable(v)] *)
Definition is_callable (v : pyval) : bool :=
  match v with PFun _ | PClass _ _ | PPartial _ _ => true | _ => false end.
(** [isinstance(v, (list, tuple))] *)
Definition is_list_or_tuple (v : pyval) : bool :=
  match v with PList _ | PTuple _ => true | _ => false end.
(** [isinstance(v, list)] *)
Definition is_list (v : pyval) : bool :=
  match v with PList _ => true | _ => false end.

(** The one-character strings of a string (indexing and iteration of a Python [str]). *)
Definition str_items (s : string) : list pyval :=
  map (fun c => PStr (String c EmptyString)) (list_ascii_of_string s).

(** The elements of a sized value; [len(v)] and [v[i]] raise [TypeError] otherwise. *)
Definition items (v : pyval) : res (list pyval) :=
  match v with
  | PStr s => Ok (str_items s)
  | PArr l | PList l | PTuple l => Ok l
  | _ => Err TypeError
  end.
