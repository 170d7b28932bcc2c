(** Specification vocabulary for the argument checks (C01-C04, C40): relations on Python values
    written independently of the checking functions. *)
From Coq Require Import String List ZArith QArith.
From Verif.Model Require Import Py.
Import ListNotations.
Local Open Scope nat_scope.

(** [seq_of v l]: [v] is a sized sequence whose elements are [l]. *)
Inductive seq_of : pyval -> list pyval -> Prop :=
| seq_list l : seq_of (PList l) l
| seq_tuple l : seq_of (PTuple l) l
| seq_arr l : seq_of (PArr l) l.

(** A sequence, or a string seen as the sequence of its one-character strings. *)
Inductive seq_or_str : pyval -> list pyval -> Prop :=
| sos_seq v l : seq_of v l -> seq_or_str v l
| sos_str s : seq_or_str (PStr s) (str_items s).

(** What a per-scale option may be turned into: a valid value is repeated for every scale, so is the
    element of a one-element sequence, and a sequence with one valid value per scale is kept. [sq] says
    which values count as sequences for this option. *)
Inductive per_scale (sq : pyval -> list pyval -> Prop) (valid : pyval -> Prop) (n : nat)
  : pyval -> list pyval -> Prop :=
| ps_single v : valid v -> per_scale sq valid n v (repeat v n)
| ps_one v x : ~ valid v -> sq v [x] -> valid x -> per_scale sq valid n v (repeat x n)
| ps_full v l : ~ valid v -> sq v l -> length l = n -> Forall valid l -> per_scale sq valid n v l.

(** A list or tuple. *)
Inductive list_or_tuple : pyval -> list pyval -> Prop :=
| lt_list l : list_or_tuple (PList l) l
| lt_tuple l : list_or_tuple (PTuple l) l.

Inductive list_only : pyval -> list pyval -> Prop :=
| lo_list l : list_only (PList l) l.

(** Callables. *)
Inductive Callable : pyval -> Prop :=
| call_fun i : Callable (PFun i)
| call_class i m : Callable (PClass i m)
| call_partial i f : Callable (PPartial i f).

(** Numbers, as Python's int (with bool) and float. *)
Inductive IntLike : pyval -> Prop :=
| int_int z : IntLike (PInt z)
| int_bool b : IntLike (PBool b).
Inductive Number : pyval -> Prop :=
| num_int v : IntLike v -> Number v
| num_float q : Number (PFloat q).

(** Component counts: None or a number. *)
Definition Component (v : pyval) : Prop := v = PNone \/ Number v.

(** Sampling patterns usable at a scale: an array or a numpy integer; None means no sampling. *)
Inductive SamplePattern : pyval -> Prop :=
| sp_arr l : SamplePattern (PArr l)
| sp_int z : SamplePattern (PNpInt z).

(** Graphs of an accepted type, or None. *)
Definition GraphOk (types : list nat) (v : pyval) : Prop :=
  v = PNone \/ exists ty i, v = PObj ty i /\ In ty types.

(** A class deriving from [base], possibly with some arguments already bound. *)
Inductive AlgorithmCls (base : nat) : pyval -> Prop :=
| alg_class i m : In base m -> AlgorithmCls base (PClass i m)
| alg_partial j i m : In base m -> AlgorithmCls base (PPartial j (PClass i m)).

(** A patch shape: a sequence of two entries the first of which is an int. *)
Definition PatchShape (v : pyval) : Prop :=
  exists a b, IntLike a /\ seq_of v [a; b].

(** The numbers written in a nested value, in order. *)
Fixpoint leaves (v : pyval) : list pyval :=
  match v with
  | PList l | PTuple l | PArr l => flat_map leaves l
  | _ => [v]
  end.

(** What scales may be: a number, or a sequence that ends with a number and whose other entries may be scales again;
    [scales v out]: written in [v] are the numbers [out], in order. *)
Inductive scales : pyval -> list pyval -> Prop :=
| scales_number v : Number v -> scales v [v]
| scales_one v x : seq_of v [x] -> Number x -> scales v [x]
| scales_more v x y r a b : seq_of v (x :: y :: r) -> scales x a -> scales (PList (y :: r)) b -> scales v (a ++ b).

Definition Zsum (l : list Z) : Z := fold_right Z.add 0%Z l.
