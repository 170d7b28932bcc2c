(** Model of menpofit/checks.py *)
From Coq Require Import String List ZArith QArith Bool Arith.
From Verif.Model Require Import Py.
Import ListNotations.
Local Open Scope nat_scope.

(** checks.py 11-33: [None] or a number >= 20. Simplification: the diagonal is [None] or a number. *)
Definition check_diagonal (d : option Q) : res (option Q) :=
  match d with
  | Some q => if negb (Qle_bool 20%Q q) then Err ValueError else Ok d
  | None => Ok d
  end.

(** checks.py 88-116. [len(scales) > 1] recurses on [scales[0]] and on the slice [scales[1:]]; the
    inner [go] is the sequence of calls on successive slices.  On a string the first recursive call
    (or the final else) raises ValueError. *)
Fixpoint check_scales (v : pyval) : res (list pyval) :=
  let fix go (l : list pyval) : res (list pyval) :=
    match l with
    | [] => Err ValueError
    | x :: nil => if is_num x then Ok [x] else Err ValueError
    | x :: r => let? a := check_scales x in let? b := go r in Ok (a ++ b)
    end in
  match v with
  | PInt _ | PFloat _ | PBool _ => Ok [v]
  | PList l | PTuple l | PArr l => go l
  | PStr _ => Err ValueError
  | _ => Err TypeError
  end.

(** [isinstance(param, collections.Iterable)] for our values (checks.py 154; on Python >= 3.10 the attribute
    [collections.Iterable] does not exist any more: we model the versions where it does). *)
Definition is_iterable (v : pyval) : bool :=
  match v with PStr _ | PArr _ | PList _ | PTuple _ => true | _ => false end.

(** checks.py 119-166; [types] is the isinstance test for the requested types. *)
Definition check_multi_scale_param (n_scales : nat) (types : pyval -> bool) (param : pyval)
  : res (list pyval) :=
  if types param then Ok (repeat param n_scales)
  else if negb (is_iterable param) then Err ValueError
  else
    let? l := items param in
    let all_ok := forallb types l in
    if (length l =? 1) && all_ok then Ok (concat (repeat l n_scales))
    else if (length l =? n_scales) && all_ok then Ok l
    else Err ValueError.

(** checks.py 169-201 *)
Definition check_callable (callables : pyval) (n_scales : nat) : res (list pyval) :=
  if is_callable callables then Ok (repeat callables n_scales)
  else
    let? l := items callables in
    if (length l =? 1) && forallb is_callable l then Ok (concat (repeat l n_scales))
    else if (length l =? n_scales) && forallb is_callable l then Ok l
    else Err ValueError.

(** checks.py 204-237.  Indexing a one-character string gives the same string again, so that the
    recursion of line 229 does not terminate: Python raises RecursionError.  Line 230 with
    [n_scales = 0] and an empty sequence raises IndexError at line 231.
    [ps_slices w l n] models the calls [check_patch_shape(l, n)] on successive slices [l] of
    one sequence; [w] rebuilds the slice as a Python value (line 227 stores the slice itself). *)
Fixpoint check_patch_shape (v : pyval) (n_scales : nat) {struct v} : res (list pyval) :=
  let fix go (w : list pyval -> pyval) (l : list pyval) (n : nat) {struct l} : res (list pyval) :=
    match l with
    | [] => if n =? 0 then Err IndexError else Err ValueError
    | x :: r =>
      if (length l =? 2) && is_int x then Ok (repeat (w l) n)
      else match r with
           | [] => check_patch_shape x 1
           | _ => if length l =? n then
                    let? l1 := check_patch_shape x 1 in
                    let? l2 := go w r (n - 1) in
                    Ok (l1 ++ l2)
                  else Err ValueError
           end
    end in
  match v with
  | PList l => go PList l n_scales
  | PTuple l => go PTuple l n_scales
  | PArr l => go PArr l n_scales
  | PStr s => match String.length s with
              | O => if n_scales =? 0 then Err IndexError else Err ValueError
              | 1 => Err RecursionError
              | k => if k =? n_scales then Err RecursionError else Err ValueError
              end
  | _ => Err TypeError
  end.

(** checks.py 240-282; [None], an int or a float is accepted as component count; the documented range
    (int > 0, 0 <= float <= 1) is not tested by the code. *)
Definition max_comp_ok (v : pyval) : bool :=
  match v with PNone => true | _ => is_int v || is_float v end.

Definition check_max_components (mc : pyval) (n_scales : nat) : res (list pyval) :=
  let? l :=
    match mc with
    | PList l | PTuple l =>
      match l with
      | [x] => Ok (repeat x n_scales)
      | _ => if length l =? n_scales then Ok l else Err ValueError
      end
    | _ => Ok (repeat mc n_scales)
    end in
  if forallb max_comp_ok l then Ok l else Err ValueError.

(** numpy.round(a / b) for integers: round half to even. Exact arithmetic stands for the float
    division (they agree below 2^52: c107_budget). *)
Definition round_half_even_div (a b : Z) : Z :=
  let f := (a / b)%Z in
  let r := (a mod b)%Z in
  match (2 * r ?= b)%Z with
  | Lt => f
  | Gt => (f + 1)%Z
  | Eq => if Z.even f then f else (f + 1)%Z
  end.

(** Numeric value of an element as a fraction; other elements make the division / the int64
    conversion raise TypeError. *)
Definition num_frac (v : pyval) : res (Z * positive) :=
  match v with
  | PInt z | PNpInt z => Ok (z, 1%positive)
  | PBool b => Ok ((if b then 1 else 0)%Z, 1%positive)
  | PFloat q => Ok (Qnum q, Qden q)
  | _ => Err TypeError
  end.

(** np.require(l, dtype=np.int64): ints unchanged, floats truncated towards zero. *)
Definition to_int64 (v : pyval) : res Z :=
  let? (a, b) := num_frac v in Ok (Z.quot a (Zpos b)).

(** checks.py 285-318 *)
Definition check_max_iters (max_iters : pyval) (n_scales : nat) : res (list Z) :=
  match max_iters with
  | PInt z => Ok (repeat (round_half_even_div z (Z.of_nat n_scales)) n_scales)
  | _ =>
    let? l := items max_iters in
    if (length l =? 1) && (1 <? n_scales) then
      match l with
      | x :: _ => let? (a, b) := num_frac x in
                  Ok (repeat (round_half_even_div a (Zpos b * Z.of_nat n_scales)) n_scales)
      | [] => Err IndexError
      end
    else if negb (length l =? n_scales) then Err ValueError
    else mapM to_int64 l
  end.

(** isinstance(s, (np.ndarray, np.int64)), checks.py 347 and 357 *)
Definition is_arr_or_npint (v : pyval) : bool :=
  match v with PArr _ | PNpInt _ => true | _ => false end.

(** checks.py 321-363. In the element test of line 347, [sampling is None] (not [s is None]) is always
    false because [sampling] is a list or tuple there. *)
Definition check_sampling (sampling : pyval) (n_scales : nat) : res (list pyval) :=
  let scalar :=
    match sampling with
    | PArr _ | PNpInt _ | PNone => Ok (repeat sampling n_scales)
    | _ => Err ValueError
    end in
  match sampling with
  | PList l | PTuple l =>
    if forallb is_arr_or_npint l then
      if length l =? 1 then Ok (concat (repeat l n_scales))
      else if length l =? n_scales then Ok l
      else Err ValueError
    else Err ValueError
  | _ => scalar
  end.

(** checks.py 366-397. [M] is the state of a model; [set] is the [n_active_components] setter of the
    external model class, which may raise.  The result is the list of models after the call and
    the outcome: models are updated one after the other. *)
Section SetModels.
  Variable M : Type.
  Variable set : M -> pyval -> res M.

  Fixpoint set_all (ms : list M) (v : pyval) : list M * res unit :=
    match ms with
    | [] => ([], Ok tt)
    | m :: r => match set m v with
                | Ok m' => let (r', o) := set_all r v in (m' :: r', o)
                | Err e => (m :: r, Err e)
                end
    end.

  Fixpoint set_zip (ms : list M) (vs : list pyval) : list M * res unit :=
    match ms, vs with
    | m :: r, v :: vr => match set m v with
                         | Ok m' => let (r', o) := set_zip r vr in (m' :: r', o)
                         | Err e => (m :: r, Err e)
                         end
    | ms, _ => (ms, Ok tt)
    end.

  Definition set_models_components (models : list M) (n_components : pyval) : list M * res unit :=
    match n_components with
    | PNone => (models, Ok tt)
    | PInt _ | PFloat _ => set_all models n_components
    | _ =>
      match items n_components with
      | Err e => (models, Err e)
      | Ok l =>
        if (length l =? 1) && (1 <? length models) then
          match l with
          | x :: _ => set_all models x
          | [] => (models, Err IndexError)
          end
        else if length l =? length models then set_zip models l
        else (models, Err ValueError)
      end
    end.
End SetModels.

(** checks.py 422-460. A class is [PClass id mro]; a partial's [func.mro()] raises AttributeError when
    [func] is not a class.  [len] of anything not sized raises TypeError; a one-character string
    recurses for ever (RecursionError). *)
Fixpoint check_algorithm_cls (a : pyval) (n_scales : nat) (base : nat) {struct a} : res (list pyval) :=
  let fix each (l : list pyval) : res (list pyval) :=
    match l with
    | [] => Ok []
    | x :: r => let? y := check_algorithm_cls x 1 base in
                match y with
                | y0 :: _ => let? ys := each r in Ok (y0 :: ys)
                | [] => Err IndexError
                end
    end in
  let seq l :=
    match l with
    | [x] => check_algorithm_cls x n_scales base
    | _ => if length l =? n_scales then each l else Err ValueError
    end in
  match a with
  | PPartial _ (PClass _ mro) =>
    if existsb (Nat.eqb base) mro then Ok (repeat a n_scales) else Err TypeError
  | PPartial _ _ => Err AttributeError
  | PClass _ mro =>
    if existsb (Nat.eqb base) mro then Ok (repeat a n_scales) else Err TypeError
  | PList l | PTuple l | PArr l => seq l
  | PStr s => match String.length s with
              | O => if n_scales =? 0 then Ok [] else Err ValueError
              | 1 => Err RecursionError
              | k => if k =? n_scales then Err RecursionError else Err ValueError
              end
  | _ => Err TypeError
  end.

(** checks.py 463-513. [type(g)] of a graph object is its tag; [graph_types] is the list of accepted tags
    (a single type is turned into a one-element list, line 502-503). Graph objects are [PObj]. *)
Definition graph_ok (graph_types : list nat) (g : pyval) : bool :=
  match g with
  | PNone => true
  | PObj ty _ => existsb (Nat.eqb ty) graph_types
  | _ => false
  end.

Definition check_graph (graph : pyval) (graph_types : list nat) (n_scales : nat) : res (list pyval) :=
  let? graphs :=
    match graph with
    | PList l =>
      match l with
      | [_] => Ok (concat (repeat l n_scales))
      | _ => if length l =? n_scales then Ok l else Err ValueError
      end
    | _ => Ok (repeat graph n_scales)
    end in
  if forallb (graph_ok graph_types) graphs then Ok graphs else Err ValueError.
