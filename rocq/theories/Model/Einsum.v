(** numpy arrays of any rank and numpy.einsum (numpy itself, as menpofit calls it).
    An array is its shape and its entries, addressed by the list of indices. *)
From Coq Require Import String Ascii.
From Verif.Model Require Import Py.
From mathcomp Require Import all_ssreflect all_algebra.
Set Implicit Arguments.
Unset Strict Implicit.
Unset Printing Implicit Defensive.
Import GRing.Theory.
Local Open Scope ring_scope.

Section Einsum.
Variable F : ringType.
Record tensor := Tensor { t_shape : seq nat; t_get : seq nat -> F }.

(** The labels of one operand, and of the result. *)
Definition labels (s : string) : seq ascii := list_ascii_of_string s.
Fixpoint occurs (a : ascii) (l : seq ascii) : bool := match l with [::] => false | b :: l' => Ascii.eqb a b || occurs a l' end.
Fixpoint lookup (a : ascii) (env : seq (ascii * nat)) : nat :=
  match env with [::] => 0%N | (b, n) :: env' => if Ascii.eqb a b then n else lookup a env' end.
(** The labels without repetition, in order of appearance. *)
Fixpoint uniq_labels (l : seq ascii) : seq ascii :=
  match l with [::] => [::] | a :: l' => a :: filter (fun b => ~~ Ascii.eqb a b) (uniq_labels l') end.

(** The extent of a label: the common extent of the axes it labels, where an extent of one is broadcast; an axis that differs
    from it otherwise is an error. *)
Fixpoint extents (ops : seq (seq ascii * tensor)) (a : ascii) : seq nat :=
  match ops with
  | [::] => [::]
  | (ls, t) :: ops' => [seq xn.2 | xn <- zip ls (t_shape t) & Ascii.eqb a xn.1] ++ extents ops' a
  end.
Definition extent (ops : seq (seq ascii * tensor)) (a : ascii) : res nat :=
  let ns := filter (fun n => n != 1%N) (extents ops a) in
  match ns with
  | [::] => Ok 1%N
  | n :: ns' => if all (fun m => m == n) ns' then Ok n else Err ValueError
  end.
(** One entry of an operand, an axis of extent one being broadcast. *)
Definition entry (env : seq (ascii * nat)) (ls : seq ascii) (t : tensor) : F :=
  t_get t [seq (if an.2 == 1%N then 0%N else lookup an.1 env) | an <- zip ls (t_shape t)].
Fixpoint entries (env : seq (ascii * nat)) (ops : seq (seq ascii * tensor)) : F :=
  match ops with [::] => 1 | [:: (ls, t)] => entry env ls t | (ls, t) :: ops' => entry env ls t * entries env ops' end.
(** The sum over the labels that do not appear in the result. *)
Fixpoint sum_over (summed : seq (ascii * nat)) (env : seq (ascii * nat)) (ops : seq (seq ascii * tensor)) : F :=
  match summed with
  | [::] => entries env ops
  | (a, n) :: s' => \sum_(x < n) sum_over s' ((a, nat_of_ord x) :: env) ops
  end.
(** np.einsum('ins -> out', *ts): ValueError for a wrong number of labels, an unknown label in the result or extents that do
    not agree. *)
Definition einsum (ins : seq string) (out : string) (ts : seq tensor) : res tensor :=
  let ops := zip (map labels ins) ts in
  if (size ins == size ts) && all (fun op : seq ascii * tensor => size op.1 == size (t_shape op.2)) ops then
    let all_labels := uniq_labels (flatten (map labels ins)) in
    if all (fun a => occurs a all_labels) (labels out) then
      let? dims := mapM (fun a => let? n := extent ops a in Ok (a, n)) all_labels in
      let summed := filter (fun an : ascii * nat => ~~ occurs an.1 (labels out)) dims in
      Ok (Tensor [seq lookup a dims | a <- labels out] (fun idx => sum_over summed (zip (labels out) idx) ops))
    else Err ValueError
  else Err ValueError.
(** np.hstack of two rank three arrays: along the second axis; the other extents must agree. *)
Definition hstack3 (a b : tensor) : res tensor :=
  match t_shape a, t_shape b with
  | [:: n; p; d], [:: n'; q; d'] =>
      if (n == n') && (d == d') then
        Ok (Tensor [:: n; (p + q)%N; d] (fun idx => match idx with
             | [:: i; k; c] => if (k < p)%N then t_get a [:: i; k; c] else t_get b [:: i; (k - p)%N; c]
             | _ => 0 end))
      else Err ValueError
  | _, _ => Err ValueError
  end.
End Einsum.
Arguments Tensor {F}.
