(** Normalisation of response maps, clm/expert/base.py 8-35, used by predict_probability of the expert ensembles,
    clm/expert/ensemble.py 70-88.  Exact rational arithmetic. *)
From Coq Require Import List QArith Qcanon Bool.
From Verif.Model Require Import Py.
Import ListNotations.
Local Open Scope nat_scope.

(** A stack of maps of height h and width w, one list of h * w values each; the leading axes (experts and channels) are one
    list.  [axes] has its default value (-2, -1). *)
Record stack := Stack { height : nat; width : nat; maps : list (list Qc) }.

Local Open Scope Qc_scope.
Definition qsum (l : list Qc) : Qc := fold_right Qcplus 0 l.
Definition qmin2 (a b : Qc) : Qc := if Qclt_le_dec b a then b else a.
(** np.min of one map; ValueError when it has no entry. *)
Definition qmin (l : list Qc) : res Qc := match l with [] => Err ValueError | x :: r => Ok (fold_left qmin2 r x) end.
Definition is_pos (q : Qc) : bool := if Qclt_le_dec 0 q then true else false.

(** x -= np.min(x, ..., keepdims=True), 25. *)
Definition shifted (m : list Qc) : res (list Qc) := let? mn := qmin m in Ok (map (fun v => v - mn) m).
(** 25-35.  The boolean index [nonzero] has extent one in the last two axes: indexing raises IndexError unless the maps have
    a single pixel, and then np.prod(axes) = 2.  The result is also what the argument holds afterwards (the changes are made
    in place). *)
Definition probability_map (x : stack) : res stack :=
  let? xs := mapM shifted (maps x) in
  let nonzero := map (fun m => is_pos (qsum m)) xs in
  if forallb (fun b => b) nonzero then Ok (Stack (height x) (width x) (map (fun m => map (fun v => v / qsum m) m) xs))
  else if ((height x =? 1) && (width x =? 1))%nat then
    Ok (Stack (height x) (width x) (map (fun m => if is_pos (qsum m) then map (fun v => v / qsum m) m else map (fun _ => 1 / (1 + 1)) m) xs))
  else Err IndexError.
