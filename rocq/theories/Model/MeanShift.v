(** The landmark mean shift of the constrained local models, clm/algorithm/gd.py 241-320, and of the unified AAM-CLM
    algorithms, unified_aam_clm/algorithm.py 77-111.  Real arithmetic instead of floating point. *)
From Coq Require Import List ZArith Reals.
From Verif.Model Require Import Py Base.
Import ListNotations.
Local Open Scope nat_scope.

(** One landmark and one coordinate (chosen by [coord]): the responses of the landmark are multiplied by [kernel_grid], the
    values of [kernel] (mvn.pdf) over the search grid, normalised by their sum and average the candidate positions
    [target + grid] (gd.py 302-317).  Arrays of different shapes do not broadcast; [None] stands for nan, which is what a zero
    sum gives in numpy (0/0). *)
Definition mean_shift_target (kernel : Z -> Z -> R) (h w : Z) (responses : list (list R)) (coord : Z * Z -> Z) (target : R)
  : res (option R) :=
  let grid := build_grid h w in
  if negb (length responses =? length grid) then Err ValueError
  else if negb (forallb (fun rg => length (fst rg) =? length (snd rg)) (combine responses grid)) then Err ValueError
  else
    let cells := combine (concat responses) (concat grid) in
    let weight (c : R * (Z * Z)) := (fst c * kernel (fst (snd c)) (snd (snd c)))%R in
    let total := sumR weight cells in
    if Req_EM_T total 0 then Ok None
    else Ok (Some (sumR (fun c => weight c / total * (target + IZR (coord (snd c))))%R cells)).
(** error = mean_shift_target.ravel() - target.as_vector(), gd.py 320. *)
Definition mean_shift_error (kernel : Z -> Z -> R) (h w : Z) (responses : list (list R)) (coord : Z * Z -> Z) (target : R)
  : res (option R) :=
  let? t := mean_shift_target kernel h w responses coord target in Ok (option_map (fun t => t - target)%R t).

(** unified_aam_clm/algorithm.py 98-111: responses that are not finite ([None]) are replaced by .5 first. *)
Definition unified_clean (r : option R) : R := match r with Some x => x | None => (1 / 2)%R end.
Definition unified_clm_error (kernel : Z -> Z -> R) (h w : Z) (responses : list (list (option R))) (coord : Z * Z -> Z)
  (target : R) : res (option R) :=
  mean_shift_error kernel h w (map (map unified_clean) responses) coord target.
