(** Two-dimensional affine maps and shapes over exact rational numbers.

    menpo's transforms are external to menpofit; what menpofit uses of them is apply, compose_after and
    pseudoinverse, modelled here with exact rational instead of floating point arithmetic. *)
From Coq Require Import List QArith Qcanon.
From Verif.Model Require Import Py.
Import ListNotations.
Local Open Scope Qc_scope.

Definition point := (Qc * Qc)%type.
Definition shape := list point.

(** (x, y) |-> (a x + b y + tx, c x + d y + ty) *)
Record aff := mkAff { fa : Qc; fb : Qc; fc : Qc; fd : Qc; ftx : Qc; fty : Qc }.

Definition apply_pt (t : aff) (p : point) : point :=
  (fa t * fst p + fb t * snd p + ftx t, fc t * fst p + fd t * snd p + fty t).
(** [t.apply(shape)] *)
Definition apply (t : aff) (s : shape) : shape := map (apply_pt t) s.

(** [t.compose_after(u)]: apply [u], then [t]. *)
Definition compose_after (t u : aff) : aff :=
  mkAff (fa t * fa u + fb t * fc u) (fa t * fb u + fb t * fd u)
        (fc t * fa u + fd t * fc u) (fc t * fb u + fd t * fd u)
        (fa t * ftx u + fb t * fty u + ftx t) (fc t * ftx u + fd t * fty u + fty t).

Definition det (t : aff) : Qc := fa t * fd t - fb t * fc t.

(** [t.pseudoinverse()]: the matrix inverse; a singular matrix raises (numpy.linalg.LinAlgError,
    modelled as exception 0 of external code). *)
Definition inverse (t : aff) : aff :=
  let r := / det t in
  mkAff (fd t * r) (- fb t * r) (- fc t * r) (fa t * r)
        ((fb t * fty t - fd t * ftx t) * r) ((fc t * ftx t - fa t * fty t) * r).
Definition pseudoinverse (t : aff) : res aff :=
  if Qc_eq_bool (det t) 0 then Err (UserExn 0) else Ok (inverse t).

Definition id_aff : aff := mkAff 1 0 0 1 0 0.
(** Scale(s, n_dims=2) *)
Definition scale_aff (s : Qc) : aff := mkAff s 0 0 s 0 0.
Definition translation (p : point) : aff := mkAff 1 0 0 1 (fst p) (snd p).
