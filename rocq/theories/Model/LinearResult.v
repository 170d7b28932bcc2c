(** Results of linear AAMs and ATMs (aam/algorithm/lk.py 385-442, atm/algorithm.py 66-116), and the Jacobian of their transform
    (transform/modeldriven.py 597-612). *)
From Verif.Model Require Import Py ModelInstance Densify Einsum Jacobian.
From mathcomp Require Import all_ssreflect all_algebra.
Set Implicit Arguments.
Unset Strict Implicit.
Unset Printing Implicit Defensive.
Import GRing.Theory Num.Theory.
Local Open Scope ring_scope.

Section LinearResult.
Variable F : realFieldType.
Variables n k : nat.
Notation lintrans := (lintrans F n k).
Variable align : 'M[F]_(n + k, 2) -> 'M[F]_(n + k, 2) -> sim F.
(** The source of the global transform. *)
Variable src : 'M[F]_(n + k, 2).

(** OrthoPDM._from_vector_inplace, which LinearOrthoMDTransform (modeldriven.py 518) inherits. *)
Definition linear_from_vector (v : seq F) (l : lintrans) : lintrans * res unit :=
  let '(d, r) := opdm_from_vector align src v (l_pdm l) in (@Lintrans _ _ _ d (l_W l) (l_pinv_V l), r).
(** The states of the transform in an algorithm's loop (e.g. aam/algorithm/lk.py 672-735): one after each update of the
    parameters; [vs] are the parameter vectors that the solver came up with. *)
Fixpoint linear_updates (vs : seq (seq F)) (l : lintrans) : res (seq lintrans) :=
  match vs with
  | [::] => Ok [::]
  | v :: vs =>
      let '(l', r) := linear_from_vector v l in
      let? _ := r in
      let? ls := linear_updates vs l' in Ok (l' :: ls)
  end.
(** The lists a run hands to algorithm_result: p_list and shapes (target of the transform: landmarks and pixels). *)
Definition run_params (ls : seq lintrans) : seq (seq F) := [seq opdm_vector (l_pdm l) | l <- ls].
Definition run_shapes (ls : seq lintrans) : seq 'M[F]_(n + k, 2) := [seq o_target (l_pdm l) | l <- ls].
(** algorithm_result: the shapes of the result (aam/algorithm/lk.py 436-437, atm/algorithm.py 110-111).  The argument shapes is
    not used; [l] is self.transform when the run is over and from_vector works on a copy of it (menpo Vectorizable). *)
Definition linear_result_shapes (l : lintrans) (shapes : seq 'M[F]_(n + k, 2)) (params : seq (seq F)) : res (seq 'M[F]_(n, 2)) :=
  mapM (fun p => let '(l', r) := linear_from_vector p l in let? _ := r in Ok (sparse_target l')) params.

(** d_dp, modeldriven.py 597-612: the Jacobian of the OrthoPDM without the rows of the landmarks. *)
Definition drop_rows (m : nat) (t : tensor F) : res (tensor F) :=
  match t_shape t with
  | [:: a; p; d] => Ok (cube (a - m) p d (fun i j c => t_get t [:: (m + i)%N; j; c]))
  | _ => Err IndexError
  end.
Definition linear_d_dp (l : lintrans) : res (tensor F) := let? j := opdm_d_dp (l_pdm l) in drop_rows n j.
End LinearResult.
