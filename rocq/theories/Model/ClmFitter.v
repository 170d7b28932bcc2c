(** Fitters that share one trained constrained local model: clm/fitter.py 1-87, clm/algorithm/gd.py and fitter.py 413-515.
    The fitters hold references to the shape models of the CLM; constructing a fitter sets their numbers of active
    components and precomputes a Jacobian from their current state, and every fit moves them.
    Simplifications: the number of components per scale is given as the list that checks.set_models_components distributes
    (Model/Checks.v); the expert responses and the mean shift are one oracle [displacement], from the image at a scale and
    the current target to the error vector (Model/MeanShift.v); the transforms between scales are the oracle [next]. *)
From Verif.Model Require Import Py Einsum LinAlg ModelInstance Jacobian Updates.
From Coq Require List.
From mathcomp Require Import all_ssreflect all_algebra.
Set Implicit Arguments.
Unset Strict Implicit.
Unset Printing Implicit Defensive.
Import GRing.Theory Num.Theory.
Local Open Scope ring_scope.

Section ClmFitter.
Variable F : realFieldType.
Variables (N : nat) (Image : Type).
Notation shape := 'M[F]_(N, 2).
Variable align : shape -> shape -> sim F.
(** menpo PCAModel.noise_variance() and eigenvalues (of the active components). *)
Variable noise_variance : lmodel F N -> F.
Variable eigenvalues : lmodel F N -> seq F.
Variable displacement : nat -> Image -> shape -> res 'cV[F]_(N * 2).
Variable next : nat -> Image -> shape -> shape.
Variable exceeds : shape -> shape -> bool.

(** The source of the global transform is the mean the shape model was built with; nothing here increments the model. *)
Definition src (d : opdm F N) : shape := m_mean (o_model d).

(** What GradientDescentCLMAlgorithm keeps from its construction: J and rho2_inv_L. *)
Record alg := Alg { a_P : nat; a_J : 'M[F]_(N * 2, a_P); a_prior : 'cV[F]_a_P }.
(** _precompute, gd.py 33-58.  JJ + diag(rho2_inv_L) raises ValueError when the sizes differ; both inversions may raise. *)
Definition alg_new (d : opdm F N) : res alg :=
  let prior := nseq 4 0 ++ [seq noise_variance (o_model d) / e | e <- eigenvalues (o_model d)] in
  let? jac := opdm_d_dp d in
  let P := nth 0%N (t_shape jac) 1 in
  if size prior != P then Err ValueError
  else
    let J := jacobian_matrix N P jac in
    let w := \col_i nth 0 prior i in
    let? _ := clm_precompute J w in
    Ok (Alg J w).
(** run, gd.py 106-206 and 249-345.  The sum of the parameters and the increment raises ValueError when their lengths
    differ (neither is ever one, so that numpy does not broadcast); so does the product with rho2_inv_L. *)
Record result := Result { r_shapes : seq shape; r_params : seq (seq F) }.
Definition alg_step (scale : nat) (img : Image) (map_inference : bool) (a : alg) (d : opdm F N) : opdm F N * res unit :=
  match displacement scale img (o_target d) with
  | Err e => (d, Err e)
  | Ok error => if size (opdm_vector d) == a_P a then clm_update align (src d) map_inference (a_J a) (a_prior a) d error
                else (d, Err ValueError)
  end.
Fixpoint alg_loop (m : nat) (go : bool) scale img map_inference a d (ss : seq shape) (ps : seq (seq F)) : opdm F N * res result :=
  match m with
  | 0 => (d, Ok (Result ss ps))
  | S m' =>
      if go then
        let '(d', r) := alg_step scale img map_inference a d in
        match r with
        | Err e => (d', Err e)
        | Ok _ => alg_loop m' (exceeds (o_target d) (o_target d')) scale img map_inference a d' (ss ++ [:: o_target d']) (ps ++ [:: opdm_vector d'])
        end
      else (d, Ok (Result ss ps))
  end.
Definition alg_run scale img initial_shape max_iters map_inference a d : opdm F N * res result :=
  let '(d, r) := opdm_set_target align (src d) initial_shape d in
  match r with
  | Err e => (d, Err e)
  | Ok _ => alg_loop max_iters true scale img map_inference a d [:: o_target d] [:: opdm_vector d]
  end.

(** checks.set_models_components over PDMs, checks.py 391-393: one after the other, stopping where a setter raises. *)
Fixpoint set_components (ds : seq (opdm F N)) (ns : seq nat) : seq (opdm F N) * res unit :=
  match ds, ns with
  | d :: ds', n :: ns' =>
      let '(d', r) := opdm_set_active align (src d) n d in
      match r with
      | Err e => (d' :: ds', Err e)
      | Ok _ => let '(ds'', r) := set_components ds' ns' in (d' :: ds'', r)
      end
  | _, _ => (ds, Ok tt)
  end.
(** GradientDescentCLMFitter.__init__, clm/fitter.py 72-87: the shape models afterwards, and the algorithms.  None sets nothing
    (checks.py 383). *)
Definition build (n_shape : option (seq nat)) (ds : seq (opdm F N)) : seq (opdm F N) * res (seq alg) :=
  let '(ds, r) := match n_shape with
                  | None => (ds, Ok tt)
                  | Some ns => if size ns == size ds then set_components ds ns else (ds, Err ValueError)
                  end in
  match r with
  | Err e => (ds, Err e)
  | Ok _ => (ds, mapM alg_new ds)
  end.
(** _fit, fitter.py 458-515: over the scales, each algorithm with its own shape model; max_iters per scale. *)
Record call := Call { c_image : Image; c_shape : shape; c_max_iters : seq nat; c_map : bool }.
Fixpoint fit_from (scale : nat) (c : call) (s : shape) (algs : seq alg) (ds : seq (opdm F N)) : seq (opdm F N) * res (seq result) :=
  match algs, ds with
  | a :: algs', d :: ds' =>
      let '(d', r) := alg_run scale (c_image c) s (nth 0%N (c_max_iters c) scale) (c_map c) a d in
      match r with
      | Err e => (d' :: ds', Err e)
      | Ok r =>
          let '(ds'', rs) := fit_from scale.+1 c (next scale (c_image c) (last s (r_shapes r))) algs' ds' in
          (d' :: ds'', let? rs := rs in Ok (r :: rs))
      end
  | _, _ => (ds, Ok [::])
  end.
Definition fit (c : call) (f : seq alg) (ds : seq (opdm F N)) := fit_from 0 c (c_shape c) f ds.

(** A session with one trained model: constructing fitters and fitting with any of them. *)
Record world := World { w_models : seq (opdm F N); w_fitters : seq (seq alg) }.
Inductive op := Build (n_shape : option (seq nat)) | Fit (i : nat) (c : call).
Definition step (o : op) (w : world) : world :=
  match o with
  | Build n => let '(ds, r) := build n (w_models w) in
               World ds (w_fitters w ++ match r with Ok f => [:: f] | Err _ => [::] end)
  | Fit i c => match List.nth_error (w_fitters w) i with
               | Some f => World (fit c f (w_models w)).1 (w_fitters w)
               | None => w
               end
  end.
Fixpoint session (os : seq op) (w : world) : world :=
  match os with [::] => w | o :: os' => session os' (step o w) end.
(** The result of a fit in a state of the session. *)
Definition outcome (i : nat) (c : call) (w : world) : res (seq result) :=
  match List.nth_error (w_fitters w) i with Some f => (fit c f (w_models w)).2 | None => Err IndexError end.
End ClmFitter.
