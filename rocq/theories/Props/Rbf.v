(** C47: kernels of thin plate splines; C59: the gradient of a thin plate spline. *)
From Coq Require Import Reals Lra Lia List.
From Coquelicot Require Import Coquelicot.
From Verif.Model Require Import Rbf.
From Verif.Spec Require Import Rbf.
From Verif.Proofs Require Import Rbf.
Import ListNotations.
Local Open Scope R_scope.

(** In any number of dimensions, at every point (the centre included), d_dl is the partial derivative of the kernel with
    respect to every coordinate of the point; it is the opposite of the derivative with respect to the centre. *)
Theorem c47_r2logr : forall d x c l, (l < d)%nat ->
  partial_derivative (fun x => r2logr d x c) x l (r2logr_d_dl d x c l) /\
  partial_derivative (fun c => r2logr d x c) c l (- r2logr_d_dl d x c l).
Proof.
  intros d x c l L. split; [apply r2logr_ok; exact L|].
  unfold partial_derivative. apply (is_derive_ext (fun t => r2logr d (with_coord c l t) x)).
  - intros t. unfold r2logr. rewrite distance_sym. reflexivity.
  - replace (- r2logr_d_dl d x c l) with (r2logr_d_dl d c x l) by (unfold r2logr_d_dl; rewrite safe_sym; ring).
    apply r2logr_ok. exact L.
Qed.
Print Assumptions c47_r2logr.
Theorem c47_r2logr2 : forall d x c l, (l < d)%nat ->
  partial_derivative (fun x => r2logr2 d x c) x l (r2logr2_d_dl d x c l) /\
  partial_derivative (fun c => r2logr2 d x c) c l (- r2logr2_d_dl d x c l).
Proof.
  intros d x c l L. split; [apply r2logr2_ok; exact L|].
  unfold partial_derivative. apply (is_derive_ext (fun t => r2logr2 d (with_coord c l t) x)).
  - intros t. unfold r2logr2. rewrite distance_sym. reflexivity.
  - replace (- r2logr2_d_dl d x c l) with (r2logr2_d_dl d c x l) by (unfold r2logr2_d_dl; rewrite safe_sym; ring).
    apply r2logr2_ok. exact L.
Qed.
Print Assumptions c47_r2logr2.
(** At the centre both are zero. *)
Theorem c47_zero_at_centre : forall d x l, r2logr_d_dl d x x l = 0 /\ r2logr2_d_dl d x x l = 0.
Proof. intros. unfold r2logr_d_dl, r2logr2_d_dl. split; ring. Qed.
Print Assumptions c47_zero_at_centre.
(** No other number is the partial derivative. *)
Theorem c47_unique : forall f x l v w, partial_derivative f x l v -> partial_derivative f x l w -> v = w.
Proof. intros f x l v w A B. apply is_derive_unique in A. apply is_derive_unique in B. congruence. Qed.
Print Assumptions c47_unique.
(** On the line, at distance e from the centre. *)
Example c47_example : r2logr 1 (fun _ => exp 1) (fun _ => 0) = exp 1 * exp 1 /\ r2logr_d_dl 1 (fun _ => exp 1) (fun _ => 0) 0 = 3 * exp 1.
Proof.
  pose proof (exp_pos 1) as P.
  assert (D : distance 1 (fun _ => exp 1) (fun _ => 0) = exp 1).
  { unfold distance. cbn. replace (0 + (exp 1 - 0) * (exp 1 - 0)) with (exp 1 * exp 1) by ring. apply sqrt_square. lra. }
  unfold r2logr, r2logr_d_dl, safe_distance. rewrite D. destruct (Req_EM_T (exp 1) 0) as [E|E]; [lra|]. rewrite ln_exp. split; ring.
Qed.

(** The gradient of a thin plate spline at any point of the plane is its affine part plus the weighted d_dl of the kernels
    (the formula [tps_gradient] that c59_tps_partial compares d_dx with). *)
Theorem c59_spline_gradient : forall wc a0 a1 a2 x l, (l < 2)%nat ->
  partial_derivative (spline (r2logr2 2) wc a0 a1 a2) x l
    ((if Nat.eqb l 0 then a1 else a2) + weighted_kernels (fun x c => r2logr2_d_dl 2 x c l) wc x).
Proof.
  intros wc a0 a1 a2 x l L. unfold partial_derivative, spline. rewrite Rplus_comm. apply (is_derive_plus (V := R_NormedModule)).
  - induction wc as [|[w c] wc IH]; cbn.
    + apply (is_derive_const (V := R_NormedModule)).
    + apply (is_derive_plus (V := R_NormedModule)); [|exact IH]. apply is_derive_scal. apply r2logr2_ok. exact L.
  - destruct l as [|[|l]]; [| |lia]; unfold with_coord; cbn; auto_derive; try exact I; ring.
Qed.
Print Assumptions c59_spline_gradient.
